(* Model of python/triqs_tprf/hf_solver.py: HartreeFockSolver and HartreeSolver.
   Not modelled: printing, the Newton solvers (in HfNewtonModel), floating-point rounding. The dispersion is a function on a
   finite set of momenta, e_k.data[k] = e_k k. np_eigh, np.exp, np.log and brentq are parameters. *)
From mathcomp Require Import all_ssreflect all_algebra.
From Verif Require Import OperatorModel KanamoriModel SymmetryModel.
Set Implicit Arguments.
Unset Strict Implicit.
Unset Printing Implicit Defensive.
Import GRing.Theory Num.Theory Order.Theory.
Local Open Scope ring_scope.

Section Packing.
Variables (C : numClosedFieldType) (n : nat).
(* lines 108, 464-482: the positions of the upper triangle are row-major *)
Definition at_ (m : 'M[C]_n) (i j : nat) : C := if (insub i, insub j) is (Some i', Some j') then m i' j' else 0.
Definition mat2vec (mat : 'M[C]_n) : seq C :=
  let diag := [seq 'Re (at_ mat i i) | i <- iota 0 n] in
  let up_tri := [seq at_ mat p.1 p.2 | p <- triu n] in
  diag ++ [seq 'Re x | x <- up_tri] ++ [seq 'Im x | x <- up_tri].
(* lines 485-502; np.split raises for an odd length, the assignment for a wrong length *)
Definition vec2mat (vec : seq C) : option 'M[C]_n :=
  let diag := take n vec in let up_tri := drop n vec in
  if odd (size up_tri) || (size diag != n) then None
  else
    let re := take (size up_tri)./2 up_tri in let im := drop (size up_tri)./2 up_tri in
    if size re != size (triu n) then None
    else
      let values := [seq p.1 + 'i * p.2 | p <- zip re im] in
      let mat : 'M[C]_n := \matrix_(i, j) (if (val i, val j) \in triu n then nth 0 values (index (val i, val j) (triu n)) else 0) in
      let mat := mat + map_mx (fun x => x^*) mat^T in
      Some (mat + \matrix_(i, j) (if i == j then nth 0 diag i else 0)).
(* HartreeSolver, lines 553-560 *)
Definition mat2vec_hartree (mat : 'M[C]_n) : seq C := [seq 'Re (at_ mat i i) | i <- iota 0 n].
Definition vec2mat_hartree (vec : seq C) : option 'M[C]_n :=
  if size vec == n then Some (\matrix_(i, j) (if i == j then 'Re (nth 0 vec i) else 0)) else None.
End Packing.

Section Solver.
Variables (C : numClosedFieldType) (n : nat) (K : finType).
Local Notation mx := 'M[C]_n.
(* U_abcd of the constructor, lines 127-137 *)
Definition interaction_tensor (H_int : operator C) (fundamental_operators : seq (operator C)) : option (arr4 C) :=
  get_rpa_tensor H_int fundamental_operators.
(* lines 142-146 *)
Definition update_mean_field (U : arr4 C) (rho : mx) : mx :=
  \matrix_(b, a) \sum_(c < n) \sum_(d < n) - U a b c d * rho c d.
(* lines 149-150 *)
Definition update_mean_field_dispersion (e_k : K -> mx) (M : mx) : K -> mx := fun k => e_k k + M.

Variable eigh : mx -> 'rV[C]_n * mx.
Variable exp : C -> C.
Variable log : C -> C.
(* brentq f a b: None for ValueError *)
Variable brentq : (C -> C) -> C -> C -> option C.
Variable beta : C.
Definition fermi (e : C) : C := 1 / (exp (beta * e) + 1).
Definition n_k : C := #|K|%:R.
(* lines 153-171; all eigenvalues of all momenta *)
Definition levels (e_k_MF : K -> mx) : seq C := [seq (eigh (e_k_MF k)).1 ord0 i | k <- enum K, i <- enum 'I_n].
Definition minimum (l : seq C) : C := foldl Order.min (head 0 l) (behead l).
Definition maximum (l : seq C) : C := foldl Order.max (head 0 l) (behead l).
Definition target_function (e : seq C) (N_target mu : C) : C := (\sum_(x <- e) fermi (x - mu)) / n_k - N_target.
Definition update_chemical_potential (mu_min mu_max : option C) (e_k_MF : K -> mx) (N_target : C) : option C :=
  let e := levels e_k_MF in
  brentq (target_function e N_target) (odflt (minimum e) mu_min) (odflt (maximum e) mu_max).
(* lines 174-182 *)
Definition update_momentum_density_matrix (e_k_MF : K -> mx) (mu : C) (k : K) : mx :=
  let: (e, V) := eigh (e_k_MF k) in
  \matrix_(a, c) \sum_b V a b * fermi (e ord0 b - mu) * (V c b)^*.
(* lines 185-191 *)
Definition update_density_matrix (e_k_MF : K -> mx) (mu : C) : mx :=
  n_k^-1 *: \sum_k update_momentum_density_matrix e_k_MF mu k.
Definition N_tot (rho : mx) : C := \sum_a rho a a.
(* lines 194-202 *)
Definition update_non_int_free_energy (e_k_MF : K -> mx) (mu : C) : C :=
  (- 1 / beta * \sum_(x <- levels e_k_MF) log (1 + exp (- beta * (x - mu)))) / n_k.
(* lines 205-211 *)
Definition update_kinetic_energy (e_k e_k_MF : K -> mx) (mu : C) : C :=
  (\sum_k \sum_a \sum_b e_k k a b * update_momentum_density_matrix e_k_MF mu k b a) / n_k.
(* lines 214-219 *)
Definition update_interaction_energy (U : arr4 C) (rho : mx) : C :=
  2%:R^-1 * \sum_(a < n) \sum_(b < n) \sum_(c < n) \sum_(d < n) rho a b * U a b c d * rho c d.
(* lines 222-231: E_tot and Omega *)
Definition update_total_energy (U : arr4 C) (e_k e_k_MF : K -> mx) (mu : C) (rho : mx) : C * C :=
  let E_int := update_interaction_energy U rho in
  (update_kinetic_energy e_k e_k_MF mu + E_int, update_non_int_free_energy e_k_MF mu + E_int).

(* the attributes mu, M and rho_ab; e_k_MF is e_k + M *)
Record solver := Solver { s_mu : C; s_M : mx; s_rho : mx }.
Variables (e_k : K -> mx) (U : arr4 C) (mu_min mu_max : option C).
Variables (pack : mx -> seq C) (unpack : seq C -> option mx).
(* lines 234-248 *)
Definition density_matrix_step (s : solver) (rho_vec : seq C) (N_target : option C) : option (solver * seq C) :=
  if unpack rho_vec is Some rho then
    let M := update_mean_field U rho in
    let e_k_MF := update_mean_field_dispersion e_k M in
    let omu := if N_target is Some N then update_chemical_potential mu_min mu_max e_k_MF N else Some (s_mu s) in
    if omu is Some mu then
      let rho := update_density_matrix e_k_MF mu in Some (Solver mu M rho, pack rho)
    else None
  else None.
(* lines 251-272 *)
Definition solve_setup (s : solver) (N_target : C) (M0 : mx) (mu0 : option C) : option (solver * seq C) :=
  let first := if mu0 is Some m then Some m else update_chemical_potential mu_min mu_max (update_mean_field_dispersion e_k (s_M s)) N_target in
  if first is Some _ then
    let e_k_MF := update_mean_field_dispersion e_k M0 in
    if update_chemical_potential mu_min mu_max e_k_MF N_target is Some mu then
      let rho := update_density_matrix e_k_MF mu in Some (Solver mu M0 rho, pack rho)
    else None
  else None.
(* lines 275-346; vectors are real, a comparison with nan is False *)
Definition norm (v : seq C) : C := sqrtC (\sum_(x <- v) `|x| ^+ 2).
Definition below (tol : C) (old new : seq C) : bool :=
  (norm old != 0) && (norm [seq p.1 - p.2 | p <- zip old new] / norm old < tol).
Definition mixed (mixing : C) (old new : seq C) : seq C := [seq (1 - mixing) * p.1 + mixing * p.2 | p <- zip old new].
Fixpoint iterate (fuel : nat) (N_target mixing tol : C) (s : solver) (rho_vec : seq C) (rho_iter : seq (seq C)) : option (solver * seq (seq C)) :=
  if fuel is fuel'.+1 then
    let rho_iter := rcons rho_iter rho_vec in
    if density_matrix_step s rho_vec (Some N_target) is Some (s', new) then
      if below tol rho_vec new then Some (s', rho_iter)
      else iterate fuel' N_target mixing tol s' (mixed mixing rho_vec new) rho_iter
    else None
  else Some (s, rho_iter).
Definition solve_iter (s : solver) (N_target : C) (M0 : mx) (mu0 : option C) (nitermax : nat) (mixing tol : C) : option (solver * seq (seq C)) :=
  if (0 <= mixing) && (mixing <= 1) then
    if solve_setup s N_target M0 mu0 is Some (s', rho_vec) then iterate nitermax N_target mixing tol s' rho_vec [::] else None
  else None.
End Solver.
