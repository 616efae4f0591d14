(* Model of GWSolver.solve_iter, python/triqs_tprf/gw_solver.py 257-385, with the steps filled in: GwSolverModel (the control flow) with the density matrix,
   Hartree, Fock and dynamic self-energies of GwModel, the polarization of ImtimeModel and GwChainModel, the screened interaction and susceptibility of RpaModel
   and the Dyson equation of DysonModel. Matsubara meshes (MeshImFreq) with nn positive fermionic frequencies; the arrays g_wk.data are finite functions of
   frequency and momentum. Parameters: the TRIQS transforms between frequency and time and the density (they look at the points of the mesh only), the root finder. *)
From mathcomp Require Import all_ssreflect all_algebra.
From Verif Require Import Base MpiModel FourierModel BubbleModel MatsubaraModel ImtimeModel RpaModel DysonModel GwModel GwChainModel GwSolverModel.
Set Implicit Arguments.
Unset Strict Implicit.
Unset Printing Implicit Defensive.
Import GRing.Theory Num.Theory.
Local Open Scope ring_scope.

Section Full.
Variables (C : numClosedFieldType) (n1 n2 n3 nb nn L : nat) (z1 z2 z3 beta : C).
Local Notation K := (site n1 n2 n3).
Local Notation t4 := (tensor4 C nb).
Local Notation mat := 'M[C]_nb.
Local Notation Wb := 'I_(2 * nn).-1.
Local Notation Wf := 'I_(2 * nn).
(* frequency -> time and time -> frequency transforms of matrix functions (wt, tw) and of components of bosonic functions (wtc, tw_plan, tw_lib) *)
Variables (freq : Wf -> C) (density : (int -> mat) -> mat) (wt : (int -> mat) -> 'I_L.+1 -> mat) (tw : ('I_L.+1 -> C) -> int -> C).
Variables (wtc : (Wb -> C) -> 'I_L.+1 -> C) (tw_plan tw_lib : ('I_L.+1 -> C) -> int -> C).
Variable brentq : (C -> C) -> C * C -> C -> option C.
Variables (nranks : nat) (sc : schedules).
Variables (e_k : K -> mat) (V_k : K -> t4).

(* g_wk.data *)
Definition G := {ffun Wf * K -> mat}.
(* the function of the Matsubara number; the value outside of the mesh is not used *)
Definition on_ints (g : G) : gfun C n1 n2 n3 nb := fun n k => \sum_(p | fidx p == n) g (p, k).
Definition Rho := K -> mat.
Definition chi4 := Wb -> K -> t4.
(* lines 183-191: rho_k_from_g_wk and make_gf_from_fourier *)
Definition calc_rho (g : G) : Rho := mat_k_to_r z1 z2 z3 (rho_k_from_g_wk density nranks (sc 10%N [finType of K]) (on_ints g)).
(* lines 173-180: np.sum(np.diag(rho_loc).real) *)
Definition total_density (rho_r : Rho) : C := \sum_a 'Re (rho_r 0 a a).
(* sigma.data[None, ...] *)
Definition repeated (s : K -> mat) : G := [ffun p => s p.2].
(* lines 194-202, 101 (V_r); the meshes of V_r and rho_r are the adjoint of the momentum mesh *)
Definition hartree_sigma (rho_r : Rho) : G := repeated (mat_r_to_k z1 z2 z3 (hartree_sigma_r V_k rho_r)).
Definition fock_sigma (rho_r : Rho) : G :=
  if fock_sigma_r tt tt nranks (sc 11%N [finType of K]) (t4_k_to_r z1 z2 z3 V_k) rho_r is Some s then repeated (mat_r_to_k z1 z2 z3 s) else 0.
(* lines 228-232 *)
Definition polarization (g : G) : chi4 := GwChainModel.polarization z1 z2 z3 beta wt tw_plan tw_lib nranks sc (nw := nn) (on_ints g).
(* a function on the product mesh as the record of RpaModel; all meshes of the solver are the one of e_k *)
Definition to_gf (X : chi4) : chi_wk C nb [eqType of Wb] [eqType of K] [eqType of unit] := ChiWK (enum Wb) (enum [finType of K]) tt X.
Definition V_gf : chi_k C nb [eqType of K] [eqType of unit] := ChiK tt V_k.
Definition data (X : option (chi_wk C nb [eqType of Wb] [eqType of K] [eqType of unit])) : chi4 := if X is Some x then chi_dat x else fun _ _ _ _ _ _ => 0.
(* lines 235-247, 337-346 *)
Definition sched_wk : nat -> seq (Wb * K) := sc 12%N [finType of Wb * K].
Definition screened_interaction (spinless : bool) (P_wk : chi4) : chi4 := data (GwChainModel.screened_interaction nranks sched_wk spinless (to_gf P_wk) V_gf).
Definition susceptibility (P_wk W_wk : chi4) : chi4 := data (GwChainModel.susceptibiltiy nranks sched_wk (to_gf P_wk) (to_gf W_wk)).
Definition dynamic_part (W_wk : chi4) : chi4 := chi_dat (GwChainModel.dynamic_part (to_gf W_wk) V_gf).
(* lines 205-225; the loops of lattice/fourier.hpp *)
Definition gw_dynamic_sigma (W_dyn_wk : chi4) (g : G) : G :=
  let g_tr := fourier_wr_to_tr wt nranks (sc 13%N [finType of K]) (fourier_wk_to_wr z1 z2 z3 (on_ints g)) in
  let W_wr : chi4 := fun w r a b c d => mpi_map nranks (sc 14%N [finType of Wb]) (fun w => fourier_k_to_r z1 z2 z3 (fun k => W_dyn_wk w k a b c d) r) w in
  let W_tr : 'I_L.+1 -> K -> t4 := fun t r a b c d => mpi_map nranks (sc 15%N [finType of K]) (fun r => wtc (fun w => W_wr w r a b c d) t) r in
  if GwModel.gw_dynamic_sigma (TMesh L.+1 beta Boson) (TMesh L.+1 beta Fermion) tt tt nranks (sc 16%N [finType of 'I_L.+1 * K]) W_tr g_tr is Some sigma_tr then
    let sigma_wr : gfun C n1 n2 n3 nb := fun n r => \matrix_(a, b) mpi_map nranks (sc 17%N [finType of K]) (fun r => tw (fun t => sigma_tr t r a b) n) r in
    let sigma_wk := fourier_wr_to_wk z1 z2 z3 sigma_wr in
    [ffun p => sigma_wk (fidx p.1) p.2]
  else 0.
(* lines 280-289 *)
Definition sched_fk : nat -> seq (Wf * K) := sc 18%N [finType of Wf * K].
Definition lattice_dyson_g (mu : C) (sigma : G) : G :=
  [ffun p => lattice_dyson_g_Xk freq nranks sched_fk mu e_k (SigmaWK (fun w k => sigma (w, k))) 0 p.1 p.2].
Definition lattice_dyson_g0 (mu : C) : G := [ffun p => lattice_dyson_g0_Xk freq nranks sched_fk mu e_k p.1 p.2].
(* line 356: np.max(np.abs(g_wk.data - g_wk_old.data)) *)
Definition distance (g old : G) : C := \big[Num.max/0]_(p : Wf * K) \big[Num.max/0]_i \big[Num.max/0]_j `|g p i j - old p i j|.

Definition solver_state := attributes C [zmodType of G] Rho chi4 chi4 chi4.
(* lines 71-106 and 292-385 *)
Definition gw_init (a : args C) (mu : option C) (g : option G) : option solver_state :=
  @init C [zmodType of G] Rho chi4 chi4 chi4 calc_rho total_density lattice_dyson_g lattice_dyson_g0 brentq a mu g.
Definition gw_solve_iter (a : args C) (tol : C) (hartree fock gw spinless : bool) (maxiter : nat) (s : solver_state) : option solver_state :=
  @solve_iter C [zmodType of G] Rho chi4 chi4 chi4 calc_rho total_density hartree_sigma fock_sigma polarization screened_interaction dynamic_part gw_dynamic_sigma susceptibility
    lattice_dyson_g lattice_dyson_g0 brentq distance a tol hartree fock gw spinless maxiter s.
End Full.
