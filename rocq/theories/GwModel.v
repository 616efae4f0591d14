(* Model of c++/triqs_tprf/lattice/gw.cpp 37-245 and 344-400 and of the splitting into dynamic and static part,
   c++/triqs_tprf/lattice/lattice_utility.cpp 57-103.
   Loops "x(a,b) += f(a,b,c,d)" over all target indices from zero are sums over c and d.
   Oracles (TRIQS): [density] of a matrix function of the Matsubara frequency, [fit_tail] the leading tail coefficient of
   a component, [wt]/[wtc] and [tw] the transforms between Matsubara frequency and imaginary time.
   None is TRIQS_RUNTIME_ERROR. *)
From mathcomp Require Import all_ssreflect all_algebra.
From Verif Require Import Base MpiModel FourierModel BubbleModel MatsubaraModel ImtimeModel.
Set Implicit Arguments.
Unset Strict Implicit.
Unset Printing Implicit Defensive.
Import GRing.Theory.
Local Open Scope ring_scope.

Section Split.
Variables (C : fieldType) (nb : nat) (W K : finType).
Local Notation t4 := (tensor4 C nb).
Variable fit_tail : (W -> C) -> C.

(* lattice_utility.cpp 57-85: tail(0, a, b, c, d) of chi_wk[_, k]; the returned pair (dynamic, constant) *)
Definition split_into_dynamic_wk_and_constant_k nranks (sched : nat -> seq K) (chi : W -> K -> t4) :
    (W -> K -> t4) * (K -> t4) :=
  (fun w k a b c d => mpi_map nranks sched (fun k => chi w k a b c d - fit_tail (fun w => chi w k a b c d)) k,
   fun k a b c d => mpi_map nranks sched (fun k => fit_tail (fun w => chi w k a b c d)) k).

(* lattice_utility.cpp 87-103, rank-four targets *)
Definition add_dynamic_and_static nranks (sched : nat -> seq (W * K)) (dyn : W -> K -> t4) (stat : K -> t4) : W -> K -> t4 :=
  fun w k a b c d => mpi_map nranks sched (fun p : W * K => dyn p.1 p.2 a b c d + stat p.2 a b c d) (w, k).
(* matrix targets *)
Definition add_dynamic_and_static_g nranks (sched : nat -> seq (W * K)) (dyn : W -> K -> 'M[C]_nb) (stat : K -> 'M[C]_nb) :
    W -> K -> 'M[C]_nb :=
  fun w k => mpi_map nranks sched (fun p : W * K => dyn p.1 p.2 + stat p.2) (w, k).
End Split.

Section Gw.
Variables (C : fieldType) (n1 n2 n3 nb : nat) (z1 z2 z3 : C).
Local Notation K := (site n1 n2 n3).
Local Notation t4 := (tensor4 C nb).
Local Notation mat := 'M[C]_nb.
Local Notation N := (ncells n1 n2 n3).
Local Notation gfun := (gfun C n1 n2 n3 nb).
Variable density : (int -> mat) -> mat.

(* gw.cpp 37-55 *)
Definition rho_k_from_g_wk nranks (sched : nat -> seq K) (g : gfun) : K -> mat :=
  fun k => mpi_map nranks sched (fun k => density (fun n => g n k)) k.

(* gw.cpp 115-123: only the origin is written *)
Definition hartree_sigma_r (v : K -> t4) (rho_r : K -> mat) : K -> mat := fun r =>
  if r == 0 then \matrix_(a, b) \sum_c \sum_d v 0 a b c d * rho_r 0 c d else 0.

(* gw.cpp 125-150; vmesh, gmesh identify the momentum meshes *)
Definition hartree_sigma_k (M : eqType) (vmesh gmesh : M) nranks (sched : nat -> seq K) (v : K -> t4) (g : gfun) :
    option (K -> mat) :=
  if vmesh != gmesh then None else
  Some (fun k => mpi_map nranks sched (fun k =>
    \sum_(q : K) let dens := density (fun n => g n (k + q)) in
      \matrix_(a, b) \sum_c \sum_d v q a b c d * dens c d / N%:R) k).

(* gw.cpp 152-170 *)
Definition fock_sigma_r (M : eqType) (vmesh rmesh : M) nranks (sched : nat -> seq K) (v : K -> t4) (rho_r : K -> mat) :
    option (K -> mat) :=
  if vmesh != rmesh then None else
  Some (fun r => mpi_map nranks sched (fun r =>
    \matrix_(a, b) \sum_c \sum_d - v r a c d b * rho_r r d c) r).

(* gw.cpp 172-197; gw_sigma(v_k, g_wk) (199-201) is the same function *)
Definition fock_sigma_k (M : eqType) (vmesh gmesh : M) nranks (sched : nat -> seq K) (v : K -> t4) (g : gfun) :
    option (K -> mat) :=
  if vmesh != gmesh then None else
  Some (fun k => mpi_map nranks sched (fun k =>
    \sum_(q : K) let dens := density (fun n => g n (k + q)) in
      \matrix_(a, b) \sum_c \sum_d - v q a c d b * dens d c / N%:R) k).

(* make_gf_from_fourier of matrix and tensor functions of k or r *)
Definition mat_k_to_r (x : K -> mat) : K -> mat := fun r => \matrix_(a, b) fourier_k_to_r z1 z2 z3 (fun k => x k a b) r.
Definition mat_r_to_k (x : K -> mat) : K -> mat := fun k => \matrix_(a, b) fourier_r_to_k z1 z2 z3 (fun r => x r a b) k.
Definition t4_k_to_r (x : K -> t4) : K -> t4 := fun r a b c d => fourier_k_to_r z1 z2 z3 (fun k => x k a b c d) r.

(* an imaginary-time mesh: number of points, beta, statistic *)
Record tmesh := TMesh { tsize : nat; tbeta : C; tstat : statistic }.
Definition is_boson (s : statistic) := if s is Boson then true else false.

(* gw.cpp 80-104; tau points are numbered from 0 *)
Section Dynamic.
Variables (L : nat).
Definition gw_dynamic_sigma (M : eqType) (Wt gt : tmesh) (Wr gr : M) nranks (sched : nat -> seq ('I_L.+1 * K))
    (W : 'I_L.+1 -> K -> t4) (g : 'I_L.+1 -> K -> mat) : option ('I_L.+1 -> K -> mat) :=
  if (tsize Wt != tsize gt) || (tbeta Wt != tbeta gt) then None else
  if ~~ is_boson (tstat Wt) || is_boson (tstat gt) then None else
  if Wr != gr then None else
  Some (fun t r => mpi_map nranks sched (fun p : 'I_L.+1 * K =>
    \matrix_(a, b) \sum_c \sum_d - W p.1 p.2 a c d b * g p.1 p.2 c d) (t, r)).

(* gw.cpp 204-245. [wt]: matrix function of frequency to time, [wtc]: bosonic scalar function, [tw]: scalar back.
   nw is the number of non-negative frequencies of W; the schedules number the distributed loops *)
Variables (wt : (int -> mat) -> 'I_L.+1 -> mat) (tw : ('I_L.+1 -> C) -> int -> C).
Variables (nw : nat) (fit_tail : ('I_(2 * nw).-1 -> C) -> C) (wtc : ('I_(2 * nw).-1 -> C) -> 'I_L.+1 -> C).
Definition gw_sigma (M : eqType) (Wbeta gbeta : C) (Wstat gstat : statistic) (Wk gk : M) nranks (sc : schedules)
    (W : 'I_(2 * nw).-1 -> K -> t4) (g : gfun) : option (int -> K -> mat) :=
  if Wbeta != gbeta then None else
  if ~~ is_boson Wstat || is_boson gstat then None else
  if Wk != gk then None else
  let: (W_dyn, W_const) := split_into_dynamic_wk_and_constant_k fit_tail nranks (sc 60%N [finType of K]) W in
  let g_tr := fourier_wr_to_tr wt nranks (sc 61%N [finType of K]) (fourier_wk_to_wr z1 z2 z3 g) in
  let W_dyn_wr : 'I_(2 * nw).-1 -> K -> t4 := fun w r a b c d =>
    mpi_map nranks (sc 62%N [finType of 'I_(2 * nw).-1]) (fun w => fourier_k_to_r z1 z2 z3 (fun k => W_dyn w k a b c d) r) w in
  let W_dyn_tr : 'I_L.+1 -> K -> t4 := fun t r a b c d =>
    mpi_map nranks (sc 63%N [finType of K]) (fun r => wtc (fun w => W_dyn_wr w r a b c d) t) r in
  let tm := TMesh L.+1 gbeta in
  let rho_r := mat_k_to_r (rho_k_from_g_wk nranks (sc 64%N [finType of K]) g) in
  if gw_dynamic_sigma (tm Boson) (tm Fermion) tt tt nranks (sc 65%N [finType of 'I_L.+1 * K]) W_dyn_tr g_tr is Some sigma_tr then
  if fock_sigma_r tt tt nranks (sc 66%N [finType of K]) (t4_k_to_r W_const) rho_r is Some fock_r then
  let fock_k := mat_r_to_k fock_r in
  let dyn_k t := mat_r_to_k (sigma_tr t) in
  Some (fun n k => (\matrix_(a, b) tw (fun t => dyn_k t k a b) n) + fock_k k)
  else None else None.
End Dynamic.

(* gw.cpp 334-371 (static g0w_sigma at the mesh momentum k): eigenvalues [ek] and eigenvectors [U] of e(k) - mu are
   oracles, [fermi] is the Fermi function of the eigenvalue times beta; conj U is dagger(U) transposed *)
Definition g0w_sigma (ek : K -> 'I_nb -> C) (U Uc : K -> mat) (fermi : C -> C) (beta : C) (v : K -> t4) (k : K) : mat :=
  \sum_(q : K) \sum_(l < nb) \matrix_(a, b)
    - (U (k + q) a l * Uc (k + q) b l * v q a a b b * fermi (ek (k + q) l * beta) / N%:R).
End Gw.
