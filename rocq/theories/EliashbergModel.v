(* Model of c++/triqs_tprf/lattice/eliashberg.cpp 35-67 (F = G Delta G), 135-169 (direct product), 171-180, 195-210,
   225-256 (products in time and real space), 269-335 (FFT products) for Matsubara meshes, and of
   python/triqs_tprf/eliashberg.py 196-255, 401-440, 443-549. The DLR overloads (convolution of the cppdlr library) are
   not modelled.
   Delta lives on the 2 nw fermionic frequencies of its mesh, a Green's function is known at every fermionic index, a
   vertex at every bosonic index. cj is complex conjugation. Loops that add into zero are sums. None is
   TRIQS_RUNTIME_ERROR. *)
From mathcomp Require Import all_ssreflect all_algebra.
From Verif Require Import Base MpiModel FourierModel BubbleModel ImtimeModel.
Set Implicit Arguments.
Unset Strict Implicit.
Unset Printing Implicit Defensive.
Import GRing.Theory.
Local Open Scope ring_scope.

Section Eliashberg.
Variables (C : fieldType) (n1 n2 n3 nb nw : nat) (z1 z2 z3 beta : C) (cj : C -> C).
Local Notation K := (site n1 n2 n3).
Local Notation t4 := (tensor4 C nb).
Local Notation mat := 'M[C]_nb.
Local Notation gfun := (gfun C n1 n2 n3 nb).
Local Notation N := (ncells n1 n2 n3).
Local Notation wk := ('I_(2 * nw) -> K -> mat).

(* lines 35-67; ng positive frequencies on the mesh of the Green's function *)
Definition eliashberg_g_delta_g_product (ng : nat) nranks (sched : nat -> seq ('I_(2 * nw) * K)) (g : gfun) (delta : wk) :
    option wk :=
  if (2 * nw > 2 * ng)%N then None else
  Some (fun w k => mpi_map nranks sched (fun p : 'I_(2 * nw) * K =>
    \matrix_(d, c) \sum_e \sum_f g (fidx p.1) p.2 c f * cj (g (fidx p.1) (- p.2) e d) * delta p.1 p.2 e f) (w, k)).

(* lines 135-169; gsize is the number of frequencies of the vertex. The sum over the frequency and momentum mesh is
   divided by beta times the number of momenta on every rank before the reduction *)
Definition eliashberg_product (ng gsize : nat) nranks (sched : nat -> seq ('I_(2 * nw) * K)) (ksched : nat -> seq K)
    (gamma : int -> K -> t4) (g : gfun) (delta : wk) : option wk :=
  if (2 * (2 * nw) > gsize)%N then None else
  if eliashberg_g_delta_g_product ng nranks sched g delta is Some F then
  Some (fun w k => mpi_map nranks ksched (fun k =>
    (beta * N%:R)^-1 *: \sum_(p : 'I_(2 * nw) * K) \matrix_(a, b) \sum_c \sum_d
      (- 2%:R^-1) * gamma (fidx w - fidx p.1) (k - p.2) c a d b * F p.1 p.2 d c) k)
  else None.

(* lines 195-210, at imaginary time zero *)
Variable L : nat.
Definition eliashberg_constant_gamma_f_product (gamma_r : K -> t4) (F_tr : 'I_L.+1 -> K -> mat) : K -> mat := fun r =>
  \matrix_(a, b) \sum_c \sum_d (- 2%:R^-1) * gamma_r r c a d b * F_tr ord0 r d c.

(* lines 225-256; Lg is the number of points of the time mesh of the vertex *)
Definition eliashberg_dynamic_gamma_f_product (Lg : nat) nranks (sched : nat -> seq ('I_L.+1 * K))
    (gamma_tr : 'I_L.+1 -> K -> t4) (F_tr : 'I_L.+1 -> K -> mat) : option ('I_L.+1 -> K -> mat) :=
  if L.+1 != Lg then None else
  Some (fun t r => mpi_map nranks sched (fun p : 'I_L.+1 * K =>
    \matrix_(a, b) \sum_c \sum_d (- 2%:R^-1) * gamma_tr p.1 p.2 c a d b * F_tr p.1 p.2 d c) (t, r)).

(* oracles: frequency-to-time of a matrix function on the mesh of Delta, time-to-frequency of one component *)
Variables (wt : ('I_(2 * nw) -> mat) -> 'I_L.+1 -> mat) (tw : ('I_L.+1 -> C) -> 'I_(2 * nw) -> C).
Definition wk_to_tr (F : wk) : 'I_L.+1 -> K -> mat := fun t r =>
  wt (fun w => \matrix_(i, j) fourier_k_to_r z1 z2 z3 (fun k => F w k i j) r) t.

(* lines 269-295 *)
Definition eliashberg_product_fft (ng Lg : nat) nranks (sched : nat -> seq ('I_(2 * nw) * K)) (tsched : nat -> seq ('I_L.+1 * K))
    (gamma_dyn_tr : 'I_L.+1 -> K -> t4) (gamma_const_r : K -> t4) (g : gfun) (delta : wk) : option wk :=
  if eliashberg_g_delta_g_product ng nranks sched g delta is Some F then
  let F_tr := wk_to_tr F in
  if eliashberg_dynamic_gamma_f_product Lg nranks tsched gamma_dyn_tr F_tr is Some delta_tr then
  let delta_r := eliashberg_constant_gamma_f_product gamma_const_r F_tr in
  let delta_wr : wk := fun w r => (\matrix_(a, b) tw (fun t => delta_tr t r a b) w) + delta_r r in
  Some (fun w k => \matrix_(a, b) fourier_r_to_k z1 z2 z3 (fun r => delta_wr w r a b) k)
  else None else None.

(* lines 307-328 *)
Definition eliashberg_product_fft_constant (ng : nat) nranks (sched : nat -> seq ('I_(2 * nw) * K))
    (gamma_const_r : K -> t4) (g : gfun) (delta : wk) : option wk :=
  if eliashberg_g_delta_g_product ng nranks sched g delta is Some F then
  let delta_r := eliashberg_constant_gamma_f_product gamma_const_r (wk_to_tr F) in
  Some (fun _ k => \matrix_(a, b) fourier_r_to_k z1 z2 z3 (fun r => delta_r r a b) k)
  else None.
End Eliashberg.

(* eliashberg.py 443-549: numpy broadcasts U over frequency and momentum; transpose([0, 1, 4, 3, 2, 5]) swaps the first and
   the third orbital axis *)
Section Gamma.
Variables (C : fieldType) (nb : nat) (W K : Type) (cj : C -> C).
Local Notation t4 := (tensor4 C nb).
Definition transpose_ac (x : W -> K -> t4) : W -> K -> t4 := fun w k a b c d => x w k c b a d.
Definition construct_gamma_singlet_rpa (U_d U_m : t4) (phi_d phi_m : W -> K -> t4) : W -> K -> t4 :=
  let x := transpose_ac (fun w k a b c d => 3%:R * cj (phi_m w k a b c d) + cj (phi_d w k a b c d)) in
  fun w k a b c d => x w k a b c d + (U_d a b c d / 2%:R + 3%:R / 2%:R * U_m a b c d).
Definition construct_gamma_triplet_rpa (U_d U_m : t4) (phi_d phi_m : W -> K -> t4) : W -> K -> t4 :=
  let x := transpose_ac (fun w k a b c d => - cj (phi_m w k a b c d) - cj (phi_d w k a b c d)) in
  fun w k a b c d => x w k a b c d + (- (U_d a b c d / 2%:R) + U_m a b c d / 2%:R).
End Gamma.

(* eliashberg.py 401-440 on the flattened data; thr is 1e-7, close x y is |x - y| <= atol + rtol |y| (np.allclose).
   None is an exception (IndexError on empty arrays) *)
Section Allclose.
Variables (R : numFieldType) (thr atol rtol : R).
Definition close (x y : R) : bool := `|x - y| <= atol + rtol * `|y|.
(* numpy division of two one-dimensional arrays, with broadcasting of arrays of length one; None is ValueError *)
Definition np_divide (x y : seq R) : option (seq R) :=
  if size x == size y then Some [seq p.1 / p.2 | p <- zip x y]
  else if x is [:: a] then Some [seq a / b | b <- y]
  else if y is [:: b] then Some [seq a / b | a <- x]
  else None.
Definition allclose_by_scalar_multiplication (d1 d2 : seq R) : option bool :=
  let keep := [pred x : R | thr < `|x|] in
  match np_divide (filter keep d1) (filter keep d2) with
  | None => Some false
  | Some [::] => None
  | Some (x :: s) => Some (all (fun y => close y x) (x :: s))
  end.
End Allclose.
