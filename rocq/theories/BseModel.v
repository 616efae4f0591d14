(* Model of the Bethe-Salpeter routines: c++/triqs_tprf/lattice/chi_imfreq.cpp 516-565 and 623-1235,
   c++/triqs_tprf/chi_from_gg2.cpp 43-106, python/triqs_tprf/bse.py and python/triqs_tprf/dbse.py.
   A vertex on nw bosonic and nn positive fermionic frequencies is a [g2iw] on 'I_(2 nw - 1) and 'I_(2 nn). *)
From mathcomp Require Import all_ssreflect all_algebra.
From Verif Require Import Base LinalgModel MpiModel FourierModel BubbleModel ImtimeModel.
Set Implicit Arguments.
Unset Strict Implicit.
Unset Printing Implicit Defensive.
Import GRing.Theory.
Local Open Scope ring_scope.

Section Point.
Variables (C : fieldType) (nf nb : nat).
Local Notation t4 := (tensor4 C nb).
Local Notation g2nn := (g2nn C nf nb).
Local Notation g2n := (g2n C nf nb).

Definition g2_zero : g2nn := fun _ _ _ _ _ _ => 0.
(* "for (auto n : fmesh) chi0_nn[n, n] = chi0_n[n]" on the array A (chi_imfreq.cpp 641, 703, 846, 994) *)
Definition set_diag (A : g2nn) (chi0_n : g2n) : g2nn :=
  foldl (fun A n => fun m m' => if (m == n) && (m' == n) then chi0_n n else A m m') A (index_enum _).
(* chi_imfreq.cpp 640-648, 700-723, 843-866: zero, set the diagonal, [I - chi0 gamma]^{-1} chi0 *)
Definition bse_with (chi0_nn gamma : g2nn) : g2nn :=
  let I := identity C nf nb PH in
  let p := product PH chi0_nn gamma in
  let denom : g2nn := fun n n' a b c d => I n n' a b c d - p n n' a b c d in
  product PH (inverse PH denom) chi0_nn.
Definition bse_point (chi0_n : g2n) (gamma : g2nn) : g2nn := bse_with (set_diag g2_zero chi0_n) gamma.

(* chi_imfreq.cpp 872-879, 1016-1019: tr_chi += chi[n1, n2] over both meshes, divided by beta^2 *)
Definition trace_nn (beta : C) (chi : g2nn) : t4 := fun a b c d =>
  foldl (fun acc n1 => foldl (fun acc n2 => acc + chi n1 n2 a b c d) acc (index_enum _)) 0 (index_enum _)
  / (beta * beta).
End Point.

Section Bse.
Variables (C : fieldType) (n1 n2 n3 nb : nat) (z1 z2 z3 : C) (beta : C).
Local Notation K := (site n1 n2 n3).
Local Notation t4 := (tensor4 C nb).
Local Notation N := (ncells n1 n2 n3).
Local Notation gfun := (gfun C n1 n2 n3 nb).

Section Mesh.
Variables (nw nn : nat).
Local Notation W := 'I_(2 * nw).-1.
Local Notation wnn := (g2iw C (2 * nn) nb (2 * nw).-1).
Definition chi_kwnn := K -> W -> g2nn C (2 * nn) nb.
Definition chi_kw := K -> W -> t4.
(* the slice chi0_wnk[w, _, k] *)
Definition slice_wk (chi0 : chi_wn C n1 n2 n3 nb nw nn) (w : W) (k : K) : g2n C (2 * nn) nb := fun n => chi0 w n k.

(* chi_imfreq.cpp 623-657: threads fill the k points in some order *)
Definition chiq_from_chi0q_and_gamma_PH (order : seq K) (chi0 : chi_wn C n1 n2 n3 nb nw nn) (gamma : wnn) : chi_kwnn :=
  fun k w n n' a b c d =>
    fill (fun k => bse_point (slice_wk chi0 w k) (gamma w) n n' a b c d) order k.

(* chi_imfreq.cpp 804-920 *)
Definition chiq_sum_nu_from_chi0q_and_gamma_PH nranks (sched : nat -> seq (K * W))
    (chi0 : chi_wn C n1 n2 n3 nb nw nn) (gamma : wnn) : chi_kw := fun k w a b c d =>
  mpi_map nranks sched
    (fun p => trace_nn beta (bse_point (slice_wk chi0 p.2 p.1) (gamma p.2)) a b c d) (k, w).

(* chi_imfreq.cpp 660-800 *)
Definition chiq_sum_nu_from_chi0q_and_gamma_and_L_wn_PH nranks (sched : nat -> seq (K * W))
    (chi0 : chi_wn C n1 n2 n3 nb nw nn) (gamma : wnn) (Lv : W -> g2n C (2 * nn) nb) : chi_kw := fun k w a b c d =>
  mpi_map nranks sched
    (fun p => scalar_product_PH (Lv p.2) (bse_point (slice_wk chi0 p.2 p.1) (gamma p.2)) (Lv p.2) a b c d) (k, w).

(* chi_imfreq.cpp 1170-1187 and 1189-1203 *)
Definition chiq_sum_nu (chi : chi_kwnn) : chi_kw := fun k w a b c d =>
  foldl (fun acc (p : 'I_(2 * nn) * 'I_(2 * nn)) => acc + chi k w p.1 p.2 a b c d) 0 (index_enum _) / (beta * beta).
Definition chiq_sum_nu_q (chi : chi_kwnn) : W -> t4 := fun w a b c d =>
  foldl (fun acc (p : K * ('I_(2 * nn) * 'I_(2 * nn))) => acc + chi p.1 w p.2.1 p.2.2 a b c d) 0 (index_enum _)
  / N%:R / (beta * beta).

(* chi_imfreq.cpp 1205-1235 *)
Definition attatch_tri_vert nranks (sched : nat -> seq (W * K)) (Lv : W -> g2n C (2 * nn) nb) (chi : chi_kwnn) :
    W -> K -> t4 := fun w k a b c d =>
  mpi_map nranks sched (fun p => scalar_product_PH (Lv p.1) (chi p.2 p.1) (Lv p.1) a b c d) (w, k).

(* chi_imfreq.cpp 924-1038 (bub = chi0_n_from_g_wk_PH) and 1040-1167 (bub = chi0_n_from_e_k_sigma_w_PH).
   One array chi0_nn is reused by all the points of a rank: the loop body maps the pair (chi0_nn, chi_kw) to the
   next pair. density is the TRIQS density of a scalar function on the tail mesh of ntail positive frequencies. *)
Section Tail.
Variables (ntail : nat) (density : ('I_(2 * ntail) -> C) -> C) (bub : int -> K -> int -> t4).
Definition tail_point (chi0_nn : g2nn C (2 * nn) nb) (gamma : wnn) (k : K) (w : W) : t4 :=
  let chi0_n : g2n C (2 * nn) nb := fun n => bub (bidx w) k (fidx n) in
  let chi_nn := bse_with (set_diag chi0_nn chi0_n) (gamma w) in
  fun a b c d =>
    let tr_chi0_tail_corr := density (fun n => bub (bidx w) k (fidx n) a b c d) / beta in
    let tr_chi0 := foldl (fun acc n => acc + chi0_n n a b c d) 0 (index_enum _) / (beta * beta) in
    trace_nn beta chi_nn a b c d + (tr_chi0_tail_corr - tr_chi0).
Definition tail_step (gamma : wnn) (s : g2nn C (2 * nn) nb * (K * W -> t4)) (p : K * W) :
    g2nn C (2 * nn) nb * (K * W -> t4) :=
  (set_diag s.1 (fun n => bub (bidx p.2) p.1 (fidx n)),
   fun q => if q == p then tail_point s.1 gamma p.1 p.2 else s.2 q).
(* each rank runs over its chunk in order (no threads), then all_reduce; None is the run-time error of line 958 *)
Definition chiq_sum_nu_tail nranks (gamma : wnn) : option chi_kw :=
  if (2 * ntail < 2 * nn)%N then None else
  Some (fun k w a b c d =>
    \sum_(r < nranks)
      (foldl (tail_step gamma) (@g2_zero C (2 * nn) nb, fun _ _ _ _ _ => 0)
         (mpi_view (enum [finType of K * W]) nranks r)).2 (k, w) a b c d).
End Tail.
End Mesh.

(* chi_imfreq.cpp 924-958: fmesh_tail is fmesh when tail_corr_nwf <= 0 *)
Definition tail_nwf (nn : nat) (tail_corr_nwf : int) : nat := if 0 < tail_corr_nwf then absz tail_corr_nwf else nn.
Definition chiq_sum_nu_from_g_wk_and_gamma_PH nw nn (density : forall nt, ('I_(2 * nt) -> C) -> C) nranks
    (g : gfun) (gamma : g2iw C (2 * nn) nb (2 * nw).-1) (tail_corr_nwf : int) : option (chi_kw nw) :=
  chiq_sum_nu_tail (@density (tail_nwf nn tail_corr_nwf)) (fun w k => chi0_n_from_g_wk_PH beta w k g) nranks gamma.

(* chi_from_gg2.cpp 43-64 (particle-hole) *)
Definition chi0_from_gg2_PH nw nn (g : int -> 'M[C]_nb) : g2iw C (2 * nn) nb (2 * nw).-1 :=
  fun w n n' a b c d => - beta * (n == n')%:R * g (fidx n) d a * g (bidx w + fidx n) b c.
Definition chi_from_gg2_PH nw nn (g : int -> 'M[C]_nb) (g2 : g2iw C (2 * nn) nb (2 * nw).-1) :
    g2iw C (2 * nn) nb (2 * nw).-1 :=
  fun w n n' a b c d => g2 w n n' a b c d - beta * (bidx w == 0)%:R * g (fidx n) b a * g (fidx n') d c.
(* chi_from_gg2.cpp 84-106 (particle-particle) *)
Definition chi0_from_gg2_PP nw nn (g : int -> 'M[C]_nb) : g2iw C (2 * nn) nb (2 * nw).-1 :=
  fun w n n' a b c d => - beta * (n == n')%:R * g (fidx n) d a * g (bidx w - fidx n - 1) b c.

Section Impurity.
Variables (nw nn : nat).
Local Notation wnn := (g2iw C (2 * nn) nb (2 * nw).-1).
(* bse.py 116-117: solve_local_bse *)
Definition solve_local_bse (chi0 chi : wnn) : wnn := fun w n n' a b c d =>
  inverse_iw PH chi0 w n n' a b c d - inverse_iw PH chi w n n' a b c d.
(* bse.py 50-78 *)
Definition impurity_irreducible_vertex_Gamma (g : int -> 'M[C]_nb) (g2 : wnn) : wnn :=
  let chi := chi_from_gg2_PH g g2 in
  let chi0 := chi0_from_gg2_PH (nw := nw) (nn := nn) g in
  fun w n n' a b c d => inverse_iw PH chi0 w n n' a b c d - inverse_iw PH chi w n n' a b c d.
(* dbse.py 68-73 *)
Definition impurity_reducible_vertex_F (g : int -> 'M[C]_nb) (g2 : wnn) : wnn :=
  let chi := chi_from_gg2_PH g g2 in
  let chi0 := chi0_from_gg2_PH (nw := nw) (nn := nn) g in
  let conn : wnn := fun w n n' a b c d => chi w n n' a b c d - chi0 w n n' a b c d in
  let inv0 := inverse_iw PH chi0 in
  product_iw PH inv0 (product_iw PH conn inv0).
End Impurity.

(* bse.py 158-254: get_chi0_wnk *)
Definition get_chi0_wnk nranks (sc : schedules) nw nn (g : gfun) : chi_wn C n1 n2 n3 nb nw nn :=
  chi0q_from_chi0r z1 z2 z3 nranks (sc 11%N [finType of 'I_(2 * nw).-1 * 'I_(2 * nn)])
    (chi0r_from_gr_PH beta nranks (sc 10%N [finType of K]) (fourier_wk_to_wr z1 z2 z3 g)).

(* lattice_utils.py 66-106: data on a bosonic mesh holding the single index 0 *)
Definition add_fake_bosonic_mesh (T : Type) (x : T) : 'I_(2 * 1).-1 -> T := fun _ => x.

(* bse.py 257-309 *)
Definition get_chi0_nk_at_specific_w nranks (sc : schedules) (nw_index : int) nn (g : gfun) : 'I_(2 * nn) -> K -> t4 :=
  chi0q_from_chi0r z1 z2 z3 nranks (sc 21%N [finType of 'I_(2 * 1).-1 * 'I_(2 * nn)])
    (add_fake_bosonic_mesh
      (chi0_nr_from_gr_PH_at_specific_w beta nranks (sc 20%N [finType of K]) nw_index (nn := nn)
         (fourier_wk_to_wr z1 z2 z3 g))) ord0.

Section Lattice.
Variables (L : nat) (wt : (int -> 'M[C]_nb) -> 'I_L.+1 -> 'M[C]_nb).
Variables tw_plan tw_lib : ('I_L.+1 -> C) -> int -> C.

(* bse.py 312-408: returns (chi_kw, chi0_kw) *)
Definition solve_lattice_bse nranks (sc : schedules) nw nn (g : gfun) (gamma : g2iw C (2 * nn) nb (2 * nw).-1) :
    chi_kw nw * chi_kw nw :=
  let chi0_wk_tail_corr := imtime_bubble_chi0_wk z1 z2 z3 beta wt tw_plan tw_lib nranks sc (nw := nw) false g in
  let chi0_wnk := get_chi0_wnk nranks sc (nw := nw) (nn := nn) g in
  let chi0_wk := chi0q_sum_nu beta nranks (sc 30%N [finType of 'I_(2 * nw).-1 * K]) chi0_wnk in
  let chi0_kw : chi_kw nw := fun k w => chi0_wk_tail_corr w k in
  let chi_kw := chiq_sum_nu_from_chi0q_and_gamma_PH nranks (sc 31%N [finType of K * 'I_(2 * nw).-1]) chi0_wnk gamma in
  (fun k w a b c d => chi_kw k w a b c d + (chi0_wk_tail_corr w k a b c d - chi0_wk w k a b c d), chi0_kw).

(* position of the bosonic index i on a mesh of |i|+1 non-negative frequencies *)
Lemma bpos_subproof (i : int) : (absz (i + (absz i)%:Z)%R < (2 * (absz i).+1).-1)%N.
Proof.
case: i => n; last by rewrite NegzE addNr mulnS.
by rewrite -PoszD absz_nat addnn -mul2n mulnS.
Qed.
Definition bpos (i : int) : 'I_(2 * (absz i).+1).-1 := Ordinal (bpos_subproof i).

(* bse.py 411-515: nw_index is the Matsubara index of the position w of the vertex mesh *)
Definition solve_lattice_bse_at_specific_w nranks (sc : schedules) nw nn (g : gfun)
    (gamma : g2iw C (2 * nn) nb (2 * nw).-1) (w : 'I_(2 * nw).-1) : (K -> t4) * (K -> t4) :=
  let nw_index := bidx w in
  let gamma1 : g2iw C (2 * nn) nb (2 * 1).-1 := add_fake_bosonic_mesh (gamma w) in
  let chi0_wk_tail := imtime_bubble_chi0_wk z1 z2 z3 beta wt tw_plan tw_lib nranks sc (nw := (absz nw_index).+1) true g in
  let chi0_tail_corr := add_fake_bosonic_mesh (chi0_wk_tail (bpos nw_index)) in
  let chi0_wnk : chi_wn C n1 n2 n3 nb 1 nn :=
    add_fake_bosonic_mesh (get_chi0_nk_at_specific_w nranks sc nw_index (nn := nn) g) in
  let chi0_wk := chi0q_sum_nu beta nranks (sc 40%N [finType of 'I_(2 * 1).-1 * K]) chi0_wnk in
  let chi_kw := chiq_sum_nu_from_chi0q_and_gamma_PH nranks (sc 41%N [finType of K * 'I_(2 * 1).-1]) chi0_wnk gamma1 in
  (fun k a b c d => chi_kw k ord0 a b c d + (chi0_tail_corr ord0 k a b c d - chi0_wk ord0 k a b c d),
   fun k => chi0_tail_corr ord0 k).
End Lattice.

(* dbse.py 76-144. The triangle vertex and the impurity susceptibility are given on meshes that may be larger than
   those of F: they are functions of the Matsubara index *)
Definition solve_lattice_dbse nranks (sc : schedules) nw nn (g : gfun) (Fv : g2iw C (2 * nn) nb (2 * nw).-1)
    (Lv : int -> int -> t4) (chi_imp : int -> t4) : chi_kw nw :=
  let g_wr := fourier_wk_to_wr z1 z2 z3 g in
  let g_nonlocal : gfun := fun n r => if r == 0 then 0 else g_wr n r in
  let chi0_wnr := chi0r_from_gr_PH beta nranks (sc 50%N [finType of K]) (nw := nw) (nn := nn) g_nonlocal in
  let chi0_wnk := chi0q_from_chi0r z1 z2 z3 nranks (sc 51%N [finType of 'I_(2 * nw).-1 * 'I_(2 * nn)]) chi0_wnr in
  let L_resize : 'I_(2 * nw).-1 -> g2n C (2 * nn) nb := fun w n => Lv (bidx w) (fidx n) in
  let chi_kw := chiq_sum_nu_from_chi0q_and_gamma_and_L_wn_PH nranks (sc 52%N [finType of K * 'I_(2 * nw).-1])
                  chi0_wnk Fv L_resize in
  fun k w a b c d => chi_kw k w a b c d + chi_imp (bidx w) a b c d.
End Bse.
