(* Model of python/triqs_tprf/rpa_tensor.py 87-356 (charge and spin tensors) and python/triqs_tprf/matrix_rpa.py 42-246.
   numpy arrays with four orbital axes are functions of four indices; the functions act on every mesh point alike and are
   modelled at one point. np.testing checks are the parameter near0 (decides whether a number passes as zero); None is the
   AssertionError they raise. A target of odd extent (reshape error) is excluded by the type 2 * nb. *)
From mathcomp Require Import all_ssreflect all_algebra.
From mathcomp Require Import zify.
From Verif Require Import Base.
Set Implicit Arguments.
Unset Strict Implicit.
Unset Printing Implicit Defensive.
Import GRing.Theory.
Local Open Scope ring_scope.

Section Spin.
Variables (F : fieldType) (nb : nat) (near0 : F -> bool).
Local Notation t4 := (tensor4 F nb).
Local Notation big4 := (tensor4 F (2 * nb)).
Definition s_up : 'I_2 := ord0.
Definition s_dn : 'I_2 := ord_max.

Definition all_near0 (T : t4) : bool :=
  [forall a, [forall b, [forall c, [forall d, near0 (T a b c d)]]]].

(* rpa_tensor.py 137-142: reshape to (2, nb) per axis, spin axes first *)
Definition spin_first (U : big4) (s1 s2 s3 s4 : 'I_2) : t4 := fun a b c d =>
  U (pidx s1 a) (pidx s2 b) (pidx s3 c) (pidx s4 d).

(* rpa_tensor.py 123-172 *)
Definition split_quartic_tensor_in_charge_and_spin (U : big4) : option (t4 * t4) :=
  let U8 := spin_first U in
  let zero s1 s2 s3 s4 := all_near0 (U8 s1 s2 s3 s4) in
  let u := s_up in let d := s_dn in
  if [&& zero u u u d, zero u u d u, zero u d u u, zero d u u u,
         zero d d d u, zero d d u d, zero d u d d, zero u d d d,
         zero d u d u & zero u d u d]
  then Some (fun a b c d' => - U8 u u u u a b c d' - U8 u u d d a b c d',
             fun a b c d' => U8 u u u u a b c d' - U8 u u d d a b c d')
  else None.

(* rpa_tensor.py 175-195: blocks written by the loop over two spins *)
Definition store8 (U8 : 'I_2 -> 'I_2 -> 'I_2 -> 'I_2 -> t4) s1 s2 s3 s4 (T : t4) : 'I_2 -> 'I_2 -> 'I_2 -> 'I_2 -> t4 :=
  fun r1 r2 r3 r4 => if [&& r1 == s1, r2 == s2, r3 == s3 & r4 == s4] then T else U8 r1 r2 r3 r4.
Definition quartic_tensor_from_charge_and_spin (U_c U_s : t4) : big4 :=
  let U_uu : t4 := fun a b c d => - 2%:R^-1 * (U_c a b c d - U_s a b c d) in
  let U_ud : t4 := fun a b c d => 2%:R^-1 * (U_c a b c d + U_s a b c d) in
  let body U8 (p : 'I_2 * 'I_2) :=
    if p.1 == p.2 then store8 U8 p.1 p.1 p.1 p.1 U_uu
    else store8 (store8 U8 p.1 p.1 p.2 p.2 (fun a b c d => - U_ud a b c d)) p.1 p.2 p.2 p.1 U_s in
  let U8 := foldl body (fun _ _ _ _ _ _ _ _ => 0) [:: (s_up, s_up); (s_up, s_dn); (s_dn, s_up); (s_dn, s_dn)] in
  fun i j k l => U8 (pfst i) (pfst j) (pfst k) (pfst l) (psnd i) (psnd j) (psnd k) (psnd l).

(* rpa_tensor.py 87-120; the four conditions are tested one after the other, later ones overwrite *)
Definition kanamori_charge_and_spin_quartic_interaction_tensors (U Up J Jp : F) : t4 * t4 :=
  let value (v1 v2 v3 v4 : F) : t4 := fun a abar b bbar =>
    let x := 0 in
    let x := if (a == abar) && (a == b) && (b == bbar) then v1 else x in
    let x := if (a == bbar) && (a != b) && (abar == b) then v2 else x in
    let x := if (a == abar) && (a != b) && (b == bbar) then v3 else x in
    if (a == b) && (a != abar) && (abar == bbar) then v4 else x in
  (value U (- Up + 2%:R * J) (2%:R * Up - J) Jp, value U Up J Jp).
(* rpa_tensor.py 198-233 *)
Definition kanamori_quartic_tensor (U Up J Jp : F) : big4 :=
  let (U_c, U_s) := kanamori_charge_and_spin_quartic_interaction_tensors U Up J Jp in
  quartic_tensor_from_charge_and_spin U_c U_s.

(* slices of an axis of extent 2 nb: [::2], [1::2], [:nb], [nb:] *)
Lemma even_subproof (o : 'I_nb) : (2 * o < 2 * nb)%N. Proof. have := ltn_ord o; lia. Qed.
Lemma odd_subproof (o : 'I_nb) : (1 + 2 * o < 2 * nb)%N. Proof. have := ltn_ord o; lia. Qed.
Lemma low_subproof (o : 'I_nb) : (o < 2 * nb)%N. Proof. have := ltn_ord o; lia. Qed.
Lemma high_subproof (o : 'I_nb) : (nb + o < 2 * nb)%N. Proof. have := ltn_ord o; lia. Qed.
Definition slice_even (o : 'I_nb) : 'I_(2 * nb) := Ordinal (even_subproof o).
Definition slice_odd (o : 'I_nb) : 'I_(2 * nb) := Ordinal (odd_subproof o).
Definition slice_low (o : 'I_nb) : 'I_(2 * nb) := Ordinal (low_subproof o).
Definition slice_high (o : 'I_nb) : 'I_(2 * nb) := Ordinal (high_subproof o).
(* rpa_tensor.py 284-290 and 329-335 *)
Definition up_slice (spin_fast : bool) := if spin_fast then slice_even else slice_low.
Definition down_slice (spin_fast : bool) := if spin_fast then slice_odd else slice_high.

(* rpa_tensor.py 236-256 (and matrix_rpa.py 53-78) for a matrix-valued function *)
Definition lose_spin_degree_of_freedom (spin_fast : bool) (g : 'M[F]_(2 * nb)) : 'M[F]_nb :=
  let p := if spin_fast then slice_even else slice_high in \matrix_(a, b) g (p a) (p b).

(* data[p1, p2, p3, p4] = v and data[p1, p2, p3, p4] *)
Definition position (p : 'I_nb -> 'I_(2 * nb)) (i : 'I_(2 * nb)) : option 'I_nb := [pick o | p o == i].
Definition assign4 (p1 p2 p3 p4 : 'I_nb -> 'I_(2 * nb)) (v : t4) (T : big4) : big4 := fun i j k l =>
  match position p1 i, position p2 j, position p3 k, position p4 l with
  | Some a, Some b, Some c, Some d => v a b c d
  | _, _, _, _ => T i j k l
  end.
Definition read4 (p1 p2 p3 p4 : 'I_nb -> 'I_(2 * nb)) (T : big4) : t4 := fun a b c d => T (p1 a) (p2 b) (p3 c) (p4 d).

(* rpa_tensor.py 259-299 *)
Definition general_susceptibility_from_charge_and_spin (spin_fast : bool) (chi_c chi_s : t4) : big4 :=
  let chi_uu : t4 := fun a b c d => 2%:R^-1 * (chi_c a b c d + chi_s a b c d) in
  let chi_ud : t4 := fun a b c d => 2%:R^-1 * (chi_c a b c d - chi_s a b c d) in
  let chi_xud := chi_s in
  let up := up_slice spin_fast in let down := down_slice spin_fast in
  let x : big4 := fun _ _ _ _ => 0 in
  let x := assign4 up up up up chi_uu x in
  let x := assign4 down down down down chi_uu x in
  let x := assign4 up up down down chi_ud x in
  let x := assign4 down down up up chi_ud x in
  let x := assign4 up down down up chi_xud x in
  assign4 down up up down chi_xud x.

(* rpa_tensor.py 302-356 *)
Definition charge_and_spin_susceptibility_from_general (spin_fast check : bool) (chi : big4) : option (t4 * t4) :=
  let up := up_slice spin_fast in let down := down_slice spin_fast in
  let zero p1 p2 p3 p4 := all_near0 (read4 p1 p2 p3 p4 chi) in
  if check && ~~ [&& zero up up up down, zero up up down up, zero up down up up, zero down up up up,
                     zero down down down up, zero down down up down, zero down up down down, zero up down down down,
                     zero up down up down & zero down up down up]
  then None else
  let chi_uu := read4 up up up up chi in
  let chi_ud := read4 up up down down chi in
  Some (fun a b c d => chi_uu a b c d + chi_ud a b c d, fun a b c d => chi_uu a b c d - chi_ud a b c d).
End Spin.

Section MatrixRpa.
Variables (F : fieldType) (nb : nat).
Local Notation t4 := (tensor4 F nb).
Local Notation I2 := 'I_(nb * nb).
(* iteration order of a python set of integers: a list with the same elements. Both functions below build the set in the
   same way, so they see the same order *)
Variable set_order : seq I2 -> seq I2.

(* matrix_rpa.py 42-48 *)
Definition tprf_order_to_matrix_rpa_order (T : t4) : t4 := fun a b c d => T a b d c.

(* matrix_rpa.py 81-110 and 113-142: chained comparisons a == c != b == d *)
Definition kanamori_cases (v1 v2 v3 v4 : F) : t4 := fun a b c d =>
  if (a == b) && (b == c) && (c == d) then v1
  else if (a == c) && (c != b) && (b == d) then v2
  else if (a == b) && (b != c) && (c == d) then v3
  else if (a == d) && (d != b) && (b == c) then v4
  else 0.
Definition get_rpa_us_tensor (U Up J Jp : F) : t4 := kanamori_cases U Up J Jp.
Definition get_rpa_uc_tensor (U Up J Jp : F) : t4 := kanamori_cases U (- Up + 2%:R * J) (2%:R * Up - J) Jp.

(* matrix_rpa.py 156-158: diagonal pairs first, then the other ones in set order *)
Definition flat_diag : seq I2 := [seq i : I2 <- enum I2 | (nb.+1 %| i)%N].
Definition flat_idx : seq I2 := flat_diag ++ set_order [seq i : I2 <- enum I2 | i \notin flat_diag].
(* matrix_rpa.py 145-166 *)
Definition tensor_to_matrix (T : t4) : 'M[F]_(nb * nb) :=
  \matrix_(i, j) tmat T (nth i flat_idx i) (nth j flat_idx j).
(* matrix_rpa.py 169-191: idx.index(l) *)
Lemma flat_index_subproof (l : I2) : (index l flat_idx %% (nb * nb) < nb * nb)%N.
Proof. by rewrite ltn_mod (leq_ltn_trans _ (ltn_ord l)). Qed.
Definition flat_index (l : I2) : I2 := Ordinal (flat_index_subproof l).
Definition matrix_to_tensor (M : 'M[F]_(nb * nb)) : t4 :=
  mten (\matrix_(i, j) M (flat_index i) (flat_index j)).
(* matrix_rpa.py 194-212 *)
Definition matrix_rpa (chi0 u : 'M[F]_(nb * nb)) : 'M[F]_(nb * nb) :=
  let u_chi0 := chi0 *m u in invmx (1%:M - u_chi0) *m chi0.
(* matrix_rpa.py 215-246 *)
Definition chi_rpa_spin (chi0 us : t4) : t4 :=
  matrix_to_tensor (matrix_rpa (tensor_to_matrix chi0) (tensor_to_matrix us)).
Definition chi_rpa_charge (chi0 uc : t4) : t4 :=
  matrix_to_tensor (matrix_rpa (tensor_to_matrix chi0) (- tensor_to_matrix uc)).
End MatrixRpa.
