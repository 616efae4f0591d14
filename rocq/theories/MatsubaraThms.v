(* C52 (Matsubara transforms), C53 (derivative fit at the ends of the time interval). *)
From Coq Require Import ZArith.
From mathcomp Require Import all_ssreflect all_algebra all_field zify ssrZ.
From Verif Require Import Fring FourierModel FourierProofs MatsubaraModel ImtimeModel BubbleProofs MatsubaraProofs.
Set Implicit Arguments.
Unset Strict Implicit.
Unset Printing Implicit Defensive.
Import GRing.Theory Num.Theory.
Local Open Scope ring_scope.

Section Main.
Variables (C : numClosedFieldType) (M : nat) (beta zh : C) (ex : C -> C) (freq : statistic -> int -> C).
Local Notation L := M.+1.
Local Notation T := 'I_L.+1.
Add Ring Cring : (fld_rt (Num.ClosedField.fieldType C)).

(* C52. When both run-time checks pass, transforming a frequency function to time with moments (m1,m2,m3) and back
   with moments (m2,m3) returns it at every mesh frequency - for every function, right or wrong moments. *)
Lemma C52_proof s n (m1 m2 m3 : C) (g : int -> C) w gt gw : L.-primitive_root (zh ^+ 2) -> beta != 0 ->
  w \in wmesh s n ->
  fourier_w_to_tau L beta zh ex freq s n (m1, m2, m3) g = Some gt ->
  (forall x, gw x = tau_to_w_mom (L := L) beta zh ex freq s (m2, m3) gt x) ->
  gw w = g w.
Proof.
move=> zP b0 hw; rewrite /fourier_w_to_tau; case: ifP => // hL [<-] ->.
by apply: round_trip => //; rewrite leqNgt hL.
Qed.
Theorem C52_matsubara_round_trip s n (m1 m2 m3 : C) (g : int -> C) w gt gw : L.-primitive_root (zh ^+ 2) -> beta != 0 ->
  w \in wmesh s n ->
  fourier_w_to_tau L beta zh ex freq s n (m1, m2, m3) g = Some gt ->
  (forall x, gw x = tau_to_w_mom (L := L) beta zh ex freq s (m2, m3) gt x) ->
  gw w = g w.
Proof. exact (@C52_proof s n m1 m2 m3 g w gt gw). Qed.

(* the run-time check accepts a fermionic mesh exactly when no two of its frequencies share a slot of the
   transform; on bosonic meshes acceptance implies the same *)
Lemma size_wmesh s n : size (wmesh s n) = mesh_size s n.
Proof. by rewrite size_map size_iota. Qed.
Lemma uniq_wmesh s n : uniq (wmesh s n).
Proof. by rewrite map_inj_uniq ?iota_uniq // => x y /addrI []. Qed.
Lemma C52_guard_proof s n (m : C * C * C) (g : int -> C) :
  (fourier_w_to_tau L beta zh ex freq s n m g <> None -> {in wmesh s n &, injective (wslot L)}) /\
  ({in wmesh Fermion n &, injective (wslot L)} -> fourier_w_to_tau L beta zh ex freq Fermion n m g <> None).
Proof.
rewrite /fourier_w_to_tau; split.
  case: ifP => // hL _; have h : (2 * n <= L)%N by rewrite leqNgt hL.
  exact (@wslot_inj C M s n h).
move=> inj; case: ifP => // hL; exfalso.
have u : uniq [seq wslot L w | w <- wmesh Fermion n] by rewrite map_inj_in_uniq ?uniq_wmesh.
have sub : {subset [seq wslot L w | w <- wmesh Fermion n] <= iota 0 L}.
  by move=> _ /mapP [w _ ->]; rewrite mem_iota add0n wslot_lt.
have := uniq_leq_size u sub; rewrite size_iota size_map size_wmesh /mesh_size; lia.
Qed.
Theorem C52_guard_is_no_aliasing s n (m : C * C * C) (g : int -> C) :
  (fourier_w_to_tau L beta zh ex freq s n m g <> None -> {in wmesh s n &, injective (wslot L)}) /\
  ({in wmesh Fermion n &, injective (wslot L)} -> fourier_w_to_tau L beta zh ex freq Fermion n m g <> None).
Proof. exact (@C52_guard_proof s n m g). Qed.

(* the same for the opposite direction *)
Lemma C52_guard_back_proof s n (g : 'I_L.+1 -> C) V0 V1 :
  (fourier_tau_to_w beta zh ex freq V0 V1 s n g <> None -> {in wmesh s n &, injective (wslot L)}) /\
  ({in wmesh Fermion n &, injective (wslot L)} -> fourier_tau_to_w beta zh ex freq V0 V1 Fermion n g <> None).
Proof.
have [h1 _] := C52_guard_proof s n (0, 0, 0) (fun=> 0); have [_ h2] := C52_guard_proof s n (0, 0, 0) (fun=> 0).
by move: h1 h2; rewrite /fourier_tau_to_w /fourier_w_to_tau; case: ifP => _ h1 h2; split=> // x; [case: (h2 x) | apply: h1].
Qed.
Theorem C52_guard_time_to_frequency s n (g : 'I_L.+1 -> C) V0 V1 :
  (fourier_tau_to_w beta zh ex freq V0 V1 s n g <> None -> {in wmesh s n &, injective (wslot L)}) /\
  ({in wmesh Fermion n &, injective (wslot L)} -> fourier_tau_to_w beta zh ex freq V0 V1 Fermion n g <> None).
Proof. exact (@C52_guard_back_proof s n g V0 V1). Qed.

(* the three poles subtracted before the discrete transform carry the prescribed first three high-frequency moments,
   sum_i a_i b_i^j = m_(j+1) *)
Theorem C52_tail_moments s (m1 m2 m3 : C) : let a := coefs s m1 m2 m3 in let b := poles C s in
  [/\ a.1.1 + a.1.2 + a.2 = m1,
      a.1.1 * b.1.1 + a.1.2 * b.1.2 + a.2 * b.2 = m2 &
      a.1.1 * b.1.1 ^+ 2 + a.1.2 * b.1.2 ^+ 2 + a.2 * b.2 ^+ 2 = m3].
Proof. exact (@coefs_moments C s m1 m2 m3). Qed.

(* C53: the finite-difference fit is exact on polynomials of degree <= 8 *)
Variables V0 V1 : 'I_8 -> C.
(* rows of the inverse of the Vandermonde matrix (m^(j-1)), m, j = 1..8 *)
Definition vandermonde_row (V : 'I_8 -> C) (i : nat) := forall j : 'I_8, \sum_(m < 8) V m * (m.+1)%:R ^+ j = (j == i :> nat)%:R.

Lemma row_poly (V : 'I_8 -> C) i (p : {poly C}) (delta : C) : (i < 8)%N -> vandermonde_row V i -> (size p <= 9)%N -> delta != 0 ->
  \sum_(m < 8) V m * ((p.[(m.+1)%:R * delta] - p.[0]) / ((m.+1)%:R * delta)) = p`_i.+1 * delta ^+ i.
Proof.
move=> hi hV hp d0.
transitivity (\sum_(j < 8) p`_j.+1 * delta ^+ j * (\sum_(m < 8) V m * (m.+1)%:R ^+ j)); last first.
  under eq_bigr do rewrite hV.
  rewrite (bigD1 (Ordinal hi)) //= eqxx mulr1 big1 ?addr0 // => j /negbTE; rewrite -val_eqE /= => ->.
  by rewrite mulr0.
under [RHS]eq_bigr do rewrite mulr_sumr.
rewrite exchange_big; apply: eq_bigr => m _ /=.
rewrite horner_coef0 (horner_coef_wide _ hp) big_ord_recl expr0 mulr1 addrAC subrr add0r mulr_suml mulr_sumr.
apply: eq_bigr => j _; rewrite lift0 exprMn_comm; last exact: mulrC.
have m0 : (m.+1)%:R != 0 :> C by rewrite pnatr_eq0.
have k1 : (m.+1)%:R / (m.+1)%:R = 1 :> C by rewrite mulfV.
have k2 : delta / delta = 1 by rewrite mulfV.
rewrite !exprS invfM.
transitivity (V m * (p`_j.+1 * ((m.+1)%:R ^+ j) * delta ^+ j) * ((m.+1)%:R / (m.+1)%:R) * (delta / delta)).
  by fring (Num.ClosedField.fieldType C).
by rewrite k1 k2; fring (Num.ClosedField.fieldType C).
Qed.

Lemma C53_proof s (p : {poly C}) : (8 <= L)%N -> beta != 0 -> (size p <= 9)%N ->
  vandermonde_row V0 0 -> vandermonde_row V1 1 ->
  let sign : C := if s is Fermion then -1 else 1 in
  fit_derivatives (L := L) beta V0 V1 s (fun t => p.[tau (L := L) beta t]) =
  (p^`().[0] - sign * p^`().[beta], - (p^`()^`().[0] - sign * p^`()^`().[beta])).
Proof.
move=> hL b0 hp h0 h1 sign; rewrite /fit_derivatives.
have L0 : L%:R != 0 :> C by rewrite pnatr_eq0.
set delta := beta / L%:R.
have d0 : delta != 0 by rewrite mulf_neq0 ?invr_neq0.
have tm (m : 'I_8) : tau (L := L) beta (inord m.+1) = (m.+1)%:R * delta.
  by rewrite /tau inordK ?mulrA 1?[beta * _]mulrC //; have := ltn_ord m; lia.
have tr (m : 'I_8) : tau (L := L) beta (inord (L - m.+1)) = beta - (m.+1)%:R * delta.
  have hm : (m.+1 <= L)%N by have := ltn_ord m; lia.
  rewrite /tau inordK; last by lia.
  by rewrite natrB // mulrBr mulrBl mulfK // [beta * _]mulrC -mulrA.
have t0 : tau (L := L) beta ord0 = 0 by rewrite tau0.
have tL : tau (L := L) beta ord_max = beta by rewrite tauL.
pose P := - (p \Po (beta%:P - 'X)).
have hP x : P.[x] = - p.[beta - x] by rewrite hornerN horner_comp !hornerE.
have sP : (size P <= 9)%N.
  rewrite size_opp size_comp_poly2 //.
  have -> : beta%:P - 'X = - ('X - beta%:P) by rewrite opprB.
  by rewrite size_opp size_XsubC.
have dq : (beta%:P - 'X)^`() = - 1 :> {poly C} by rewrite derivB derivC derivX sub0r.
have P1 : P`_1 = p^`().[beta].
  have -> : P`_1 = P^`().[0] by rewrite horner_coef0 coef_deriv mulr1n.
  by rewrite derivN deriv_comp dq mulrN1 opprK horner_comp !hornerE subr0.
have P2 : P`_2 *+ 2 = - p^`()^`().[beta].
  have -> : P`_2 *+ 2 = P^`()^`().[0] by rewrite horner_coef0 !coef_deriv mulr1n.
  rewrite derivN deriv_comp dq mulrN1 opprK deriv_comp dq mulrN1.
  by rewrite hornerN horner_comp !hornerE subr0.
have p1 : p`_1 = p^`().[0] by rewrite horner_coef0 coef_deriv mulr1n.
have p2 : p`_2 *+ 2 = p^`()^`().[0] by rewrite horner_coef0 !coef_deriv mulr1n.
have left (V : 'I_8 -> C) i : (i < 8)%N -> vandermonde_row V i ->
  \sum_m V m * ((p.[tau (L := L) beta (inord m.+1)] - p.[tau (L := L) beta ord0]) / tau (L := L) beta (inord m.+1)) = p`_i.+1 * delta ^+ i.
  move=> hi hV; rewrite -(row_poly hi hV hp d0) t0; apply: eq_bigr => m _; by rewrite tm.
have right (V : 'I_8 -> C) i : (i < 8)%N -> vandermonde_row V i ->
  \sum_m V m * ((p.[tau (L := L) beta ord_max] - p.[tau (L := L) beta (inord (L - m.+1))]) / tau (L := L) beta (inord m.+1)) = P`_i.+1 * delta ^+ i.
  move=> hi hV; rewrite -(row_poly hi hV sP d0) tL; apply: eq_bigr => m _.
  by rewrite tm tr !hP subr0 opprK [- _ + _]addrC.
rewrite (left V0 0%N) // (left V1 1%N) // (right V0 0%N) // (right V1 1%N) // !expr0 !expr1 !mulr1 -/sign.
congr (_, _); first by rewrite p1 P1.
rewrite -p2 -[p^`()^`().[beta]]opprK -P2 mulrN opprK.
have kd : delta / delta = 1 by rewrite mulfV.
transitivity (- (p`_2 + sign * P`_2) * 2%:R * (delta / delta)); first by fring (Num.ClosedField.fieldType C).
by rewrite kd mulr1 mulr_natr mulNrn mulrnDl mulrnAr.
Qed.
Theorem C53_derivative_fit_exact s (p : {poly C}) : (8 <= L)%N -> beta != 0 -> (size p <= 9)%N ->
  vandermonde_row V0 0 -> vandermonde_row V1 1 ->
  let sign : C := if s is Fermion then -1 else 1 in
  fit_derivatives (L := L) beta V0 V1 s (fun t => p.[tau (L := L) beta t]) =
  (p^`().[0] - sign * p^`().[beta], - (p^`()^`().[0] - sign * p^`()^`().[beta])).
Proof. exact (@C53_proof s p). Qed.
End Main.

(* the printed table of fourier_matsubara.cpp 56-59 with its rounding noise (1e-10) removed does satisfy the
   hypotheses of C53; the second row is over 420: -13.742857.. = -5772/420 and so on *)
Delimit Scope Z_scope with zz.
Definition V0z : seq Z := [:: 8; -28; 56; -70; 56; -28; 8; -1]%zz.
Definition V1z : seq Z := [:: -5772; 26082; -56084; 72555; -59220; 30002; -8652; 1089]%zz.
Section Rows.
Variable C : numClosedFieldType.
Definition zr (z : Z) : C := (int_of_Z z)%:~R.
Lemma zrD x y : zr (x + y)%zz = zr x + zr y. Proof. by rewrite /zr -rmorphD -rmorphD. Qed.
Lemma zrM x y : zr (x * y)%zz = zr x * zr y. Proof. by rewrite /zr -rmorphM -rmorphM. Qed.
Lemma zr_nat n : zr (Z.of_nat n) = n%:R. Proof. by rewrite /zr -[Z.of_nat n]/(Z_of_int (Posz n)) Z_of_intK. Qed.
Lemma zr1 : zr 1%zz = 1. Proof. by []. Qed.
Lemma zr0 : zr 0%zz = 0. Proof. by []. Qed.
Lemma zrX x n : zr (x ^ Z.of_nat n)%zz = zr x ^+ n.
Proof. elim: n => [|n IH]; first by rewrite expr0 zr1. by rewrite Nat2Z.inj_succ Z.pow_succ_r ?exprS ?zrM ?IH //; apply: Zle_0_nat. Qed.
Definition moment (V : seq Z) (j : nat) : Z :=
  (\big[Z.add/0%zz]_(m <- iota 0 8) (nth 0%zz V m * Z.of_nat m.+1 ^ Z.of_nat j))%zz.
Lemma moment_ok V j : \sum_(m < 8) zr (nth 0%zz V m) * (m.+1)%:R ^+ j = zr (moment V j).
Proof.
rewrite /moment -(big_mkord predT (fun m => zr (nth 0%zz V m) * (m.+1)%:R ^+ j)) /index_iota subn0.
elim: (iota 0 8) => [|m s IH]; first by rewrite !big_nil zr0.
by rewrite !big_cons IH zrD zrM zrX zr_nat.
Qed.
Lemma rows_ok : vandermonde_row (fun m : 'I_8 => zr (nth 0%zz V0z m)) 0 /\
  vandermonde_row (fun m : 'I_8 => zr (nth 0%zz V1z m) / 420%:R) 1.
Proof.
have c0 j : (j < 8)%N -> moment V0z j = if j == 0%N then 1%zz else 0%zz.
  by rewrite /moment unlock; do 8 (case: j => [|j] //).
have c1 j : (j < 8)%N -> moment V1z j = if j == 1%N then 420%zz else 0%zz.
  by rewrite /moment unlock; do 8 (case: j => [|j] //).
split=> j.
  by rewrite moment_ok c0 //; case: eqP => _; rewrite ?zr1 ?zr0.
under eq_bigr do rewrite mulrAC.
rewrite -mulr_suml moment_ok c1 //; case: eqP => _; last by rewrite zr0 mul0r.
by rewrite (zr_nat 420) divff ?pnatr_eq0.
Qed.
End Rows.

(* C52 is about an existing root of unity: the ones of the algebraic numbers *)
Example C52_root_exists M : exists zh : algC, (M.+1).-primitive_root (zh ^+ 2).
Proof. by have [z hz] := C_prim_root_exists (ltn0Sn M); exists (sqrtC z); rewrite sqrtCK. Qed.
Example C52_accepts : fourier_w_to_tau (C := [numClosedFieldType of algC]) 10 1 1 (fun=> 1) (fun _ _ => 0) Fermion 5
  (1, 0, 0) (fun=> 1) <> None.
Proof. by []. Qed.

Print Assumptions C52_matsubara_round_trip.
Print Assumptions C52_guard_is_no_aliasing.
Print Assumptions C52_tail_moments.
Print Assumptions C53_derivative_fit_exact.
