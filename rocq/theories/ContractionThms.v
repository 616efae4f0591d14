(* C93 (contraction of a susceptibility with operators). *)
From mathcomp Require Import all_ssreflect all_algebra all_field.
From mathcomp Require Import zify.
From Verif Require Import Base Fring MatAlg MpiModel RpaModel RpaSpec RpaProofs RpaThms RpaTensorSpec RpaTensorModel RpaTensorProofs RpaTensorThms ContractionModel.
Set Implicit Arguments.
Unset Strict Implicit.
Unset Printing Implicit Defensive.
Import Order.TTheory GRing.Theory Num.Theory.
Local Open Scope ring_scope.

Section Spec.
Variables (F : fieldType) (X : Type).
(* an array that stores a matrix or a tensor *)
Definition stores2 n (A : array2 F) (M : 'M[F]_n) : Prop := shape2 A = [:: n; n] /\ forall a b : 'I_n, dat2 A a b = M a b.
Definition stores4 n (A : gf4 F X) (T : X -> tensor4 F n) : Prop := target_shape A = [:: n; n; n; n] /\ forall p (a b c d : 'I_n), dat4 A p a b c d = T p a b c d.
(* response <O1 O2> for chi_abcd = <c+_a c_b c+_c c_d> *)
Definition response n (T : tensor4 F n) (O1 O2 : 'M[F]_n) : F := \sum_a \sum_b \sum_c \sum_d T a b c d * O1 a b * O2 c d.
Theorem C93_response n (chi : gf4 F X) T (op1 op2 : array2 F) (O1 O2 : 'M[F]_n) : stores4 chi T -> stores2 op1 O1 -> stores2 op2 O2 ->
  exists r, chi_contraction chi op1 op2 = Some r /\ forall p, r p = response (T p) O1 O2.
Proof.
move=> [s4 d4] [s1 d1] [s2 d2]; rewrite /chi_contraction s4 s1 s2 /= eqxx /=; eexists; split=> // p.
by do 4 (apply: eq_bigr => ? _); rewrite d4 d1 d2.
Qed.
(* operators of another shape are rejected *)
Theorem C93_wrong_shape n (chi : gf4 F X) T (op1 op2 : array2 F) : stores4 (n := n) chi T -> (chi_contraction chi op1 op2 = None) <-> (shape2 op1 <> [:: n; n] \/ shape2 op2 <> [:: n; n]).
Proof.
move=> [s4 _]; rewrite /chi_contraction s4 /=; split.
  by case: eqP => [<-|h] /=; [case: eqP => // h _; right => e; case: h | move=> _; left => e; case: h].
by case=> h; (rewrite ifT //); apply/orP; [left|right]; apply/eqP => e; case: h.
Qed.
End Spec.

(* change of the single particle basis c' = V c with unitary V *)
Section Basis.
Variables (C : numClosedFieldType) (n : nat).
Add Ring Cring : (fld_rt C).
Local Notation t4 := (tensor4 C n).
Local Notation M := 'M[C]_n.
Definition unitary (V : M) : Prop := forall a b, \sum_p (V p a)^* * V p b = (a == b)%:R.
Definition turn_op (V O : M) : M := \matrix_(p, q) \sum_a \sum_b V p a * O a b * (V q b)^*.
(* c+ c c+ c order *)
Definition turn_chi (V : M) (T : t4) : t4 := fun p q r s => \sum_a \sum_b \sum_c \sum_d (V p a)^* * V q b * (V r c)^* * V s d * T a b c d.
(* c c+ c c+ order *)
Definition turn_U (V : M) (T : t4) : t4 := fun p q r s => \sum_a \sum_b \sum_c \sum_d V p a * (V q b)^* * V r c * (V s d)^* * T a b c d.
(* matrices on pairs of indices *)
Definition pairs (V W : M) : 'M[C]_(n * n) := \matrix_(i, j) (V (pfst i) (pfst j) * W (psnd i) (psnd j)).
Definition cj (V : M) : M := map_mx conjC V.
Lemma pairsE V W a b c d : pairs V W (pidx a b) (pidx c d) = V a c * W b d. Proof. by rewrite mxE !pidxK1 !pidxK2. Qed.
Lemma pairs_turn (V W : M) (T S : t4) : (forall p q r s, S p q r s = \sum_a \sum_b \sum_c \sum_d V p a * W q b * V r c * W s d * T a b c d) ->
  tmat S = pairs V W *m tmat T *m (pairs V W)^T.
Proof.
move=> h; apply/matrixP => i j; rewrite -(pidx_eta i) -(pidx_eta j) tmatE h mxE.
under [RHS]eq_bigr do rewrite mxE [(_^T) _ _]mxE.
rewrite sum_pidx; rewrite (eq_bigr (fun a => \sum_c \sum_d \sum_b V (pfst i) a * W (psnd i) b * V (pfst j) c * W (psnd j) d * T a b c d)); last first.
  move=> a _; rewrite exchange_big; apply: eq_bigr => c _; exact: exchange_big.
rewrite exchange_big; apply: eq_bigr => c _; rewrite exchange_big; apply: eq_bigr => d _.
rewrite sum_pidx mulr_suml; apply: eq_bigr => a _; rewrite mulr_suml; apply: eq_bigr => b _.
rewrite !pairsE tmatE; move: (V _ a) (V _ c) (W _ b) (W _ d) (T _ _ _ _) => x y z w t.
fring C.
Qed.
Lemma pairs_inv V : unitary V -> (pairs (cj V) V)^T *m pairs V (cj V) = 1%:M.
Proof.
move=> u; apply/matrixP => i j; rewrite -(pidx_eta i) -(pidx_eta j) mxE sum_pidx [RHS]mxE pidx_eq -mulnb natrM [psnd i == _]eq_sym -!u.
rewrite mulr_suml; apply: eq_bigr => p _; rewrite mulr_sumr; apply: eq_bigr => q _; rewrite [(_^T) _ _]mxE !pairsE !mxE; fring C.
Qed.
Definition flat (O : M) : 'rV[C]_(n * n) := \row_i O (pfst i) (psnd i).
Lemma responseE (T : t4) O1 O2 : response T O1 O2 = (flat O1 *m tmat T *m (flat O2)^T) 0 0.
Proof.
rewrite mxE; under [RHS]eq_bigr do rewrite mxE [(_^T) _ _]mxE.
under [RHS]eq_bigr do rewrite sum_pidx; rewrite sum_pidx /response.
rewrite (eq_bigr (fun a => \sum_c \sum_d \sum_b T a b c d * O1 a b * O2 c d)); last first.
  move=> a _; rewrite exchange_big; apply: eq_bigr => c _; exact: exchange_big.
rewrite exchange_big; apply: eq_bigr => c _; rewrite exchange_big; apply: eq_bigr => d _.
rewrite mulr_suml; apply: eq_bigr => a _; rewrite mulr_suml; apply: eq_bigr => b _.
rewrite tmatE !mxE !pidxK1 !pidxK2; fring C.
Qed.
Lemma flat_turn V O : flat (turn_op V O) = flat O *m (pairs V (cj V))^T.
Proof.
apply/matrixP => i j; rewrite !mxE sum_pidx; apply: eq_bigr => a _; apply: eq_bigr => b _; rewrite !mxE !pidxK1 !pidxK2; fring C.
Qed.
Lemma turn_chiE V T : tmat (turn_chi V T) = pairs (cj V) V *m tmat T *m (pairs (cj V) V)^T.
Proof. by apply: pairs_turn => p q r s; do 4 (apply: eq_bigr => ? _); rewrite !mxE. Qed.
Lemma turn_UE V T : tmat (turn_U V T) = pairs V (cj V) *m tmat T *m (pairs V (cj V))^T.
Proof. by apply: pairs_turn => p q r s; do 4 (apply: eq_bigr => ? _); rewrite !mxE. Qed.
(* C93: the random phase approximation does not depend on the single particle basis *)
Lemma rpa_turn V (U chi0 : t4) : unitary V -> nonsingular chi0 U -> eq_t4 (rpa_point (turn_U V U) (turn_chi V chi0)) (turn_chi V (rpa_point U chi0)).
Proof.
move=> u /nonsingularP ns; apply/eq_tmat; rewrite tmat_rpa turn_chiE turn_UE turn_chiE tmat_rpa.
set A := pairs (cj V) V; set B := pairs V (cj V); have e : A^T *m B = 1%:M by apply: pairs_inv.
have e' : B^T *m A = 1%:M by rewrite -[LHS]trmxK trmx_mul trmxK e trmx1.
have [uB uA] := mulmx1_unit e'; have eA : A *m B^T = 1%:M by apply: mulmx1C.
have -> : 1%:M - A *m tmat chi0 *m A^T *m (B *m tmat U *m B^T) = A *m (1%:M - tmat chi0 *m tmat U) *m B^T.
  by rewrite mulmxBr mulmxBl mulmx1 eA; congr (_ - _); rewrite -!mulmxA (mulmxA A^T) e mul1mx.
have -> : invmx (A *m (1%:M - tmat chi0 *m tmat U) *m B^T) = A *m invmx (1%:M - tmat chi0 *m tmat U) *m B^T.
  have un : A *m (1%:M - tmat chi0 *m tmat U) *m B^T \in unitmx by rewrite !unitmx_mul uA uB ns.
  apply: (can_inj (mulKmx un)); rewrite mulmxV // -!mulmxA (mulmxA B^T A) e' mul1mx (mulmxA _ (invmx _)) mulmxV // mul1mx eA //.
by rewrite -!mulmxA (mulmxA B^T A) e' mul1mx.
Qed.
Theorem C93_basis (W K : eqType) (Mid : eqType) nranks sched (chi0 chi0' : chi_wk C n W K Mid) (U : t4) V (O1 O2 : M) w k :
  unitary V -> fair_run nranks (wmesh chi0) (kmesh chi0) sched -> w \in wmesh chi0 -> k \in kmesh chi0 ->
  wmesh chi0' = wmesh chi0 -> kmesh chi0' = kmesh chi0 -> (forall w k, eq_t4 (chi_dat chi0' w k) (turn_chi V (chi_dat chi0 w k))) ->
  nonsingular (chi_dat chi0 w k) U ->
  response (chi_dat (solve_rpa_PH nranks sched chi0' (turn_U V U)) w k) (turn_op V O1) (turn_op V O2) = response (chi_dat (solve_rpa_PH nranks sched chi0 U) w k) O1 O2.
Proof.
move=> u fr hw hk ew ek e ns; have [h1 h2 h3 h4] := fr.
have a1 : eq_t4 (chi_dat (solve_rpa_PH nranks sched chi0 U) w k) (rpa_point U (chi_dat chi0 w k)) by move=> a b c d; apply: (on_meshE _ h1 h2 h3 h4).
have a2 : eq_t4 (chi_dat (solve_rpa_PH nranks sched chi0' (turn_U V U)) w k) (rpa_point (turn_U V U) (chi_dat chi0' w k)).
  have h2' : uniq (wmesh chi0') by rewrite ew.
  have h3' : uniq (kmesh chi0') by rewrite ek.
  move=> a b c d; apply: (on_meshE _ h1 h2' h3'); by rewrite ?ew ?ek.
have E : tmat (chi_dat chi0' w k) = tmat (turn_chi V (chi_dat chi0 w k)) by apply/eq_tmat; apply: e.
rewrite !responseE (proj1 (eq_tmat _ _) a1) (proj1 (eq_tmat _ _) a2) tmat_rpa E -tmat_rpa (proj1 (eq_tmat _ _) (rpa_turn u ns)).
rewrite turn_chiE !flat_turn trmx_mul trmxK.
have eAB := pairs_inv u; have eBA : (pairs V (cj V))^T *m pairs (cj V) V = 1%:M by rewrite -[LHS]trmxK trmx_mul trmxK eAB trmx1.
congr (_ 0 0); by rewrite -!mulmxA (mulmxA _^T (pairs _ _)) eBA mul1mx (mulmxA _^T (pairs _ _)) eAB mul1mx.
Qed.
End Basis.

(* spin and charge operators *)
Section Spin.
Variables (C : numClosedFieldType) (nb : nat).
Add Ring Cring' : (fld_rt C).
Add Field Cfield' : (fld_ft (Num.ClosedField.fieldType C)).
Local Notation t4 := (tensor4 C nb).
Local Notation big4 := (tensor4 C (2 * nb)).
Local Notation big := 'M[C]_(2 * nb).
Inductive axis := Sx | Sy | Sz.
(* false is up, true is down *)
Definition pauli (i : axis) (s t : bool) : C := match i with
  | Sx => (s != t)%:R
  | Sy => if s == t then 0 else if s then 'i else - 'i
  | Sz => if s == t then (if s then - 1 else 1) else 0 end.
Definition same_axis i j : bool := match i, j with Sx, Sx | Sy, Sy | Sz, Sz => true | _, _ => false end.
Definition spin_op (at_ : bool -> 'I_nb -> 'I_(2 * nb)) i (X : 'M[C]_nb) (O : big) : Prop := forall s t a b, O (at_ s a) (at_ t b) = pauli i s t / 2%:R * X a b.
Definition charge_op (at_ : bool -> 'I_nb -> 'I_(2 * nb)) (X : 'M[C]_nb) (O : big) : Prop := forall s t a b, O (at_ s a) (at_ t b) = (s == t)%:R * X a b.
Lemma response_so fast at_ (T : big4) O1 O2 : is_combined fast at_ -> response T O1 O2 =
  \sum_(a : 'I_nb) \sum_(b : 'I_nb) \sum_(c : 'I_nb) \sum_(d : 'I_nb) \sum_(s1 : bool) \sum_(s2 : bool) \sum_(s3 : bool) \sum_(s4 : bool)
    T (at_ s1 a) (at_ s2 b) (at_ s3 c) (at_ s4 d) * O1 (at_ s1 a) (at_ s2 b) * O2 (at_ s3 c) (at_ s4 d).
Proof.
move=> /combined_so h; have sum2 (f : 'I_(2 * nb) -> C) : \sum_i f i = \sum_o \sum_(s : bool) f (at_ s o).
  by rewrite (sum_so fast) -big_split; apply: eq_bigr => o _; rewrite big_bool !h /= addrC.
rewrite /response sum2; apply: eq_bigr => a _.
under eq_bigr do rewrite sum2; rewrite exchange_big; apply: eq_bigr => b _.
under eq_bigr => s1 _ do under eq_bigr do rewrite sum2.
under eq_bigr => s1 _ do rewrite exchange_big; rewrite exchange_big; apply: eq_bigr => c _.
under eq_bigr => s1 _ do under eq_bigr => s2 _ do under eq_bigr do rewrite sum2.
under eq_bigr => s1 _ do under eq_bigr => s2 _ do rewrite exchange_big.
by under eq_bigr => s1 _ do rewrite exchange_big; rewrite exchange_big.
Qed.
Local Notation sum4 f := (\sum_(s1 : bool) \sum_(s2 : bool) \sum_(s3 : bool) \sum_(s4 : bool) f s1 s2 s3 s4).
Lemma two : 2%:R != 0 :> C. Proof. by rewrite pnatr_eq0. Qed.
Lemma spin_sum (x y : C) i j : sum4 (fun s1 s2 s3 s4 => gs true x y s1 s2 s3 s4 * (pauli i s1 s2 * pauli j s3 s4)) = if same_axis i j then 2%:R * y else 0.
Proof.
have ii : 'i * 'i = - 1 :> C by rewrite -expr2 sqrCi.
rewrite !big_bool /gs; case: i; case: j => /=; rewrite ?(mul0r, mulr0, addr0, add0r, mulr1, mul1r, mulrN, mulNr, ii, opprK) //;
  rewrite ?(oppr0, addr0, addNr, subrr) //; rewrite (mulrS, mulr0n, addr0) ?mulrDl ?mul1r //.
have h : (1 + 1)^-1 * (y + y) = y := half2 two y.
rewrite -{5 6}h; move: (_^-1) => c; fring C.
Qed.
Lemma charge_sum (x y : C) : sum4 (fun s1 s2 s3 s4 => gs true x y s1 s2 s3 s4 * ((s1 == s2)%:R * (s3 == s4)%:R)) = 2%:R * x.
Proof.
have h := half2 two x; rewrite !big_bool /gs /= ?(mul0r, mulr0, addr0, add0r, mulr1, mul1r) -{5}h; move: (2%:R^-1) => c.
rewrite (mulr2n 1); fring C.
Qed.
Lemma mixed_sum (x y : C) i : sum4 (fun s1 s2 s3 s4 => gs true x y s1 s2 s3 s4 * (pauli i s1 s2 * (s3 == s4)%:R)) = 0 /\
  sum4 (fun s1 s2 s3 s4 => gs true x y s1 s2 s3 s4 * ((s1 == s2)%:R * pauli i s3 s4)) = 0.
Proof.
rewrite !big_bool /gs; split; case: i => /=; rewrite ?(mul0r, mulr0, addr0, add0r, mulr1, mul1r, mulrN, mulNr) //; fring C.
Qed.
Lemma split_sum fast at_ (chi : big4) (A B : t4) (O1 O2 : big) (X Y : 'M[C]_nb) (P Q : bool -> bool -> C) x y : is_combined fast at_ -> has_gs fast true chi A B ->
  (forall s t a b, O1 (at_ s a) (at_ t b) = P s t * x * X a b) -> (forall s t a b, O2 (at_ s a) (at_ t b) = Q s t * y * Y a b) ->
  response chi O1 O2 = \sum_a \sum_b \sum_c \sum_d (sum4 (fun s1 s2 s3 s4 => gs true (A a b c d) (B a b c d) s1 s2 s3 s4 * (P s1 s2 * Q s3 s4))) * (x * y * X a b * Y c d).
Proof.
move=> hc hg h1 h2; rewrite (response_so _ _ _ hc); do 4 (apply: eq_bigr => ? _).
do 4 (rewrite mulr_suml; apply: eq_bigr => ? _); rewrite h1 h2; have so := combined_so hc; rewrite !so hg; move: (gs _ _ _ _ _ _ _) => g; fring C.
Qed.
(* C93: in a spin rotation invariant system the three spin directions respond alike, with half of the spin susceptibility, and different components
   do not mix; the charge responds with twice the charge susceptibility *)
Theorem C93_spin (near0 : C -> bool) fast (check : bool) at_ (chi : big4) i j X Y O1 O2 : near0 (0 : C) -> is_combined fast at_ -> su2_invariant at_ chi ->
  spin_op at_ i X O1 -> spin_op at_ j Y O2 ->
  exists cs, charge_and_spin_susceptibility_from_general near0 fast check chi = Some cs /\
  response chi O1 O2 = if same_axis i j then response cs.2 X Y / 2%:R else 0.
Proof.
move=> n0 hc hs h1 h2; have hg := su2_gs two (proj1 (su2_so _ hc) hs); have [cs [e [_ eB]]] := readsplit two n0 check hg; exists cs; split=> //.
rewrite (split_sum hc hg (P := pauli i) (Q := pauli j) (x := 2%:R^-1) (y := 2%:R^-1) h1 h2).
under eq_bigr => a _ do under eq_bigr => b _ do under eq_bigr => c _ do under eq_bigr => d _ do rewrite spin_sum -eB.
case: same_axis; last by do 4 (rewrite big1 // => ? _); rewrite mul0r.
do 4 (rewrite mulr_suml; apply: eq_bigr => ? _); rewrite -!mulrA (mulrCA (cs.2 _ _ _ _)) mulVKf ?two //; fring C.
Qed.
Theorem C93_charge (near0 : C -> bool) fast (check : bool) at_ (chi : big4) X Y O1 O2 : near0 (0 : C) -> is_combined fast at_ -> su2_invariant at_ chi ->
  charge_op at_ X O1 -> charge_op at_ Y O2 ->
  exists cs, charge_and_spin_susceptibility_from_general near0 fast check chi = Some cs /\
  response chi O1 O2 = 2%:R * response cs.1 X Y.
Proof.
move=> n0 hc hs h1 h2; have hg := su2_gs two (proj1 (su2_so _ hc) hs); have [cs [e [eA _]]] := readsplit two n0 check hg; exists cs; split=> //.
rewrite (split_sum hc hg (P := fun s t => (s == t)%:R) (Q := fun s t => (s == t)%:R) (x := 1) (y := 1) (X := X) (Y := Y)) => [|s t a b|s t a b]; rewrite ?mulr1 //.
under eq_bigr => a _ do under eq_bigr => b _ do under eq_bigr => c _ do under eq_bigr => d _ do rewrite charge_sum -eA.
do 4 (rewrite mulr_sumr; apply: eq_bigr => ? _); fring C.
Qed.
Theorem C93_no_mixing fast at_ (chi : big4) i X Y O1 O2 : is_combined fast at_ -> su2_invariant at_ chi -> spin_op at_ i X O1 -> charge_op at_ Y O2 -> 
  response chi O1 O2 = 0 /\ response chi O2 O1 = 0.
Proof.
move=> hc hs h1 h2; have hg := su2_gs two (proj1 (su2_so _ hc) hs); have h2' s t a b : O2 (at_ s a) (at_ t b) = (s == t)%:R * 1 * Y a b by rewrite mulr1.
rewrite (split_sum hc hg h1 h2') (split_sum hc hg h2' h1) ; split; do 4 (rewrite big1 // => ? _).
  by rewrite (proj1 (mixed_sum _ _ _)) mul0r.
by rewrite (proj2 (mixed_sum _ _ _)) mul0r.
Qed.
(* C93: the random phase approximation of a spin independent bubble with any interaction built from charge and spin tensors *)
Theorem C93_rpa_spin (W K Mid : eqType) nranks sched (chi0 : chi_wk C nb W K Mid) (chi0_spin : chi_wk C (2 * nb) W K Mid) (U_c U_s Xs : t4) at_ i j X Y O1 O2 w k :
  fair_run nranks (wmesh chi0_spin) (kmesh chi0_spin) sched -> w \in wmesh chi0_spin -> k \in kmesh chi0_spin ->
  eq_t4 (chi_dat chi0_spin w k) (general_susceptibility_from_charge_and_spin false (chi_dat chi0 w k) (chi_dat chi0 w k)) ->
  nonsingular (chi_dat chi0 w k) (fun a b c d => - U_c a b c d) -> nonsingular (chi_dat chi0 w k) U_s -> rpa_equation (chi_dat chi0 w k) U_s Xs ->
  is_combined false at_ -> spin_op at_ i X O1 -> spin_op at_ j Y O2 ->
  response (chi_dat (solve_rpa_PH nranks sched chi0_spin (quartic_tensor_from_charge_and_spin U_c U_s)) w k) O1 O2 = if same_axis i j then response Xs X Y / 2%:R else 0.
Proof.
move=> fr hw hk e nc ns es hc h1 h2; pose Xc := rpa_point (fun a b c d => - U_c a b c d) (chi_dat chi0 w k).
have ec : rpa_equation (chi_dat chi0 w k) (fun a b c d => - U_c a b c d) Xc by apply: rpa_solves.
have hT : has_gs false true (chi_dat chi0_spin w k) (chi_dat chi0 w k) (chi_dat chi0 w k) by move=> s1 s2 s3 s4 a b c d; rewrite e; apply: gs_general.
set chi := chi_dat (solve_rpa_PH _ _ _ _) w k; have [r1 r2 r3 r4] := fr.
have eX : eq_t4 chi (general_susceptibility_from_charge_and_spin false Xc Xs).
  move=> a b c d; rewrite -(rpa_spin two hT (gs_build U_c U_s) nc ns ec es); exact: (on_meshE _ r1 r2 r3 r4).
have hg : has_gs false true chi Xc Xs by move=> s1 s2 s3 s4 a b c d; rewrite eX; apply: gs_general.
rewrite (split_sum hc hg (P := pauli i) (Q := pauli j) (x := 2%:R^-1) (y := 2%:R^-1) h1 h2).
under eq_bigr => a _ do under eq_bigr => b _ do under eq_bigr => c _ do under eq_bigr => d _ do rewrite spin_sum.
case: same_axis; last by do 4 (rewrite big1 // => ? _); rewrite mul0r.
do 4 (rewrite mulr_suml; apply: eq_bigr => ? _); rewrite -!mulrA (mulrCA (Xs _ _ _ _)) mulVKf ?two //; fring C.
Qed.
End Spin.
(* one orbital with interaction 1/2 and bubble 1: the spin susceptibility is 2, every spin component responds with 1 *)
Section Case.
Local Notation C := [numClosedFieldType of algC].
Let one4 (x : algC) : tensor4 C 1 := fun _ _ _ _ => x.
Definition at1 (s : bool) (o : 'I_1) : 'I_(2 * 1) := inord s.
Lemma at1_combined : is_combined false at1.
Proof. by case=> o; rewrite inordK // /combined_value ord1. Qed.
Let S1 i : 'M[C]_(2 * 1) := \matrix_(p, q) (pauli C i (nat_of_ord p == 1)%N (nat_of_ord q == 1)%N / 2%:R).
Let chi1 : chi_wk C 1 unit_eqType unit_eqType unit_eqType := ChiWK [:: tt] [:: tt] tt (fun _ _ => one4 1).
Let chi2 : chi_wk C (2 * 1) unit_eqType unit_eqType unit_eqType := ChiWK [:: tt] [:: tt] tt (fun _ _ => general_susceptibility_from_charge_and_spin false (one4 1) (one4 1)).
Theorem C93_case i j : response (chi_dat (solve_rpa_PH 1 (fun r => mpi_view (allpairs pair [:: tt] [:: tt]) 1 r) chi2
    (quartic_tensor_from_charge_and_spin (one4 2%:R^-1) (one4 2%:R^-1))) tt tt) (S1 i) (S1 j) = (same_axis i j)%:R.
Proof.
have d1 a b c d : delta4 C (nb := 1) a b c d = 1 by rewrite /delta4 !ord1.
have n1 (x : algC) : 1 - x != 0 -> nonsingular (one4 1) (one4 x).
  by move=> h; exists (one4 (1 - x)^-1) => a b c d; rewrite /contract !big_ord1 !d1 /one4 mul1r mulVf.
have n2 : 2%:R != 0 :> algC by rewrite pnatr_eq0.
have half : 1 - 2%:R^-1 = 2%:R^-1 :> algC.
  by apply: (mulIf n2); rewrite mulrBl mulVf // mul1r (natrD _ 1 1) addrK.
rewrite (C93_rpa_spin (chi0 := chi1) (U_c := one4 2%:R^-1) (U_s := one4 2%:R^-1) (Xs := one4 2%:R) (X := 1%:M) (Y := 1%:M) (i := i) (j := j) (at_ := at1)) //.
- by case: same_axis => //; rewrite /response !big_ord1 !mxE !mulr1 divff.
- apply: (n1 (- 2%:R^-1)); rewrite opprK; apply: lt0r_neq0; by rewrite addr_gt0 ?ltr01 // invr_gt0 ltr0n.
- by apply: (n1 2%:R^-1); rewrite half invr_neq0.
- by move=> a b c d; rewrite /add4 /contract !big_ord1 /= /one4 mul1r mulVf // (natrD _ 1 1).
- exact: at1_combined.
- by move=> s t a b; rewrite !mxE !inordK ?ord1 ?mulr1 //; case: s; case: t.
- by move=> s t a b; rewrite !mxE !inordK ?ord1 ?mulr1 //; case: s; case: t.
Qed.
(* a change of basis: exchange of two states with a phase *)
Theorem C93_basis_case : unitary (C := C) (\matrix_(a, b) ((a != b)%:R * (if a == 0 then 'i else 1)) : 'M[C]_2).
Proof.
have ii : - ('i * 'i) = 1 :> C by rewrite -expr2 sqrCi opprK.
move=> a b; rewrite !big_ord_recl big_ord0 !mxE.
by case: a => [[|[|a]] ha] //; case: b => [[|[|b]] hb] //=; rewrite ?(mulr0, mul0r, mulr1, mul1r, rmorph0, rmorph1, addr0, add0r) ?conjCi ?mulNr ?ii.
Qed.
End Case.
Print Assumptions C93_response.
Print Assumptions C93_wrong_shape.
Print Assumptions C93_basis.
Print Assumptions C93_spin.
Print Assumptions C93_charge.
Print Assumptions C93_no_mixing.
Print Assumptions C93_rpa_spin.
Print Assumptions C93_case.
Print Assumptions C93_basis_case.
