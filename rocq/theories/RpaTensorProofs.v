From mathcomp Require Import all_ssreflect all_algebra.
From mathcomp Require Import zify.
From Verif Require Import Fring Base MatAlg RpaModel RpaSpec RpaProofs RpaTensorModel RpaTensorSpec.
Set Implicit Arguments.
Unset Strict Implicit.
Unset Printing Implicit Defensive.
Import GRing.Theory.
Local Open Scope ring_scope.

Section Index.
Variable nb : nat.
Definition so (fast s : bool) (o : 'I_nb) : 'I_(2 * nb) := if s then down_slice fast o else up_slice fast o.
Arguments so : simpl never.
Lemma so_value fast s o : so fast s o = combined_value nb fast s o :> nat.
Proof. by rewrite /so /up_slice /down_slice /combined_value; case: fast; case: s => //=; lia. Qed.
Lemma so_pidx s o : so false s o = pidx (if s then s_dn else s_up) o.
Proof. by apply: val_inj => /=; case: s; rewrite /= ?mul0n ?mul1n. Qed.
Lemma so_inj fast s s' o o' : (so fast s o == so fast s' o') = (s == s') && (o == o').
Proof.
rewrite -!val_eqE /= !so_value /combined_value; have := ltn_ord o; have := ltn_ord o'.
by case: fast; case: s; case: s' => /=; lia.
Qed.
Lemma so_surj fast i : exists s o, i = so fast s o.
Proof.
have := ltn_ord i; case: fast => lt.
  have h : (i %/ 2 < nb)%N by lia.
  by exists (odd i), (Ordinal h); apply: ord_inj; rewrite so_value /combined_value /=; lia.
case: (ltnP i nb) => h.
  by exists false, (Ordinal h); apply: ord_inj; rewrite so_value /combined_value /=; lia.
have h' : (i - nb < nb)%N by lia.
by exists true, (Ordinal h'); apply: ord_inj; rewrite so_value /combined_value /=; lia.
Qed.
Lemma sum_so fast (V : zmodType) (f : 'I_(2 * nb) -> V) : \sum_i f i = \sum_o f (so fast false o) + \sum_o f (so fast true o).
Proof.
have -> : \sum_o f (so fast false o) + \sum_o f (so fast true o) = \sum_(p : bool * 'I_nb) f (so fast p.1 p.2).
  by rewrite -(pair_bigA _ (fun s o => f (so fast s o))) big_bool addrC.
rewrite (reindex (fun p : bool * 'I_nb => so fast p.1 p.2)) //.
have inj : injective (fun p : bool * 'I_nb => so fast p.1 p.2).
  by move=> [s o] [s' o'] /= /eqP; rewrite so_inj => /andP[/eqP -> /eqP ->].
have pre i : {p : bool * 'I_nb | so fast p.1 p.2 == i}.
  apply: sigW; have [s [o ->]] := so_surj fast i; by exists (s, o).
exists (fun i => sval (pre i)) => [p _|i _]; first by apply: inj; apply/eqP; case: (pre _).
by case: (pre i) => p /= /eqP.
Qed.
Lemma position_so fast s s' o : position (so fast s) (so fast s' o) = if s == s' then Some o else None.
Proof.
rewrite /position; case: pickP => [o'|h].
  by rewrite so_inj => /andP[/eqP -> /eqP ->]; rewrite eqxx.
by case: eqP => // e; have := h o; rewrite so_inj e !eqxx.
Qed.
Lemma upE fast : up_slice fast = so fast false. Proof. by []. Qed.
Lemma downE fast : down_slice fast = so fast true. Proof. by []. Qed.

End Index.
Arguments so : simpl never.

Section Spin.
Variables (F : fieldType) (nb : nat).
Hypothesis two : 2%:R != 0 :> F.
Local Notation t4 := (tensor4 F nb).
Local Notation big4 := (tensor4 F (2 * nb)).
Local Notation so := (@so nb).
Add Field Ffield : (fld_ft F).

(* the spin structure: p tells whether the transverse block connects (s, -s) with (-s, s) or with (s, -s) *)
Definition gs (p : bool) (x y : F) (s1 s2 s3 s4 : bool) : F :=
  if (s1 == s2) && (s3 == s4) then if s1 == s3 then 2%:R^-1 * (x + y) else 2%:R^-1 * (x - y)
  else if (s1 != s2) && (s3 != s4) && ((s1 == s3) == ~~ p) then y else 0.
Definition has_gs fast p (T : big4) (A B : t4) := forall s1 s2 s3 s4 a b c d,
  T (so fast s1 a) (so fast s2 b) (so fast s3 c) (so fast s4 d) = gs p (A a b c d) (B a b c d) s1 s2 s3 s4.

Lemma eq_so fast (T T' : big4) : (forall s1 s2 s3 s4 a b c d,
  T (so fast s1 a) (so fast s2 b) (so fast s3 c) (so fast s4 d) = T' (so fast s1 a) (so fast s2 b) (so fast s3 c) (so fast s4 d)) ->
  eq_t4 T T'.
Proof.
move=> h i j k l; have [s1 [a ->]] := so_surj fast i; have [s2 [b ->]] := so_surj fast j.
by have [s3 [c ->]] := so_surj fast k; have [s4 [d ->]] := so_surj fast l.
Qed.
Lemma gs_ext fast p T T' A B A' B' : has_gs fast p T A B -> has_gs fast p T' A' B' -> eq_t4 A A' -> eq_t4 B B' -> eq_t4 T T'.
Proof. by move=> h h' e e'; apply: (@eq_so fast) => s1 s2 s3 s4 a b c d; rewrite h h' e e'. Qed.

Lemma two' : fadd F (fone F) (fone F) <> fzero F. Proof. exact/eqP. Qed.
Lemma gs_mul p q x y x' y' s1 s2 s3 s4 :
  gs p x y s1 s2 false false * gs q x' y' false false s3 s4 + gs p x y s1 s2 false true * gs q x' y' false true s3 s4 +
  (gs p x y s1 s2 true false * gs q x' y' true false s3 s4 + gs p x y s1 s2 true true * gs q x' y' true true s3 s4) =
  gs (p (+) q) (x * x') (y * y') s1 s2 s3 s4.
Proof.
rewrite /gs; case: p; case: q; case: s1; case: s2; case: s3; case: s4 => /=;
  rewrite ?(mul0r, mulr0, add0r, addr0) //; rewrite ?(mulrS, mulr0n, addr0); ffield F; exact: two'.
Qed.
Lemma gs_sum (T : finType) p (x y : T -> F) s1 s2 s3 s4 :
  \sum_t gs p (x t) (y t) s1 s2 s3 s4 = gs p (\sum_t x t) (\sum_t y t) s1 s2 s3 s4.
Proof.
rewrite /gs; case: ifP => _; last by case: ifP => // _; rewrite big1.
by case: ifP => _; rewrite -mulr_sumr ?sumrB ?big_split.
Qed.
Lemma gs_contract fast p q T T' A B A' B' : has_gs fast p T A B -> has_gs fast q T' A' B' ->
  has_gs fast (p (+) q) (contract T T') (contract A A') (contract B B').
Proof.
move=> h h' s1 s2 s3 s4 a b c d; rewrite /contract (sum_so fast).
under eq_bigr do rewrite (sum_so fast).
under [X in _ + X]eq_bigr do rewrite (sum_so fast).
rewrite -big_split /= -gs_sum; apply: eq_bigr => e _; rewrite -!big_split /= -gs_sum; apply: eq_bigr => f _.
by rewrite -gs_mul ?(upE, downE) !h !h'.
Qed.
Lemma gs_add fast p T T' A B A' B' : has_gs fast p T A B -> has_gs fast p T' A' B' ->
  has_gs fast p (add4 T T') (add4 A A') (add4 B B').
Proof.
move=> h h' s1 s2 s3 s4 a b c d; rewrite /add4 h h' /gs.
by case: ifP => _; [case: ifP => _; rewrite -mulrDr; congr (_ * _); fring F | case: ifP => _ //; rewrite addr0].
Qed.
Lemma gs_sub fast p T T' A B A' B' : has_gs fast p T A B -> has_gs fast p T' A' B' ->
  has_gs fast p (fun i j k l => T i j k l - T' i j k l) (fun a b c d => A a b c d - A' a b c d) (fun a b c d => B a b c d - B' a b c d).
Proof.
move=> h h' s1 s2 s3 s4 a b c d; rewrite h h' /gs.
by case: ifP => _; [case: ifP => _; rewrite -mulrBr; congr (_ * _); fring F | case: ifP => _ //; rewrite subr0].
Qed.
Lemma half2 (x : F) : 2%:R^-1 * (x + x) = x.
Proof. by rewrite -mulr2n -[x *+ 2]mulr_natl mulKf. Qed.
Lemma gs_delta fast : has_gs fast false (@delta4 F (2 * nb)) (@delta4 F nb) (@delta4 F nb).
Proof.
move=> s1 s2 s3 s4 a b c d; rewrite /delta4 !so_inj /gs half2 subrr mulr0.
by case: s1; case: s2; case: s3; case: s4 => //=; rewrite ?andbF.
Qed.

Lemma halves_add (x y : F) : x + y + (x - y) = x + x. Proof. fring F. Qed.
Lemma halves_sub (x y : F) : x + y - (x - y) = y + y. Proof. fring F. Qed.
Lemma assign4E fast t1 t2 t3 t4 v (T : big4) s1 s2 s3 s4 a b c d :
  assign4 (so fast t1) (so fast t2) (so fast t3) (so fast t4) v T (so fast s1 a) (so fast s2 b) (so fast s3 c) (so fast s4 d) =
  if [&& t1 == s1, t2 == s2, t3 == s3 & t4 == s4] then v a b c d else T (so fast s1 a) (so fast s2 b) (so fast s3 c) (so fast s4 d).
Proof. by rewrite /assign4 !position_so; do 4 (case: (_ == _) => //=). Qed.
Lemma gs_general fast chi_c chi_s : has_gs fast true (general_susceptibility_from_charge_and_spin fast chi_c chi_s) chi_c chi_s.
Proof.
move=> s1 s2 s3 s4 a b c d; rewrite /general_susceptibility_from_charge_and_spin !(upE, downE) !assign4E /gs.
by case: s1; case: s2; case: s3; case: s4.
Qed.
Lemma gs_build U_c U_s : has_gs false true (quartic_tensor_from_charge_and_spin U_c U_s) (fun a b c d => - U_c a b c d) U_s.
Proof.
move=> s1 s2 s3 s4 a b c d; rewrite !so_pidx /quartic_tensor_from_charge_and_spin /store8 !pidxK1 !pidxK2 /=.
by case: s1; case: s2; case: s3; case: s4; rewrite /gs //=; rewrite ?mulNr -?mulrN ?opprB ?opprD // addrC.
Qed.
Lemma gs_su2 fast T A B : has_gs fast true T A B -> su2_invariant (so fast) T.
Proof.
move=> h a b c d; split.
- by move=> s1 s2 s3 s4; rewrite h /gs; case: s1; case: s2; case: s3; case: s4.
- by rewrite !h /gs.
- by rewrite !h /gs.
- move=> s; rewrite !h /gs; case: s => /=; rewrite -mulrBr opprB addrC addrA subrK half2 //.
Qed.
Lemma su2_gs fast T : su2_invariant (so fast) T -> has_gs fast true T
  (fun a b c d => T (so fast false a) (so fast false b) (so fast false c) (so fast false d) +
                  T (so fast false a) (so fast false b) (so fast true c) (so fast true d))
  (fun a b c d => T (so fast false a) (so fast false b) (so fast false c) (so fast false d) -
                  T (so fast false a) (so fast false b) (so fast true c) (so fast true d)).
Proof.
move=> h s1 s2 s3 s4 a b c d; have [h0 h1 h2 h3] := h a b c d.
have hx := h3 true; have hy := h3 false.
set x := T (so fast false a) (so fast false b) (so fast false c) (so fast false d) in h1 hx hy *.
set y := T (so fast false a) (so fast false b) (so fast true c) (so fast true d) in h2 hx hy *.
have e1 : 2%:R^-1 * ((x + y) + (x - y)) = x by rewrite addrA addrAC addrK half2.
have e2 : 2%:R^-1 * ((x + y) - (x - y)) = y by rewrite (_ : _ - _ = y + y) ?half2 //; fring F.
rewrite /gs e1 e2; case: s1; case: s2; case: s3; case: s4 => //=; first [by rewrite h0 | exact: h1 | exact: h2 | exact: hx | exact: hy].
Qed.

Variable near0 : F -> bool.
Hypothesis near00 : near0 0.
(* checks pass on tensors with the structure *)
Lemma gs_zero fast T A B s1 s2 s3 s4 : has_gs fast true T A B -> ~~ conserves_spin s1 s2 s3 s4 ->
  all_near0 near0 (read4 (so fast s1) (so fast s2) (so fast s3) (so fast s4) T).
Proof.
move=> h n; apply/'forall_'forall_'forall_forallP => a b c d; rewrite /read4 h.
by move: n; rewrite /gs; case: s1; case: s2; case: s3; case: s4.
Qed.
Lemma readsplit fast check T A B : has_gs fast true T A B ->
  exists cs, charge_and_spin_susceptibility_from_general near0 fast check T = Some cs /\ eq_t4 cs.1 A /\ eq_t4 cs.2 B.
Proof.
move=> h; rewrite /charge_and_spin_susceptibility_from_general !(upE, downE).
rewrite !(gs_zero h) //= andbF; eexists; split; first by [].
split=> a b c d; rewrite /= /read4 !h /gs /=.
  by rewrite -mulrDr (_ : _ + _ = A a b c d + A a b c d) ?half2 //; fring F.
by rewrite -mulrBr opprB addrC addrA subrK half2.
Qed.
End Spin.

Section SpinRpa.
Variables (F : fieldType) (nb : nat).
Hypothesis two : 2%:R != 0 :> F.
Local Notation t4 := (tensor4 F nb).
Local Notation big4 := (tensor4 F (2 * nb)).

Lemma nonsingular_spin (T U : big4) (A A' B B' : t4) : has_gs false true T A B -> has_gs false true U A' B' ->
  nonsingular A A' -> nonsingular B B' -> nonsingular T U.
Proof.
move=> hT hU [DA eA] [DB eB].
have hTU := gs_contract two hT hU; have hd := gs_sub (gs_delta two false) hTU.
pose D : big4 := fun i j k l =>
  gs false (DA (psnd i) (psnd j) (psnd k) (psnd l)) (DB (psnd i) (psnd j) (psnd k) (psnd l))
    (pfst i == s_dn) (pfst j == s_dn) (pfst k == s_dn) (pfst l == s_dn).
have hD : has_gs false false D DA DB.
  move=> s1 s2 s3 s4 a b c d; rewrite /D !so_pidx !pidxK1 !pidxK2.
  by case: s1; case: s2; case: s3; case: s4.
exists D; exact: gs_ext (gs_contract two hD hd) (gs_delta two false) eA eB.
Qed.
Lemma rpa_spin (T U : big4) (A A' B B' XA XB : t4) : has_gs false true T A B -> has_gs false true U A' B' ->
  nonsingular A A' -> nonsingular B B' -> rpa_equation A A' XA -> rpa_equation B B' XB ->
  eq_t4 (rpa_point U T) (general_susceptibility_from_charge_and_spin false XA XB).
Proof.
move=> hT hU nA nB eA eB; have ns := nonsingular_spin hT hU nA nB.
have hX := gs_general false XA XB.
have h : rpa_equation T U (general_susceptibility_from_charge_and_spin false XA XB).
  exact: gs_ext hX (gs_add hT (gs_contract two hT (gs_contract two hU hX))) eA eB.
by move=> a b c d; rewrite -(rpa_unique ns h).
Qed.
End SpinRpa.

Section MatrixRpa.
Variables (F : fieldType) (nb : nat).
Local Notation t4 := (tensor4 F nb).
Local Notation I2 := 'I_(nb * nb).
Variable set_order : seq I2 -> seq I2.
Hypothesis set_orderP : forall s, perm_eq (set_order s) s.
Local Notation idx := (flat_idx set_order).
Local Notation fi := (flat_index set_order).
Local Notation at_ i := (nth i idx i).

Lemma idx_perm : perm_eq idx (enum I2).
Proof.
rewrite /flat_idx (perm_trans (perm_cat (perm_refl _) (set_orderP _))) //.
rewrite perm_sym -(perm_filterC (fun i => i \in flat_diag nb)) perm_cat //.
rewrite (eq_in_filter (a2 := fun i : I2 => (nb.+1 %| i)%N)) // => i _.
by rewrite mem_filter mem_enum inE andbT.
Qed.
Lemma idx_size : size idx = (nb * nb)%N.
Proof. by rewrite (perm_size idx_perm) size_enum_ord. Qed.
Lemma idx_mem i : i \in idx.
Proof. by rewrite (perm_mem idx_perm) mem_enum. Qed.
Lemma fi_val i : fi i = index i idx :> nat.
Proof. by have := idx_mem i; rewrite -index_mem idx_size => h; rewrite /= modn_small. Qed.
Lemma fiK i : at_ (fi i) = i.
Proof. by rewrite (set_nth_default i) ?idx_size // fi_val nth_index ?idx_mem. Qed.
Lemma atK i : fi (at_ i) = i.
Proof.
apply: ord_inj; rewrite fi_val index_uniq ?idx_size //.
by rewrite (perm_uniq idx_perm) enum_uniq.
Qed.
Definition Pm (M : 'M[F]_(nb * nb)) : 'M[F]_(nb * nb) := \matrix_(i, j) M (at_ i) (at_ j).
Lemma Pm_mul A B : Pm (A *m B) = Pm A *m Pm B.
Proof.
apply/matrixP => i j; rewrite !mxE (reindex (fun l => at_ l)) /=; last first.
  by exists fi => l _; [exact: atK | exact: fiK].
by apply: eq_bigr => l _; rewrite !mxE.
Qed.
Lemma Pm1 : Pm 1%:M = 1%:M.
Proof. by apply/matrixP => i j; rewrite !mxE (inj_eq (can_inj atK)). Qed.
Lemma Pm_sub A B : Pm (A - B) = Pm A - Pm B. Proof. by apply/matrixP => i j; rewrite !mxE. Qed.
Lemma Pm_opp A : Pm (- A) = - Pm A. Proof. by apply/matrixP => i j; rewrite !mxE. Qed.
Lemma Pm_inv A : A \in unitmx -> invmx (Pm A) = Pm (invmx A).
Proof. by move=> u; apply: invmx_uniq; rewrite -Pm_mul mulmxV // Pm1. Qed.
Lemma back M : matrix_to_tensor set_order (Pm M) = mten (\matrix_(i, j) M i j).
Proof. by rewrite /matrix_to_tensor; congr mten; apply/matrixP => i j; rewrite !mxE !fiK. Qed.
Lemma back' M : matrix_to_tensor set_order (Pm M) = mten M.
Proof. by rewrite back; congr mten; apply/matrixP => i j; rewrite mxE. Qed.
Lemma rpaE (chi u : 'M[F]_(nb * nb)) : 1%:M - chi *m u \in unitmx ->
  matrix_to_tensor set_order (matrix_rpa (Pm chi) (Pm u)) = mten (invmx (1%:M - chi *m u) *m chi).
Proof. by move=> h; rewrite /matrix_rpa -Pm_mul -Pm1 -Pm_sub Pm_inv // -Pm_mul back' Pm1. Qed.

Lemma ttmE T : tensor_to_matrix set_order T = Pm (tmat T). Proof. by []. Qed.
Lemma order_mat (T : t4) : tmat (tprf_order_to_matrix_rpa_order T) = tmat T *m Smx F nb.
Proof. by rewrite Smx_r. Qed.
Lemma spin_rpa (chi0 U : t4) : eq_t4 (swap_pairs U) U -> nonsingular chi0 U ->
  eq_t4 (chi_rpa_spin set_order (tprf_order_to_matrix_rpa_order chi0) (tprf_order_to_matrix_rpa_order U))
    (tprf_order_to_matrix_rpa_order (rpa_point U chi0)).
Proof.
move=> /eq_tmat s /nonsingularP u; rewrite -Smx_conj in s.
have e : tmat chi0 *m Smx F nb *m (tmat U *m Smx F nb) = tmat chi0 *m tmat U.
  by rewrite mulmxA -(mulmxA (tmat chi0)) -mulmxA s.
have r := rpaE (chi := tmat chi0 *m Smx F nb) (u := tmat U *m Smx F nb); rewrite e in r.
apply/eq_tmat; rewrite order_mat tmat_rpa /chi_rpa_spin.
rewrite 2!ttmE.
rewrite 2!order_mat.
rewrite (r u).
rewrite mtenK.
exact: mulmxA.
Qed.
Lemma charge_rpa (chi0 U : t4) : eq_t4 (swap_pairs U) U -> nonsingular chi0 (fun a b c d => - U a b c d) ->
  eq_t4 (chi_rpa_charge set_order (tprf_order_to_matrix_rpa_order chi0) (tprf_order_to_matrix_rpa_order U))
    (tprf_order_to_matrix_rpa_order (rpa_point (fun a b c d => - U a b c d) chi0)).
Proof.
move=> s u; have := @spin_rpa chi0 (fun a b c d => - U a b c d) _ u.
have -> // : chi_rpa_charge set_order (tprf_order_to_matrix_rpa_order chi0) (tprf_order_to_matrix_rpa_order U) =
  chi_rpa_spin set_order (tprf_order_to_matrix_rpa_order chi0) (tprf_order_to_matrix_rpa_order (fun a b c d => - U a b c d)).
  by rewrite /chi_rpa_charge /chi_rpa_spin; congr (matrix_to_tensor _ (matrix_rpa _ _)); apply/matrixP => i j; rewrite !mxE.
by apply=> a b c d; rewrite /swap_pairs -(s a b c d).
Qed.
End MatrixRpa.

Section Kanamori.
Variables (F : fieldType) (nb : nat) (U Up J Jp : F).
Lemma kanamori_order : let: (U_c, U_s) := kanamori_charge_and_spin_quartic_interaction_tensors nb U Up J Jp in
  eq_t4 (tprf_order_to_matrix_rpa_order U_c) (get_rpa_uc_tensor U Up J Jp) /\
  eq_t4 (tprf_order_to_matrix_rpa_order U_s) (get_rpa_us_tensor U Up J Jp).
Proof.
split=> a b c d; rewrite /tprf_order_to_matrix_rpa_order /get_rpa_uc_tensor /get_rpa_us_tensor /kanamori_cases /=;
repeat (case: eqP => ? //=); congruence.
Qed.
Lemma kanamori_swap : let: (U_c, U_s) := kanamori_charge_and_spin_quartic_interaction_tensors nb U Up J Jp in
  eq_t4 (swap_pairs U_c) U_c /\ eq_t4 (swap_pairs U_s) U_s.
Proof.
by split=> a b c d; rewrite /swap_pairs /=; repeat (case: eqP => ? //=); congruence.
Qed.
End Kanamori.
