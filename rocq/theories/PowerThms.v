(* C84 (power method), C85 (solution of the Eliashberg equation), C86 (preparation of the vertex and of the start vector). *)
From mathcomp Require Import all_ssreflect all_algebra all_field.
From Verif Require Import Base Fring MpiModel FourierModel BubbleModel ImtimeModel EliashbergModel PowerModel.
Set Implicit Arguments.
Unset Strict Implicit.
Unset Printing Implicit Defensive.
Import Order.TTheory GRing.Theory Num.Theory.
Local Open Scope ring_scope.

Section Power.
Variables (C : numClosedFieldType) (n : nat).
Add Ring Cring : (fld_rt C).
Add Field Cfield : (fld_ft (Num.ClosedField.fieldType C)).
Local Notation vec := 'rV[C]_n.+1.
Local Notation N := (n.+1%:R : C).
Lemma max_abs_le (v : vec) t : 0 <= t -> (np_max_abs v <= t) = [forall i, `|v 0 i| <= t].
Proof.
move=> t0; rewrite /np_max_abs; have -> : [forall i, `|v 0 i| <= t] = all (fun x : C => x <= t) [seq `|v 0 i| | i <- enum 'I_n.+1].
  rewrite all_map; apply/forallP/allP => [h i _|h i]; [exact: h | by apply: h; rewrite mem_enum].
have : all (fun x : C => 0 <= x) [seq `|v 0 i| | i <- enum 'I_n.+1] by apply/allP => x /mapP[i _ ->].
elim: [seq _ | i <- _] => [|x s ih] /=; first by rewrite t0.
case/andP=> x0 /[dup] s0 /ih <-; set m := foldr _ _ _.
have m0 : 0 <= m by rewrite /m; elim: (s) s0 => //= y r ihr /andP[y0 /ihr h]; case: ifP.
have := real_leVge (ger0_real x0) (ger0_real m0); case: ifP => [xm _|xm /orP[//|mx]]; apply/idP/andP => [h|[//]].
- by split=> //; apply: le_trans h.
- by split=> //; apply: le_trans h.
Qed.
Lemma max_abs_ge0 (v : vec) : 0 <= np_max_abs v.
Proof.
rewrite /np_max_abs; have : all (fun x : C => 0 <= x) [seq `|v 0 i| | i <- enum 'I_n.+1] by apply/allP => x /mapP[i _ ->].
by elim: [seq _ | i <- _] => //= y r ihr /andP[y0 /ihr h]; case: ifP.
Qed.
Lemma max_absP (v : vec) t : 0 <= t -> reflect (forall i, `|v 0 i| <= t) (`|np_max_abs v| <= t).
Proof. by move=> t0; rewrite ger0_norm ?max_abs_ge0 // max_abs_le //; apply: forallP. Qed.
Lemma norm_ge0 (v : vec) : 0 <= np_norm v.
Proof. by rewrite sqrtC_ge0 sumr_ge0 // => i _; rewrite exprn_ge0. Qed.
Lemma norm_scale (v : vec) x : np_norm (x *: v) = `|x| * np_norm v.
Proof.
rewrite /np_norm; under eq_bigr do rewrite mxE normrM exprMn; rewrite -mulr_sumr rootCMl ?exprn_ge0 //; congr (_ * _).
by rewrite sqrCK.
Qed.
Lemma norm_eq0 (v : vec) : (np_norm v == 0) = (v == 0).
Proof.
rewrite sqrtC_eq0 psumr_eq0 => [|i _]; last by rewrite exprn_ge0.
apply/allP/eqP => [h|-> i _]; last by rewrite mxE expf_eq0 normr0 eqxx.
by apply/rowP => i; have := h i; rewrite mem_index_enum mxE expf_eq0 /= normr_eq0 => /(_ isT) /eqP.
Qed.
(* a unit vector has absolute sum at least one *)
Lemma sum_abs_ge1 (v : vec) : np_norm v = 1 -> 1 <= np_sum_abs v.
Proof.
move=> h; have h2 : \sum_i `|v 0 i| ^+ 2 = 1 by rewrite -[LHS]sqrtCK -/(np_norm v) h expr1n.
rewrite -h2; apply: ler_sum => i _; rewrite expr2 ler_pimull //.
have : `|v 0 i| ^+ 2 <= 1 by rewrite -h2 (bigD1 i) //= ler_addl sumr_ge0 // => j _; rewrite exprn_ge0.
by rewrite expr_le1.
Qed.
Lemma sum_abs_max (v : vec) t : (forall i, `|v 0 i| <= t) -> np_sum_abs v <= N * t.
Proof.
move=> h; rewrite mulr_natl; apply: le_trans (ler_sum _ (fun i _ => h i)) _.
by rewrite sumr_const card_ord.
Qed.
Lemma sum_abs_ge0 (v : vec) : 0 <= np_sum_abs v. Proof. by apply: sumr_ge0. Qed.
Lemma sum_abs_split (v w : vec) : 2%:R * np_sum_abs v <= np_sum_abs (v + w) + np_sum_abs (v - w).
Proof.
rewrite /np_sum_abs mulr_sumr -big_split; apply: ler_sum => i _ /=.
rewrite -[2%:R]ger0_norm ?ler0n // -normrM; apply: le_trans (ler_norm_add _ _); rewrite !mxE.
by rewrite addrACA subrr addr0 mulrDl mul1r.
Qed.

Variable mv : vec -> option vec.
Lemma iterationP v o e w : o \is Num.real -> iteration mv v o = Some (e, w) -> exists u, [/\ mv v = Some u, 0 < e - o, u - o *: v = (e - o) *: w & np_norm w = 1].
Proof.
move=> ro; rewrite /iteration; case: (mv v) => // u; case: eqP => // /eqP h0 [<- <-]; exists u; split=> //; rewrite ?addrK.
- by rewrite lt_def h0 norm_ge0.
- by rewrite scalerA mulfV ?scale1r.
- by rewrite norm_scale normrV ?unitfE // ger0_norm ?norm_ge0 // mulVf.
Qed.
Lemma loopP o tol rest v e w : o \is Num.real -> 0 <= tol -> np_norm v = 1 -> power_loop mv o tol rest v = Some (e, w) -> np_norm w = 1 /\ exists w',
  iteration mv w o = Some (e, w') /\ ((forall i, `|(w + w') 0 i| <= tol) \/ (forall i, `|(w - w') 0 i| <= tol)).
Proof.
move=> ro t0; elim: rest v => [|rest ih] v hv /=; case ei : (iteration mv v o) => [[e1 w1]|] //.
  by case: ifP => // /orP h [<- <-]; split=> //; exists w1; split=> //; case: h => /(max_absP _ t0); [left|right].
case: ifP => [/orP h [<- <-]|_]; last by apply: ih; case: (iterationP ro ei) => u [].
by split=> //; exists w1; split=> //; case: h => /(max_absP _ t0); [left|right].
Qed.
Lemma methodP init o tol max_it e w : o \is Num.real -> 0 <= tol -> power_method mv init o tol max_it = Some (e, w) -> np_norm w = 1 /\ exists w',
  iteration mv w o = Some (e, w') /\ ((forall i, `|(w + w') 0 i| <= tol) \/ (forall i, `|(w - w') 0 i| <= tol)).
Proof.
move=> ro t0; rewrite /power_method; case ei : (iteration _ _ _) => [[e1 w1]|] //; apply: loopP => //.
by case: (iterationP ro ei) => u [].
Qed.
(* C84: the result is an eigenpair within the tolerance, or it belongs to the opposite eigenvalue of the shifted matrix in the second stage *)
Definition eigenpair (v u : vec) (l err : C) : Prop := np_norm v = 1 /\ mv v = Some u /\ forall i, `|(u - l *: v) 0 i| <= err.
Lemma residual v o e w (tol : C) : o \is Num.real -> np_norm v = 1 -> iteration mv v o = Some (e, w) -> exists u,
  ((forall i, `|(v - w) 0 i| <= tol) -> eigenpair v u e ((e - o) * tol)) /\ ((forall i, `|(v + w) 0 i| <= tol) -> eigenpair v u (2%:R * o - e) ((e - o) * tol)).
Proof.
move=> ro nv ei; have [u [eu p h nw]] := iterationP ro ei; exists u; have hu : u = o *: v + (e - o) *: w by rewrite -h addrC subrK.
split=> hw; split=> //; split=> // i.
  have -> : u - e *: v = (e - o) *: (w - v) by rewrite hu; apply/rowP => j; rewrite !mxE; fring C.
  by rewrite mxE normrM (gtr0_norm p) ler_pmul2l // -opprB [(- _ : vec) _ _]mxE normrN.
have -> : u - (2%:R * o - e) *: v = (e - o) *: (w + v) by rewrite hu; apply/rowP => j; rewrite !mxE (mulr2n 1); fring C.
by rewrite mxE normrM (gtr0_norm p) ler_pmul2l // addrC.
Qed.
Theorem C84_residual_partial init tol max_it E v : 0 <= tol -> N * tol < 1 -> power_method_LR mv init tol max_it = Some (E, v) -> exists u,
  (0 < E /\ eigenpair v u E (E * tol)) \/
  exists E0 v0 u0, [/\ power_method mv init 0 tol max_it = Some (E0, v0), 0 < E0, eigenpair v0 u0 (- E0) (E0 * tol), 0 < E + E0 &
    eigenpair v u E ((E + E0) * tol) \/ eigenpair v u (- E - 2%:R * E0) ((E + E0) * tol)].
Proof.
move=> t0 nt; rewrite /power_method_LR; case ep : (power_method _ _ 0 _ _) => [[e0 v0]|] //.
have [nv0 [w0 [ei hw]]] := methodP (real0 _) t0 ep; rewrite ei.
have [u0 [rd ra]] := residual tol (real0 _) nv0 ei; have [_ [_ p0 _ _]] := iterationP (real0 _) ei; rewrite subr0 in p0 rd ra.
have small : np_sum_abs (v0 + w0) <= N * tol -> np_sum_abs (v0 - w0) <= N * tol -> False.
  move=> h1 h2; have := le_trans (sum_abs_split v0 w0) (ler_add h1 h2); have -> : N * tol + N * tol = 2%:R * (N * tol) by rewrite [RHS]mulr_natl mulr2n.
  rewrite ler_pmul2l ?ltr0n //.
  by move=> h; have := le_lt_trans (le_trans (sum_abs_ge1 nv0) h) nt; rewrite ltxx.
have rc := real_leVge (ger0_real (sum_abs_ge0 (v0 + w0))) (ger0_real (sum_abs_ge0 (v0 - w0))).
case: ifP => hs; last first.
  have hs' : np_sum_abs (v0 - w0) <= np_sum_abs (v0 + w0) by rewrite real_leNgt ?ger0_real ?sum_abs_ge0 // hs.
  case=> <- <-; exists u0; left; split=> //; case: hw => hw; last exact: rd.
  by case: small; [|apply: le_trans hs' _]; apply: sum_abs_max.
case: hw => hw; last by case: small; [apply: le_trans (ltW hs) _|]; apply: sum_abs_max.
move=> ep2; have ro : - e0 \is Num.real by rewrite realN gtr0_real.
have [nv [w [ei2 hw2]]] := methodP ro t0 ep2; have [u [rd2 ra2]] := residual tol ro nv ei2.
have [_ [_ p _ _]] := iterationP ro ei2; rewrite opprK in p rd2 ra2.
exists u; right; exists e0, v0, u0; split=> //; first by have := ra hw; rewrite mulr0 sub0r.
case: hw2 => h; [right|left]; last exact: rd2.
by have := ra2 h; rewrite mulrN addrC.
Qed.
(* C84: when the spectrum is bounded below by minus the value of the first stage the result is an eigenpair within the tolerance *)
Definition inner (v u : vec) : C := \sum_i (v 0 i)^* * u 0 i.
Lemma inner_norm v : np_norm v = 1 -> inner v v = 1.
Proof. by move=> h; transitivity (np_norm v ^+ 2); [rewrite sqrtCK; apply: eq_bigr => i _; rewrite normCK mulrC | rewrite h expr1n]. Qed.
Theorem C84_bounded_below init tol max_it E v : 0 <= tol -> N * tol < 1 -> power_method_LR mv init tol max_it = Some (E, v) ->
  (forall E0 v0, power_method mv init 0 tol max_it = Some (E0, v0) -> forall x u, mv x = Some u -> - E0 * inner x x <= inner x u) ->
  exists u, (0 < E /\ eigenpair v u E (E * tol)) \/ exists E0 v0, [/\ power_method mv init 0 tol max_it = Some (E0, v0), 0 < E + E0 & eigenpair v u E ((E + E0) * tol)].
Proof.
move=> t0 nt h hb; have [u [hu|[E0 [v0 [u0 [ep p0 h0 p b]]]]]] := C84_residual_partial t0 nt h; exists u; first by left.
right; exists E0, v0; split=> //; case: b => // -[nv [eu hi]]; exfalso.
have := hb _ _ ep _ _ eu; rewrite inner_norm // mulr1 => hl.
pose r := u - (- E - 2%:R * E0) *: v.
have er : inner v u = - E - 2%:R * E0 + inner v r.
  transitivity ((- E - 2%:R * E0) * inner v v + inner v r); last by rewrite (inner_norm nv) mulr1.
  rewrite /inner mulr_sumr -big_split /=; apply: eq_bigr => i _; rewrite /r !mxE (mulr2n 1); fring C.
have hr : `|inner v r| <= (E + E0) * tol * N.
  apply: le_trans (ler_norm_sum _ _ _) _; rewrite mulr_natr.
  have -> : (E + E0) * tol *+ n.+1 = \sum_(i < n.+1) (E + E0) * tol by rewrite sumr_const card_ord.
  apply: ler_sum => i _; rewrite normrM norm_conjC -[X in _ <= X]mul1r; apply: ler_pmul => //.
  have h2 : \sum_i `|v 0 i| ^+ 2 = 1 by rewrite -[LHS]sqrtCK -/(np_norm v) nv expr1n.
  by rewrite -(@expr_le1 _ 2) // -h2 (bigD1 i) //= ler_addl sumr_ge0 // => j _; rewrite exprn_ge0.
have re : inner v r \is Num.real.
  have -> : inner v r = (inner v u + E0) + (E + E0) by rewrite er -[LHS]add0r (mulr2n 1); fring C.
  by apply: realD; [apply: ger0_real; rewrite -[E0]opprK subr_ge0 | apply: gtr0_real].
have := le_trans (real_ler_norm re) hr; move: hl; rewrite er => hl hr'.
have : E + E0 <= (E + E0) * tol * N.
  apply: le_trans hr'; rewrite -subr_ge0; move: hl; rewrite -subr_ge0 (mulr2n 1); congr (0 <= _); fring C.
rewrite -mulrA -{1}[E + E0]mulr1 ler_pmul2l // mulrC => h1; have := le_lt_trans h1 nt; by rewrite ltxx.
Qed.
(* C84: an eigenvector of a positive eigenvalue as start vector is returned with its eigenvalue, whether or not it is the largest one *)
Theorem C84_positive_eigenvector v l tol max_it : 0 < l -> v != 0 -> 0 <= tol -> (forall x, mv (x *: v) = Some (x *: (l *: v))) ->
  power_method_LR mv v tol max_it = Some (l, (np_norm v)^-1 *: v).
Proof.
move=> l0 v0 t0 h; have nv : np_norm v != 0 by rewrite norm_eq0.
have pv : 0 < np_norm v by rewrite lt_def nv norm_ge0.
have it (x : C) : 0 < x -> iteration mv (x *: v) 0 = Some (x * np_norm v * l, (np_norm v)^-1 *: v).
  move=> x0; rewrite /iteration h scale0r subr0 !norm_scale !gtr0_norm //.
  have -> : x * (l * np_norm v) = x * np_norm v * l by fring C.
  rewrite !mulf_eq0 (gt_eqF x0) (negbTE nv) (gt_eqF l0) addr0; congr (Some (_, _)); rewrite !scalerA; congr (_ *: _).
  have x0' : x != 0 by rewrite gt_eqF.
  have l0' : l != 0 by rewrite gt_eqF.
  move: x0' l0' nv; move: (np_norm v) => nv /eqP x1 /eqP l1 /eqP nv1; ffield C; by do ?split.
have zero : np_max_abs (0 : vec) = 0.
  by apply/eqP; rewrite eq_le max_abs_ge0 max_abs_le //= andbT; apply/forallP => i; rewrite mxE normr0.
have i1 := it _ (@ltr01 C); rewrite scale1r mul1r in i1; have i2 := it _ (_ : 0 < (np_norm v)^-1).
rewrite mulVf // mul1r invr_gt0 in i2; have {}i2 := i2 pv.
have lp : power_loop mv 0 tol max_it.-1 ((np_norm v)^-1 *: v) = Some (l, (np_norm v)^-1 *: v).
  by case: (max_it.-1) => [|k] /=; rewrite i2 subrr zero normr0 t0 orbT.
rewrite /power_method_LR /power_method i1 lp i2 subrr; case: ifP => // /(le_lt_trans (sum_abs_ge0 _)).
by rewrite /np_sum_abs big1 ?ltxx // => i _; rewrite mxE normr0.
Qed.
(* ... of a negative eigenvalue makes the method fail *)
Theorem C84_negative_eigenvector_refuted v l tol max_it : l < 0 -> v != 0 -> 0 <= tol -> (forall x, mv (x *: v) = Some (x *: (l *: v))) ->
  power_method_LR mv v tol max_it = None.
Proof.
move=> l0 v0 t0 h; have nv : np_norm v != 0 by rewrite norm_eq0.
have pv : 0 < np_norm v by rewrite lt_def nv norm_ge0.
have l1 : l != 0 by rewrite lt_eqF.
have it (x : C) : 0 < `|x| -> iteration mv (x *: v) 0 = Some (`|x| * np_norm v * - l, (`|x| * np_norm v)^-1 * - x *: v).
  move=> x0; rewrite /iteration h scale0r subr0 !norm_scale (ltr0_norm l0).
  have -> : `|x| * (- l * np_norm v) = `|x| * np_norm v * - l by fring C.
  rewrite !mulf_eq0 (gt_eqF x0) (negbTE nv) oppr_eq0 (negbTE l1) addr0; congr (Some (_, _)); rewrite !scalerA; congr (_ *: _).
  move: (`|x|) x0 nv l1 => y /gt_eqF/negbT/eqP y1 /eqP nv1 /eqP l1; move: (np_norm v) nv1 => m m1; ffield C; do ?split => //.
  by move=> hl; apply: l1; apply: oppr_inj; rewrite oppr0.
have i1 := it 1; rewrite normr1 scale1r !mul1r mulrN1 in i1; have {}i1 := i1 ltr01.
pose w : vec := - (np_norm v)^-1 *: v.
have ex : `|- (np_norm v)^-1| * np_norm v = 1 by rewrite normrN gtr0_norm ?invr_gt0 // mulVf.
have i2 : iteration mv w 0 = Some (- l, - w).
  by rewrite it ?normr_gt0 ?oppr_eq0 ?invr_eq0 // ex invr1 !mul1r scaleNr.
have zero : np_max_abs (0 : vec) = 0.
  by apply/eqP; rewrite eq_le max_abs_ge0 max_abs_le //= andbT; apply/forallP => i; rewrite mxE normr0.
have lp : power_loop mv 0 tol max_it.-1 w = Some (- l, w).
  by case: (max_it.-1) => [|k] /=; rewrite i2 subrr zero normr0 t0.
rewrite /power_method_LR {1}/power_method i1 lp i2 subrr opprK.
have -> : np_sum_abs (0 : vec) < np_sum_abs (w + w).
  have -> : np_sum_abs (0 : vec) = 0 by rewrite /np_sum_abs big1 // => i _; rewrite mxE normr0.
  rewrite lt_def sum_abs_ge0 andbT; apply/negP => /eqP hs.
  have : np_norm w = 1 by rewrite norm_scale ex.
  move/sum_abs_ge1; have := sum_abs_split w (- w); rewrite subrr opprK hs addr0.
  have -> : np_sum_abs (0 : vec) = 0 by rewrite /np_sum_abs big1 // => i _; rewrite mxE normr0.
  rewrite pmulr_rle0 ?ltr0n // => h1 h2; have := le_trans h2 h1; by rewrite ler10.
rewrite /power_method /iteration -[v]scale1r h !scale1r opprK subrr.
have -> : np_norm (0 : vec) == 0 by rewrite norm_eq0.
by [].
Qed.
End Power.
Print Assumptions C84_residual_partial.
Print Assumptions C84_bounded_below.
Print Assumptions C84_positive_eigenvector.
Print Assumptions C84_negative_eigenvector_refuted.
