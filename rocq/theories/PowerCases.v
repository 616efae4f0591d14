(* C84: the power method returns a positive number for a matrix with negative eigenvalues. *)
From mathcomp Require Import all_ssreflect all_algebra all_field.
From Verif Require Import Base Fring PowerModel PowerThms.
Set Implicit Arguments.
Unset Strict Implicit.
Unset Printing Implicit Defensive.
Import Order.TTheory GRing.Theory Num.Theory.
Local Open Scope ring_scope.

Section Sign.
Variable C : numClosedFieldType.
Add Ring Cring : (fld_rt C).
Add Field Cfield : (fld_ft (Num.ClosedField.fieldType C)).
Definition row2 (x y : C) : 'rV[C]_2 := \row_i (if i == ord0 then x else y).
(* the diagonal matrix with eigenvalues -1 and -10 *)
Definition diag2 (v : 'rV[C]_2) : option 'rV[C]_2 := Some (row2 (- v 0 ord0) (- 10%:R * v 0 ord_max)).
Definition q (x : C) : C := sqrtC (1 + x ^+ 2).
Lemma ord2 (i : 'I_2) : i = ord0 \/ i = ord_max.
Proof. by case: i => [[|[|//]] h]; [left|right]; apply: val_inj. Qed.
Lemma row2_eq (v w : 'rV[C]_2) : v 0 ord0 = w 0 ord0 -> v 0 ord_max = w 0 ord_max -> v = w.
Proof. by move=> h h'; apply/rowP => i; case: (ord2 i) => ->. Qed.
Lemma row20 x y : row2 x y 0 ord0 = x. Proof. by rewrite mxE. Qed.
Lemma row21 x y : row2 x y 0 ord_max = y. Proof. by rewrite mxE. Qed.
Lemma norm2 (x y : C) : np_norm (row2 x y) = sqrtC (`|x| ^+ 2 + `|y| ^+ 2).
Proof. by rewrite /np_norm big_ord_recl big_ord1 row20 (_ : lift _ _ = ord_max) ?row21 //; apply: val_inj. Qed.
Lemma sum2 (v : 'rV[C]_2) : np_sum_abs v = `|v 0 ord0| + `|v 0 ord_max|.
Proof. by rewrite /np_sum_abs big_ord_recl big_ord1 (_ : lift _ _ = ord_max) //; apply: val_inj. Qed.
Lemma max2 (v : 'rV[C]_2) t : 0 <= t -> (`|np_max_abs v| <= t) = (`|v 0 ord0| <= t) && (`|v 0 ord_max| <= t).
Proof.
by move=> t0; apply/(max_absP _ t0)/andP => [h|[h h'] i]; [rewrite !h | case: (ord2 i) => ->].
Qed.
Lemma iteration2 (x y o : C) : let x' := (- 1 - o) * x in let y' := (- 10%:R - o) * y in let nu := sqrtC (`|x'| ^+ 2 + `|y'| ^+ 2) in
  nu != 0 -> iteration diag2 (row2 x y) o = Some (nu + o, row2 (nu^-1 * x') (nu^-1 * y')).
Proof.
move=> x' y' nu h; rewrite /iteration /diag2 row20 row21.
have -> : row2 (- x) (- 10%:R * y) - o *: row2 x y = row2 x' y' by apply: row2_eq; rewrite !mxE /= /x' /y'; fring C.
rewrite norm2 -/nu (negbTE h); congr (Some (_, _)); by apply: row2_eq; rewrite !mxE.
Qed.
Lemma q_ge1 x : 0 <= x -> 1 <= q x.
Proof.
move=> x0; have x2 : 0 <= x ^+ 2 by rewrite exprn_ge0.
by rewrite -[X in X <= _]sqrtC1 /q ler_sqrtC ?nnegrE ?ler01 ?addr_ge0 ?ler_addl ?ler01.
Qed.
Lemma q_le x : 0 <= x -> q x <= 1 + x ^+ 2.
Proof.
move=> x0; have x2 : 0 <= x ^+ 2 by rewrite exprn_ge0.
have p : 0 <= 1 + x ^+ 2 by rewrite addr_ge0.
by rewrite -[X in _ <= X]sqrCK // /q ler_sqrtC ?nnegrE ?exprn_ge0 // [X in _ <= X]expr2 ler_pemulr // ler_addl.
Qed.
Lemma q_mono x y : 0 <= x -> x <= y -> q x <= q y.
Proof.
move=> x0 xy; have y0 := le_trans x0 xy; by rewrite /q ler_sqrtC ?nnegrE ?addr_ge0 ?exprn_ge0 ?ler01 // ler_add2l ler_expn2r.
Qed.
Lemma q_inv x : 0 <= x -> 1 - x ^+ 2 <= (q x)^-1 <= 1.
Proof.
move=> x0; have q1 := q_ge1 x0; have q0 : 0 < q x := lt_le_trans ltr01 q1.
rewrite invf_le1 // q1 andbT -(ler_pmul2r q0) mulVf ?gt_eqF //.
have rx : 1 - x ^+ 2 \is Num.real by rewrite realB ?real1 // ger0_real // exprn_ge0.
have [h|h] := real_leP rx (real0 _); first by apply: le_trans (ler01); rewrite mulr_le0_ge0 // ltW.
apply: le_trans (_ : (1 - x ^+ 2) * (1 + x ^+ 2) <= 1); first by rewrite ler_pmul2l // q_le.
have -> : (1 - x ^+ 2) * (1 + x ^+ 2) = 1 - x ^+ 2 * x ^+ 2 by fring C.
by rewrite ler_subl_addl ler_addr mulr_ge0 ?exprn_ge0.
Qed.
Lemma q_diff x y : 0 <= x <= 1 -> 0 <= y <= 1 -> `|(q x)^-1 - (q y)^-1| <= x + y.
Proof.
case/andP=> x0 x1 /andP[y0 y1]; have /andP[h1 h2] := q_inv x0; have /andP[h3 h4] := q_inv y0.
have rq z : 0 <= z -> (q z)^-1 \is Num.real by move=> z0; rewrite realV ger0_real // (le_trans ler01) // q_ge1.
rewrite real_ler_norml ?realB ?rq //; apply/andP; split.
  rewrite -subr_ge0 opprK; apply: le_trans (_ : 0 <= (1 - x ^+ 2) - 1 + (x + y)) _; last by rewrite ler_add2r ler_add // ler_opp2.
  have -> : 1 - x ^+ 2 - 1 + (x + y) = x * (1 - x) + y by rewrite expr2; fring C.
  by rewrite addr_ge0 // mulr_ge0 // subr_ge0.
apply: le_trans (_ : 1 - (1 - y ^+ 2) <= _); first by rewrite ler_add // ler_opp2.
have -> : 1 - (1 - y ^+ 2) = y * y by rewrite expr2; fring C.
by apply: le_trans (_ : y * 1 <= _); [rewrite ler_wpmul2l | rewrite mulr1 ler_addr].
Qed.
Lemma q_gt0 x : 0 <= x -> 0 < q x. Proof. by move=> x0; apply: lt_le_trans ltr01 (q_ge1 x0). Qed.
Lemma q_part x : 0 <= x -> 0 <= (q x)^-1 * x <= x.
Proof.
move=> x0; have /andP[_ h] := q_inv x0; rewrite mulr_ge0 ?invr_ge0 ?(ltW (q_gt0 x0)) //= -[X in _ <= X]mul1r ler_wpmul2r //.
Qed.
Lemma q_norm1 c x : 0 <= x -> sqrtC (`|c| ^+ 2 + `|c * x| ^+ 2) = `|c| * q x.
Proof.
move=> x0; rewrite normrM (ger0_norm x0) exprMn -[X in X + _]mulr1 -mulrDr /q rootCMl ?exprn_ge0 // sqrCK //.
Qed.
Lemma q_norm2 c x : 0 <= x -> sqrtC (`|c * x| ^+ 2 + `|c| ^+ 2) = `|c| * q x.
Proof. by move=> x0; rewrite addrC q_norm1. Qed.
(* one iteration on c (1, x) without shift, on c (x, 1) with shift - e *)
Lemma first_stage c x : c != 0 -> 0 <= x -> iteration diag2 (row2 c (c * x)) 0 =
  Some (`|c| * q (10%:R * x), row2 (- (c / `|c|) * (q (10%:R * x))^-1) (- (c / `|c|) * ((q (10%:R * x))^-1 * (10%:R * x)))).
Proof.
move=> c0 x0; have x10 : 0 <= 10%:R * x by rewrite mulr_ge0 ?ler0n.
have e1 : (- 1 - 0) * c = - c by fring C.
have e2 : (- 10%:R - 0) * (c * x) = - c * (10%:R * x) by fring C.
have en : sqrtC (`|(- 1 - 0) * c| ^+ 2 + `|(- 10%:R - 0) * (c * x)| ^+ 2) = `|c| * q (10%:R * x) by rewrite e1 e2 q_norm1 // normrN.
have q0 := q_gt0 x10; have := @iteration2 c (c * x) 0; rewrite /= en e1 e2 addr0 => ->; last by rewrite mulf_neq0 ?normr_eq0 // gt_eqF.
by congr (Some (_, _)); apply: row2_eq; rewrite ?row20 ?row21 invfM; fring C.
Qed.
Lemma second_stage e c x : 1 <= e -> e < 10%:R -> c != 0 -> 0 <= x -> let k := (e - 1) / (10%:R - e) in forall s, s = 1 \/ s = -1 ->
  iteration diag2 (row2 (c * (s * x)) c) (- e) =
  Some (`|c| * (10%:R - e) * q (k * x) - e, row2 (- (c / `|c|) * ((q (k * x))^-1 * (- s * (k * x)))) (- (c / `|c|) * (q (k * x))^-1)).
Proof.
move=> e1 e10 c0 x0 k s hs; have p : 0 < 10%:R - e by rewrite subr_gt0.
have k0 : 0 <= k by rewrite mulr_ge0 ?subr_ge0 // invr_ge0 ltW.
have kx : 0 <= k * x by rewrite mulr_ge0.
have f2 : (- 10%:R - - e) * c = - c * (10%:R - e) by fring C.
have ek : e - 1 = k * (10%:R - e) by rewrite divfK // gt_eqF.
have f1 : (- 1 - - e) * (c * (s * x)) = - c * (10%:R - e) * (- s * (k * x)).
  have -> : - 1 - - e = k * (10%:R - e) by rewrite -ek; fring C.
  by fring C.
have ns y : `|- c * (10%:R - e) * (- s * y)| = `|- c * (10%:R - e) * y|.
  by case: hs => ->; rewrite ?opprK ?mul1r // mulN1r mulrN normrN.
have en : sqrtC (`|(- 1 - - e) * (c * (s * x))| ^+ 2 + `|(- 10%:R - - e) * c| ^+ 2) = `|c| * (10%:R - e) * q (k * x).
  by rewrite f1 f2 ns q_norm2 // normrM normrN (gtr0_norm p).
have q0 := q_gt0 kx; have := @iteration2 (c * (s * x)) c (- e); rewrite /= en f1 f2 => ->; last by rewrite gt_eqF // mulr_gt0 // mulr_gt0 // normr_gt0.
have p0 : 10%:R - e != 0 by rewrite gt_eqF.
have cu (y z : C) : y = (10%:R - e)^-1 * (10%:R - e) * z -> y = z by move=> ->; rewrite mulVf // mul1r.
by congr (Some (_, _)); apply: row2_eq; rewrite ?row20 ?row21 !invfM; apply: cu; fring C.
Qed.
Lemma abs_diff (x y : C) : 0 <= x -> 0 <= y -> `|x - y| <= x + y.
Proof. by move=> x0 y0; apply: le_trans (ler_norm_sub _ _) _; rewrite !ger0_norm. Qed.
Lemma abs_diff_lt (x y : C) : 0 < x -> 0 < y -> `|x - y| < x + y.
Proof.
move=> x0 y0; rewrite real_ltr_norml ?realB ?gtr0_real //.
apply/andP; split; rewrite -subr_gt0.
  have -> : x - y - - (x + y) = x + x by fring C.
  by rewrite addr_gt0.
have -> : x + y - (x - y) = y + y by fring C.
by rewrite addr_gt0.
Qed.
(* C84: for every tolerance up to 1/10 there is a start vector, not an eigenvector, from which the method returns a positive number, though the
   eigenvalues are -1 and -10 *)
Theorem C84_sign_refuted tol max_it : 0 < tol -> 10%:R * tol <= 1 ->
  (forall l v, v != 0 -> diag2 v = Some (l *: v) -> l = -1 \/ l = - 10%:R) /\
  exists init E v, power_method_LR diag2 init tol max_it = Some (E, v) /\ 0 < E.
Proof.
move=> tol0 tol1; split.
  move=> l v v0 [h]; have h0 : - v 0 ord0 = l * v 0 ord0 by have := congr1 (fun u : 'rV_2 => u 0 ord0) h; rewrite row20 mxE.
  have h1 : - 10%:R * v 0 ord_max = l * v 0 ord_max by have := congr1 (fun u : 'rV_2 => u 0 ord_max) h; rewrite row21 mxE.
  have [z|/eqP z] := v 0 ord0 =P 0; last by left; apply: (mulIf z); rewrite -h0 mulN1r.
  have [z'|/eqP z'] := v 0 ord_max =P 0; last by right; apply: (mulIf z'); rewrite -h1.
  by case/eqP: v0; apply: row2_eq; rewrite mxE.
pose T : C := 10%:R; pose t := tol / (2%:R * T ^+ 4).
have T1 : 1 <= T by rewrite ler1n.
have T0 : 0 < T := lt_le_trans ltr01 T1.
have D0 : 0 < 2%:R * T ^+ 4 by rewrite mulr_gt0 ?ltr0n // exprn_gt0.
have t0 : 0 < t by rewrite divr_gt0.
have tE : tol = 2%:R * (T ^+ 4 * t) by rewrite mulrA mulrC divfK // gt_eqF.
have tol_le1 : tol <= 1 by apply: le_trans tol1; rewrite ler_pemull // ltW.
have t4 : T ^+ 4 * t + T ^+ 4 * t = tol by rewrite tE mulr_natl mulr2n.
have t4pos : 0 < T ^+ 4 * t by rewrite mulr_gt0 // exprn_gt0.
pose a := T * t; pose b := T * a.
have a0 : 0 < a by rewrite mulr_gt0.
have b0 : 0 < b by rewrite mulr_gt0.
have le4 n : (n <= 4)%N -> T ^+ n * t <= T ^+ 4 * t by move=> h; rewrite ler_pmul2r // ler_weexpn2l.
have ab : a + b <= tol.
  rewrite -t4; apply: ler_add; first by have := le4 1%N isT; rewrite expr1.
  by have := le4 2%N isT; rewrite expr2 /b /a mulrA.
have a1 : a <= 1 by apply: le_trans (le_trans ab tol_le1); rewrite ler_addl ltW.
have b1 : b <= 1 by apply: le_trans (le_trans ab tol_le1); rewrite ler_addr ltW.
have qa := q_gt0 (ltW a0); have qb := q_gt0 (ltW b0).
pose e := (q a)^-1 * q b.
have abl : a <= b by rewrite /b ler_pemull // ltW.
have e1 : 1 <= e by rewrite /e -(@ler_pmul2l _ (q a)) // mulr1 mulrA mulfV ?gt_eqF // mul1r q_mono // ltW.
have eb : e <= 1 + b ^+ 2.
  apply: le_trans (q_le (ltW b0)); rewrite /e -[X in _ <= X]mul1r ler_pmul2r //.
  by have /andP[] := q_inv (ltW a0).
have b21 : b ^+ 2 <= 1 by rewrite expr_le1 // ltW.
have e2 : e <= 2%:R by apply: le_trans eb _; rewrite mulr2n ler_add2l.
have e8 : 8%:R <= 10%:R - e.
  by rewrite ler_subr_addr (_ : (10%:R : C) = 8%:R + 2%:R) ?ler_add2l // -natrD.
have e80 : (0 : C) < 10%:R - e by apply: lt_le_trans e8; rewrite ltr0n.
have e10 : e < 10%:R by rewrite -subr_gt0.
pose k := (e - 1) / (10%:R - e).
have k0 : 0 <= k by rewrite mulr_ge0 ?subr_ge0 // invr_ge0 ltW.
have kb : k <= b ^+ 2.
  rewrite /k ler_pdivr_mulr //; apply: le_trans (_ : b ^+ 2 * 1 <= _); first by rewrite mulr1 ler_subl_addl.
  by rewrite ler_wpmul2l ?exprn_ge0 ?(ltW b0) // (le_trans _ e8) // ler1n.
pose r := k * t^-1; pose s := k * r.
have r0 : 0 <= r by rewrite mulr_ge0 // invr_ge0 ltW.
have s0 : 0 <= s by rewrite mulr_ge0.
have rt : r <= T ^+ 4 * t.
  rewrite /r ler_pdivr_mulr //; apply: le_trans kb _.
  by have -> : b ^+ 2 = T ^+ 4 * t * t by rewrite /b /a !exprS !expr0; fring C.
have sr : s <= r by rewrite /s -[X in _ <= X]mul1r ler_wpmul2r // (le_trans kb).
have rs : r + s <= tol by rewrite -t4 ler_add // (le_trans sr).
have r1 : r <= 1 by apply: le_trans (le_trans rs tol_le1); rewrite ler_addl.
have s1 : s <= 1 := le_trans sr r1.
have qr := q_gt0 r0; have qs := q_gt0 s0.
have dv (x : C) : 0 < x -> - x / `|- x| = -1 by move=> x0; rewrite normrN gtr0_norm // mulNr mulfV // gt_eqF.
have dv' (x : C) : 0 < x -> x / `|x| = 1 by move=> x0; rewrite gtr0_norm // mulfV // gt_eqF.
pose v1 := row2 (- (q a)^-1) (- (q a)^-1 * a); pose v2 := row2 (q b)^-1 ((q b)^-1 * b).
have i1 : iteration diag2 (row2 1 t) 0 = Some (q a, v1).
  have := first_stage (oner_neq0 C) (ltW t0); rewrite mul1r -/T -/a normr1 divr1 mul1r => ->.
  by congr (Some (_, _)); apply: row2_eq; rewrite ?row20 ?row21 ?mulN1r // mulNr.
have qa' : 0 < (q a)^-1 by rewrite invr_gt0.
have qb' : 0 < (q b)^-1 by rewrite invr_gt0.
have i2 : iteration diag2 v1 0 = Some (e, v2).
  have nz : - (q a)^-1 != 0 by rewrite oppr_eq0 gt_eqF.
  rewrite (first_stage nz (ltW a0)) -/T -/b dv // opprK normrN gtr0_norm //.
  by congr (Some (_, _)); apply: row2_eq; rewrite ?row20 ?row21 mul1r.
have c1 : `|np_max_abs (v1 + v2)| <= tol.
  rewrite max2 ?(ltW tol0) // !mxE /=; apply/andP; split.
    by rewrite addrC; apply: le_trans (q_diff _ _) _; rewrite ?(ltW a0) ?(ltW b0) //= addrC.
  have /andP[ha ha'] := q_part (ltW a0); have /andP[hb hb'] := q_part (ltW b0).
  rewrite mulNr addrC; apply: le_trans (abs_diff hb ha) _; apply: le_trans ab; by rewrite addrC ler_add.
have p1 rest : power_loop diag2 0 tol rest v1 = Some (e, v1) by case: rest => [|rest] /=; rewrite i2 c1.
have cs : np_sum_abs (v1 + v2) < np_sum_abs (v1 - v2).
  rewrite !sum2 !mxE /=; apply: ltr_le_add.
    rewrite addrC -opprD [X in _ < X]normrN [X in _ < X]ger0_norm ?addr_ge0 ?(ltW qa') ?(ltW qb') //.
    by rewrite [X in _ < X]addrC; apply: abs_diff_lt.
  have /andP[ha _] := q_part (ltW a0); have /andP[hb _] := q_part (ltW b0).
  rewrite !mulNr -opprD [X in _ <= X]normrN [X in _ <= X]ger0_norm ?addr_ge0 //.
  by rewrite addrC [X in _ <= X]addrC abs_diff.
pose w1 := row2 ((q r)^-1 * r) (- (q r)^-1); pose w2 := row2 ((q s)^-1 * s) (q s)^-1.
have i3 : exists f, iteration diag2 (row2 1 t) (- e) = Some (f, w1).
  have := second_stage e1 e10 (lt0r_neq0 t0) (_ : 0 <= t^-1) (or_introl (erefl 1)).
  rewrite mul1r mulfV ?gt_eqF // -/k -/r dv' // => ->; last by rewrite invr_ge0 ltW.
  by eexists; congr (Some (_, _)); apply: row2_eq; rewrite ?row20 ?row21; fring C.
have qr' : 0 < (q r)^-1 by rewrite invr_gt0.
have i4 : iteration diag2 w1 (- e) = Some ((q r)^-1 * (10%:R - e) * q s - e, w2).
  have nz : - (q r)^-1 != 0 by rewrite oppr_eq0 gt_eqF.
  have := second_stage e1 e10 nz r0 (or_intror (erefl (-1))).
  rewrite -/k -/s dv // normrN gtr0_norm // opprK mul1r mulN1r mulrNN => ->.
  by congr (Some (_, _)); apply: row2_eq; rewrite ?row20 ?row21; fring C.
have c2 : `|np_max_abs (w1 + w2)| <= tol.
  rewrite max2 ?(ltW tol0) // !mxE /=; apply/andP; split.
    have /andP[ha ha'] := q_part r0; have /andP[hb hb'] := q_part s0.
    by rewrite ger0_norm ?addr_ge0 //; apply: le_trans rs; apply: ler_add.
  by rewrite addrC; apply: le_trans (q_diff _ _) _; rewrite ?r0 ?s0 //= addrC.
have p2 rest : power_loop diag2 (- e) tol rest w1 = Some ((q r)^-1 * (10%:R - e) * q s - e, w1) by case: rest => [|rest] /=; rewrite i4 c2.
exists (row2 1 t), ((q r)^-1 * (10%:R - e) * q s - e), w1; split.
  by rewrite /power_method_LR /power_method i1 p1 i2 cs; case: i3 => f ->; rewrite p2.
rewrite subr_gt0; apply: le_lt_trans e2 _; apply: lt_le_trans (_ : 2%:R^-1 * 8%:R * 1 <= _).
  by rewrite mulr1 mulrC ltr_pdivl_mulr ?ltr0n // -natrM ltr_nat.
apply: ler_pmul; [by rewrite mulr_ge0 ?invr_ge0 ?ler0n | exact: ler01 | | exact: q_ge1]; apply: ler_pmul; rewrite ?invr_ge0 ?ler0n //.
rewrite lef_pinv ?posrE ?ltr0n //; apply: le_trans (q_le r0) _; by rewrite mulr2n ler_add2l expr_le1.
Qed.
End Sign.
Theorem C84_sign_refuted_case max_it : exists init E v, power_method_LR (@diag2 [numClosedFieldType of algC]) init 10%:R^-1 max_it = Some (E, v) /\ 0 < E.
Proof.
have h : (0 : algC) < 10%:R^-1 by rewrite invr_gt0 ltr0n.
by case: (@C84_sign_refuted [numClosedFieldType of algC] 10%:R^-1 max_it h _) => //; rewrite mulfV // pnatr_eq0.
Qed.
Print Assumptions C84_sign_refuted.
Print Assumptions C84_sign_refuted_case.
