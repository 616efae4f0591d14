(* C82: a case without time-reversal symmetry. *)
From mathcomp Require Import all_ssreflect all_algebra all_field.
From Verif Require Import Base Fring OperatorModel HfModel LindhardThms RetimeThms HfResponseModel HfResponseThms.
Set Implicit Arguments.
Unset Strict Implicit.
Unset Printing Implicit Defensive.
Import Order.TTheory GRing.Theory Num.Theory.
Local Open Scope ring_scope.

(* C82: a two-level system without time-reversal symmetry *)
Section Complex.
Variable C : numClosedFieldType.
Add Ring Cring3 : (fld_rt C).
Add Field Cfield3 : (fld_ft (Num.ClosedField.fieldType C)).
Definition eigh2 (m : 'M[C]_2) : 'rV[C]_2 * 'M[C]_2 :=
  let t := `|m ord_max ord0| in let u := m ord_max ord0 / t in
  (\row_i (if i == ord0 then 1 + t else 1 - t), \matrix_(i, j) ((sqrtC 2%:R)^-1 * (if i == ord0 then 1 else if j == ord0 then u else - u))).
Definition level (t : C) : 'M[C]_2 := \matrix_(i, j) (if i == j then 1 else if i == ord0 then - 'i * t else 'i * t).
Lemma s2 : (sqrtC 2%:R : C)^-1^* = (sqrtC 2%:R)^-1.
Proof. by rewrite geC0_conj // invr_ge0 sqrtC_ge0 ler0n. Qed.
Lemma s22 : (sqrtC 2%:R : C)^-1 * (sqrtC 2%:R)^-1 = 2%:R^-1.
Proof. by rewrite -invfM -expr2 sqrtCK. Qed.
Lemma level_dec t : 0 < t -> decomposes (level t) (eigh2 (level t)).1 (eigh2 (level t)).2.
Proof.
move=> t0; have et : level t ord_max ord0 = 'i * t by rewrite mxE.
have nt : `|'i * t| = t by rewrite normrM normCi mul1r gtr0_norm.
have eu : 'i * t / t = 'i by rewrite mulfK ?gt_eqF.
rewrite /eigh2 et nt eu /=; have ord2 (i : 'I_2) : i = ord0 \/ i = ord_max by case: i => [[|[|//]] h]; [left|right]; apply: val_inj.
have h2 : 2%:R^-1 + 2%:R^-1 = 1 :> C by rewrite -[LHS]mulr2n -[LHS]mulr_natr mulVf ?pnatr_eq0.
have ii : 'i * 'i = -1 :> C by rewrite -expr2 sqrCi.
split=> [i||].
- by rewrite mxE; have tr := gtr0_real t0; case: ifP; rewrite ?realD ?realN ?real1.
- have -> : 1%:M = \matrix_(i, j) (i == j)%:R :> 'M[C]_2 by apply/matrixP => i j; rewrite !mxE.
  apply/matrixP => i j; rewrite [LHS]mxE big_ord_recl big_ord1 !mxE /= !rmorphM s2; set h := (_ : C)^-1.
  have hh : h * h = 2%:R^-1 := s22.
  case: (ord2 i) => ->; case: (ord2 j) => -> /=; rewrite ?rmorph1 ?rmorphN /= ?conjCi.
  + by rewrite !mulr1 hh h2.
  + by rewrite mulr0n; fring C.
  + by rewrite mulr0n; fring C.
  + have -> : h * 'i * (h * - 'i) + h * - 'i * (h * - - 'i) = - ('i * 'i) * (h * h + h * h) by fring C.
    by rewrite ii hh h2 opprK mulr1.
- apply/matrixP => i j; rewrite mul_mx_diag [RHS]mxE big_ord_recl big_ord1 !mxE /= !rmorphM s2; set h := (_ : C)^-1.
  have hh : h * h = 2%:R^-1 := s22.
  case: (ord2 i) => ->; case: (ord2 j) => -> /=; rewrite ?rmorph1 ?rmorphN /= ?conjCi.
  + have -> : h * 1 * (1 + t) * (h * 1) + h * 1 * (1 - t) * (h * 1) = h * h + h * h by fring C.
    by rewrite hh h2.
  + have -> : h * 1 * (1 + t) * (h * - 'i) + h * 1 * (1 - t) * (h * - - 'i) = - 'i * t * (h * h + h * h) by fring C.
    by rewrite hh h2 mulr1.
  + have -> : h * 'i * (1 + t) * (h * 1) + h * - 'i * (1 - t) * (h * 1) = 'i * t * (h * h + h * h) by fring C.
    by rewrite hh h2 mulr1.
  + have -> : h * 'i * (1 + t) * (h * - 'i) + h * - 'i * (1 - t) * (h * - - 'i) = - ('i * 'i) * (h * h + h * h) by fring C.
    by rewrite ii hh h2 opprK mulr1.
Qed.
Definition F2 : 'M[C]_2 := F_ab 'i ord0 ord_max.
Lemma level_shift t eps : level t + eps *: F2 = level (t - eps) /\ level t - eps *: F2 = level (t + eps).
Proof.
have ord2 (i : 'I_2) : i = ord0 \/ i = ord_max by case: i => [[|[|//]] h]; [left|right]; apply: val_inj.
split; apply/matrixP => i j; rewrite !mxE conjCi; case: (ord2 i) => ->; case: (ord2 j) => -> /=; rewrite ?mulr0 ?mulr1 ?addr0 ?add0r; fring C.
Qed.
Lemma level_density exp beta t : 0 < t -> density_of eigh2 exp beta (level t) ord0 ord0 = 2%:R^-1 * (HfModel.fermi exp beta (1 + t) + HfModel.fermi exp beta (1 - t)).
Proof.
move=> t0; have et : level t ord_max ord0 = 'i * t by rewrite mxE.
have nt : `|'i * t| = t by rewrite normrM normCi mul1r gtr0_norm.
rewrite /density_of /eigh2 et nt [LHS]mxE big_ord_recl big_ord1 !mxE /= !mulr1 s2 -s22; fring C.
Qed.
Theorem C82_complex (exp : C -> C) (beta eps w z : C) : 0 < eps -> eps < 1 -> 0 < w -> 0 < z -> w != 1 -> z != 1 ->
  exp (beta * (1 + (1 - eps))) = w / z -> exp (beta * eps) = z -> exp (beta * (1 + (1 + eps))) = w * z -> exp (beta * - eps) = z^-1 ->
  let e := fun _ : unit => level 1 in
  [/\ decomposes (e tt + eps *: F2) (eigh2 (e tt + eps *: F2)).1 (eigh2 (e tt + eps *: F2)).2,
      decomposes (e tt - eps *: F2) (eigh2 (e tt - eps *: F2)).1 (eigh2 (e tt - eps *: F2)).2 &
      induced (compute_chi0_abcd eigh2 exp beta e eps) F2 <> compute_drho_dop eigh2 exp beta e eps F2].
Proof.
move=> e0 e1 w0 z0 w1 z1 x1 x2 x3 x4 e; have tm : 0 < 1 - eps by rewrite subr_gt0.
have tp : 0 < 1 + eps by rewrite addr_gt0 ?ltr01.
have z0' : z != 0 by rewrite gt_eqF.
split; [by rewrite (level_shift _ _).1; apply: level_dec | by rewrite (level_shift _ _).2; apply: level_dec |].
move/C82_antisymmetric_fields_iff/matrixP/(_ ord0 ord0); rewrite [LHS]mxE [RHS]mxE.
have -> : compute_drho_dop eigh2 exp beta e eps (F_ab 'i ord0 ord_max) ord0 ord0 =
  (2%:R * eps)^-1 * (2%:R^-1 * ((z / (w + z) + (z + 1)^-1) - ((w * z + 1)^-1 + z / (1 + z)))).
  rewrite /compute_drho_dop /n_k card_unit invr1 scale1r (big_pred1 tt) => [|[]//].
  rewrite /compute_drho_k_dop (level_shift _ _).1 (level_shift _ _).2 /= [LHS]mxE; congr (_ * _).
  rewrite [LHS]mxE [(- _ : 'M_2) _ _]mxE !level_density // -mulrBr; congr (_ * _).
  have o1 : 1 - (1 - eps) = eps by fring C.
  have o2 : 1 - (1 + eps) = - eps by fring C.
  rewrite o1 o2 {o1 o2}.
  have f1 : w / z + 1 = (w + z) / z by rewrite mulrDl mulfV.
  have f2 : z^-1 + 1 = (1 + z) / z by rewrite mulrDl mulfV // mul1r.
  by rewrite /HfModel.fermi x1 x2 x3 x4 !mul1r f1 f2 !invf_div.
set Y := z / (w + z) + (z + 1)^-1 - ((w * z + 1)^-1 + z / (1 + z)).
have wz : w + z != 0 by rewrite gt_eqF ?addr_gt0.
have z1' : 1 + z != 0 by rewrite gt_eqF ?addr_gt0 ?ltr01.
have wz1 : w * z + 1 != 0 by rewrite gt_eqF ?addr_gt0 ?mulr_gt0 ?ltr01.
have eY : Y = z * (1 - z) * (w - 1) ^+ 2 / ((w + z) * (1 + z) * (w * z + 1)).
  by rewrite /Y expr2 (addrC z); ffield C; do ?split; apply/eqP.
have rY : Y^* = Y.
  have cz := CrealP (gtr0_real z0); have cw := CrealP (gtr0_real w0).
  by rewrite /Y !(rmorphB, rmorphD, rmorphM, fmorphV, rmorph1) /= cz cw.
have re : (2%:R * eps)^-1^* = (2%:R * eps)^-1 by apply/CrealP; rewrite realV realM ?realn // gtr0_real.
have r2 : (2%:R^-1 : C)^* = 2%:R^-1 by apply/CrealP; rewrite realV realn.
rewrite !rmorphM re r2 rY => /eqP; rewrite -addr_eq0 -mulr2n mulrn_eq0 /= !mulf_eq0 !invr_eq0 mulf_eq0 !pnatr_eq0 /= gt_eqF //=.
rewrite eY !mulf_eq0 invr_eq0 !mulf_eq0 !subr_eq0 (negbTE z0') (negbTE w1) (negbTE wz) (negbTE z1') (negbTE wz1) (eq_sym 1) (negbTE z1) //.
Qed.
End Complex.
(* C82: the default step size at inverse temperature 10^9, with the exponential of base two on the integers *)
Theorem C82_complex_refuted : let beta := (default_eps algCnumClosedField)^-1 in let e := fun _ : unit => level (1 : algC) in
  induced (compute_chi0_abcd (@eigh2 _) exg beta e (default_eps _)) (F2 _) <> compute_drho_dop (@eigh2 _) exg beta e (default_eps _) (F2 _).
Proof.
have [N [N1 eN]] : exists N : nat, (1 < N)%N /\ 10%:R ^+ 9 = N%:R :> algC by exists (10 ^ 9)%N; rewrite natrX; split=> //; apply: (@ltn_exp2l 10 0 9).
rewrite /default_eps eN invrK {eN} => e.
have N0 : N%:R != 0 :> algC by rewrite pnatr_eq0; case: N N1 {e}.
have xi (a : int) : exg a%:~R = 2%:R ^ a by have := exgE a 0; rewrite mulr0 addr0 expr0z mulr1.
have two : (2%:R : algC) != 0 by rewrite pnatr_eq0.
have := @C82_complex [numClosedFieldType of algC] exg N%:R (N%:R)^-1 (2%:R ^ (2 * N)%:Z) 2%:R.
have NN : N%:R / N%:R = 1 :> algC by rewrite mulfV.
have pN (a : int) : exg (N%:R * (1 + 1) + a%:~R) = 2%:R ^ (2 * N)%:Z * 2%:R ^ a.
  rewrite -expfzDr // -xi rmorphD /= -(pmulrn) natrM; congr (exg (_ + _)); rewrite mulrC; congr (_ * _).
case=> //.
- by rewrite invr_gt0 ltr0n ltnW.
- by rewrite invf_lt1 ?ltr0n ?ltr1n // ltnW.
- by rewrite -[_ ^ _]/(_ ^+ _) -natrX ltr0n expn_gt0.
- by rewrite ltr0n.
- by rewrite -[_ ^ _]/(_ ^+ _) -natrX (eqr_nat _ _ 1) -[1%N in X in _ != X](expn0 2) eqn_exp2l // muln_eq0 /=; case: (N) N1.
- by rewrite (eqr_nat _ _ 1).
- have -> : N%:R * (1 + (1 - N%:R^-1)) = N%:R * (1 + 1) + (-1)%:~R :> algC by rewrite addrA mulrDr mulrN NN.
  by rewrite pN.
- by rewrite NN -[1]/(1%:~R) xi expr1z.
- have -> : N%:R * (1 + (1 + N%:R^-1)) = N%:R * (1 + 1) + 1%:~R :> algC by rewrite addrA mulrDr NN.
  by rewrite pN expr1z.
by rewrite mulrN NN -[-1]/((-1)%:~R) xi.
Qed.
Print Assumptions C82_complex_refuted.
