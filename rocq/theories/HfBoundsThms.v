(* C67: the chemical potential within the bounds given by the user. *)
From mathcomp Require Import all_ssreflect all_algebra.
From Verif Require Import OperatorModel SymmetryModel HfModel HfSpec HfThms Fring.
Set Implicit Arguments.
Unset Strict Implicit.
Unset Printing Implicit Defensive.
Import GRing.Theory Num.Theory Order.Theory.
Local Open Scope ring_scope.

(* what a bracketing root finder does with one function: a result is a root within the bracket, a bracket with a change of sign gives one, one without raises *)
Definition brackets (C : numClosedFieldType) (brentq : (C -> C) -> C -> C -> option C) (f : C -> C) : Prop :=
  forall a b, a \is Num.real -> b \is Num.real -> a <= b -> [/\ forall x, brentq f a b = Some x -> f x = 0 /\ a <= x <= b, f a <= 0 <= f b -> brentq f a b != None & 0 < f a * f b -> brentq f a b = None].

Section Bounds.
Variables (C : numClosedFieldType) (n : nat) (K : finType).
Local Notation mx := 'M[C]_n.
Variables (eigh : mx -> 'rV[C]_n * mx) (exp : C -> C) (brentq : (C -> C) -> C -> C -> option C) (beta : C) (e_k_MF : K -> mx).
Hypotheses (beta0 : 0 <= beta) (expP : forall x, x \is Num.real -> 0 < exp x) (expM : forall x y, x \is Num.real -> y \is Num.real -> x <= y -> exp x <= exp y).
Hypotheses (hE : forall k, eigh_at eigh (e_k_MF k)).
Local Notation filling mu := (N_tot (update_density_matrix eigh exp beta e_k_MF mu)).
Local Notation target N := (target_function K exp beta (levels eigh e_k_MF) N).
Let targetE N mu : target N mu = filling mu - N.
Proof. by rewrite /target_function density_count. Qed.
Let level_real x : x \in levels eigh e_k_MF -> x \is Num.real.
Proof. by case/allpairsP=> [[k i] /= [_ _ ->]]; have := hE k; rewrite /eigh_at; case: (eigh _) => e V []. Qed.
(* more particles at a higher chemical potential *)
Lemma filling_mono a b : a \is Num.real -> b \is Num.real -> a <= b -> filling a <= filling b.
Proof.
move=> aR bR ab; rewrite !density_count //; apply: ler_wpmul2r; first by rewrite invr_ge0 ler0n.
rewrite !big_seq; apply: ler_sum => x /level_real xR; rewrite /fermi !div1r.
have betaR := ger0_real beta0; have p y : y \is Num.real -> 0 < exp (beta * (x - y)) + 1 by move=> yR; apply: addr_gt0; [apply: expP; rewrite rpredM ?rpredB | exact: ltr01].
rewrite lef_pinv ?posrE ?p // ler_add2r; apply: expM; rewrite ?rpredM ?rpredB //.
by apply: ler_wpmul2l => //; rewrite ler_add2l ler_opp2.
Qed.
(* C67: with bounds given, a filling between the fillings at the bounds is found, by a chemical potential between the bounds that has this filling; *)
Theorem C67_bounds (a b N : C) : a \is Num.real -> b \is Num.real -> a <= b -> brackets brentq (target N) ->
  filling a <= N <= filling b -> exists mu, [/\ update_chemical_potential eigh exp brentq beta (Some a) (Some b) e_k_MF N = Some mu, a <= mu <= b & filling mu = N].
Proof.
move=> aR bR ab br /andP [hA hB]; have [r s _] := br _ _ aR bR ab; rewrite /update_chemical_potential /=.
case e: (brentq _ _ _) s => [mu|] s; last by have : None != None :> option C by apply: s; rewrite !targetE subr_le0 subr_ge0 hA.
by exists mu; have [/eqP + ->] := r _ e; rewrite targetE subr_eq0 => /eqP ->.
Qed.
(* C67: any other one raises. *)
Theorem C67_bounds_raise (a b N : C) : a \is Num.real -> b \is Num.real -> a <= b -> brackets brentq (target N) ->
  N < filling a \/ filling b < N -> update_chemical_potential eigh exp brentq beta (Some a) (Some b) e_k_MF N = None.
Proof.
move=> aR bR ab br h; have [_ _] := br _ _ aR bR ab; apply; have m := filling_mono aR bR ab; rewrite !targetE.
case: h => h; first by apply: mulr_gt0; rewrite subr_gt0 // (lt_le_trans h m).
by rewrite nmulr_rgt0 subr_lt0 // (le_lt_trans m h).
Qed.
(* C67: a missing bound is the lowest or the highest level. *)
Theorem C67_default_bounds (a b : option C) N mu : odflt (minimum (levels eigh e_k_MF)) a \is Num.real -> odflt (maximum (levels eigh e_k_MF)) b \is Num.real -> brackets brentq (target N) ->
  odflt (minimum (levels eigh e_k_MF)) a <= odflt (maximum (levels eigh e_k_MF)) b ->
  update_chemical_potential eigh exp brentq beta a b e_k_MF N = Some mu ->
  [/\ filling mu = N, (if a is Some x then x else minimum (levels eigh e_k_MF)) <= mu & mu <= (if b is Some x then x else maximum (levels eigh e_k_MF))].
Proof.
move=> aR bR br ab e; have [r _ _] := br _ _ aR bR ab; have [/eqP + /andP [h h']] := r _ e; rewrite targetE subr_eq0 => /eqP ->.
by split; [| case: (a) h | case: (b) h'].
Qed.
End Bounds.

(* C67: one level at zero, temperature one, between -1 and 1: fillings from 1/3 to 2/3 *)
Section Case.
Variable C : numClosedFieldType.
Definition half_brentq (f : C -> C) (a b : C) : option C := if 0 < f a * f b then None else Some 0.
Local Notation lev := (fun _ : unit => 0 : 'M[C]_1).
Local Notation fill mu := (N_tot (update_density_matrix (@case_eigh C) (@case_exp C) 1 lev mu)).

Lemma fillE mu : fill mu = (case_exp (- mu) + 1)^-1.
Proof.
rewrite /N_tot big_ord_recl big_ord0 addr0 mxE summxE (big_pred1 tt); last by case.
by rewrite /n_k card_unit invr1 mul1r mxE big_ord_recl big_ord0 /fermi !mxE /= sub0r !mul1r conjC1 mulr1 addr0.
Qed.
Theorem C67_bounds_case : [/\ fill (- 1) = 3%:R^-1, fill 1 = 2%:R / 3%:R, fill 0 = 2%:R^-1,
  brackets half_brentq (target_function [finType of unit] (@case_exp C) 1 (levels (@case_eigh C) lev) 2%:R^-1) &
  update_chemical_potential (@case_eigh C) (@case_exp C) half_brentq 1 (Some (- 1)) (Some 1) lev 2%:R^-1 = Some 0].
Proof.
pose f := target_function [finType of unit] (@case_exp C) 1 (levels (@case_eigh C) lev) 2%:R^-1.
have fE mu : f mu = (case_exp (- mu) + 1)^-1 - 2%:R^-1.
  rewrite -fillE /f /target_function density_count // => _; rewrite /eigh_at /case_eigh; split; first by move=> i; rewrite !mxE real0.
    by rewrite /unitary_mx mul1mx; apply/matrixP=> i j; rewrite !mxE !ord1 conjC1.
  by apply/matrixP=> i j; rewrite mul1mx !mxE big_ord_recl big_ord0 !mxE ?ord1 ?mul0rn ?mulr1n ?mul0r ?addr0.
have c2 : 1 + 1 = 2%:R :> C by rewrite -[1 + 1](natrD _ 1 1).
have f0 : f 0 = 0 by rewrite fE oppr0 case_exp0 c2 subrr.
have fpos x : 0 < x -> 0 < f x.
  move=> x0; rewrite fE subr_gt0 /case_exp oppr_ge0 (lt_geF x0) opprK.
  have h : 0 < (1 + x)^-1 < 1 by rewrite invr_gt0 invf_lt1 ?ltr_addl ?addr_gt0 ?ltr01.
  case/andP: h => h1 h2; rewrite ltf_pinv ?posrE ?addr_gt0 ?ltr01 ?ltr0n // -c2; by rewrite ltr_add2r.
have fneg x : x < 0 -> f x < 0.
  move=> x0; rewrite fE subr_lt0 /case_exp oppr_ge0 (ltW x0) ltf_pinv ?posrE ?ltr0n //; last by rewrite !addr_gt0 ?ltr01 ?oppr_gt0.
  by rewrite -c2 ltr_add2r ltr_addl oppr_gt0.
have br : brackets half_brentq f.
  move=> a b aR bR ab; rewrite /half_brentq; case: ifP => h; split=> //.
  - case: (real_ltgt0P aR) => [a0|a0|ea].
    + by case/andP=> /(lt_le_trans (fpos _ a0)); rewrite ltxx.
    + case: (real_ltgt0P bR) => [b0|b0|e]; first by move: h; rewrite (nmulr_rgt0 _ (fneg _ a0)) => h1; have := lt_trans h1 (fpos _ b0); rewrite ltxx.
      + by case/andP=> _ h1; have := le_lt_trans h1 (fneg _ b0); rewrite ltxx.
      by move: h; rewrite e f0 mulr0 ltxx.
    by move: h; rewrite ea f0 mul0r ltxx.
  move=> x [<-]; split=> //; rewrite real_leNgt ?real0 // [0 <= b]real_leNgt ?real0 //.
  apply/andP; split; apply/negP => h'; move: h; last by rewrite (nmulr_rgt0 _ (fneg _ (le_lt_trans ab h'))) fneg.
  by rewrite mulr_gt0 ?fpos // (lt_le_trans h' ab).
have e3 : 2%:R + 1 = 3%:R :> C by rewrite -(natrD _ 2 1).
split=> //.
- by rewrite fillE opprK /case_exp ler01 c2 e3.
- rewrite fillE /case_exp oppr_ge0 (lt_geF (@ltr01 C)) opprK c2; have t : 2%:R != 0 :> C by rewrite pnatr_eq0.
  have -> : 2%:R^-1 + 1 = 3%:R / 2%:R :> C by rewrite -e3 mulrDl divff // mul1r addrC.
  by rewrite invfM invrK mulrC.
- by rewrite fillE oppr0 case_exp0 c2.
rewrite /update_chemical_potential /half_brentq /= -/f ifF // (nmulr_rgt0 _ (fneg _ _)) ?oppr_lt0 ?ltr01 //.
by apply/negP=> h; have := lt_trans h (fpos _ (@ltr01 C)); rewrite ltxx.
Qed.
End Case.
Print Assumptions C67_bounds.
Print Assumptions C67_bounds_raise.
Print Assumptions C67_default_bounds.
Print Assumptions C67_bounds_case.
