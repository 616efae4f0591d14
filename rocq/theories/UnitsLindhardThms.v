(* C113: the unit of energy in the Lindhard function. *)
From mathcomp Require Import all_ssreflect all_algebra.
From Verif Require Import Base Fring LindhardModel LindhardThms.
Set Implicit Arguments.
Unset Strict Implicit.
Unset Printing Implicit Defensive.
Import Order.Theory GRing.Theory Num.Theory.
Local Open Scope ring_scope.

Section Units.
Variables (C : numClosedFieldType) (nb : nat) (K : finZmodType) (fermi cosh : C -> C) (u : C).
Add Ring Cring : (fld_rt C).
Local Notation M := 'M[C]_nb.
Hypothesis u0 : 0 < u.
Let uN : u != 0. Proof. by rewrite gt_eqF. Qed.
(* zero, or not below the tolerance in either unit *)
Definition resolved (x : C) : Prop := x = 0 \/ tol C <= `|x| /\ tol C <= `|u * x|.
Lemma resolvedE x : resolved x -> (`|u * x| < tol C) = (`|x| < tol C).
Proof.
case=> [->|[h1 h2]]; first by rewrite mulr0.
have r y : `|y| \is @Num.real C by rewrite normr_real.
by rewrite !real_ltNge ?h1 ?h2 // /tol ?rpredV ?rpredX ?realn.
Qed.
Lemma factor_scale beta idelta w x y : resolved (w + idelta) -> resolved (y - x) ->
  total_factor fermi cosh (beta / u) (u * idelta) (u * w) (u * x) (u * y) = u^-1 * total_factor fermi cosh beta idelta w x y.
Proof.
move=> h1 h2; rewrite /total_factor -mulrDr -mulrBr !resolvedE //.
have e z : u * z * (beta / u) = z * beta by rewrite mulrC mulrA mulfVK // mulrC.
have e' z : 2%:R^-1 * (beta / u) * (u * z) = 2%:R^-1 * beta * z by rewrite !mulrA mulfVK.
rewrite !e e'; case: ifP => _; first by fring C.
by rewrite -mulrDr invfM mulrA [_ / u]mulrC -mulrA.
Qed.
Variables (e : K -> M) (eig eig' : M -> 'rV[C]_nb * M) (beta mu : C).
Hypotheses (he : eigensolver eig) (he' : eigensolver eig') (hh : hermitian e) (hm : mu \is Num.real).
(* C113: the Lindhard function is an inverse energy where the energies are not close to the tolerance *)
Theorem C113_lindhard idelta w q a b c d : resolved (w + idelta) ->
  (forall k i j, resolved ((eig (e (k + q) - mu%:M)).1 0 j - (eig (e k - mu%:M)).1 0 i)) ->
  lindhard_chi00 fermi cosh eig' (fun k => u *: e k) (beta / u) (u * mu) (u * idelta) (u * w) q a b c d = u^-1 * lindhard_chi00 fermi cosh eig e beta mu idelta w q a b c d.
Proof.
move=> hw hr; rewrite !lindhardE mulrA mulr_sumr; congr (_ / _); apply: eq_bigr => k _.
have em k' : u *: e k' - (u * mu)%:M = u *: (e k' - mu%:M) by rewrite scalerBr scale_scalar_mx.
have ru : u^* = u by apply/CrealP; exact: gtr0_real.
have hh' k' : dagger (u *: e k' - (u * mu)%:M) = u *: e k' - (u * mu)%:M.
  by rewrite em -[in RHS](hermitian_mu hh hm k'); apply/matrixP=> i j; rewrite !mxE rmorphM /= ru.
have dc k' : decomposes (u *: e k' - (u * mu)%:M) (u *: (eig (e k' - mu%:M)).1) (eig (e k' - mu%:M)).2.
  have [h1 h2 h3] := he (hermitian_mu hh hm k'); split=> //; first by move=> i; rewrite mxE rpredM // gtr0_real.
  by rewrite em {1}h3 linearZ /= -scalemxAr -scalemxAl.
rewrite (pair_gauge _ a b c d (he' (hh' k)) (dc k) (he' (hh' (k + q))) (dc (k + q))).
rewrite /pair_sum mulr_sumr; apply: eq_bigr => i _; rewrite mulr_sumr; apply: eq_bigr => j _.
have ez (l : 'rV[C]_nb) x : (u *: l) 0 x = u * l 0 x by rewrite mxE.
by rewrite !ez factor_scale // mulrCA.
Qed.
End Units.

Section Refuted.
Variables (C : numClosedFieldType) (fermi cosh : C -> C).
(* two momenta whose energies differ by half the tolerance *)
Definition near (k : 'Z_2) : C := nth 0 [:: 0; tol C / 2%:R] k.
(* C113: the tolerance is absolute: doubling the unit changes the static Lindhard function of two close levels by more than its unit *)
Theorem C113_lindhard_refuted (eig eig' : 'M[C]_1 -> 'rV[C]_1 * 'M[C]_1) : eigensolver eig -> eigensolver eig' ->
  fermi 0 = 2%:R^-1 -> 0 < fermi 8%:R -> cosh 0 = 1 -> (forall x, x \is Num.real -> cosh x \is Num.real) ->
  let beta := 16%:R / tol C in
  lindhard_chi00 fermi cosh eig' (fun k => 2%:R *: (near k)%:M) (beta / 2%:R) 0 0 0 1 0 0 0 0 <> 2%:R^-1 * lindhard_chi00 fermi cosh eig (fun k => (near k)%:M) beta 0 0 0 1 0 0 0 0.
Proof.
move=> he he' f0 f8 c0 cr beta.
have t0 : 0 < tol C by rewrite invr_gt0 exprn_gt0 // ltr0n.
have tN : tol C != 0 by rewrite gt_eqF.
have rn k : near k \is Num.real by rewrite /near; case: k => -[|[|]] //= _; rewrite ?rpred0 // gtr0_real // divr_gt0 // ltr0n.
have -> : lindhard_chi00 fermi cosh eig' (fun k => 2%:R *: (near k)%:M) (beta / 2%:R) 0 0 0 1 0 0 0 0 = lindhard_chi00 fermi cosh eig' (fun k => (2%:R * near k)%:M) (beta / 2%:R) 0 0 0 1 0 0 0 0.
  by rewrite !lindhardE; congr (_ / _); apply: eq_bigr => k _; rewrite !scale_scalar_mx.
rewrite !lindhard1 //; last by move=> k; rewrite rpredM ?realn.
rewrite !big_ord_recl !big_ord0 /near /= !addr0 mulr0 mulrCA divff ?mulr1 ?pnatr_eq0 //.
rewrite /total_factor !addr0 !subr0 !sub0r !normrN normr0 t0 /= !mul0r !mulr0 c0 f0.
have p2 : (0 : C) < 2%:R by rewrite ltr0n.
have e8 : tol C * (beta / 2%:R) = 8%:R.
  by rewrite /beta mulrA mulrCA divff // mulr1 -[16%N]/(8 * 2)%N natrM mulfK // pnatr_eq0.
have c2 : (#|'Z_2|%:R : C)^-1 != 0 by rewrite invr_eq0 pnatr_eq0 card_ord.
rewrite e8 !gtr0_norm ?divr_gt0 // ltxx add0r ltr_pdivr_mulr // ltr_pmulr // ltr1n !mulr1 => h.
set c := cosh (2%:R^-1 * beta * (tol C / 2%:R)) in h.
have b0 : 0 < beta by rewrite divr_gt0 ?ltr0n.
have rc : c \is Num.real.
  apply: cr; by rewrite gtr0_real // mulr_gt0 ?divr_gt0 // mulr_gt0 // invr_gt0.
have h' : (2%:R^-1 - fermi 8%:R) / tol C + (fermi 8%:R - 2%:R^-1) / - tol C = 2%:R^-1 * (beta / 4%:R + beta / (4%:R * c * c)).
  apply: (mulIf c2); rewrite h; exact: mulrA.
have : (2%:R^-1 - fermi 8%:R) / tol C + (fermi 8%:R - 2%:R^-1) / - tol C < 2%:R^-1 * (beta / 4%:R + beta / (4%:R * c * c)); last by rewrite h' ltxx.
apply: (@lt_le_trans _ _ (tol C)^-1).
  have -> : (fermi 8%:R - 2%:R^-1) / - tol C = (2%:R^-1 - fermi 8%:R) / tol C by rewrite invrN mulrN -mulNr opprB.
  rewrite -mulrDl gtr_pmull ?invr_gt0 ?exprn_gt0 ?ltr0n //.
  rewrite addrACA -opprD -[2%:R^-1]div1r -splitr.
  by rewrite gtr_addl oppr_lt0 addr_gt0.
rewrite mulrDr -[X in X <= _]addr0 ler_add //.
  have -> : 2%:R^-1 * (beta / 4%:R) = 2%:R / tol C.
    have -> : beta = 4%:R * (2%:R * (2%:R / tol C)) by rewrite /beta !mulrA -!natrM.
    by rewrite [4%:R * _]mulrC mulfK ?pnatr_eq0 // mulKf // pnatr_eq0.
  by rewrite ler_pmull ?invr_gt0 ?exprn_gt0 ?ltr0n // ler1n.
by rewrite mulr_ge0 ?invr_ge0 ?ler0n // divr_ge0 ?(ltW b0) // -mulrA mulr_ge0 ?ler0n // -expr2 real_exprn_even_ge0.
Qed.
End Refuted.

Print Assumptions C113_lindhard.
Print Assumptions C113_lindhard_refuted.
