(* C110: susceptibilities on the Matsubara axis. *)
From mathcomp Require Import all_ssreflect all_algebra.
From Verif Require Import Base MatAlg Fring Spectral LindhardModel LindhardThms MpiModel MpiSpec RpaModel RpaSpec RpaProofs RpaThms RpaSymThms RpaStabThms.
Set Implicit Arguments.
Unset Strict Implicit.
Unset Printing Implicit Defensive.
Import Order.TTheory GRing.Theory Num.Theory.
Local Open Scope ring_scope.

Section Spec.
Variables (C : numClosedFieldType) (nb : nat).
(* the response is not negative, up to a phase shift smaller than a quarter of a period *)
Definition accretive (X : tensor4 C nb) : Prop := forall x, 0 <= 'Re (response X x).
(* two levels of the shifted dispersion are equal or differ by more than the tolerance of the code *)
Definition separated (K : Type) (eig : 'M[C]_nb -> 'rV[C]_nb * 'M[C]_nb) (e : K -> 'M[C]_nb) mu : Prop :=
  forall k k' i j, let x := (eig (e k - mu%:M)).1 0 i in let y := (eig (e k' - mu%:M)).1 0 j in x = y \/ tol C <= `|y - x|.
End Spec.

Section Mx.
Variables (C : numClosedFieldType) (n : nat) (N A : 'M[C]_n).
Hypotheses (pN : forall v, 0 <= 'Re (qf N v)) (hA : hc A = A) (nA : forall v, qf A v <= 0).
Lemma accretive_unit : 1%:M - N *m A \in unitmx.
Proof.
apply/negPn/negP => un.
have : row_free (1%:M - N *m A)^T = false by rewrite row_free_unit unitmx_tr; apply: negbTE.
rewrite -kermx_eq0 => /negbT /matrix0Pn [i [j hij]].
pose v : 'cV[C]_n := (row i (kermx (1%:M - N *m A)^T))^T.
have v0 : v j 0 != 0 by rewrite mxE mxE.
have kv : v = N *m (A *m v).
  have : (1%:M - N *m A) *m v = 0.
    by apply: trmx_inj; rewrite trmx_mul trmxK -row_mul mulmx_ker row0 trmx0.
  by rewrite mulmxBl mul1mx -mulmxA => /eqP; rewrite subr_eq0 => /eqP.
have qe : qf N (A *m v) = qf A v by rewrite /qf hcM hA -!mulmxA -kv !mulmxA.
have q0 : qf A v = 0.
  apply/eqP; rewrite eq_le nA /=; have := pN (A *m v); rewrite qe; suff -> : 'Re (qf A v) = qf A v by [].
  exact/Creal_ReP/ler0_real.
have pA : psd (- A) by move=> w; rewrite /qf mulmxN mulNmx mxE oppr_ge0; apply: nA.
have qA : qf (- A) v = 0 by rewrite /qf mulmxN mulNmx mxE; move: q0; rewrite /qf => ->; rewrite oppr0.
have := psd_kernel pA qA; rewrite mulNmx => /eqP; rewrite oppr_eq0 => /eqP z.
by move: v0; rewrite kv z mulmx0 mxE eqxx.
Qed.
Lemma accretive_ladder v : 0 <= 'Re (qf (invmx (1%:M - N *m A) *m N) v).
Proof.
have un := swap_unit accretive_unit; rewrite -[v](mulKVmx un); move: (invmx _ *m v) => {v} u.
have -> : qf (invmx (1%:M - N *m A) *m N) ((1%:M - A *m N) *m u) = qf N u - qf A (N *m u).
  rewrite /qf push_total -!mulmxA (mulmxA (invmx _)) mulVmx // mul1mx.
  by rewrite hcM hcB hc1 hcM hA mulmxBr mulmx1 mulmxBl [LHS]mxE [X in _ + X]mxE hcM !mulmxA.
by rewrite raddfB /= (Creal_ReP _ (ler0_real (nA _))) addr_ge0 ?oppr_ge0.
Qed.
End Mx.

Section Point.
Variables (C : numClosedFieldType) (nb : nat).
Local Notation S := (Smx C nb).
Lemma accretive_point (X U : tensor4 C nb) : accretive X -> reducing U -> nonsingular X U /\ accretive (rpa_point U X).
Proof.
move=> pX hU; have nA v : qf (S *m tmat U) v <= 0 by rewrite -[v]unvecK -energyE.
have hA : hc (S *m tmat U) = S *m tmat U by apply: real_energy => x; apply: ler0_real.
have pN v : 0 <= 'Re (qf (tmat X *m S) v) by rewrite -[v]unvecK -responseE.
split; first exact/denomN/accretive_unit.
by move=> x; rewrite responseE rpaN; apply: accretive_ladder.
Qed.
End Point.

Section Lindhard.
Variables (C : numClosedFieldType) (nb : nat) (K : finZmodType) (fermi cosh : C -> C).
Local Notation M := 'M[C]_nb.
Variables (e : K -> M) (beta mu : C) (eig : M -> 'rV[C]_nb * M).
Hypotheses (he : eigensolver eig) (hh : hermitian e) (hm : mu \is Num.real) (hb : 0 <= beta) (hc : real_function cosh).
Hypothesis hf : forall x y, x \is Num.real -> y \is Num.real -> x <= y -> fermi y <= fermi x.
Local Notation chi := (lindhard_chi00 fermi cosh eig e beta mu 0).
Lemma factor_Re nu x y : nu \is Num.real -> tol C <= `|nu| -> x \is Num.real -> y \is Num.real ->
  'Re (total_factor fermi cosh beta 0 ('i * nu) x y) = (fermi (x * beta) - fermi (y * beta)) * (y - x) / (nu ^+ 2 + (y - x) ^+ 2).
Proof.
move=> rn tn rx ry; have rd : y - x \is Num.real by rewrite rpredB.
have rf : fermi (x * beta) - fermi (y * beta) \is Num.real.
  have rb : beta \is Num.real by apply: ger0_real.
  have /orP[h|h] := real_leVge rx ry.
    by apply: ger0_real; rewrite subr_ge0 hf ?rpredM // ler_wpmul2r.
  by apply: ler0_real; rewrite subr_le0 hf ?rpredM // ler_wpmul2r.
have rtol : tol C \is Num.real by rewrite /tol rpredV rpredX ?realn.
rewrite /total_factor addr0 normrM normCi mul1r real_ltNge ?normr_real ?rtol // tn /= ReMl // -mulrA; congr (_ * _).
have e2 : `|'i * nu + (y - x)| ^+ 2 = nu ^+ 2 + (y - x) ^+ 2 by rewrite addrC normC2_rect // addrC.
by rewrite invC_norm ReMl ?rpredV ?rpredX ?normr_real // Re_conj e2 [X in 'Re X]addrC Re_rect // mulrC.
Qed.
Lemma dn_de x y : x \is Num.real -> y \is Num.real -> 0 <= (fermi (x * beta) - fermi (y * beta)) * (y - x).
Proof.
move=> rx ry; have rb : beta \is Num.real by apply: ger0_real.
have /orP[h|h] := real_leVge rx ry.
  by rewrite mulr_ge0 // subr_ge0 // hf ?rpredM // ler_wpmul2r.
by rewrite mulr_le0 // subr_le0 // hf ?rpredM // ler_wpmul2r.
Qed.
(* the weight of a transition in the response of the pair k, k + q *)
Definition weight q x k i j : C := `|\sum_a \sum_b (x a b)^* * (eig (e k - mu%:M)).2 a i * ((eig (e (k + q) - mu%:M)).2 b j)^*| ^+ 2.
Lemma weight_ge0 q x k i j : 0 <= weight q x k i j.
Proof. by rewrite exprn_ge0. Qed.
Lemma lindhard_response w q x : response (chi w q) x =
  (\sum_k \sum_i \sum_j total_factor fermi cosh beta 0 w ((eig (e k - mu%:M)).1 0 i) ((eig (e (k + q) - mu%:M)).1 0 j) * weight q x k i j) / #|K|%:R.
Proof.
rewrite (response_eq (Y := fun a b c d => (\sum_k pair_sum (total_factor fermi cosh beta 0 w) (eig (e k - mu%:M)).1 (eig (e k - mu%:M)).2
     (eig (e (k + q) - mu%:M)).1 (eig (e (k + q) - mu%:M)).2 a b c d) / #|K|%:R)); last by move=> a b c d; rewrite lindhardE.
by rewrite response_sum; congr (_ / _); apply: eq_bigr => k _; rewrite pair_response.
Qed.
Lemma lindhard_Re w q x : 'Re (response (chi w q) x) =
  (\sum_k \sum_i \sum_j 'Re (total_factor fermi cosh beta 0 w ((eig (e k - mu%:M)).1 0 i) ((eig (e (k + q) - mu%:M)).1 0 j)) * weight q x k i j) / #|K|%:R.
Proof.
rewrite lindhard_response ReMr ?rpredV ?realn //; congr (_ / _).
rewrite raddf_sum; apply: eq_bigr => k _; rewrite raddf_sum; apply: eq_bigr => i _; rewrite raddf_sum; apply: eq_bigr => j _.
by rewrite /= ReMr // ger0_real // weight_ge0.
Qed.
Lemma level_real k i : (eig (e k - mu%:M)).1 0 i \is Num.real.
Proof. by have [rl _ _] := he (hermitian_mu hh hm k). Qed.
Lemma tol_gt0 : 0 < tol C.
Proof. by rewrite /tol invr_gt0 exprn_gt0 ?ltr0n. Qed.
Lemma static_Re x y : x \is Num.real -> y \is Num.real -> 'Re (total_factor fermi cosh beta 0 0 x y) = total_factor fermi cosh beta 0 0 x y.
Proof. by move=> rx ry; apply/Creal_ReP/ger0_real/factor_ge0. Qed.
(* C110: the response on the Matsubara axis has a positive real part *)
Theorem C110_positive nu q : nu \is Num.real -> nu = 0 \/ tol C <= `|nu| -> accretive (chi ('i * nu) q).
Proof.
move=> rn hn x; rewrite lindhard_Re divr_ge0 ?ler0n //; apply: sumr_ge0 => k _; apply: sumr_ge0 => i _; apply: sumr_ge0 => j _.
rewrite mulr_ge0 ?weight_ge0 //; have [r1 r2] := (level_real k i, level_real (k + q) j).
case: hn => [->|tn]; first by rewrite mulr0 static_Re //; apply: factor_ge0.
by rewrite factor_Re // divr_ge0 ?dn_de // addr_ge0 // real_exprn_even_ge0 // rpredB.
Qed.
(* C110: it decreases with the frequency *)
Theorem C110_decreasing nu nu' q x : nu \is Num.real -> nu' \is Num.real -> tol C <= `|nu| -> `|nu| <= `|nu'| ->
  'Re (response (chi ('i * nu') q) x) <= 'Re (response (chi ('i * nu) q) x).
Proof.
move=> rn rn' tn hn; rewrite !lindhard_Re ler_wpmul2r ?invr_ge0 ?ler0n //.
apply: ler_sum => k _; apply: ler_sum => i _; apply: ler_sum => j _; rewrite ler_wpmul2r ?weight_ge0 //.
have [r1 r2] := (level_real k i, level_real (k + q) j).
rewrite !factor_Re ?(le_trans tn hn) // ler_wpmul2l ?dn_de //.
have n0 : 0 < nu ^+ 2 by rewrite -real_normK // exprn_gt0 // (lt_le_trans tol_gt0 tn).
have n1 : nu ^+ 2 <= nu' ^+ 2 by rewrite -[nu ^+ 2]real_normK // -[nu' ^+ 2]real_normK // ler_expn2r ?nnegrE.
have d0 : 0 <= ((eig (e (k + q) - mu%:M)).1 0 j - (eig (e k - mu%:M)).1 0 i) ^+ 2 by rewrite real_exprn_even_ge0 // rpredB.
rewrite lef_pinv ?posrE ?ltr_paddr ?ler_add2r //; exact: lt_le_trans n0 n1.
Qed.
(* C110: and stays below the static response *)
Theorem C110_static nu q x : separated eig e mu -> nu \is Num.real -> tol C <= `|nu| ->
  'Re (response (chi ('i * nu) q) x) <= response (chi 0 q) x.
Proof.
move=> sp rn tn; have rs : response (chi 0 q) x \is Num.real by apply/ger0_real/(C107_lindhard he hh hm hb hc hf).
rewrite -[X in _ <= X](Creal_ReP _ rs) !lindhard_Re ler_wpmul2r ?invr_ge0 ?ler0n //.
apply: ler_sum => k _; apply: ler_sum => i _; apply: ler_sum => j _; rewrite ler_wpmul2r ?weight_ge0 //.
have [r1 r2] := (level_real k i, level_real (k + q) j).
have := sp k (k + q) i j; move: r1 r2; set u := (eig (e k - _)).1 0 i; set v := (eig _).1 0 j => r1 r2 /= [uv|td].
  by rewrite factor_Re // -uv !subrr !mul0r static_Re // uv; apply: factor_ge0; rewrite -?uv.
have n0 : 0 < nu ^+ 2 by rewrite -real_normK // exprn_gt0 // (lt_le_trans tol_gt0 tn).
have rd : v - u \is Num.real by rewrite rpredB.
have d0 : 0 < (v - u) ^+ 2 by rewrite -real_normK // exprn_gt0 // (lt_le_trans tol_gt0 td).
have dn0 : v - u != 0 by rewrite -normr_gt0 (lt_le_trans tol_gt0 td).
have rtol : tol C \is Num.real by rewrite realE ltW // tol_gt0.
have -> : 'Re (total_factor fermi cosh beta 0 0 u v) = (fermi (u * beta) - fermi (v * beta)) * (v - u) / (v - u) ^+ 2.
  by rewrite static_Re // /total_factor !addr0 [X in _ && X]real_ltNge ?normr_real // td andbF add0r expr2 invfM mulrA mulfK.
by rewrite factor_Re // ler_wpmul2l ?dn_de // lef_pinv ?posrE ?addr_gt0 // ler_addr ltW.
Qed.
(* C110: RPA with a reducing interaction exists at every frequency and keeps the sign *)
Theorem C110_rpa (Id : eqType) nranks sched ws (i : Id) (U : tensor4 C nb) nu q :
  let chi0 := ChiWK ws (enum K) i chi in let chi' := solve_rpa_PH nranks sched chi0 U in
  fair_run nranks ws (enum K) sched -> 'i * nu \in ws -> nu \is Num.real -> nu = 0 \/ tol C <= `|nu| -> reducing U ->
  nonsingular (chi_dat chi0 ('i * nu) q) U /\ accretive (chi_dat chi' ('i * nu) q).
Proof.
move=> chi0 chi' fs hw rn hn hU; have hq : q \in kmesh chi0 by rewrite mem_enum.
have [ns ac] := accretive_point (C110_positive q rn hn) hU; split=> //.
by move=> x; rewrite (response_eq (Y := rpa_point U (chi_dat chi0 ('i * nu) q))); [by apply: ac | have h := solveE (chi0 := chi0) U fs hw hq; apply: h].
Qed.
End Lindhard.

(* a case: the response z of every pair of orbitals is reduced to z / (1 + u z) *)
Section Case.
Variables (C : numClosedFieldType) (nb : nat).
Theorem C110_case (z u : C) : 0 <= 'Re z -> 0 <= u -> let X : tensor4 C nb := fun a b c d => z * case_X C a b c d in
  [/\ accretive X, reducing (@case_U C nb (- u)) & forall x, response (rpa_point (@case_U C nb (- u)) X) x = z / (1 + u * z) * response (@case_X C nb) x].
Proof.
move=> hz hu X.
have rX x : 0 <= response (@case_X C nb) x by rewrite responseE SmxK /qf mulmx1 -/(sq _); apply: sq_ge0.
have tX : tmat X = z *: Smx C nb by apply/matrixP=> i j; rewrite !mxE.
have tU : tmat (@case_U C nb (- u)) = - u *: Smx C nb by apply/matrixP=> i j; rewrite !mxE.
have eX x : response X x = z * response (@case_X C nb) x.
  by rewrite !responseE tX -scalemxAl /qf -scalemxAr -scalemxAl [LHS]mxE.
split.
- by move=> x; rewrite eX ReMr ?mulr_ge0 // ger0_real.
- move=> x; suff -> : energy (@case_U C nb (- u)) x = - u * response (@case_X C nb) x by rewrite mulNr oppr_le0 mulr_ge0.
  by rewrite energyE responseE tU -scalemxAr SmxK /qf -scalemxAr -scalemxAl [LHS]mxE.
move=> x; have un : 1 + u * z != 0.
  apply/eqP => h; have : 0 < 'Re (1 + u * z) by rewrite raddfD /= ReMl ?ger0_real // (Creal_ReP _ (rpred1 _)) ltr_paddr ?ltr01 ?mulr_ge0.
  by rewrite h raddf0 ltxx.
have d : 1%:M - tmat X *m tmat (@case_U C nb (- u)) = (1 + u * z)%:M.
  by rewrite tX tU -scalemxAl -scalemxAr SmxK !scalemx1 scale_scalar_mx -raddfB /= mulrN opprK mulrC.
rewrite !responseE tmat_rpa d tX.
have -> : invmx ((1 + u * z)%:M : 'M_(nb * nb)) = ((1 + u * z)^-1)%:M by apply: invmx_uniq; rewrite -scalar_mxM ?mulVf ?mulfV.
by rewrite mul_scalar_mx -!scalemxAl scalerA /qf -scalemxAr -scalemxAl [LHS]mxE [_ * z]mulrC.
Qed.
End Case.
(* two momenta with the levels -1 and 1 are separated *)
Theorem C110_levels_case (C : numClosedFieldType) (eig : 'M[C]_1 -> 'rV[C]_1 * 'M[C]_1) : eigensolver eig ->
  let e (k : 'Z_2) : 'M[C]_1 := (if k == 0 then -1 else 1)%:M in hermitian e /\ separated eig e 0.
Proof.
move=> he e; have h : hermitian e.
  by move=> k; apply/matrixP=> i j; rewrite /e !mxE !ord1 eqxx mulr1n; case: (k == 0); rewrite ?rmorphN rmorph1.
split=> //.
have lev k i : (eig (e k - (0 : C)%:M)).1 0 i = if k == 0 then -1 else 1.
  have [_ u d] := he _ (hermitian_mu h (rpred0 _) k); move: u d; set V := (eig _).2; set l := (eig _).1 => u d.
  have hl : diag_mx l = dagger V *m (e k - (0 : C)%:M) *m V.
    by rewrite [in RHS]d -!mulmxA (unitary_l u) mulmx1 mulmxA (unitary_l u) mul1mx.
  have := congr1 (fun m : 'M_1 => m 0 0) hl; rewrite /e -raddfB /= subr0 mul_mx_scalar -scalemxAl (unitary_l u) !mxE eqxx mulr1n.
  by rewrite !ord1 mulr1.
have t2 : tol C <= 2%:R.
  rewrite /tol; apply: (@le_trans _ _ 1); last by rewrite ler1n.
  by rewrite invf_le1 ?exprn_gt0 ?ltr0n // exprn_ege1 // ler1n.
move=> k k' i j /=; rewrite !lev; case: (k == 0); case: (k' == 0); try (by left); right.
  by rewrite opprK -[1 + 1](natrD _ 1 1) normr_nat.
by rewrite -opprD normrN -[1 + 1](natrD _ 1 1) normr_nat.
Qed.
Print Assumptions C110_levels_case.
Print Assumptions C110_positive.
Print Assumptions C110_decreasing.
Print Assumptions C110_static.
Print Assumptions C110_rpa.
Print Assumptions C110_case.
