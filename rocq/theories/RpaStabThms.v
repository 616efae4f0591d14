(* C107: stability of RPA: static susceptibilities are positive, and the sign of the interaction decides about enhancement or reduction. *)
From mathcomp Require Import all_ssreflect all_algebra.
From Verif Require Import Base MatAlg Fring Spectral LindhardModel LindhardThms MpiModel MpiSpec RpaModel RpaSpec RpaProofs RpaThms RpaSymThms.
Set Implicit Arguments.
Unset Strict Implicit.
Unset Printing Implicit Defensive.
Import Order.TTheory GRing.Theory Num.Theory.
Local Open Scope ring_scope.

Section Spec.
Variables (C : numClosedFieldType) (nb : nat).
Local Notation t4 := (tensor4 C nb).
Implicit Types (X Y U : t4) (x : 'I_nb -> 'I_nb -> C).
(* the response of the operator sum_ab conj(x_ab) c^+_a c_b to the field that couples to its adjoint *)
Definition response X x : C := \sum_a \sum_b \sum_c \sum_d (x a b)^* * X a b c d * x d c.
Definition positive X : Prop := forall x, 0 <= response X x.
Definition below X Y : Prop := forall x, response X x <= response Y x.
(* the interaction energy of the mean field x *)
Definition energy U x : C := \sum_a \sum_b \sum_c \sum_d (x b a)^* * U a b c d * x c d.
Definition reducing U : Prop := forall x, energy U x <= 0.
Definition enhancing U : Prop := forall x, 0 <= energy U x.
(* the mean field produced by the bare susceptibility X from the field x *)
Definition mean_field X x : 'I_nb -> 'I_nb -> C := fun a b => \sum_c \sum_d X a b c d * x d c.
End Spec.

Section Mx.
Variables (C : numClosedFieldType).
Add Ring Cring : (fld_rt C).
Definition qf n (N : 'M[C]_n) (v : 'cV[C]_n) : C := (hc v *m N *m v) 0 0.
Lemma qfE n (N : 'M[C]_n) u v : (hc (u + v) *m N *m (u + v)) 0 0 = qf N u + qf N v + ((hc u *m N *m v) 0 0 + (hc v *m N *m u) 0 0).
Proof.
have ad (A B : 'M[C]_1) : (A + B) 0 0 = A 0 0 + B 0 0 by rewrite mxE.
by rewrite hcD !mulmxDl !mulmxDr /qf !ad; fring C.
Qed.
Lemma real_hermitian n (N : 'M[C]_n) : (forall v, qf N v \is Num.real) -> hc N = N.
Proof.
move=> h; have real_mx (u v : 'cV[C]_n) : ((hc u *m N *m v) 0 0 + (hc v *m N *m u) 0 0) \is Num.real.
  have -> : (hc u *m N *m v) 0 0 + (hc v *m N *m u) 0 0 = qf N (u + v) - (qf N u + qf N v) by rewrite /qf qfE /qf; fring C.
  by rewrite rpredB ?rpredD.
have key (u v : 'cV[C]_n) : (hc u *m N *m v) 0 0 = ((hc v *m N *m u) 0 0)^*.
  have /CrealP h1 := real_mx u v; have /CrealP h2 := real_mx u ('i *: v).
  move: h1 h2; rewrite hcZ -!scalemxAl -!scalemxAr !mxE conjCi !rmorphD !rmorphM rmorphN /= conjCi.
  move: (\sum_j _) (\sum_j _) => r p h1 h2.
  have h3 : - (p^* - r^*) = p - r.
    apply: (mulfI (neq0Ci C)); rewrite mulrN mulrBr opprB mulrBr; move: h2; rewrite !mulNr opprK => h2.
    by rewrite -h2 addrC.
  have : p + p = r^* + r^* by rewrite -[LHS]addr0 -(subrr r) addrACA -h1 -h3; fring C.
  by rewrite -!mulr2n => /eqP; rewrite eqr_muln2r /= => /eqP.
apply/matrixP=> i j; rewrite mxE.
have e k l : N k l = (hc (delta_mx k 0 : 'cV_n) *m N *m (delta_mx l 0 : 'cV_n)) 0 0.
  have -> : hc (delta_mx k 0 : 'cV_n) = delta_mx 0 k :> 'rV[C]_n by apply/matrixP=> x y; rewrite !mxE rmorph_nat andbC.
  by rewrite -rowE -colE !mxE.
by rewrite (e i j) (e j i) -key.
Qed.
Definition psd n (N : 'M[C]_n) := forall v, 0 <= qf N v.
Lemma psd_hc n (N : 'M[C]_n) : psd N -> hc N = N.
Proof. by move=> h; apply: real_hermitian => v; apply: ger0_real. Qed.
Lemma psd_kernel n (N : 'M[C]_n) v : psd N -> qf N v = 0 -> N *m v = 0.
Proof.
move=> h hv; have hN := psd_hc h; have [l [U [rl u eN]]] := spectral hN.
have u' := mulmx1C u.
have q w : qf N (U *m w) = \sum_i l 0 i * `|w i 0| ^+ 2.
  rewrite /qf eN hcM !mulmxA -(mulmxA _ (hc U) U) u' mulmx1 -(mulmxA _ (hc U) U) u' mulmx1.
  rewrite mxE; apply: eq_bigr => i _; rewrite mul_mx_diag mxE mxE normCK; fring C.
have l0 i : 0 <= l 0 i.
  have := h (U *m delta_mx i 0); rewrite q (bigD1 i) //= mxE !eqxx normr1 expr1n mulr1 big1 ?addr0 // => j hj.
  by rewrite mxE (negbTE hj) normr0 expr0n mulr0.
have ev : v = U *m (hc U *m v) by rewrite mulmxA u mul1mx.
move: hv; rewrite ev q => /eqP; rewrite psumr_eq0 => [/allP hz|i _]; last by rewrite mulr_ge0 ?exprn_ge0.
have z : diag_mx l *m (hc U *m v) = 0.
  apply/matrixP=> i j; rewrite (ord1 j) mul_diag_mx [RHS]mxE mxE; have := hz i (mem_index_enum _).
  by rewrite /= mulf_eq0 expf_eq0 normr_eq0 /= => /orP[] /eqP; rewrite ?mxE => ->; rewrite ?mul0r ?mulr0.
by rewrite eN !mulmxA -(mulmxA _ (hc U) U) u' mulmx1 -!mulmxA z mulmx0.
Qed.
Section Ladder.
Variables (n : nat) (N A : 'M[C]_n).
Hypotheses (pN : psd N) (hA : hc A = A).
Let hN : hc N = N := psd_hc pN.
Let R := invmx (1%:M - N *m A) *m N.
Lemma form_R u : 1%:M - N *m A \in unitmx -> qf R ((1%:M - A *m N) *m u) = qf (N - N *m A *m N) u.
Proof.
move=> un; rewrite /qf /R push_total -!mulmxA (mulmxA (invmx _)) mulVmx ?mul1mx; last exact: swap_unit.
rewrite hcM hcB hc1 hcM hN hA; congr (_ _ _); rewrite -!mulmxA; congr (_ *m _); rewrite !mulmxA; congr (_ *m _).
by rewrite mulmxBl mul1mx.
Qed.
Lemma stoner : 1%:M - N *m A \in unitmx -> psd R <-> psd (N - N *m A *m N).
Proof.
move=> un; have un' := swap_unit un; split=> h v; first by rewrite -form_R.
by rewrite -[v](mulKVmx un') form_R.
Qed.
Lemma psd_sub (P Q : 'M[C]_n) v : qf (P - Q) v = qf P v - qf Q v.
Proof. by rewrite /qf mulmxBr mulmxBl [LHS]mxE [X in _ + X]mxE. Qed.
Lemma psd_add (P Q : 'M[C]_n) v : qf (P + Q) v = qf P v + qf Q v.
Proof. by rewrite /qf mulmxDr mulmxDl [LHS]mxE. Qed.
Lemma psd_conj (P Q : 'M[C]_n) v : qf (hc Q *m P *m Q) v = qf P (Q *m v).
Proof. by rewrite /qf hcM !mulmxA. Qed.
Lemma reducing_unit : (forall v, qf A v <= 0) -> 1%:M - N *m A \in unitmx.
Proof.
move=> nA; apply/negPn/negP => un.
have : row_free (1%:M - N *m A)^T = false by rewrite row_free_unit unitmx_tr; apply: negbTE.
rewrite -kermx_eq0 => /negbT /matrix0Pn [i [j hij]].
pose v : 'cV[C]_n := (row i (kermx (1%:M - N *m A)^T))^T.
have v0 : v j 0 != 0 by rewrite mxE mxE.
have kv : v = N *m (A *m v).
  have : (1%:M - N *m A) *m v = 0.
    by apply: trmx_inj; rewrite trmx_mul trmxK -row_mul mulmx_ker row0 trmx0.
  by rewrite mulmxBl mul1mx -mulmxA => /eqP; rewrite subr_eq0 => /eqP.
have q0 : qf N (A *m v) = 0.
  apply/eqP; rewrite eq_le pN andbT.
  suff -> : qf N (A *m v) = qf A v by [].
  by rewrite /qf hcM hA -!mulmxA -kv !mulmxA.
by move: v0; rewrite kv (psd_kernel pN q0) mxE eqxx.
Qed.
Lemma ladder_l : 1%:M - N *m A \in unitmx -> R = N + N *m A *m R.
Proof. by move=> un; apply/eqP; rewrite -subr_eq -{1}[R]mul1mx -mulmxBl /R mulKVmx. Qed.
Lemma ladder_r : 1%:M - N *m A \in unitmx -> R = N + R *m A *m N.
Proof.
move=> un; have un' := swap_unit un; apply/eqP; rewrite -subr_eq -[X in X - _]mulmx1 -[_ *m A *m N]mulmxA -mulmxBr.
by rewrite /R push_total mulmxKV.
Qed.
Lemma ladder_2 : 1%:M - N *m A \in unitmx -> R = N + (N *m A *m N + hc (A *m N) *m R *m (A *m N)).
Proof.
move=> un; rewrite {1}(ladder_l un) {1}(ladder_r un) hcM hN hA mulmxDr; congr (_ + (_ + _)).
by rewrite !mulmxA.
Qed.
Lemma reduced : (forall v, qf A v <= 0) -> psd R /\ (forall v, qf R v <= qf N v).
Proof.
move=> nA; have un := reducing_unit nA.
have pR : psd R.
  apply/(stoner un) => v; rewrite psd_sub subr_ge0.
  have -> : qf (N *m A *m N) v = qf A (N *m v) by rewrite -psd_conj hN.
  exact: le_trans (nA _) (pN _).
split=> // v; have un' := swap_unit un; rewrite -[v](mulKVmx un'); move: (invmx _ *m v) => {v} u.
rewrite form_R // psd_sub.
have -> : qf N ((1%:M - A *m N) *m u) = qf N u - qf A (N *m u) - qf A (N *m u) + qf N (A *m N *m u).
  have e : hc ((1%:M - A *m N) *m u) *m N *m ((1%:M - A *m N) *m u) =
     hc u *m N *m u - hc u *m (N *m A *m N) *m u - hc u *m (N *m A *m N) *m u + hc u *m (N *m A *m N *m A *m N) *m u.
    rewrite hcM hcB hc1 hcM hN hA mulmxBr mulmx1 !mulmxBl !mulmxBr !mul1mx !mulmxA.
    by rewrite opprB addrA [LHS]addrAC.
  have ad (P Q : 'M[C]_1) : (P + Q) 0 0 = P 0 0 + Q 0 0 by rewrite mxE.
  have sb (P Q : 'M[C]_1) : (P - Q) 0 0 = P 0 0 - Q 0 0 by rewrite !mxE.
  by rewrite /qf e ad !sb !hcM hN hA !mulmxA.
have -> : qf (N *m A *m N) u = qf A (N *m u) by rewrite -psd_conj hN.
rewrite -subr_ge0 [X in _ <= X](_ : _ = - qf A (N *m u) + qf N (A *m N *m u)); first by rewrite addr_ge0 ?oppr_ge0.
by move: (qf N u) (qf A _) (qf N _) => x y z; fring C.
Qed.
Lemma enhanced : 1%:M - N *m A \in unitmx -> psd A -> psd R -> forall v, qf N v <= qf R v.
Proof.
move=> un pA pR v; rewrite {1}(ladder_2 un) !psd_add ler_addl addr_ge0 //; last by rewrite psd_conj.
by rewrite -{1}hN psd_conj.
Qed.
End Ladder.
End Mx.

Section Point.
Variables (C : numClosedFieldType) (nb : nat).
Add Ring Cring1 : (fld_rt C).
Local Notation t4 := (tensor4 C nb).
Implicit Types (X Y U : t4) (x : 'I_nb -> 'I_nb -> C).
Local Notation S := (Smx C nb).
Definition vec x : 'cV[C]_(nb * nb) := \col_i x (pfst i) (psnd i).
Definition unvec (v : 'cV[C]_(nb * nb)) : 'I_nb -> 'I_nb -> C := fun a b => v (pidx a b) 0.
Lemma unvecK v : vec (unvec v) = v.
Proof. by apply/matrixP=> i j; rewrite (ord1 j) mxE /unvec pidx_eta. Qed.
Lemma vecE x a b : vec x (pidx a b) 0 = x a b. Proof. by rewrite mxE pidxK1 pidxK2. Qed.
Lemma qf_sum (X : t4) x : qf (tmat X) (vec x) = \sum_a \sum_b \sum_c \sum_d (x a b)^* * X a b c d * x c d.
Proof.
rewrite /qf mxE sum_pidx exch4.
apply: eq_bigr => c _; apply: eq_bigr => d _; rewrite mxE sum_pidx vecE mulr_suml; apply: eq_bigr => a _; rewrite mulr_suml; apply: eq_bigr => b _.
by rewrite tmatE [hc _ _ _]mxE vecE.
Qed.
Lemma responseE X x : response X x = qf (tmat X *m S) (vec x).
Proof. by rewrite Smx_r qf_sum /response; apply: eq_bigr => a _; apply: eq_bigr => b _; rewrite exchange_big. Qed.
Lemma energyE U x : energy U x = qf (S *m tmat U) (vec x).
Proof. by rewrite Smx_l qf_sum /energy exchange_big. Qed.
Lemma positiveE X : positive X <-> psd (tmat X *m S).
Proof. by split=> h v; [rewrite -[v]unvecK -responseE | rewrite responseE]. Qed.
Lemma mean_fieldE X x : vec (mean_field X x) = tmat X *m S *m vec x.
Proof.
apply/matrixP=> i j; rewrite (ord1 j) -(pidx_eta i) vecE mxE sum_pidx /mean_field Smx_r exchange_big.
by apply: eq_bigr => d _; apply: eq_bigr => c _; rewrite tmatE vecE.
Qed.
Lemma energy_hc U : conjugated U U -> hc (S *m tmat U) = S *m tmat U.
Proof.
move=> h; rewrite Smx_l; apply/matrixP=> i j; rewrite mxE -(pidx_eta i) -(pidx_eta j) !tmatE.
by rewrite h.
Qed.
Lemma rpaN U X : tmat (rpa_point U X) *m S = invmx (1%:M - tmat X *m S *m (S *m tmat U)) *m (tmat X *m S).
Proof. by rewrite tmat_rpa !mulmxA -(mulmxA _ S S) SmxK mulmx1. Qed.
Lemma denomN U X : (1%:M - tmat X *m S *m (S *m tmat U) \in unitmx) <-> nonsingular X U.
Proof. by rewrite !mulmxA -(mulmxA _ S S) SmxK mulmx1; split=> /nonsingularP. Qed.
Lemma real_energy U : (forall x, energy U x \is Num.real) -> hc (S *m tmat U) = S *m tmat U.
Proof. by move=> h; apply: real_hermitian => v; rewrite -[v]unvecK -energyE. Qed.
Lemma stoner_point X U : positive X -> conjugated U U -> nonsingular X U ->
  positive (rpa_point U X) <-> forall x, energy U (mean_field X x) <= response X x.
Proof.
move=> /positiveE pX hU /denomN un; have hA := energy_hc hU.
have hN := psd_hc pX; rewrite positiveE rpaN (stoner pX hA un).
split=> [h x|h v].
  have := h (vec x); rewrite psd_sub subr_ge0 -responseE energyE mean_fieldE.
  by rewrite -{1}hN psd_conj.
rewrite -[v]unvecK psd_sub subr_ge0 -responseE -{1}hN psd_conj -mean_fieldE -energyE; exact: h.
Qed.
Lemma reduced_point X U : positive X -> reducing U -> [/\ nonsingular X U, positive (rpa_point U X) & below (rpa_point U X) X].
Proof.
move=> /positiveE pX hU; have nA v : qf (S *m tmat U) v <= 0 by rewrite -[v]unvecK -energyE.
have hA : hc (S *m tmat U) = S *m tmat U by apply: real_energy => x; apply: ler0_real.
have [h1 h2] := reduced pX hA nA; split; first exact/denomN/reducing_unit.
  by apply/positiveE; rewrite rpaN.
by move=> x; rewrite !responseE rpaN.
Qed.
Lemma enhanced_point X U : positive X -> enhancing U -> nonsingular X U -> positive (rpa_point U X) -> below X (rpa_point U X).
Proof.
move=> /positiveE pX hU /denomN un /positiveE; rewrite rpaN => pR x.
have pA : psd (S *m tmat U) by move=> v; rewrite -[v]unvecK -energyE.
by rewrite !responseE rpaN; apply: enhanced => //; apply: psd_hc.
Qed.
Lemma response_eq X Y x : eq_t4 X Y -> response X x = response Y x.
Proof. by move=> h; rewrite /response; do 4 (apply: eq_bigr => ? _); rewrite h. Qed.
End Point.

Section OnMesh.
Variables (C : numClosedFieldType) (nb : nat) (W K Id : eqType).
Variables (nranks : nat) (sched : nat -> seq (W * K)) (chi0 : chi_wk C nb W K Id) (U : tensor4 C nb) (w : W) (k : K).
Hypotheses (fs : fair_run nranks (wmesh chi0) (kmesh chi0) sched) (hw : w \in wmesh chi0) (hk : k \in kmesh chi0).
Local Notation X := (chi_dat chi0 w k).
Local Notation Y := (chi_dat (solve_rpa_PH nranks sched chi0 U) w k).
Let e : eq_t4 Y (rpa_point U X) := solveE U fs hw hk.
(* C107: a reducing interaction never makes RPA diverge; the susceptibility stays positive and below the bare one *)
Theorem C107_reduced : positive X -> reducing U -> [/\ nonsingular X U, positive Y & below Y X].
Proof.
move=> pX hU; have [h1 h2 h3] := reduced_point pX hU; split=> // x; rewrite (response_eq x e) //.
Qed.
(* C107: an enhancing interaction enhances, as long as the result is positive *)
Theorem C107_enhanced : positive X -> enhancing U -> nonsingular X U -> positive Y -> below X Y.
Proof.
move=> pX hU ns pY x; rewrite (response_eq x e); apply: enhanced_point => // y.
by rewrite -(response_eq y e).
Qed.
(* C107: the result is positive exactly if no mean field gains energy, the Stoner criterion *)
Theorem C107_stoner : positive X -> conjugated U U -> nonsingular X U -> positive Y <-> forall x, energy U (mean_field X x) <= response X x.
Proof.
move=> pX hU ns; rewrite -(stoner_point pX hU ns); split=> h x; [rewrite -(response_eq x e) | rewrite (response_eq x e)]; exact: h.
Qed.
End OnMesh.

Section Lindhard.
Variables (C : numClosedFieldType) (nb : nat) (K : finZmodType) (fermi cosh : C -> C).
Add Ring Cring2 : (fld_rt C).
Local Notation M := 'M[C]_nb.
Variables (e : K -> M) (beta mu : C) (eig : M -> 'rV[C]_nb * M).
Hypotheses (he : eigensolver eig) (hh : hermitian e) (hm : mu \is Num.real) (hb : 0 <= beta) (hc : real_function cosh).
Hypothesis hf : forall x y, x \is Num.real -> y \is Num.real -> x <= y -> fermi y <= fermi x.
Lemma factor_ge0 x y : x \is Num.real -> y \is Num.real -> 0 <= total_factor fermi cosh beta 0 0 x y.
Proof.
move=> rx ry; have rb : beta \is Num.real by rewrite realE hb.
have h2 : (2%:R : C)^-1 \is Num.real by rewrite realV realn.
rewrite /total_factor !addr0; case: ifP => [_|/negbT].
  by rewrite divr_ge0 // -mulrA -expr2 mulr_ge0 ?ler0n // real_exprn_even_ge0 // hc // !rpredM.
rewrite normr0 /tol invr_gt0 exprn_gt0 ?ltr0n //= add0r => _.
have /orP[h|h] := real_leVge rx ry.
  by rewrite divr_ge0 // ?subr_ge0 // hf ?rpredM // ler_wpmul2r.
by rewrite -[_ / _]opprK -mulNr -mulrN -invrN !opprB divr_ge0 // ?subr_ge0 // hf ?rpredM // ler_wpmul2r.
Qed.
Lemma response_sum (F : K -> tensor4 C nb) z x : response (fun a b c d => (\sum_k F k a b c d) / z) x = (\sum_k response (F k) x) / z.
Proof.
rewrite /response mulr_suml.
under [RHS]eq_bigr => k _ do (rewrite mulr_suml; under eq_bigr => a' _ do (rewrite mulr_suml; under eq_bigr => b' _ do (rewrite mulr_suml; under eq_bigr => c' _ do rewrite mulr_suml))).
rewrite [RHS]exchange_big /=; apply: eq_bigr => a' _; rewrite [RHS]exchange_big /=; apply: eq_bigr => b' _.
rewrite [RHS]exchange_big /=; apply: eq_bigr => c' _; rewrite [RHS]exchange_big /=; apply: eq_bigr => d' _.
by rewrite mulrA mulr_sumr !mulr_suml; apply: eq_bigr => k _; fring C.
Qed.
Lemma pair_response phi (l : 'rV[C]_nb) (V : M) (l' : 'rV[C]_nb) (V' : M) x : response (@pair_sum C nb phi l V l' V') x =
  \sum_i \sum_j phi (l 0 i) (l' 0 j) * `|\sum_a \sum_b (x a b)^* * V a i * (V' b j)^*| ^+ 2.
Proof.
pose y i j := \sum_a \sum_b (x a b)^* * V a i * (V' b j)^*.
transitivity (\sum_i \sum_j phi (l 0 i) (l' 0 j) * `|y i j| ^+ 2); last by [].
rewrite /response /pair_sum.
under eq_bigr => a _ do under eq_bigr => b _ do under eq_bigr => c _ do under eq_bigr => d _ do rewrite mulr_sumr mulr_suml.
under eq_bigr => a _ do (under eq_bigr => b _ do (under eq_bigr => c _ do rewrite exchange_big /=; rewrite exchange_big /=); rewrite exchange_big /=).
rewrite exchange_big /=; apply: eq_bigr => i _.
under eq_bigr => a _ do under eq_bigr => b _ do under eq_bigr => c _ do under eq_bigr => d _ do rewrite mulr_sumr mulr_suml.
under eq_bigr => a _ do (under eq_bigr => b _ do (under eq_bigr => c _ do rewrite exchange_big /=; rewrite exchange_big /=); rewrite exchange_big /=).
rewrite exchange_big /=; apply: eq_bigr => j _.
rewrite normCK; move ez: ((y i j)^*) => z; rewrite mulrCA /y mulr_suml; apply: eq_bigr => a _; rewrite mulr_suml; apply: eq_bigr => b _.
rewrite -ez /y rmorph_sum /= !mulr_sumr exchange_big /=; apply: eq_bigr => d _; rewrite rmorph_sum !mulr_sumr; apply: eq_bigr => c _.
by rewrite !rmorphM /= !conjCK !mxE; fring C.
Qed.
Lemma pair_positive phi (l : 'rV[C]_nb) (V : M) (l' : 'rV[C]_nb) (V' : M) x : (forall i j, 0 <= phi (l 0 i) (l' 0 j)) -> 0 <= response (@pair_sum C nb phi l V l' V') x.
Proof. by move=> h; rewrite pair_response; apply: sumr_ge0 => i _; apply: sumr_ge0 => j _; rewrite mulr_ge0 ?exprn_ge0. Qed.
(* C107: the static Lindhard function is positive *)
Theorem C107_lindhard q : positive (lindhard_chi00 fermi cosh eig e beta mu 0 0 q).
Proof.
move=> x; rewrite (response_eq (Y := fun a b c d => (\sum_k pair_sum (total_factor fermi cosh beta 0 0) (eig (e k - mu%:M)).1 (eig (e k - mu%:M)).2
     (eig (e (k + q) - mu%:M)).1 (eig (e (k + q) - mu%:M)).2 a b c d) / #|K|%:R)); last by move=> a b c d; rewrite lindhardE.
rewrite response_sum divr_ge0 ?ler0n //; apply: sumr_ge0 => k _; apply: pair_positive => i j.
have hk := hermitian_mu hh hm; have [rl _ _] := he (hk k); have [rl' _ _] := he (hk (k + q)).
exact: factor_ge0.
Qed.
(* C107: RPA on the static Lindhard function *)
Theorem C107_static (Id : eqType) nranks sched ws (i : Id) (U : tensor4 C nb) q :
  let chi0 := ChiWK ws (enum K) i (lindhard_chi00 fermi cosh eig e beta mu 0) in let chi := solve_rpa_PH nranks sched chi0 U in
  fair_run nranks ws (enum K) sched -> 0 \in ws ->
  (reducing U -> positive (chi_dat chi 0 q) /\ below (chi_dat chi 0 q) (chi_dat chi0 0 q)) /\
  (conjugated U U -> nonsingular (chi_dat chi0 0 q) U ->
    (positive (chi_dat chi 0 q) <-> forall x, energy U (mean_field (chi_dat chi0 0 q) x) <= response (chi_dat chi0 0 q) x) /\
    (enhancing U -> positive (chi_dat chi 0 q) -> below (chi_dat chi0 0 q) (chi_dat chi 0 q))).
Proof.
move=> chi0 chi fs h0; have hq : q \in kmesh chi0 by rewrite mem_enum.
have p := C107_lindhard q; split=> [hU|hU ns].
  by have [_ h1 h2] := C107_reduced (chi0 := chi0) fs h0 hq p hU.
split; first exact: (C107_stoner (chi0 := chi0) fs h0 hq p hU ns).
by move=> en pc; apply: (C107_enhanced (chi0 := chi0) fs h0 hq p en ns pc).
Qed.
End Lindhard.

(* a case: every pair of orbitals responds with 1, the interaction u enhances it to 1 / (1 - u); beyond u = 1 the result is not positive *)
Section Case.
Variables (C : numClosedFieldType) (nb : nat).
Definition case_X : tensor4 C nb := fun a b c d => ((a == d) && (b == c))%:R.
Definition case_U (u : C) : tensor4 C nb := fun a b c d => u * ((a == d) && (b == c))%:R.
Theorem C107_case u : u \is Num.real -> u != 1 ->
  [/\ positive case_X, conjugated (case_U u) (case_U u), nonsingular case_X (case_U u), forall x, energy (case_U u) x = u * response case_X x &
      forall x, response (rpa_point (case_U u) case_X) x = (1 - u)^-1 * response case_X x].
Proof.
move=> ru u1.
have tX : tmat case_X = Smx C nb by [].
have tU : tmat (case_U u) = u *: Smx C nb by apply/matrixP=> i j; rewrite !mxE.
have d : 1%:M - tmat case_X *m tmat (case_U u) = (1 - u)%:M by rewrite tX tU -scalemxAr SmxK scalemx1 -raddfB.
have un : 1 - u != 0 by rewrite subr_eq0 eq_sym.
split.
- apply/positiveE; rewrite tX SmxK => v; rewrite /qf mulmx1 -/(sq v); exact: sq_ge0.
- by move=> a b c e; rewrite /case_U rmorphM rmorph_nat (CrealP ru) [e == a]eq_sym [c == b]eq_sym.
- by apply/nonsingularP; rewrite d -scalemx1 unitmxZ ?unitmx1 // unitfE.
- move=> x; rewrite energyE responseE tX tU -scalemxAr SmxK /qf -scalemxAr -scalemxAl [LHS]mxE //.
move=> x; rewrite !responseE tmat_rpa d tX.
have -> : invmx ((1 - u)%:M : 'M_(nb * nb)) = ((1 - u)^-1)%:M by apply: invmx_uniq; rewrite -scalar_mxM ?mulVf ?mulfV.
by rewrite mul_scalar_mx -scalemxAl /qf -scalemxAr -scalemxAl [LHS]mxE.
Qed.
End Case.
Print Assumptions C107_reduced.
Print Assumptions C107_enhanced.
Print Assumptions C107_stoner.
Print Assumptions C107_lindhard.
Print Assumptions C107_static.
Print Assumptions C107_case.
