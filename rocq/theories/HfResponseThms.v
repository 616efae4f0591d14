(* C81 (Hartree-Fock response), C82 (finite differences), C83 (Hartree response). *)
From mathcomp Require Import all_ssreflect all_algebra all_field.
From Verif Require Import Base Fring MatAlg OperatorModel OperatorSpec OperatorProofs OperatorThms RpaTensorModel KanamoriModel KanamoriSpec KanamoriThms HfModel RpaModel RpaSpec RpaProofs LindhardModel LindhardThms RetimeThms HfResponseModel.
Set Implicit Arguments.
Unset Strict Implicit.
Unset Printing Implicit Defensive.
Import Order.TTheory GRing.Theory Num.Theory.
Local Open Scope ring_scope.

Section Response.
Variables (C : numClosedFieldType) (n : nat) (K : finType).
Add Ring Cring : (fld_rt C).
Local Notation mx := 'M[C]_n.
Local Notation t4 := (tensor4 C n).
Variable eigh : mx -> 'rV[C]_n * mx.
Variable exp : C -> C.
Variable beta : C.
Local Notation HFR := (HartreeFockResponse eigh exp beta).
Local Notation HR := (HartreeResponse eigh exp beta).

(* the change of the density matrix in a weak field, when chi_(ba)(cd) is minus the derivative of rho_cd with respect to the element ab of the field *)
Definition induced (X : t4) (F : mx) : mx := \matrix_(c, d) - \sum_a \sum_b X b a c d * F a b.
(* mean-field response: the density follows the applied field and the field of the changed density, the mean field is linear in the density *)
Definition self_consistent (X0 : t4) (U : arr4 C) (F drho : mx) : Prop := drho = induced X0 (F + update_mean_field U drho).
Definition expectation (op rho : mx) : C := \sum_a \sum_b op a b * rho b a.

Definition rv (m : mx) : 'rV[C]_(n * n) := \row_p m (pfst p) (psnd p).
Lemma rv_inj : injective rv.
Proof. by move=> m m' h; apply/matrixP => a b; move/matrixP/(_ 0 (pidx a b)): h; rewrite !mxE pidxK1 pidxK2. Qed.
Lemma rv_induced X F : rv (induced X F) = - (rv F^T *m tmat X).
Proof.
apply/matrixP => i p; rewrite !mxE; congr (- _); rewrite sum_pidx exchange_big; apply: eq_bigr => a _; apply: eq_bigr => b _.
by rewrite !mxE !pidxK1 !pidxK2 mulrC.
Qed.
Lemma rv_mean_field U rho : rv (update_mean_field U rho)^T = - (rv rho *m (tmat (tensor_of (n := n) U))^T).
Proof.
apply/matrixP => i p; rewrite !mxE sum_pidx -sumrN; apply: eq_bigr => c _; rewrite -sumrN; apply: eq_bigr => d _.
by rewrite !mxE !pidxK1 !pidxK2 mulNr mulrC.
Qed.
Lemma rvD m m' : rv (m + m') = rv m + rv m'. Proof. by apply/matrixP => i p; rewrite !mxE. Qed.
(* the tensor of the solver is symmetric *)
Lemma rpa_tensor_sym (H : operator C) ops U : get_rpa_tensor H ops = Some U -> (tmat (tensor_of (n := n) U))^T = tmat (tensor_of U).
Proof.
rewrite /get_rpa_tensor; case: (quartic_tensor_from_operator _ _ _) => // Q [<-].
apply/matrixP => i j; rewrite !mxE /tensor_of /transpose_2031 /quartic_permutation_symmetrize; fring C.
Qed.
Lemma self_consistentE X0 H ops U F drho : get_rpa_tensor H ops = Some U -> nonsingular X0 (tensor_of U) ->
  self_consistent X0 U F drho <-> rv drho = - (rv F^T *m tmat (rpa_point (tensor_of U) X0)).
Proof.
move=> hU /nonsingularP ns; have v := swap_unit ns.
have e : rv (induced X0 (F + update_mean_field U drho)) = - (rv F^T *m tmat X0) + rv drho *m (tmat (tensor_of U) *m tmat X0).
  by rewrite rv_induced linearD rvD rv_mean_field (rpa_tensor_sym hU) mulmxDl mulNmx opprD opprK mulmxA.
have e2 : self_consistent X0 U F drho <-> rv drho *m (1%:M - tmat (tensor_of U) *m tmat X0) = - (rv F^T *m tmat X0).
  rewrite mulmxBr mulmx1 /self_consistent; split=> [/(congr1 rv)|h]; last apply: rv_inj.
    by rewrite e => h; apply/eqP; rewrite subr_eq -h.
  by rewrite e -h subrK.
rewrite e2 tmat_rpa push_through // mulmxA.
split=> [h|->]; last by rewrite mulNmx mulmxKV.
by rewrite -[LHS](mulmxK v) h mulNmx.
Qed.
Lemma contract_induced (X : t4) (op1 op2 : mx) :
  \sum_a \sum_b \sum_c \sum_d op1 a b * X a b c d * op2 c d = - expectation op2^T (induced X op1^T).
Proof.
transitivity (\sum_c \sum_d op2 c d * \sum_a \sum_b op1 a b * X a b c d); last first.
  rewrite /expectation exchange_big -sumrN; apply: eq_bigr => c _; rewrite -sumrN; apply: eq_bigr => d _; rewrite !mxE mulrN opprK exchange_big.
  by congr (_ * _); apply: eq_bigr => a _; apply: eq_bigr => b _; rewrite mxE mulrC.
under [RHS]eq_bigr => c _ do under eq_bigr => d _ do rewrite mulr_sumr.
under [RHS]eq_bigr => c _ do rewrite exchange_big.
rewrite [RHS]exchange_big; apply: eq_bigr => a _.
under [RHS]eq_bigr => c _ do under eq_bigr => d _ do rewrite mulr_sumr.
under [RHS]eq_bigr => c _ do rewrite exchange_big.
rewrite [RHS]exchange_big; apply: eq_bigr => b _.
by apply: eq_bigr => c _; apply: eq_bigr => d _; rewrite [RHS]mulrC.
Qed.
(* C81: the response to a field op1 is minus the change of the expectation value of op2 in the mean-field approximation; with the indices of the density matrix
   as in the code both operators enter transposed *)
Theorem C81_response (e_k : K -> mx) mu H ops U eps (op1 op2 : mx) : get_rpa_tensor H ops = Some U -> let r := HFR e_k mu U eps in
  nonsingular (chi0_abcd r) (tensor_of U) ->
  exists drho, [/\ self_consistent (chi0_abcd r) U op1^T drho, (forall drho', self_consistent (chi0_abcd r) U op1^T drho' -> drho' = drho) &
    response r op1 op2 = - expectation op2^T drho].
Proof.
move=> hU r ns; exists (induced (chi_abcd r) op1^T); have e := self_consistentE op1^T _ hU ns.
split; [by rewrite e rv_induced | by move=> drho'; rewrite e -rv_induced => /rv_inj | exact: contract_induced].
Qed.
(* C81: for operators with symmetric matrices these are the operators themselves *)
Theorem C81_symmetric (e_k : K -> mx) mu H ops U eps (op1 op2 : mx) : get_rpa_tensor H ops = Some U -> let r := HFR e_k mu U eps in
  nonsingular (chi0_abcd r) (tensor_of U) -> op1^T = op1 -> op2^T = op2 ->
  forall drho, self_consistent (chi0_abcd r) U op1 drho -> response r op1 op2 = - expectation op2 drho.
Proof.
move=> hU r ns s1 s2 drho h; have [drho' [_ u]] := @C81_response e_k mu H ops U eps op1 op2 hU ns; rewrite s1 s2 in u * => ->.
by rewrite (u drho).
Qed.
(* without interaction it is the bare response *)
Theorem C81_free (e_k : K -> mx) mu eps (op1 op2 : mx) : let r := HFR e_k mu (fun _ _ _ _ => 0) eps in
  response r op1 op2 = bare_response r op1 op2 /\ bare_response r op1 op2 = - expectation op2^T (induced (chi0_abcd r) op1^T).
Proof.
move=> r; split; last exact: contract_induced.
suff h : eq_t4 (chi_abcd r) (chi0_abcd r) by apply: eq_bigr => a _; apply: eq_bigr => b _; apply: eq_bigr => c _; apply: eq_bigr => d _; rewrite h.
apply/eq_tmat; rewrite tmat_rpa; have -> : tmat (tensor_of (n := n) (fun _ _ _ _ => 0)) = 0 :> 'M[C]_(n * n) by apply/matrixP => i j; rewrite !mxE.
by rewrite mulmx0 subr0 invmx1 mul1mx.
Qed.
(* the hypothesis holds for all Kanamori interactions but finitely many multiples *)
Lemma scale_unit N (A : 'M[C]_N) : exists g : C, g != 0 /\ 1%:M - g *: A \in unitmx.
Proof.
have [rs ers] := closed_field_poly_normal (char_poly A).
pose x := 1 + \sum_(r <- rs) `|r|.
have x0 : 0 < x by rewrite ltr_paddr ?ltr01 ?sumr_ge0.
have nx : ~~ eigenvalue A x.
  rewrite eigenvalue_root_char ers rootZ ?lead_coef_eq0 ?monic_neq0 ?char_poly_monic // root_prod_XsubC; apply/negP => hx.
  have : `|x| < x; last by rewrite gtr0_norm ?ltxx.
  by rewrite {2}/x (big_rem x) //= addrCA ltr_addl ltr_paddr ?ltr01 ?sumr_ge0.
exists x^-1; split; first by rewrite invr_eq0 gt_eqF.
rewrite -row_free_unit -kermx_eq0; apply/negPn; apply: contra nx => /rowV0Pn [v /sub_kermxP e v0].
apply/eigenvalueP; exists v => //; move/eqP: e; rewrite mulmxBr mulmx1 -scalemxAr subr_eq0 => /eqP {2}->.
by rewrite scalerA mulfV ?scale1r // gt_eqF.
Qed.

(* C82 *)
Definition hermitian_bands (e : K -> mx) : Prop := forall k, dagger (e k) = e k.
Lemma density_func E : density_of eigh exp beta E = func (HfModel.fermi exp beta) (eigh E).1 (eigh E).2.
Proof.
apply/matrixP => a c; rewrite funcE /density_of; case: (eigh E) => l V; rewrite mxE; apply: eq_bigr => b _.
by rewrite [dagger _ _ _]mxE mulrAC.
Qed.
Lemma drho_opp (e : K -> mx) eps op k : compute_drho_k_dop eigh exp beta e eps (- op) k = - compute_drho_k_dop eigh exp beta e eps op k.
Proof. by rewrite /compute_drho_k_dop /= scalerN opprK -[RHS]scalerN opprB. Qed.
Lemma F_sym (x : C) (a b : 'I_n) : x^* = x -> F_ab x a b = F_ab x b a.
Proof. by move=> h; rewrite /F_ab h addrC. Qed.
Lemma F_anti (x : C) (a b : 'I_n) : x^* = - x -> F_ab x a b = - F_ab x b a.
Proof. by move=> h; rewrite /F_ab h !scaleNr opprB. Qed.
Local Notation drho := (compute_drho_dop eigh exp beta).
Local Notation X0 := (compute_chi0_abcd eigh exp beta).
Lemma drho_dop_opp (e : K -> mx) eps op : drho e eps (- op) = - drho e eps op.
Proof. by rewrite /compute_drho_dop; under eq_bigr do rewrite drho_opp; rewrite sumrN scalerN. Qed.
Lemma sumE (I : finType) (f : I -> mx) a b : (\sum_i f i) a b = \sum_i f i a b. Proof. by rewrite summxE. Qed.
Lemma chi0E (e : K -> mx) eps a b c d : X0 e eps b a c d = - (2%:R^-1 * (drho e eps (F_ab 1 a b) c d + 'Im (drho e eps (F_ab 'i a b) c d))).
Proof.
have rk : (n_k C K)^-1 \is Num.real by rewrite realV realn.
rewrite /compute_chi0_abcd /compute_drho_dop !mxE !sumE ImMl // raddf_sum -mulrDr -big_split /= mulrCA -mulrN [LHS]mulrC; congr (_ * _).
by rewrite mulr_sumr -sumrN; apply: eq_bigr => k _; rewrite /compute_chi0_kabcd /compute_R_kabcd raddfN -opprD mulrN.
Qed.
Lemma induced_basis (X : t4) x a b c d : induced X (F_ab x a b) c d = - (X b a c d * x + X a b c d * x^*).
Proof.
have one (y : C) i j : \sum_a' \sum_b' X b' a' c d * (y *: delta_mx i j : mx) a' b' = X j i c d * y.
  rewrite (bigD1 i) //= (bigD1 j) //= !big1 ?addr0 => [|i' /negbTE h|j' /negbTE h]; first by rewrite !mxE !eqxx mulr1.
    by apply: big1 => j' _; rewrite !mxE h mulr0 mulr0.
  by rewrite !mxE h andbF !mulr0.
rewrite mxE; congr (- _); rewrite -!one -big_split; apply: eq_bigr => a' _; rewrite -big_split; apply: eq_bigr => b' _.
by rewrite [F_ab _ _ _ _ _]mxE mulrDr.
Qed.
(* C82: in every real symmetric basis field the response of the bare susceptibility is the finite difference of the density matrix *)
Theorem C82_symmetric_fields (e : K -> mx) eps a b : induced (X0 e eps) (F_ab 1 a b) = drho e eps (F_ab 1 a b).
Proof.
apply/matrixP => c d; rewrite induced_basis conjC1 !mulr1 !chi0E.
rewrite (@F_sym 1 b a) ?conjC1 // (@F_anti 'i b a) ?conjCi // drho_dop_opp [(- _ : mx) _ _]mxE raddfN.
rewrite -opprD opprK -mulrDr; set x := drho _ _ _ _ _; set y := 'Im _.
by rewrite addrACA subrr addr0 -mulr2n -[x *+ 2]mulr_natl mulKf ?pnatr_eq0.
Qed.
(* C82: in the imaginary antisymmetric basis fields exactly when the difference is imaginary *)
Theorem C82_antisymmetric_fields_iff (e : K -> mx) eps a b : induced (X0 e eps) (F_ab 'i a b) = drho e eps (F_ab 'i a b) <->
  map_mx conjC (drho e eps (F_ab 'i a b)) = - drho e eps (F_ab 'i a b).
Proof.
have ei : induced (X0 e eps) (F_ab 'i a b) = 2%:R^-1 *: (drho e eps (F_ab 'i a b) - map_mx conjC (drho e eps (F_ab 'i a b))).
  apply/matrixP => c d; rewrite induced_basis !chi0E conjCi.
  rewrite (@F_sym 1 b a) ?conjC1 // (@F_anti 'i b a) ?conjCi // drho_dop_opp [(- _ : mx) _ _]mxE raddfN.
  move: (drho e eps (F_ab 1 a b)) (drho e eps (F_ab 'i a b)) => S D; rewrite !mxE; set y := 'Im _; set h := 2%:R^-1; set s := S _ _.
  have -> : - (- (h * (s + y)) * 'i + - (h * (s - y)) * - 'i) = (h + h) * ('i * y) by fring C.
  have -> : h + h = 1 by rewrite -mulr2n -mulr_natr mulVf ?pnatr_eq0.
  by rewrite /y ImE mul1r !mulrA -expr2 sqrCi !mulN1r opprB mulrC.
rewrite ei; move: (drho _ _ _) => D; split=> [/(congr1 ( *:%R 2%:R))|->]; rewrite ?opprK.
  rewrite scalerA mulfV ?pnatr_eq0 // scale1r scaler_nat mulr2n => /(congr1 (fun m => m - D)).
  by rewrite addrK addrAC subrr add0r => hD; rewrite -[in RHS]hD opprK.
by rewrite -mulr2n -scaler_nat scalerA mulVf ?pnatr_eq0 // scale1r.
Qed.
Section Fields.
Hypothesis heig : eigensolver eigh.
Variables (e : K -> mx) (eps : C).
Hypotheses (he : hermitian_bands e) (heps : eps \is Num.real) (hexp : real_function exp) (hbeta : beta \is Num.real).
Lemma fermi_real x : x \is Num.real -> HfModel.fermi exp beta x \is Num.real.
Proof. by move=> hx; rewrite /HfModel.fermi mul1r realV realD ?real1 ?hexp ?realM. Qed.
Lemma dagger_shift op k (s : C) : s \is Num.real -> dagger op = op -> dagger (e k + s *: op) = e k + s *: op.
Proof.
move=> hs ho; apply/matrixP => i j; have /matrixP/(_ i j) := he k; have /matrixP/(_ i j) := ho; rewrite !mxE rmorphD rmorphM (CrealP hs) => -> -> //.
Qed.
Lemma dagger_F (x : C) (a b : 'I_n) : dagger (F_ab x a b) = F_ab x a b.
Proof.
by apply/matrixP => i j; rewrite !mxE rmorphD !rmorphM conjCK !conjC_nat (andbC (j == _)) (andbC (j == _)) addrC.
Qed.
Lemma density_dagger E : dagger E = E -> dagger (density_of eigh exp beta E) = density_of eigh exp beta E.
Proof.
move=> hE; rewrite density_func func_dagger; apply: func_eq => i; apply/CrealP/fermi_real.
by case: (heig hE) => r _ _; apply: r.
Qed.
Lemma density_conj E : dagger E = E -> map_mx conjC (density_of eigh exp beta E) = density_of eigh exp beta (map_mx conjC E).
Proof.
move=> hE; have ec : map_mx conjC E = E^T by rewrite -{2}hE; apply/matrixP => i j; rewrite !mxE.
have hE' : dagger (map_mx conjC E) = map_mx conjC E by apply/matrixP => i j; have /matrixP/(_ i j) := hE; rewrite !mxE => ->.
have d := heig hE; rewrite !density_func; have := dec_tr d; rewrite -ec => d'.
rewrite (func_gauge _ (heig hE') d'); case: d => r _ _.
apply/matrixP => i j; rewrite [LHS]mxE !funcE rmorph_sum; apply: eq_bigr => k _.
by rewrite 2!rmorphM (CrealP (fermi_real (r k))) !mxE.
Qed.
(* C82: with time-reversal symmetry also in the imaginary antisymmetric fields *)
Theorem C82_time_reversal_partial (sigma : K -> K) a b : bijective sigma -> (forall k, e (sigma k) = map_mx conjC (e k)) ->
  induced (X0 e eps) (F_ab 'i a b) = drho e eps (F_ab 'i a b).
Proof.
move=> bs hs; apply/C82_antisymmetric_fields_iff; rewrite -drho_dop_opp.
have eF : - F_ab 'i a b = map_mx conjC (F_ab 'i a b) :> mx.
  by apply/matrixP => i j; rewrite !mxE rmorphD !rmorphM conjCK !conjC_nat conjCi !mulNr opprD opprK.
have cs (x : C) (m : mx) : x \is Num.real -> map_mx conjC (x *: m) = x *: map_mx conjC m.
  by move=> hx; apply/matrixP => i j; rewrite !mxE rmorphM (CrealP hx).
have ca (m m' : mx) : map_mx conjC (m + m') = map_mx conjC m + map_mx conjC m' by apply/matrixP => i j; rewrite !mxE rmorphD.
have co (m : mx) : map_mx conjC (- m) = - map_mx conjC m by apply/matrixP => i j; rewrite !mxE rmorphN.
rewrite /compute_drho_dop [in RHS](reindex sigma) /=; last exact: onW_bij.
rewrite cs ?realV ?realn //; congr (_ *: _).
have -> (f : K -> mx) : map_mx conjC (\sum_k f k) = \sum_k map_mx conjC (f k).
  by apply/matrixP => i j; rewrite mxE !summxE rmorph_sum; apply: eq_bigr => k _; rewrite mxE.
apply: eq_bigr => k _; rewrite /compute_drho_k_dop eF hs /= cs; last by rewrite realV realM ?realn.
move: (F_ab 'i a b) (dagger_F 'i a b) => F dF.
have h1 : dagger (e k + eps *: F) = e k + eps *: F by rewrite dagger_shift.
have h2 : dagger (e k - eps *: F) = e k - eps *: F by rewrite -scaleNr dagger_shift ?rpredN.
by rewrite ca co !density_conj // !ca co !cs.
Qed.
(* C82: the density matrix changes by a Hermitian matrix, and the susceptibility does not depend on the eigenvectors chosen by the eigenvalue solver *)
Theorem C82_hermitian op : dagger op = op -> dagger (drho e eps op) = drho e eps op.
Proof.
move=> ho; have cs (x : C) (m : mx) : x \is Num.real -> dagger (x *: m) = x *: dagger m.
  by move=> hx; apply/matrixP => i j; rewrite !mxE rmorphM (CrealP hx).
rewrite /compute_drho_dop cs ?realV ?realn //; congr (_ *: _).
apply/matrixP => i j; rewrite mxE !summxE rmorph_sum; apply: eq_bigr => k _.
suff : dagger (compute_drho_k_dop eigh exp beta e eps op k) = compute_drho_k_dop eigh exp beta e eps op k by move=> {2}<-; rewrite [RHS]mxE.
rewrite /compute_drho_k_dop /= cs; last by rewrite realV realM ?realn.
have -> (m m' : mx) : dagger (m - m') = dagger m - dagger m' by apply/matrixP => x y; rewrite !mxE rmorphB.
by rewrite !density_dagger // -?scaleNr dagger_shift ?rpredN.
Qed.
End Fields.
Theorem C82_gauge eigh' (e : K -> mx) eps a b c d : eigensolver eigh -> eigensolver eigh' -> hermitian_bands e -> eps \is Num.real ->
  X0 e eps a b c d = compute_chi0_abcd eigh' exp beta e eps a b c d.
Proof.
move=> h h' he hr; rewrite /compute_chi0_abcd; congr (_ / _); apply: eq_bigr => k _; rewrite /compute_chi0_kabcd /compute_R_kabcd.
suff ed x : compute_drho_k_dop eigh exp beta e eps (F_ab x b a) k = compute_drho_k_dop eigh' exp beta e eps (F_ab x b a) k by rewrite !ed.
have dens E : dagger E = E -> density_of eigh exp beta E = density_of eigh' exp beta E.
  by move=> hE; rewrite density_func (func_gauge _ (h _ hE) (h' _ hE)); apply/esym/matrixP => i j; rewrite funcE /density_of; case: (eigh' E) => l V; rewrite mxE; apply: eq_bigr => i' _; rewrite [dagger _ _ _]mxE mulrAC.
by rewrite /compute_drho_k_dop /= !dens // -?scaleNr dagger_shift ?dagger_F ?rpredN.
Qed.
(* C82: the argument eps of the constructors has no effect, compute_chi0_k always raises *)
Theorem C82_step_size_refuted (e_k : K -> mx) mu U eps eps' : HFR e_k mu U eps = HFR e_k mu U eps' /\ HR e_k mu U eps = HR e_k mu U eps'.
Proof. by []. Qed.
Theorem C82_chi0_k_refuted (e_k : K -> mx) mu U eps : compute_chi0_k (HFR e_k mu U eps) = None.
Proof. by []. Qed.

Local Notation dd := (@extract_dens_dens C n).
(* C83: the densities follow the applied potentials and the Hartree potential of the changed densities *)
Definition hartree_consistent (chi0 : mx) (U : arr4 C) (F dn : 'rV[C]_n) : Prop :=
  forall b, dn 0 b = - \sum_a chi0 a b * (F 0 a + update_mean_field U (diag_mx dn) a a).
Lemma dens_dens_sym (H : operator C) ops U : get_rpa_tensor H ops = Some U -> (dd U)^T = dd U :> mx.
Proof.
move=> /rpa_tensor_sym h; apply/matrixP => i j; have /matrixP/(_ (pidx i i) (pidx j j)) := h.
by rewrite !mxE !pidxK1 !pidxK2.
Qed.
Lemma hartree_potential U dn a : update_mean_field U (diag_mx dn) a a = - (dn *m (dd U)^T) 0 a.
Proof.
rewrite !mxE -sumrN; apply: eq_bigr => c _; rewrite (bigD1 c) //= big1 => [|d /negbTE h]; first by rewrite !mxE eqxx addr0 mulr1n mulNr mulrC.
by rewrite mxE eq_sym h mulr0n mulr0.
Qed.
Lemma hartree_consistentE (H : operator C) ops U chi0 F dn : get_rpa_tensor H ops = Some U -> 1%:M - dd U *m chi0 \in unitmx ->
  hartree_consistent chi0 U F dn <-> dn = - (F *m (chi0 *m invmx (1%:M - dd U *m chi0))).
Proof.
move=> hU v; have e : hartree_consistent chi0 U F dn <-> dn *m (1%:M - dd U *m chi0) = - (F *m chi0).
  have e1 b : - (\sum_a chi0 a b * (F 0 a + update_mean_field U (diag_mx dn) a a)) = (- (F *m chi0) + dn *m dd U *m chi0) 0 b.
    rewrite mxE [(- _ : 'rV_n) _ _]mxE [(F *m _) _ _]mxE [(dn *m _ *m _) _ _]mxE -sumrN -sumrN -big_split; apply: eq_bigr => a _.
    by rewrite hartree_potential (dens_dens_sym hU) mulrDr opprD mulrN opprK ![_ * chi0 _ _]mulrC.
  rewrite mulmxBr mulmx1 mulmxA; split=> [h|h b]; last by rewrite e1 -h subrK.
  by apply/eqP; rewrite subr_eq; apply/eqP/rowP => b; rewrite h e1.
rewrite e mulmxA; split=> [h|->]; last by rewrite mulNmx mulmxKV.
by rewrite -[LHS](mulmxK v) h mulNmx.
Qed.
Theorem C83_hartree (e_k : K -> mx) mu H ops U eps (op1 op2 : mx) : get_rpa_tensor H ops = Some U -> let r := HR e_k mu U eps in
  1%:M - dd U *m chi0_ab r \in unitmx -> diagonal op1 -> diagonal op2 ->
  exists dn : 'rV[C]_n, [/\ hartree_consistent (chi0_ab r) U (\row_a op1 a a) dn,
    (forall dn', hartree_consistent (chi0_ab r) U (\row_a op1 a a) dn' -> dn' = dn) &
    response_hartree r op1 op2 = Some (- \sum_b dn 0 b * op2 b b)].
Proof.
move=> hU r v d1 d2; exists (- ((\row_a op1 a a) *m chi_ab r)); have e := hartree_consistentE (\row_a op1 a a) _ hU v.
split; [by rewrite e | by move=> dn'; rewrite e |].
rewrite /response_hartree d1 d2; congr Some; rewrite exchange_big -sumrN; apply: eq_bigr => b _.
by rewrite [(- _ : 'rV_n) _ _]mxE [(_ *m _) _ _]mxE mulNr opprK mulr_suml; apply: eq_bigr => a _; rewrite !mxE.
Qed.
(* operators which are not diagonal are refused *)
Theorem C83_diagonal_only (r : h_response C n) (op1 op2 : mx) a b : a != b -> (op1 a b != 0) || (op2 a b != 0) -> response_hartree r op1 op2 = None.
Proof.
move=> ab; have d (op : mx) : op a b != 0 -> diagonal op = false.
  move=> /negP h; apply/negP => /eqP/matrixP/(_ a b); rewrite !mxE (negbTE ab) mulr0n subr0 => /eqP; exact: h.
by rewrite /response_hartree; case/orP=> /d ->; rewrite ?andbF.
Qed.
(* the bare susceptibility of the densities is the one of the Hartree-Fock response with half the step size *)
Theorem C83_same_bare (e : K -> mx) eps a b : X0 e eps a a b b = compute_chi0_ab eigh exp beta e (2%:R * eps) a b.
Proof.
rewrite chi0E [RHS]mxE; congr (- _).
have -> : drho e eps (F_ab 'i a a) = 0.
  have -> : F_ab 'i a a = 0 :> mx by rewrite /F_ab conjCi scaleNr subrr.
  by rewrite /compute_drho_dop big1 ?scaler0 // => k _; rewrite /compute_drho_k_dop /= scaler0 subr0 addr0 subrr scaler0.
rewrite [(0 : mx) _ _]mxE raddf0 addr0.
have -> : F_ab 1 a a = 2%:R *: delta_mx a a :> mx by rewrite /F_ab conjC1 scale1r scaler_nat mulr2n.
rewrite /compute_drho_dop !mxE !summxE mulrCA; congr (_ * _); rewrite mulr_sumr; apply: eq_bigr => k _.
rewrite /compute_drho_k_dop /= scalerA (mulrC eps); move: (_ - density_of _ _ _ _) => D.
by rewrite [(2%:R * (2%:R * eps))^-1]invfM -scalerA [RHS]mxE.
Qed.
End Response.

(* the Kanamori tensor is linear in its parameters *)
Section Scale.
Variables (C : numClosedFieldType) (norb : nat).
Add Ring Cring2 : (fld_rt C).
Lemma charge_spin_scale (g U Up J Jp : C) (a b c d : 'I_norb) :
  let f := @kanamori_charge_and_spin_quartic_interaction_tensors C norb (g * U) (g * Up) (g * J) (g * Jp) in
  let h := @kanamori_charge_and_spin_quartic_interaction_tensors C norb U Up J Jp in
  f.1 a b c d = g * h.1 a b c d /\ f.2 a b c d = g * h.2 a b c d.
Proof.
rewrite /=; case: (_ && _ && _); first by split; fring C.
case: (_ && _ && _); first by rewrite (mulr2n 1); split; fring C.
case: (_ && _ && _); first by rewrite (mulr2n 1); split; fring C.
by case: (_ && _ && _); split; fring C.
Qed.
Lemma kanamori_scale (g U Up J Jp : C) (i j k l : 'I_(2 * norb)) :
  kanamori_quartic_tensor (g * U) (g * Up) (g * J) (g * Jp) i j k l = g * kanamori_quartic_tensor U Up J Jp i j k l.
Proof.
rewrite /kanamori_quartic_tensor; have := charge_spin_scale g U Up J Jp; case: (kanamori_charge_and_spin_quartic_interaction_tensors _ _ _ _) => f1 f2.
case: (kanamori_charge_and_spin_quartic_interaction_tensors _ _ _ _) => h1 h2 /= h.
have h_1 a b c d : f1 a b c d = g * h1 a b c d by case: (h a b c d).
have h_2 a b c d : f2 a b c d = g * h2 a b c d by case: (h a b c d).
rewrite /quartic_tensor_from_charge_and_spin /= /store8.
by do !(case: ifP => _; rewrite ?h_1 ?h_2; try by fring C); fring C.
Qed.
End Scale.
(* the hypothesis of C81 for a Kanamori interaction, any dispersion and almost all strengths *)
Theorem C81_case (C : numClosedFieldType) (norb : nat) (K : finType) (idx : seq nat) eigh exp beta (e_k : K -> 'M[C]_(2 * norb)) mu eps (U Up J Jp : C) :
  uniq idx -> size idx = (2 * norb)%N -> exists g T, [/\ g != 0,
    get_rpa_tensor (kanamori (mode idx : 'I_2 -> 'I_norb -> nat) (g * U) (g * Up) (g * J) (g * J) (g * Jp)) (modes C idx) = Some T &
    nonsingular (chi0_abcd (HartreeFockResponse eigh exp beta e_k mu T eps)) (tensor_of T)].
Proof.
move=> u sz; pose X := compute_chi0_abcd eigh exp beta (dispersion e_k mu) (default_eps C).
have [g [g0 v]] := scale_unit (tmat X *m tmat (kanamori_quartic_tensor U Up J Jp)).
have [T [eT hT]] := C63_kanamori_hamiltonian_partial (g * U) (g * Up) (g * J) (g * Jp) u sz.
exists g, T; split => //; apply/nonsingularP.
have -> : tmat (tensor_of T) = g *: tmat (kanamori_quartic_tensor (nb := norb) U Up J Jp).
  by apply/matrixP => i j; rewrite !mxE /tensor_of hT kanamori_scale.
by rewrite -scalemxAr.
Qed.

Theorem C83_case (C : numClosedFieldType) (norb : nat) (K : finType) (idx : seq nat) eigh exp beta (e_k : K -> 'M[C]_(2 * norb)) mu eps (U Up J Jp : C) :
  uniq idx -> size idx = (2 * norb)%N -> exists g T, [/\ g != 0,
    get_rpa_tensor (kanamori (mode idx : 'I_2 -> 'I_norb -> nat) (g * U) (g * Up) (g * J) (g * J) (g * Jp)) (modes C idx) = Some T &
    1%:M - extract_dens_dens (2 * norb) T *m chi0_ab (HartreeResponse eigh exp beta e_k mu T eps) \in unitmx].
Proof.
move=> u sz; pose X := compute_chi0_ab eigh exp beta (dispersion e_k mu) (default_eps C).
have [g [g0 v]] := scale_unit ((\matrix_(i, j) kanamori_quartic_tensor (nb := norb) U Up J Jp i i j j) *m X).
have [T [eT hT]] := C63_kanamori_hamiltonian_partial (g * U) (g * Up) (g * J) (g * Jp) u sz.
exists g, T; split => //.
have -> : extract_dens_dens (2 * norb) T = g *: (\matrix_(i, j) kanamori_quartic_tensor (nb := norb) U Up J Jp i i j j).
  by apply/matrixP => i j; rewrite !mxE hT kanamori_scale.
by rewrite -scalemxAl.
Qed.
Print Assumptions C81_response.
Print Assumptions C82_time_reversal_partial.
Print Assumptions C83_hartree.
Print Assumptions C83_case.
