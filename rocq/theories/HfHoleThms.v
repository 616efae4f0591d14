(* C120: the particle-hole transformation in Hartree-Fock. *)
From mathcomp Require Import all_ssreflect all_algebra.
From Verif Require Import OperatorModel KanamoriModel SymmetryModel HfModel HfSpec HfThms HfBasisThms HfReversalThms Spectral Fring.
Set Implicit Arguments.
Unset Strict Implicit.
Unset Printing Implicit Defensive.
Import GRing.Theory Num.Theory Order.Theory.
Local Open Scope ring_scope.

Section Spec.
Variables (C : numClosedFieldType) (n : nat) (K : finType).
Local Notation mx := 'M[C]_n.
(* particles and holes exchanged, c_a -> c+_a: the density matrix, the interaction, and the one-body Hamiltonian with the mean field of the filled bands *)
Definition hole (rho : mx) : mx := 1%:M - rho^T.
Definition hole_tensor (U U' : arr4 C) : Prop := forall a b c d : 'I_n, U' a b c d = U b a d c.
Definition filled (U' : arr4 C) : mx := \matrix_(b, a) - \sum_(c < n) U' a b c c.
Definition hole_dispersion (minus : K -> K) (U' : arr4 C) (e e' : K -> mx) : Prop := forall k, e' k = - (e (minus k))^T - filled U'.
(* the mean field of the holes *)
Definition hole_field (U' : arr4 C) (M : mx) : mx := filled U' - M^T.
Definition hole_state (U' : arr4 C) (s s' : solver C n) : Prop := [/\ s_mu s' = - s_mu s, s_M s' = hole_field U' (s_M s) & s_rho s' = hole (s_rho s)].
(* the exponential function, and the logarithm of it *)
Definition exponential (exp : C -> C) : Prop := [/\ forall x, x \is Num.real -> 0 < exp x, forall x, x \is Num.real -> exp (- x) = (exp x)^-1 &
  forall x y, x \is Num.real -> y \is Num.real -> x < y -> exp x < exp y].
Definition logarithm (exp log : C -> C) : Prop := forall x, x \is Num.real -> log (1 + exp x) = x + log (1 + exp (- x)).
(* the interaction does not depend on the order of the two pairs *)
Definition pair_symmetric (U : arr4 C) : Prop := forall a b c d : 'I_n, U a b c d = U c d a b.
End Spec.

Section Hole.
Variables (C : numClosedFieldType) (n : nat).
Local Notation mx := 'M[C]_n.
Implicit Types (A B : mx).
Lemma mean1 (U : arr4 C) : update_mean_field U (1%:M : mx) = filled n U.
Proof.
apply/matrixP=> b a; rewrite !mxE -sumrN; apply: eq_bigr => c _; rewrite (bigD1 c) //= big1 ?addr0 => [|d hd]; first by rewrite mxE eqxx mulr1.
by rewrite mxE eq_sym (negbTE hd) mulr0.
Qed.
Lemma meanB (U : arr4 C) A B : update_mean_field U (A - B) = update_mean_field U A - update_mean_field U B.
Proof.
apply/matrixP=> b a; rewrite !mxE -sumrB; apply: eq_bigr => c _; rewrite -sumrB; apply: eq_bigr => d _; by rewrite !mxE mulrBr.
Qed.
Lemma mean_hole (U U' : arr4 C) A : hole_tensor n U U' -> update_mean_field U' (hole A) = hole_field U' (update_mean_field U A).
Proof.
move=> h; rewrite /hole meanB mean1; congr (_ - _); apply/matrixP=> b a; rewrite !mxE exchange_big; apply: eq_bigr => c _; apply: eq_bigr => d _.
by rewrite h mxE.
Qed.
Lemma tr_herm A : hermitian_mx A -> A^T = conj_mx A.
Proof. by move=> h; apply/matrixP=> i j; rewrite -[in LHS]h !mxE. Qed.
Lemma hole_herm A : hermitian_mx A -> hermitian_mx (hole A).
Proof.
move=> h; have r i j : (A i j)^* = A j i by rewrite -[in RHS]h !mxE.
by apply/matrixP=> i j; rewrite !mxE rmorphB rmorph_nat r eq_sym.
Qed.
Lemma holeK A : hole (hole A) = A. Proof. by rewrite /hole linearB /= trmxK tr_scalar_mx opprB addrC subrK. Qed.
Lemma hole_mix m A B : hole ((1 - m) *: A + m *: B) = (1 - m) *: hole A + m *: hole B.
Proof.
by rewrite /hole !scalerBr [RHS]addrACA -scalerDl subrK scale1r -opprD linearD !linearZ.
Qed.
Lemma N_hole A : N_tot (hole A) = n%:R - N_tot A.
Proof. by rewrite /N_tot -!/(\tr _) /hole linearB /= mxtrace_tr mxtrace1. Qed.
Lemma filled_herm (U : arr4 C) : hermitian_tensor n U -> hermitian_mx (filled n U).
Proof. by move=> h; apply/matrixP=> i j; rewrite !mxE rmorphN rmorph_sum; congr (- _); apply: eq_bigr => c _; rewrite h. Qed.
End Hole.

Section Run.
Variables (C : numClosedFieldType) (n : nat) (K : finType).
Add Ring Cring : (fld_rt C).
Add Field Cfield : (fld_ft (Num.ClosedField.fieldType C)).
Local Notation mx := 'M[C]_n.
Variables (eigh : mx -> 'rV[C]_n * mx) (exp log : C -> C) (brentq : (C -> C) -> C -> C -> option C) (beta : C).
Hypotheses (hE : forall m, hermitian_mx m -> eigh_at eigh m) (bE : brentq_root brentq).
Hypotheses (beta0 : 0 < beta) (expO : exponential exp) (bR : forall f a b x, brentq f a b = Some x -> x \is Num.real).
Hypotheses (n0 : (0 < n)%N) (K0 : (0 < #|K|)%N).
Variables (minus : K -> K) (minusK : involutive minus).
Let betaR : beta \is Num.real. Proof. exact: gtr0_real. Qed.
Let expP : forall x, x \is Num.real -> 0 < exp x. Proof. by case: expO. Qed.
Lemma fermi_hole x : x \is Num.real -> fermi exp beta (- x) = 1 - fermi exp beta x.
Proof.
move=> xR; have bR' : beta * x \is Num.real by rewrite rpredM.
case: expO => p e _; rewrite /fermi mulrN e // !div1r; have := p _ bR'; move: (exp (beta * x)) => y y0.
have y1 : y + 1 != 0 by rewrite gt_eqF // addr_gt0 ?ltr01.
have y2 : y != 0 by rewrite gt_eqF.
rewrite -[X in X - _](mulfV y1) -{2}[(y + 1)^-1]mul1r -mulrBl addrK.
by rewrite -[X in _ + X](mulfV y2) -[X in X + _]mul1r -mulrDl invfM invrK [1 + y]addrC mulrC.
Qed.
Section Dispersion.
Variables (e e' : K -> mx).
Hypotheses (he : forall k, hermitian_mx (e k)) (he' : forall k, e' k = - (e (minus k))^T).
Lemma he'h k : hermitian_mx (e' k).
Proof. by rewrite he' tr_herm // /hermitian_mx -scaleN1r; apply: hermZ; rewrite ?realN ?real1 //; exact: conj_herm. Qed.
Lemma function_hole (f : C -> C) k : let (l, U1) := eigh (e (minus k)) in let (l', U2) := eigh (e' k) in
  U2 *m diag_mx (map_mx f l') *m adjoint U2 = conj_mx U1 *m diag_mx (map_mx f (- l)) *m adjoint (conj_mx U1) /\ \sum_i f (l' 0 i) = \sum_i f (- l 0 i).
Proof.
have := hE (he (minus k)); have := hE (he'h k); rewrite /eigh_at; case e1: (eigh (e (minus k))) => [l U1]; case: (eigh (e' k)) => l' U2 [_ u2 e2] [lR u1 e3].
have := @same_function C n 1%:M (- l) l' (conj_mx U1) U2 f; rewrite !basis1; case.
- by rewrite /unitary_mx adj1 mul1mx.
- exact: conj_unitary.
- by [].
- rewrite -e2 he' (tr_herm (he _)) e3 !conjM conj_adj conj_diag // -mulNmx -mulmxN; congr (_ *m _ *m _).
  by apply/matrixP=> i j; rewrite !mxE mulNrn.
by move=> -> ->; split=> //; apply: eq_bigr => i _; rewrite mxE.
Qed.
Lemma density_k_hole mu k : mu \is Num.real -> update_momentum_density_matrix eigh exp beta e' (- mu) k = hole (update_momentum_density_matrix eigh exp beta e mu (minus k)).
Proof.
move=> muR; have hr : hermitian_mx (update_momentum_density_matrix eigh exp beta e mu (minus k)) by apply: rho_k_hermitian => // k'; apply: hE.
rewrite /hole (tr_herm hr) !density_kE; have := function_hole (fun x => fermi exp beta (x - - mu)) k; have := hE (he (minus k)); rewrite /eigh_at.
case: (eigh (e _)) => l U1; case: (eigh (e' k)) => l' U2 [lR uU _] [-> _] /=; rewrite !conjM -conj_adj conj_diag; last first.
  by move=> i; rewrite mxE gtr0_real // fermi_pos // rpredB.
rewrite -[X in X - _](conj_unitary uU) -[X in X *m adjoint _ - _]mulmx1 -mulmxBl -mulmxBr; congr (_ *m _ *m _).
apply/matrixP=> i j; rewrite !mxE opprK -mulrnBl; congr (_ *+ _).
by rewrite -fermi_hole ?rpredB // opprB addrC.
Qed.
Lemma density_hole mu : mu \is Num.real -> update_density_matrix eigh exp beta e' (- mu) = hole (update_density_matrix eigh exp beta e mu).
Proof.
move=> muR; rewrite /update_density_matrix (reindex_inj (inv_inj minusK)) /=.
under eq_bigr => k _ do rewrite density_k_hole // minusK.
rewrite /hole sumrB sumr_const scalerBr [in RHS]linearZ /= [in RHS]linear_sum /= -[1%:M *+ _]scaler_nat scalerA mulVf ?scale1r //.
by rewrite pnatr_eq0 -lt0n.
Qed.
End Dispersion.
(* the filling determines the chemical potential *)
Lemma filling_inj (e : K -> mx) a b : (forall k, hermitian_mx (e k)) -> a \is Num.real -> b \is Num.real ->
  N_tot (update_density_matrix eigh exp beta e a) = N_tot (update_density_matrix eigh exp beta e b) -> a = b.
Proof.
move=> he; have hE' k : eigh_at eigh (e k) by apply: hE.
wlog: a b / a < b => [w aR bR' h|ab aR bR' ].
  by case: (real_ltgtP aR bR') => // hl; [exact: w | symmetry; exact: w].
have k0 : (n_k C K)^-1 != 0 by rewrite invr_eq0 pnatr_eq0 -lt0n.
rewrite !density_count // => /(mulIf k0) /eqP; rewrite eq_sym -subr_eq0 !levels_sum -sumrB /=.
under eq_bigr do rewrite -sumrB; rewrite pair_bigA /= => h; exfalso.
have pos (p : K * 'I_n) : 0 < fermi exp beta ((eigh (e p.1)).1 0 p.2 - b) - fermi exp beta ((eigh (e p.1)).1 0 p.2 - a).
  have := hE' p.1; rewrite /eigh_at; case: (eigh _) => l V [lR _ _] /=; rewrite subr_gt0 /fermi !div1r.
  have q y : y \is Num.real -> 0 < exp (beta * (l 0 p.2 - y)) + 1 by move=> yR; rewrite addr_gt0 ?ltr01 // expP // rpredM ?rpredB.
  rewrite ltf_pinv ?posrE ?q // ltr_add2r; case: expO => _ _; apply; rewrite ?rpredM ?rpredB // ltr_pmul2l // ltr_add2l ltr_opp2 //.
move: h; rewrite psumr_eq0 => [/allP h|p _]; last exact: ltW.
have /card_gt0P[k _] := K0; have := h (k, Ordinal n0) (mem_index_enum _); by rewrite (gt_eqF (pos _)).
Qed.
Variables (e_k e_k' : K -> mx) (U U' : arr4 C) (mu_min mu_max mu_min' mu_max' : option C).
Hypotheses (hk : forall k, hermitian_mx (e_k k)) (hU : hermitian_tensor n U) (hU' : hole_tensor n U U') (hk' : hole_dispersion minus U' e_k e_k').
Local Notation MF := update_mean_field_dispersion.
Local Notation pot := (update_chemical_potential eigh exp brentq beta mu_min mu_max).
Local Notation pot' := (update_chemical_potential eigh exp brentq beta mu_min' mu_max').
Lemma disp_hole M k : MF e_k' (hole_field U' M) k = - (MF e_k M (minus k))^T.
Proof. by rewrite /MF hk' /hole_field linearD /= opprD addrA subrK. Qed.
Lemma pot_hole M N mu mu' : hermitian_mx M -> pot (MF e_k M) N = Some mu -> pot' (MF e_k' (hole_field U' M)) (n%:R - N) = Some mu' -> mu' = - mu.
Proof.
move=> hM e1 e2; have muR := bR e1; have muR' := bR e2; have he := disp_herm hk hM; have he' := disp_hole M.
have hh k : hermitian_mx (MF e_k' (hole_field U' M) k) by exact: (he'h he he').
have r1 := bE e1; have r2 := bE e2; apply: (filling_inj hh) => //; first by rewrite rpredN.
have E (e : K -> mx) N1 m : (forall k, hermitian_mx (e k)) -> m \is Num.real -> target_function K exp beta (levels eigh e) N1 m = N_tot (update_density_matrix eigh exp beta e m) - N1.
  by move=> h mR; rewrite density_count // => k; apply: hE.
rewrite (density_hole he he') // N_hole; move/eqP: r1; rewrite E // subr_eq0 => /eqP ->; by move/eqP: r2; rewrite E // subr_eq0 => /eqP.
Qed.
Definition hole_vec (v v' : seq C) : Prop := exists rho : mx, [/\ hermitian_mx rho, v = mat2vec rho & v' = mat2vec (hole rho)].
Local Notation step := (density_matrix_step eigh exp brentq beta e_k U mu_min mu_max (@mat2vec C n) (vec2mat n)).
Local Notation step' := (density_matrix_step eigh exp brentq beta e_k' U' mu_min' mu_max' (@mat2vec C n) (vec2mat n)).
Lemma density_herm M mu : hermitian_mx M -> mu \is Num.real -> hermitian_mx (update_density_matrix eigh exp beta (MF e_k M) mu).
Proof. by move=> hM muR; apply: rho_hermitian => // k; apply: hE; apply: disp_herm. Qed.
Definition good (s : solver C n) : Prop := [/\ hermitian_mx (s_M s), hermitian_mx (s_rho s) & s_mu s \is Num.real].
Definition hole_pair (r r' : solver C n * seq C) : Prop := [/\ hole_state U' r.1 r'.1, good r.1 & hole_vec r.2 r'.2].
Lemma finish_hole M mu mu' : hermitian_mx M -> mu \is Num.real -> mu' = - mu ->
  hole_pair (Solver mu M (update_density_matrix eigh exp beta (MF e_k M) mu), mat2vec (update_density_matrix eigh exp beta (MF e_k M) mu))
    (Solver mu' (hole_field U' M) (update_density_matrix eigh exp beta (MF e_k' (hole_field U' M)) mu'), mat2vec (update_density_matrix eigh exp beta (MF e_k' (hole_field U' M)) mu')).
Proof.
move=> hM muR ->; have hd := density_herm hM muR; rewrite (density_hole (disp_herm hk hM) (disp_hole M)) //; split=> //=.
by exists (update_density_matrix eigh exp beta (MF e_k M) mu).
Qed.
Lemma step_hole s s' v v' N r r' : hole_vec v v' -> step s v (Some N) = Some r -> step' s' v' (Some (n%:R - N)) = Some r' -> hole_pair r r'.
Proof.
move=> [rho [hr -> ->]]; rewrite /density_matrix_step !C36_matrix_proof //; last exact: hole_herm.
have hM := mean_field_herm hU hr; rewrite (mean_hole _ hU').
case e1 : (pot _ _) => [mu|] //=; case e2 : (pot' _ _) => [mu'|] //= [<-] [<-].
by apply: finish_hole => //; [exact: bR e1 | exact: pot_hole e1 e2].
Qed.
Lemma step_hole_fixed s s' v v' r r' : hole_vec v v' -> s_mu s \is Num.real -> s_mu s' = - s_mu s -> step s v None = Some r -> step' s' v' None = Some r' -> hole_pair r r'.
Proof.
move=> [rho [hr -> ->]] muR em; rewrite /density_matrix_step !C36_matrix_proof //; last exact: hole_herm.
have hM := mean_field_herm hU hr; rewrite (mean_hole _ hU') => -[<-] [<-]; exact: finish_hole.
Qed.
Lemma setup_hole s s' N M0 mu0 mu0' r r' : hermitian_mx M0 ->
  solve_setup eigh exp brentq beta e_k mu_min mu_max (@mat2vec C n) s N M0 mu0 = Some r ->
  solve_setup eigh exp brentq beta e_k' mu_min' mu_max' (@mat2vec C n) s' (n%:R - N) (hole_field U' M0) mu0' = Some r' -> hole_pair r r'.
Proof.
move=> h0; rewrite /solve_setup; case: (if mu0 is Some m then Some m else _) => // _; case: (if mu0' is Some m then Some m else _) => // _.
case e1 : (pot _ _) => [mu|] //=; case e2 : (pot' _ _) => [mu'|] //= [<-] [<-].
by apply: finish_hole => //; [exact: bR e1 | exact: pot_hole e1 e2].
Qed.
Lemma mixed_hole m v v' w w' : m \is Num.real -> hole_vec v v' -> hole_vec w w' -> hole_vec (mixed m v w) (mixed m v' w').
Proof.
move=> mR [A [hA -> ->]] [B [hB -> ->]]; exists ((1 - m) *: A + m *: B); rewrite !mixed_pack // hole_mix; split=> //.
by apply: hermD; apply: hermZ => //; rewrite rpredB ?rpred1.
Qed.
Local Notation iter := (iterate eigh exp brentq beta e_k U mu_min mu_max (@mat2vec C n) (vec2mat n)).
Local Notation iter' := (iterate eigh exp brentq beta e_k' U' mu_min' mu_max' (@mat2vec C n) (vec2mat n)).
Lemma iterate_hole fuel N m tol tol' s s' v v' h h' r r' : m \is Num.real -> hole_vec v v' -> hole_state U' s s' -> good s ->
  size h = size h' -> (forall t, (t < size h)%N -> hole_vec (nth [::] h t) (nth [::] h' t)) ->
  iter fuel N m tol s v h = Some r -> iter' fuel (n%:R - N) m tol' s' v' h' = Some r' ->
  (forall t, (t < minn (size r.2) (size r'.2))%N -> hole_vec (nth [::] r.2 t) (nth [::] r'.2 t)) /\
  (size r.2 = size r'.2 -> hole_state U' r.1 r'.1 /\ good r.1).
Proof.
move=> mR; elim: fuel s s' v v' h h' => [|fuel ih] s s' v v' h h' hv hs hM sz hh.
  by move=> [<-] [<-] /=; split=> // t; rewrite -sz minnn; apply: hh.
have sz' : size (rcons h v) = size (rcons h' v') by rewrite !size_rcons sz.
have hh' t : (t < size (rcons h v))%N -> hole_vec (nth [::] (rcons h v) t) (nth [::] (rcons h' v') t).
  rewrite size_rcons !nth_rcons -sz ltnS leq_eqVlt => /orP[/eqP ->|ht]; first by rewrite ltnn eqxx.
  by rewrite ht; apply: hh.
rewrite !iterateS; case e1: (step _ _ _) => [[s1 v1]|] //; case e2: (step' _ _ _) => [[s1' v1']|] //.
have [/= hs1 hM1 hv1] := step_hole hv e1 e2.
have mono (ek : K -> mx) (T : arr4 C) a b N1 t1 f s0 v0 h0 r0 : iterate eigh exp brentq beta ek T a b (@mat2vec C n) (vec2mat n) f N1 m t1 s0 v0 h0 = Some r0 ->
    exists x, r0.2 = h0 ++ x /\ if f is 0%N then r0.1 = s0 else x != [::].
  case: r0 => s2 h2 hr; have /iterate_proof[x [-> _ hx _ _]] := hr; exists x; split=> //.
  by case: f hr hx => [[<-] //|f _ /(_ isT)[x' ->]].
case: ifP => b1; case: ifP => b2.
- by move=> [<-] [<-] /=; split=> // t; rewrite -sz' minnn; apply: hh'.
- move=> [<-] /mono[x [e3 ex]] /=; split=> [t|].
    rewrite e3 size_cat -sz' (minn_idPl (leq_addr _ _)) => ht; rewrite nth_cat -sz' ht; exact: hh'.
  rewrite e3 size_cat sz' => /eqP; rewrite -{1}[size _]addn0 eqn_add2l eq_sym => /eqP/size0nil ex'; by move: ex; rewrite ex'; case: (fuel) => // ->.
- move=> /mono[x [e3 ex]] [<-] /=; split=> [t|].
    rewrite e3 size_cat -sz' (minn_idPr (leq_addr _ _)) => ht; rewrite nth_cat ht; exact: hh'.
  rewrite e3 size_cat -sz' => /eqP; rewrite -{2}[size _]addn0 eqn_add2l => /eqP/size0nil ex'; by move: ex; rewrite ex'; case: (fuel) => // ->.
- by apply: ih => //; apply: mixed_hole.
Qed.
Local Notation solve := (solve_iter eigh exp brentq beta e_k U mu_min mu_max (@mat2vec C n) (vec2mat n)).
Local Notation solve' := (solve_iter eigh exp brentq beta e_k' U' mu_min' mu_max' (@mat2vec C n) (vec2mat n)).
Section Solve.
Variables (s s' s1 s1' : solver C n) (h h' : seq (seq C)) (N mixing tol tol' : C) (M0 : mx) (mu0 mu0' : option C) (nitermax : nat).
Hypothesis h0 : hermitian_mx M0.
Hypotheses (run : solve s N M0 mu0 nitermax mixing tol = Some (s1, h)) (run' : solve' s' (n%:R - N) (hole_field U' M0) mu0' nitermax mixing tol' = Some (s1', h')).
Lemma runs_hole : (forall t, (t < minn (size h) (size h'))%N -> hole_vec (nth [::] h t) (nth [::] h' t)) /\ (size h = size h' -> hole_state U' s1 s1' /\ good s1).
Proof.
move: run run'; rewrite /solve_iter; case: ifP => // /andP[m0 _].
case e1: (solve_setup _ _ _ _ _ _ _ _ _ _ _ _) => [[s0 v0]|] //; case e2: (solve_setup _ _ _ _ _ _ _ _ _ _ _ _) => [[s0' v0']|] // r r'.
have [/= ss hm sv] := setup_hole h0 e1 e2.
exact: (iterate_hole (r := (s1, h)) (r' := (s1', h')) (ger0_real m0) sv ss hm _ _ r r').
Qed.
(* C120: the iterations for n - N holes go through the density matrices of the holes *)
Theorem C120_history t : (t < size h)%N -> (t < size h')%N ->
  exists rho : mx, [/\ hermitian_mx rho, vec2mat n (nth [::] h t) = Some rho & vec2mat n (nth [::] h' t) = Some (hole rho)].
Proof.
move=> t1 t2; have [/(_ t) + _] := runs_hole; rewrite leq_min t1 t2 => /(_ isT)[rho [hr e1 e2]]; exists rho; split=> //.
  by rewrite e1 C36_matrix_proof.
by rewrite e2 C36_matrix_proof //; apply: hole_herm.
Qed.
(* C120: after equally many iterations mu is the opposite, and mean field and density matrix those of the holes *)
Theorem C120_result : size h = size h' -> hole_state U' s1 s1' /\ N_tot (s_rho s1') = n%:R - N_tot (s_rho s1).
Proof. by move=> sz; have [_ /(_ sz)[[em eM er] _]] := runs_hole; split=> //; rewrite er N_hole. Qed.
End Solve.
(* C120: one step at a given chemical potential *)
Theorem C120_step s s' (rho : mx) : hermitian_mx rho -> s_mu s \is Num.real -> s_mu s' = - s_mu s -> exists s1 s1' (new : mx),
  [/\ step s (mat2vec rho) None = Some (s1, mat2vec new), step' s' (mat2vec (hole rho)) None = Some (s1', mat2vec (hole new)), hole_state U' s1 s1' & hermitian_mx new].
Proof.
move=> hr muR em; rewrite /density_matrix_step !C36_matrix_proof //; last exact: hole_herm.
have hM := mean_field_herm hU hr; rewrite (mean_hole _ hU'); eexists; eexists; eexists; split; first reflexivity.
- by rewrite em (density_hole (disp_herm hk hM) (disp_hole _)).
- by split=> //=; rewrite em (density_hole (disp_herm hk hM) (disp_hole _)).
exact: density_herm.
Qed.
(* the grand potential *)
Hypothesis logO : logarithm exp log.
Lemma trace_levels (m : mx) : hermitian_mx m -> \sum_i (eigh m).1 0 i = \tr m.
Proof.
move=> hm; have := hE hm; rewrite /eigh_at; case: (eigh m) => l V [_ uV ->] /=; rewrite mxtrace_mulC mulmxA (mulmx1C uV) mul1mx /mxtrace.
by apply: eq_bigr => i _; rewrite mxE eqxx.
Qed.
Lemma free_hole M mu : hermitian_mx M -> mu \is Num.real ->
  update_non_int_free_energy eigh exp log beta (MF e_k' (hole_field U' M)) (- mu) =
  update_non_int_free_energy eigh exp log beta (MF e_k M) mu + n%:R * mu - (\sum_k \tr (e_k k)) / n_k C K - \tr M.
Proof.
move=> hM muR; have he := disp_herm hk hM; have he' := disp_hole M; rewrite /update_non_int_free_energy !levels_sum.
have k0 : n_k C K != 0 by rewrite pnatr_eq0 -lt0n.
have b0 : beta != 0 by rewrite gt_eqF.
have -> : \sum_k \sum_i log (1 + exp (- beta * ((eigh (MF e_k' (hole_field U' M) k)).1 0 i - - mu))) =
  \sum_k \sum_i (beta * ((eigh (MF e_k M k)).1 0 i - mu) + log (1 + exp (- beta * ((eigh (MF e_k M k)).1 0 i - mu)))).
  rewrite (reindex_inj (inv_inj minusK)) /=; apply: eq_bigr => k _.
  have := function_hole he he' (fun x => log (1 + exp (- beta * (x - - mu)))) (minus k); rewrite minusK; have := hE (he k); rewrite /eigh_at.
  case: (eigh (MF e_k M k)) => l V; case: (eigh _) => l' V' [lR _ _] [_ ->] /=; apply: eq_bigr => i _.
  have xR : beta * (l 0 i - mu) \is Num.real by rewrite rpredM ?rpredB.
  by have := logO xR; rewrite -mulNr => <-; rewrite mulNr -mulrN opprK opprD opprK.
set L := \sum_k \sum_i log _.
have -> : \sum_k \sum_i (beta * ((eigh (MF e_k M k)).1 0 i - mu) + log (1 + exp (- beta * ((eigh (MF e_k M k)).1 0 i - mu)))) =
  beta * (\sum_k \tr (e_k k) + \tr M * n_k C K - mu * n%:R * n_k C K) + L.
  have -> : \sum_k \tr (e_k k) + \tr M * n_k C K - mu * n%:R * n_k C K = \sum_k (\tr (e_k k) + \tr M - mu * n%:R).
    by rewrite sumrB big_split /= !sumr_const /n_k !mulr_natr.
  rewrite mulr_sumr -big_split /=; apply: eq_bigr => k _; rewrite big_split /= -mulr_sumr sumrB trace_levels // sumr_const card_ord.
  by rewrite /update_mean_field_dispersion linearD mulr_natr.
move: (\sum_k _) (\tr M) L (n_k C K) k0 => T tM L nk k0; move: (n%:R) => N.
ffield C; split=> //; exact/eqP.
Qed.
Definition pairing (X Y : mx) : C := \sum_(a < n) \sum_(b < n) \sum_(c < n) \sum_(d < n) X a b * U a b c d * Y c d.
Lemma pairingBl X Y Z : pairing (X - Y) Z = pairing X Z - pairing Y Z.
Proof. by rewrite /pairing -sumrB; do 3! (apply: eq_bigr => ? _; rewrite -sumrB); apply: eq_bigr => ? _; rewrite !mxE !mulrBl. Qed.
Lemma pairingBr X Y Z : pairing Z (X - Y) = pairing Z X - pairing Z Y.
Proof. by rewrite /pairing -sumrB; do 3! (apply: eq_bigr => ? _; rewrite -sumrB); apply: eq_bigr => ? _; rewrite !mxE !mulrBr. Qed.
Lemma pairing1 (rho : mx) : pairing 1%:M rho = - \tr (update_mean_field U rho).
Proof.
rewrite /pairing /mxtrace -sumrN; apply: eq_bigr => a _; rewrite mxE (bigD1 a) //= [X in _ + X]big1 ?addr0 => [|b hb]; last first.
  by apply: big1 => c _; apply: big1 => d _; rewrite mxE eq_sym (negbTE hb) !mul0r.
rewrite -sumrN; apply: eq_bigr => c _; rewrite -sumrN; apply: eq_bigr => d _; by rewrite mxE eqxx mul1r mulNr opprK.
Qed.
Lemma pairingE X Y : pairing X Y = \sum_(p : 'I_n * 'I_n) \sum_(q : 'I_n * 'I_n) X p.1 p.2 * U p.1 p.2 q.1 q.2 * Y q.1 q.2.
Proof. by rewrite /pairing pair_bigA /=; apply: eq_bigr => p _; rewrite pair_bigA. Qed.
Lemma pairingC X Y : pair_symmetric n U -> pairing X Y = pairing Y X.
Proof.
move=> pU; rewrite !pairingE exchange_big /=; apply: eq_bigr => p _; apply: eq_bigr => q _.
by rewrite pU; fring C.
Qed.
(* C120: the grand potential, up to the energy of the filled bands *)
Theorem C120_potential rho mu : hermitian_mx rho -> mu \is Num.real -> pair_symmetric n U ->
  (update_total_energy eigh exp log beta U' e_k' (MF e_k' (update_mean_field U' (hole rho))) (- mu) (hole rho)).2 =
  (update_total_energy eigh exp log beta U e_k (MF e_k (update_mean_field U rho)) mu rho).2 + n%:R * mu - (\sum_k \tr (e_k k)) / #|K|%:R - 2%:R^-1 * \tr (filled n U').
Proof.
move=> hr muR pU; rewrite /update_total_energy /= (mean_hole _ hU') free_hole //; last exact: mean_field_herm.
have tf : \tr (filled n U') = \tr (filled n U) by rewrite /mxtrace; apply: eq_bigr => a _; rewrite !mxE; congr (- _); apply: eq_bigr => c _; rewrite hU'.
have -> : update_interaction_energy U' (hole rho) = update_interaction_energy U rho + \tr (update_mean_field U rho) - 2%:R^-1 * \tr (filled n U').
  rewrite /update_interaction_energy -/(pairing rho rho).
  have -> : \sum_(a < n) \sum_(b < n) \sum_(c < n) \sum_(d < n) hole rho a b * U' a b c d * hole rho c d = pairing (1%:M - rho) (1%:M - rho).
    rewrite exchange_big /=; apply: eq_bigr => a _; apply: eq_bigr => b _; rewrite exchange_big /=; apply: eq_bigr => c _; apply: eq_bigr => d _.
    by rewrite hU' !mxE [b == a]eq_sym [d == c]eq_sym.
  rewrite pairingBl !pairingBr [pairing rho 1%:M]pairingC // !pairing1 mean1 tf.
  have h2 : 2%:R^-1 * (\tr (update_mean_field U rho) + \tr (update_mean_field U rho)) = \tr (update_mean_field U rho).
    by rewrite -mulr2n -[X in _ * X]mulr_natl mulrA mulVf ?mul1r // pnatr_eq0.
  rewrite -{3}h2 -mulrDr -mulrBr; congr (_ * _); fring C.
rewrite /n_k; fring C.
Qed.
End Run.
(* a Hamiltonian which is its own transform, at half filling *)
Section Half.
Variables (C : numClosedFieldType) (n : nat) (K : finType).
Local Notation mx := 'M[C]_n.
Variables (eigh : mx -> 'rV[C]_n * mx) (exp : C -> C) (brentq : (C -> C) -> C -> C -> option C) (beta : C).
Hypotheses (hE : forall m, hermitian_mx m -> eigh_at eigh m) (bE : brentq_root brentq).
Hypotheses (beta0 : 0 < beta) (expO : exponential exp) (bR : forall f a b x, brentq f a b = Some x -> x \is Num.real).
Hypotheses (n0 : (0 < n)%N) (K0 : (0 < #|K|)%N).
Variables (minus : K -> K) (minusK : involutive minus).
Variables (e_k : K -> mx) (U : arr4 C) (mu_min mu_max : option C).
Hypotheses (hk : forall k, hermitian_mx (e_k k)) (hU : hermitian_tensor n U) (hU' : hole_tensor n U U) (hk' : hole_dispersion minus U e_k e_k).
Local Notation half := (n%:R / 2%:R : C).
Lemma halfE : n%:R - half = half.
Proof. by rewrite -[X in X - _](mulfVK (_ : 2%:R != 0)) ?pnatr_eq0 // -[X in _ * X](natrD _ 1 1) mulrDr mulr1 addrK. Qed.
Lemma own_opp (x : C) : x = - x -> x = 0.
Proof. by move/eqP; rewrite -addr_eq0 -mulr2n mulrn_eq0 => /eqP. Qed.
(* C120: with half of the states filled mu is zero, and the density matrix that of the holes *)
Theorem C120_half s s1 h M0 mu0 nitermax mixing tol : hermitian_mx M0 -> M0 = hole_field U M0 ->
  solve_iter eigh exp brentq beta e_k U mu_min mu_max (@mat2vec C n) (vec2mat n) s half M0 mu0 nitermax mixing tol = Some (s1, h) ->
  [/\ s_mu s1 = 0, s_rho s1 = hole (s_rho s1), N_tot (s_rho s1) = half & forall a, s_rho s1 a a = 2%:R^-1].
Proof.
move=> h0 e0 run; have run' := run; rewrite {1}e0 -{1}halfE in run'.
have [//|[em _ er] eN] := C120_result hE bE beta0 expO bR n0 K0 minusK hk hU hU' hk' h0 run run'.
have two (x y : C) : x = y - x -> x = y / 2%:R.
  by move=> e; apply: (mulIf (_ : 2%:R != 0)); rewrite ?pnatr_eq0 // mulfVK ?pnatr_eq0 // mulr_natr mulr2n {1}e subrK.
split=> //; [exact: own_opp | exact: two |] => a; rewrite -div1r; apply: two.
by rewrite {1}er !mxE eqxx.
Qed.
End Half.

Section Case.
Variable C : numClosedFieldType.
Lemma case_exponential : exponential (@case_exp C).
Proof.
have pos : forall x : C, x \is Num.real -> 0 < case_exp x by exact: case_exp_pos.
split=> // [x xR|x y xR yR xy].
  case: (real_ltgt0P xR) => x0; rewrite /case_exp.
  - by rewrite (ltW x0) oppr_ge0 lt_geF // opprK.
  - by rewrite oppr_ge0 (ltW x0) lt_geF // invrK.
  - by rewrite x0 oppr0 lexx addr0 invr1.
case: (real_leP (real0 C) xR) => x0; rewrite /case_exp ?x0 ?(lt_geF x0).
  by rewrite (ltW (le_lt_trans x0 xy)) ltr_add2l.
have px : 1 < 1 - x by rewrite ltr_addl oppr_gt0.
have p1 : 0 < 1 - x by apply: lt_trans px; exact: ltr01.
case: (real_leP (real0 C) yR) => y0; rewrite ?y0 ?(lt_geF y0).
  apply: (@lt_le_trans _ _ 1); first by rewrite invf_lt1.
  by rewrite ler_addl.
rewrite ltf_pinv ?posrE // ?ltr_add2l ?ltr_opp2 //.
by rewrite (lt_trans (@ltr01 C)) // ltr_addl oppr_gt0.
Qed.
(* and a function with the property of the logarithm *)
Definition case_log (y : C) : C := (if 1 <= y - 1 then y - 1 - 1 else 1 - (y - 1)^-1) / 2%:R.
Lemma case_logE x : x \is Num.real -> case_log (1 + case_exp x) = x / 2%:R.
Proof.
move=> xR; rewrite /case_log [1 + case_exp x]addrC addrK /case_exp; congr (_ / _); case: (real_leP (real0 C) xR) => x0.
  by rewrite ?x0 ler_addl x0 addrC addKr.
have px : 1 < 1 - x by rewrite ltr_addl oppr_gt0.
have p1 : 0 < 1 - x by apply: lt_trans px; exact: ltr01.
by rewrite ?(lt_geF x0) lt_geF ?invf_lt1 // invrK opprB addrC subrK.
Qed.
Theorem C120_log_case : logarithm (@case_exp C) case_log.
Proof.
move=> x xR; rewrite !case_logE ?rpredN // mulNr; apply/eqP; rewrite eq_sym subr_eq -mulrDl -mulr2n -[x *+ 2]mulr_natr mulfK ?pnatr_eq0 //.
Qed.
(* two orbitals with a hopping that changes sign from one momentum to the other, and a repulsion between them *)
Definition hole_e (k : bool) : 'M[C]_2 := \matrix_(i, j) (if i == j then 2%:R^-1 else if k then 1 else - 1).
(* a search that only looks at zero *)
Definition zero_brentq (f : C -> C) (a b : C) : option C := if f 0 == 0 then Some 0 else None.
Lemma two2 : 2%:R^-1 + 2%:R^-1 = 1 :> C. Proof. by rewrite -mulr2n -[_ *+ 2]mulr_natr mulVf // pnatr_eq0. Qed.
Lemma filled_case : filled 2 (@case_U C) = - 1%:M.
Proof.
apply/matrixP=> i j; rewrite !mxE !big_ord_recl big_ord0 /case_U.
by case: i => -[|[|//]] hi; case: j => -[|[|//]] hj; rewrite -!val_eqE /= ?addr0 ?add0r.
Qed.
Lemma case_hole_e : hole_dispersion negb (@case_U C) hole_e hole_e.
Proof.
move=> k; rewrite filled_case opprK; apply/matrixP=> i j; rewrite !mxE.
case: i => -[|[|//]] hi; case: j => -[|[|//]] hj; case: k; rewrite -!val_eqE /= ?addr0 ?opprK //; by rewrite -[X in _ + X]two2 addKr.
Qed.
Lemma case_herm_e k : hermitian_mx (hole_e k).
Proof.
apply/matrixP=> i j; rewrite !mxE eq_sym; case: ifP => _; first by rewrite fmorphV rmorph_nat.
by case: k; rewrite ?rmorphN rmorph1.
Qed.
Lemma case_hole_U : hole_tensor 2 (@case_U C) (@case_U C).
Proof.
move=> a b c d; rewrite /case_U [(b : nat) == a]eq_sym [(d : nat) == c]eq_sym; by case: ((a : nat) =P b) => [->|_] //; case: ((c : nat) =P d) => [->|_].
Qed.
Lemma case_herm_U : hermitian_tensor 2 (@case_U C).
Proof.
move=> a b c d; rewrite /case_U rmorph_nat [(b : nat) == a]eq_sym [(d : nat) == c]eq_sym; by case: ((a : nat) =P b) => [->|_] //; case: ((c : nat) =P d) => [->|_].
Qed.
Section Eigh.
Variables (eigh : 'M[C]_2 -> 'rV[C]_2 * 'M[C]_2) (hE : forall m, hermitian_mx m -> eigh_at eigh m).
Local Notation pot := (update_chemical_potential eigh (@case_exp C) zero_brentq 1 None None).
Let p1 : 0 < 1 :> C. Proof. exact: ltr01. Qed.
Lemma case_pot M : hermitian_mx M -> M = hole_field (@case_U C) M -> pot (update_mean_field_dispersion hole_e M) 1 = Some 0.
Proof.
move=> hM eM; rewrite /update_chemical_potential /zero_brentq.
have he := disp_herm case_herm_e hM.
have he' k : update_mean_field_dispersion hole_e M k = - (update_mean_field_dispersion hole_e M (~~ k))^T.
  by rewrite {1}eM; exact: (disp_hole case_hole_e M k).
have K0 : (0 < #|{: bool}|)%N by rewrite card_bool.
have eN := N_hole (update_density_matrix eigh (@case_exp C) 1 (update_mean_field_dispersion hole_e M) 0).
rewrite -(density_hole hE p1 case_exponential K0 negbK he he' (real0 _)) oppr0 in eN.
rewrite ifT // /target_function -density_count // => [|k]; last exact: hE.
rewrite subr_eq0; apply/eqP/(mulIf (_ : 2%:R != 0)); first by rewrite pnatr_eq0.
by rewrite mul1r mulr_natr mulr2n {1}eN subrK.
Qed.
Lemma case_hole_runs fuel m tol s (rho : 'M[C]_2) h : m \is Num.real -> hermitian_mx rho -> rho = hole rho ->
  iterate eigh (@case_exp C) zero_brentq 1 hole_e (@case_U C) None None (@mat2vec C 2) (vec2mat 2) fuel 1 m tol s (mat2vec rho) h <> None.
Proof.
move=> mR; elim: fuel s rho h => [|f ih] s rho h hr er //; rewrite iterateS /density_matrix_step C36_matrix_proof //=.
have hM := mean_field_herm case_herm_U hr.
have eM : update_mean_field (@case_U C) rho = hole_field (@case_U C) (update_mean_field (@case_U C) rho) by rewrite -(mean_hole _ case_hole_U) -er.
rewrite (case_pot hM eM) /=; case: ifP => // _.
set new := update_density_matrix _ _ _ _ _.
have K0 : (0 < #|{: bool}|)%N by rewrite card_bool.
have he := disp_herm case_herm_e hM.
have hn : hermitian_mx new by apply: rho_hermitian => //; try exact: case_exp_pos; try exact: real1; try exact: real0; move=> k; apply: hE.
have en : new = hole new.
  rewrite -(density_hole hE p1 case_exponential K0 negbK he (e' := update_mean_field_dispersion hole_e (update_mean_field (@case_U C) rho)) _ (real0 _)) ?oppr0 //.
  by move=> k; rewrite {1}eM; exact: (disp_hole case_hole_e _ k).
rewrite mixed_pack //; apply: ih; last by rewrite hole_mix -er -en.
by apply: hermD; apply: hermZ => //; rewrite rpredB ?rpred1.
Qed.
End Eigh.
Definition hole_M0 : 'M[C]_2 := - 2%:R^-1%:M.
Theorem C120_case : exists eigh, (forall m, hermitian_mx m -> eigh_at eigh m) /\
  [/\ brentq_root zero_brentq /\ (forall f a b x, zero_brentq f a b = Some x -> x \is Num.real), exponential (@case_exp C),
    (forall k, hermitian_mx (hole_e k)) /\ hole_dispersion negb (@case_U C) hole_e hole_e, hermitian_tensor 2 (@case_U C) /\ hole_tensor 2 (@case_U C) (@case_U C) /\ pair_symmetric 2 (@case_U C) &
    [/\ involutive negb, hole_e true <> hole_e false, hole_M0 = hole_field (@case_U C) hole_M0 & forall nitermax, exists s1 h,
      solve_iter eigh (@case_exp C) zero_brentq 1 hole_e (@case_U C) None None (@mat2vec C 2) (vec2mat 2) (Solver 0 0 0) (2%:R / 2%:R) hole_M0 (Some 0) nitermax 2%:R^-1 0 = Some (s1, h)]].
Proof.
have [eigh hE] := @C109_eigh_exists C 2; exists eigh; split=> //.
have hM : hermitian_mx hole_M0.
  by apply/matrixP=> i j; rewrite !mxE eq_sym rmorphN rmorphMn fmorphV rmorph_nat.
have eM : hole_M0 = hole_field (@case_U C) hole_M0.
  rewrite /hole_field filled_case /hole_M0 linearN /= tr_scalar_mx opprK; apply/matrixP=> i j; rewrite !mxE -{2}two2 mulrnDl opprD addrNK //.
split.
- split=> [f a b x|f a b x]; rewrite /zero_brentq; case: ifP => // /eqP h [<-] //; exact: real0.
- exact: case_exponential.
- by split; [exact: case_herm_e | exact: case_hole_e].
- split; [exact: case_herm_U | split; first exact: case_hole_U].
  by case=> -[|[|//]] ha; case=> -[|[|//]] hb; case=> -[|[|//]] hc; case=> -[|[|//]] hd.
split=> //; first exact: negbK.
  move/matrixP/(_ 0 1); rewrite !mxE /= => /eqP; rewrite -addr_eq0 -[1 + 1](natrD _ 1 1) pnatr_eq0 //.
move=> nit; have d2 : 2%:R / 2%:R = 1 :> C by rewrite divff // pnatr_eq0.
rewrite d2 /solve_iter.
have m01 : (0 <= 2%:R^-1 :> C) && (2%:R^-1 <= 1 :> C) by rewrite invr_ge0 ler0n invf_le1 ?ler1n ?ltr0n.
rewrite m01 /solve_setup (case_pot hE hM eM) /=.
have K0 : (0 < #|{: bool}|)%N by rewrite card_bool.
have he := disp_herm case_herm_e hM.
set new := update_density_matrix _ _ _ _ _.
have hn : hermitian_mx new by apply: rho_hermitian => //; try exact: case_exp_pos; try exact: real1; try exact: real0; move=> k; apply: hE.
have en : new = hole new.
  rewrite -(density_hole hE ltr01 case_exponential K0 negbK he (e' := update_mean_field_dispersion hole_e hole_M0) _ (real0 _)) ?oppr0 //.
  by move=> k; rewrite {1}eM; exact: (disp_hole case_hole_e _ k).
have hm : 2%:R^-1 \is @Num.real C by rewrite rpredV realn.
have := @case_hole_runs eigh hE nit 2%:R^-1 0 (Solver 0 hole_M0 new) new [::] hm hn en.
by case: (iterate _ _ _ _ _ _ _ _ _ _ _ _ _ _ _ _ _) => [[s1 h]|] // _; exists s1, h.
Qed.
End Case.
Print Assumptions C120_history.
Print Assumptions C120_result.
Print Assumptions C120_step.
Print Assumptions C120_potential.
Print Assumptions C120_half.
Print Assumptions C120_log_case.
Print Assumptions C120_case.
