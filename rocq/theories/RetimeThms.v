(* C74, C75: real-time Green's functions and bubble. *)
From mathcomp Require Import all_ssreflect all_algebra all_field.
From Verif Require Import LindhardModel LindhardThms RetimeModel Fring.
Set Implicit Arguments.
Unset Strict Implicit.
Unset Printing Implicit Defensive.
Import Order.TTheory GRing.Theory Num.Theory.
Local Open Scope ring_scope.

Section Func.
Variables (C : numClosedFieldType) (nb : nat).
Add Ring Cring0 : (fld_rt C).
Implicit Types (phi psi : C -> C) (l : 'rV[C]_nb) (U m : 'M[C]_nb).
Lemma func_mul phi psi m l U : decomposes m l U -> func phi l U *m func psi l U = func (fun x => phi x * psi x) l U.
Proof.
case=> _ u _; rewrite /func !mulmxA -(mulmxA _ (dagger U) U) (unitary_l u) mulmx1 -(mulmxA U) mulmx_diag; congr (_ *m diag_mx _ *m _).
by apply/rowP => i; rewrite !mxE.
Qed.
Lemma func_one m l U : decomposes m l U -> func (fun=> 1) l U = 1%:M.
Proof. by case=> _ u _; rewrite /func (_ : map_mx _ l = const_mx 1) ?diag_const_mx ?mulmx1 //; apply/rowP => i; rewrite !mxE. Qed.
Lemma func_dagger phi l U : dagger (func phi l U) = func (fun x => (phi x)^*) l U.
Proof.
apply/matrixP => a b; rewrite [LHS]mxE !funcE rmorph_sum; apply: eq_bigr => i _.
by rewrite !rmorphM ![dagger _ _ _]mxE conjCK; fring C.
Qed.
Lemma func_eq phi psi l U : (forall i, phi (l 0 i) = psi (l 0 i)) -> func phi l U = func psi l U.
Proof. by move=> h; congr (_ *m diag_mx _ *m _); apply/rowP => i; rewrite !mxE h. Qed.
Lemma func_lin x y phi psi l U : func (fun z => x * phi z + y * psi z) l U = x *: func phi l U + y *: func psi l U.
Proof.
have sE t m a b : (t *: m) a b = t * m a b by rewrite mxE.
apply/matrixP => a b; rewrite funcE [RHS]mxE !sE !funcE !mulr_sumr -big_split.
by apply: eq_bigr => i _ /=; fring C.
Qed.
Lemma func_opp phi l U : - func phi l U = func (fun x => - phi x) l U.
Proof. by apply/matrixP => a b; rewrite [LHS]mxE !funcE -sumrN; apply: eq_bigr => i _; rewrite mulrN. Qed.
Lemma case_ring (j x y : C) : j * (j * (x - y * j)) * (- - j * (x - 2%:R * y * - j)) - j * (- j * (x - 2%:R * y * j)) * (- j * (x - y * - j)) =
  (j * j) * (j * j) * (2%:R * x * y).
Proof. by rewrite (mulr2n 1); fring C. Qed.
End Func.

Section Thms.
Variables (C : numClosedFieldType) (nb : nat) (K : finZmodType).
Add Ring Cring : (fld_rt C).
Local Notation M := 'M[C]_nb.
Implicit Types (e : K -> M) (eig : M -> 'rV[C]_nb * M).
Variables (fermi ex : C -> C).
(* G^< and G^> *)
Definition les eig e beta T k := (g0_Tk_les_gtr_from_e_k fermi ex eig e beta T k).1.
Definition gtr eig e beta T k := (g0_Tk_les_gtr_from_e_k fermi ex eig e beta T k).2.
Lemma lesE eig e beta T k : les eig e beta T k = func (fun x => 'i * fermi (beta * x) * ex (- 'i * x * T)) (eig (e k)).1 (eig (e k)).2.
Proof.
apply/matrixP => a b; rewrite funcE /les /g0_Tk_les_gtr_from_e_k; case: (eig (e k)) => l U /=; rewrite [LHS]mxE.
by apply: eq_bigr => c _; rewrite mulrAC.
Qed.
Lemma gtrE eig e beta T k : gtr eig e beta T k = func (fun x => - 'i * (1 - fermi (beta * x)) * ex (- 'i * x * T)) (eig (e k)).1 (eig (e k)).2.
Proof.
apply/matrixP => a b; rewrite funcE /gtr /g0_Tk_les_gtr_from_e_k; case: (eig (e k)) => l U /=; rewrite [LHS]mxE.
by apply: eq_bigr => c _; rewrite mulrAC.
Qed.
(* what is used of the exponential, on a set dom of arguments (the complex plane; a smaller set makes room for the concrete case below), and the spectral
   function A = i (G^> - G^<) *)
Variable dom : C -> Prop.
Definition exponential : Prop :=
  [/\ ex 0 = 1, forall x y, dom x -> dom y -> ex (x + y) = ex x * ex y & forall x, dom x -> (ex x)^* = ex x^*].
Definition at_time eig e T k : Prop := forall i, dom (- 'i * (eig (e k)).1 0 i * T).
Definition A eig e beta T k : M := 'i *: (gtr eig e beta T k - les eig e beta T k).
Lemma AE eig e beta T k : A eig e beta T k = func (fun x => ex (- 'i * x * T)) (eig (e k)).1 (eig (e k)).2.
Proof.
rewrite /A lesE gtrE scalerBr -scaleNr -func_lin; apply: func_eq => i; set u := fermi _; set v := ex _.
have h : 'i * 'i = -1 :> C by rewrite -expr2 sqrCi.
by transitivity (- ('i * 'i) * v); [fring C | rewrite h opprK mul1r].
Qed.
(* C74: at equal times the anticommutator is the unit matrix, and the time evolution is a one-parameter group: it moves both functions in time *)
Theorem C74_equal_time eig e beta k : exponential -> eigensolver eig -> hermitian e -> A eig e beta 0 k = 1%:M.
Proof. by case=> h0 _ _ heig he; rewrite AE -(func_one (heig _ (he k))); apply: func_eq => i; rewrite mulr0 h0. Qed.
Theorem C74_propagator eig e beta T T' k : exponential -> eigensolver eig -> hermitian e -> at_time eig e T k -> at_time eig e T' k ->
  [/\ A eig e beta (T + T') k = A eig e beta T k *m A eig e beta T' k,
      les eig e beta (T + T') k = A eig e beta T k *m les eig e beta T' k &
      gtr eig e beta (T + T') k = A eig e beta T k *m gtr eig e beta T' k].
Proof.
case=> _ hD _ heig he t1 t2; rewrite !AE !lesE !gtrE !(func_mul _ _ (heig _ (he k))).
by split; apply: func_eq => i; rewrite [_ * (T + T')]mulrDr hD //; fring C.
Qed.
(* G(T)^dagger = - G(-T) for both functions, at real times *)
Theorem C74_antihermitian eig e beta T k : exponential -> eigensolver eig -> hermitian e -> real_function fermi -> beta \is Num.real -> T \is Num.real -> at_time eig e T k ->
  dagger (les eig e beta T k) = - les eig e beta (- T) k /\ dagger (gtr eig e beta T k) = - gtr eig e beta (- T) k.
Proof.
case=> _ _ hc heig he hf hb hT t; have [rl _ _] := heig _ (he k); rewrite !lesE !gtrE !func_dagger.
rewrite !func_opp; split; apply: func_eq => i.
  rewrite !rmorphM hc // !rmorphM rmorphN conjCi (CrealP (rl i)) (CrealP hT) (CrealP (hf _ _)) ?rpredM //.
  by rewrite !mulNr mulrN opprK.
rewrite !rmorphM hc // !rmorphM rmorphB rmorphN conjCi rmorph1 (CrealP (rl i)) (CrealP hT) (CrealP (hf _ _)) ?rpredM //.
by rewrite !(mulNr, mulrN) !opprK.
Qed.
(* the Kubo-Martin-Schwinger relation G^>(T) = - G^<(T + i beta) *)
Theorem C74_kms eig e beta T k : exponential -> (forall x, x \is Num.real -> 1 - fermi x = ex x * fermi x) -> beta \is Num.real -> eigensolver eig -> hermitian e ->
  at_time eig e T k -> at_time eig e ('i * beta) k -> gtr eig e beta T k = - les eig e beta (T + 'i * beta) k.
Proof.
case=> _ hD _ hf hb heig he t1 t2; have [rl _ _] := heig _ (he k); rewrite lesE gtrE.
rewrite func_opp; apply: func_eq => i; rewrite hf ?rpredM // mulrDr hD //.
have -> : - 'i * (eig (e k)).1 0 i * ('i * beta) = beta * (eig (e k)).1 0 i.
  have h : 'i * 'i = -1 :> C by rewrite -expr2 sqrCi.
  by have -> : - 'i * (eig (e k)).1 0 i * ('i * beta) = - ('i * 'i) * (beta * (eig (e k)).1 0 i) by [fring C]; rewrite h opprK mul1r.
by fring C.
Qed.
(* the result does not depend on the eigenvectors chosen by the solver *)
Theorem C74_gauge eig eig' e beta T k : eigensolver eig -> eigensolver eig' -> hermitian e ->
  g0_Tk_les_gtr_from_e_k fermi ex eig e beta T k = g0_Tk_les_gtr_from_e_k fermi ex eig' e beta T k.
Proof.
move=> h h' he; rewrite [LHS]surjective_pairing [RHS]surjective_pairing.
rewrite -/(les _ _ _ _ _) -/(gtr _ _ _ _ _) -[in RHS]/(les eig' e beta T k) -[in RHS]/(gtr eig' e beta T k) !lesE !gtrE.
by congr (_, _); apply: func_gauge (h _ (he k)) (h' _ (he k)).
Qed.
(* the equal-time lesser function is i times the occupation, between 0 and 1 *)
Theorem C74_occupation eig e beta k a : exponential -> eigensolver eig -> hermitian e -> beta \is Num.real ->
  (forall x, x \is Num.real -> 0 <= fermi x <= 1) -> 0 <= - 'i * les eig e beta 0 k a a <= 1.
Proof.
case=> h0 _ _ heig he hb hf; have [rl u _] := heig _ (he k); rewrite lesE funcE mulr_sumr.
set l := (eig _).1 in rl *; set U := (eig _).2 in u *.
have E : \sum_i - 'i * (U a i * dagger U i a * ('i * fermi (beta * l 0 i) * ex (- 'i * l 0 i * 0))) = \sum_i `|U a i| ^+ 2 * fermi (beta * l 0 i).
  apply: eq_bigr => i _; rewrite mulr0 h0 normCK [dagger _ _ _]mxE; have h : 'i * 'i = -1 :> C by rewrite -expr2 sqrCi.
  set x := U a i; set y := (U a i)^*; set f := fermi _.
  by have -> : - 'i * (x * y * ('i * f * 1)) = - ('i * 'i) * (x * y * f) by [fring C]; rewrite h opprK mul1r.
rewrite E; apply/andP; split.
  by apply: sumr_ge0 => i _; rewrite mulr_ge0 ?exprn_ge0 //; case/andP: (hf (beta * l 0 i) (rpredM hb (rl i))).
have -> : 1 = \sum_i `|U a i| ^+ 2.
  by move/matrixP/(_ a a): u; rewrite [LHS]mxE [RHS]mxE eqxx mulr1n => <-; apply: eq_bigr => i _; rewrite normCK [dagger _ _ _]mxE.
apply: ler_sum => i _; rewrite ler_pimulr ?exprn_ge0 //; by case/andP: (hf (beta * l 0 i) (rpredM hb (rl i))).
Qed.

(* C75: the bubble. Functions in real space are Fourier sums of functions in momentum space; wave r k = exp(i k r) / N^(1/2) up to a real factor *)
Variable wave : K -> K -> C.
Hypothesis wave_conj : forall r k, (wave r k)^* = wave (- r) k.
Definition to_r (g : C -> K -> M) (T : C) (r : K) : M := \matrix_(a, b) \sum_k wave r k * g T k a b.
(* the formula documented in chi_retime.hpp lines 33-36 *)
Definition documented (L G : C -> K -> M) T r a b c d : C :=
  'i * L T r d a * G (- T) (- r) b c - 'i * G T r d a * L (- T) (- r) b c.
Section Bubble.
Variables (eig : M -> 'rV[C]_nb * M) (e : K -> M) (beta : C).
Hypotheses (hx : exponential) (heig : eigensolver eig) (he : hermitian e) (hf : real_function fermi) (hb : beta \is Num.real).
Let L := to_r (les eig e beta).
Let G := to_r (gtr eig e beta).
Lemma conj_r T r b c : T \is Num.real -> (forall k, at_time eig e T k) -> (L T (- r) b c)^* = - L (- T) r c b /\ (G T (- r) b c)^* = - G (- T) r c b.
Proof.
move=> hT t; have hk k := C74_antihermitian hx heig he hf hb hT (t k).
rewrite ![L _ _ _ _]mxE ![G _ _ _ _]mxE !rmorph_sum -!sumrN; split; apply: eq_bigr => k _; rewrite rmorphM wave_conj opprK -mulrN; congr (_ * _).
  by case: (hk k) => /matrixP/(_ c b); rewrite [LHS]mxE => -> _; rewrite mxE.
by case: (hk k) => _ /matrixP/(_ c b); rewrite [LHS]mxE => ->; rewrite mxE.
Qed.
(* what the code computes: minus the documented formula, with the second Green's function at (c, b, r) instead of (b, c, -r) *)
Theorem C75_bubble T r a b c d : T \is Num.real -> (forall k, at_time eig e T k) ->
  chi0_Tr_from_g_Tr_PH L G T r a b c d = - ('i * L T r d a * G (- T) r c b - 'i * G T r d a * L (- T) r c b).
Proof. by move=> hT t; case: (conj_r r b c hT t) => h1 h2; rewrite /chi0_Tr_from_g_Tr_PH h1 h2; fring C. Qed.
(* under time reversal, e(-k) = e(k)^T, it is exactly minus the documented formula *)
Theorem C75_documented_partial T r a b c d : T \is Num.real -> (forall k, at_time eig e T k) -> (forall k, e (- k) = (e k)^T) -> (forall r k, wave r (- k) = wave (- r) k) ->
  chi0_Tr_from_g_Tr_PH L G T r a b c d = - documented L G T r a b c d.
Proof.
move=> hT t tr hw; rewrite C75_bubble // /documented.
have hk S k : les eig e beta S (- k) = (les eig e beta S k)^T /\ gtr eig e beta S (- k) = (gtr eig e beta S k)^T.
  rewrite !lesE !gtrE.
  have hd := heig (he (- k)); have := dec_tr (heig (he k)); rewrite -tr => hd'.
  rewrite (func_gauge _ hd hd') (func_gauge _ hd hd'); split; apply/matrixP => i j; rewrite [RHS]mxE !funcE; apply: eq_bigr => n _;
  by rewrite !mxE conjCK; fring C.
have hLr S : L S (- r) b c = L S r c b.
  rewrite ![L _ _ _ _]mxE (reindex_inj oppr_inj) /=; apply: eq_bigr => k _; rewrite hw opprK; case: (hk S k) => -> _; by rewrite mxE.
have hGr S : G S (- r) b c = G S r c b.
  rewrite ![G _ _ _ _]mxE (reindex_inj oppr_inj) /=; apply: eq_bigr => k _; rewrite hw opprK; case: (hk S k) => _ ->; by rewrite mxE.
by rewrite hLr hGr.
Qed.
End Bubble.
End Thms.

(* two k points with energies 0 and 1, at unit temperature; the exponential on the Gaussian integers is 2^(Re x) i^(Im x) *)
Section Case.
Local Notation C := algC.
Definition gauss (x : C) : Prop := exists a b : int, x = a%:~R + 'i * b%:~R.
Definition exg (x : C) : C := 2%:R ^ (floorC ('Re x)) * 'i ^ (floorC ('Im x)).
Lemma exgE (a b : int) : exg (a%:~R + 'i * b%:~R) = 2%:R ^ a * 'i ^ b.
Proof. by rewrite /exg Re_rect ?Im_rect ?Creal_Cint ?Cint_int // !intCK. Qed.
Lemma i_neq0 : 'i != 0 :> C.
Proof. by rewrite neq0Ci. Qed.
Lemma exg_exponential : exponential exg gauss.
Proof.
split; first by have := exgE 0 0; rewrite mulr0 addr0 => ->; rewrite !expr0z mulr1.
  move=> _ _ [a [b ->]] [c [d ->]]; have -> : a%:~R + 'i * b%:~R + (c%:~R + 'i * d%:~R) = (a + c)%:~R + 'i * (b + d)%:~R :> C.
    by rewrite !rmorphD /= mulrDr addrACA.
  by rewrite !exgE !expfzDr ?i_neq0 ?pnatr_eq0 // mulrACA.
move=> _ [a [b ->]]; have -> : (a%:~R + 'i * b%:~R : C)^* = a%:~R + 'i * (- b)%:~R.
  by rewrite rmorphD rmorphM conjCi !rmorph_int rmorphN /= mulNr mulrN.
rewrite !exgE rmorphM /= !rmorphXz ?unitfE ?i_neq0 ?pnatr_eq0 // rmorph_nat conjCi; congr (_ * _).
by rewrite -invCi exprz_inv.
Qed.
Definition fermig (x : C) : C := (exg x + 1)^-1.
Definition e2 (k : 'Z_2) : 'M[C]_1 := (k : nat)%:R%:M.
Definition wave2 (r k : 'Z_2) : C := if (r == 1) && (k == 1) then -1 else 1.
Lemma e2_hermitian : hermitian e2.
Proof. by move=> k; apply/matrixP => i j; rewrite !mxE !ord1 !mulr1n conjC_nat. Qed.
Lemma e2_at k n : at_time gauss (@eig1 _) e2 n%:~R k.
Proof. move=> i; exists 0, (- (k : nat)%:Z * n); rewrite !mxE ord1 mulr1n add0r rmorphM rmorphN /= mulrA mulrN !mulNr //. Qed.
Lemma e2_kms k : at_time gauss (@eig1 _) e2 ('i * 1) k.
Proof.
move=> i; exists (k : nat)%:Z, 0; rewrite !mxE ord1 mulr1n mulr0 addr0 mulr1 mulrAC mulNr -expr2 sqrCi opprK mul1r //.
Qed.
Lemma exg_pos (x : C) : x \is Creal -> 0 < exg x.
Proof. by move=> h; rewrite /exg (Creal_ImP _ h) floorC0 expr0z mulr1; case: (floorC _) => n; rewrite ?NegzE -?exprnN -?exprnP ?invr_gt0 exprn_gt0 ?ltr0n. Qed.
Lemma fermig_real : real_function fermig.
Proof. by move=> x /exg_pos h; rewrite /fermig rpredV; apply: gtr0_real; rewrite addr_gt0 ?ltr01. Qed.
Lemma fermig_bounds (x : C) : x \is Creal -> 0 <= fermig x <= 1.
Proof.
move=> /exg_pos h; have p : 0 < exg x + 1 by rewrite addr_gt0 ?ltr01.
by rewrite invr_ge0 (ltW p) /= invf_le1 // ler_addr ltW.
Qed.
Lemma fermig_kms (x : C) : x \is Creal -> 1 - fermig x = exg x * fermig x.
Proof.
move=> /exg_pos h; have p : exg x + 1 != 0 by rewrite gt_eqF // addr_gt0 ?ltr01.
by apply: (mulIf p); rewrite /fermig mulrBl mul1r mulVf // addrK -mulrA mulVf // mulr1.
Qed.
Lemma wave2_conj r k : (wave2 r k)^* = wave2 (- r) k.
Proof. by rewrite /wave2 (_ : - r = r); [case: ifP; rewrite ?rmorphN rmorph1 | apply/val_inj; case: r => [[|[|]]]]. Qed.
Local Notation L2 := (to_r wave2 (les fermig exg (@eig1 _) e2 1)).
Local Notation G2 := (to_r wave2 (gtr fermig exg (@eig1 _) e2 1)).
Lemma exg_values : [/\ exg 0 = 1, exg 1 = 2%:R & exg (- 'i) = - 'i].
Proof.
split.
- by have := exgE 0 0; rewrite mulr0 addr0 => ->; rewrite !expr0z mulr1.
- by have := exgE 1 0; rewrite mulr0 addr0 => ->; rewrite expr1z expr0z mulr1.
- by have := exgE 0 (-1); rewrite add0r mulrN1 => ->; rewrite expr0z mul1r -[(-1)%R]/(- (1%N : int)) -exprnN expr1 invCi.
Qed.
Lemma fermig_values : fermig 0 = 2%:R^-1 /\ fermig 1 = 3%:R^-1.
Proof. by rewrite /fermig; case: exg_values => -> -> _; rewrite -!mulrSr. Qed.
Lemma d11 : (1%:M : 'M[C]_1) 0 0 * dagger (1%:M : 'M[C]_1) 0 0 = 1.
Proof. by rewrite !mxE /= mulr1n mul1r rmorph1. Qed.
Lemma e20 : (\row_i e2 ord0 i i) 0 0 = 0.
Proof. by rewrite !mxE. Qed.
Lemma e21 : (\row_i e2 (lift ord0 0) i i) 0 0 = 1.
Proof. by rewrite !mxE /= mulr1n. Qed.
Lemma L2E : L2 1 0 0 0 = 'i * (2%:R^-1 - 3%:R^-1 * 'i).
Proof.
rewrite [LHS]mxE /=; rewrite big_ord_recl big_ord1 /= /wave2 /= !mul1r !lesE !funcE !big_ord1 /=.
rewrite !d11 e20 e21 !mul1r !mulr1 mulr0; case: fermig_values => -> ->; case: exg_values => -> _ ->.
by rewrite mulr1 mulrDr mulrN mulrN mulrA.
Qed.
Lemma G2E : G2 1 0 0 0 = - 'i * (2%:R^-1 - (2%:R / 3%:R) * 'i).
Proof.
rewrite [LHS]mxE /=; rewrite big_ord_recl big_ord1 /= /wave2 /= !mul1r !gtrE !funcE !big_ord1 /=.
rewrite !d11 e20 e21 !mul1r !mulr1 mulr0; case: fermig_values => -> ->; case: exg_values => -> _ ->.
have n2 : 2%:R != 0 :> C by rewrite pnatr_eq0.
have n3 : 3%:R != 0 :> C by rewrite pnatr_eq0.
have -> : 1 - 2%:R^-1 = 2%:R^-1 :> C by apply: (mulIf n2); rewrite mulrBl mulVf // mul1r -[1]/(1%:R) -natrB.
have -> : 1 - 3%:R^-1 = 2%:R / 3%:R :> C by apply: (mulIf n3); rewrite mulrBl -mulrA mulVf // mul1r mulr1 -[1]/(1%:R) -natrB.
by rewrite mulr1 [RHS]mulrDr !mulrN !mulrA.
Qed.
Lemma wave2_opp r k : wave2 r (- k) = wave2 (- r) k.
Proof. by have h (x : 'Z_2) : - x = x by [apply/val_inj; case: x => [[|[|]]]]; rewrite !h. Qed.
Lemma chi2 : chi0_Tr_from_g_Tr_PH L2 G2 1 0 0 0 0 0 = 3%:R^-1.
Proof.
rewrite /chi0_Tr_from_g_Tr_PH oppr0 L2E G2E !(rmorphM, rmorphB, rmorphN, conjCi, fmorphV, rmorph_nat).
have h : 'i * 'i = -1 :> C by rewrite -expr2 sqrCi.
have n2 : 2%:R != 0 :> C by rewrite pnatr_eq0.
transitivity (('i * 'i) * ('i * 'i) * (2%:R * 2%:R^-1 * 3%:R^-1) : C).
  exact: case_ring.
by rewrite h mulrN1 opprK mul1r divff // mul1r.
Qed.
(* C74 case: all hypotheses hold, and the functions depend on time *)
Theorem C74_case : [/\ exponential exg gauss, eigensolver (@eig1 [numClosedFieldType of algC]) /\ hermitian e2, real_function fermig,
    (forall k, at_time gauss (@eig1 _) e2 1 k /\ at_time gauss (@eig1 _) e2 ('i * 1) k) &
    L2 1 0 0 0 = 'i * (2%:R^-1 - 3%:R^-1 * 'i)].
Proof.
split; first exact: exg_exponential; first by split; [exact: eig1_solves | exact: e2_hermitian].
- exact: fermig_real.
- by move=> k; split; [have := e2_at k 1; rewrite mulr1z | exact: e2_kms].
- exact: L2E.
Qed.
(* C75: the documented formula has the opposite sign *)
Theorem C75_documented_refuted : chi0_Tr_from_g_Tr_PH L2 G2 1 0 0 0 0 0 = 3%:R^-1 /\ documented L2 G2 1 0 0 0 0 0 = - 3%:R^-1.
Proof.
split; first exact: chi2; rewrite -chi2; apply: oppr_inj; rewrite opprK; apply/esym.
case: C74_case => hx [heig he] hf t _.
apply: (C75_documented_partial wave2_conj hx heig he hf).
- exact: real1.
- exact: real1.
- by move=> k; case: (t k).
- by move=> k; rewrite (_ : - k = k); [apply/matrixP => i j; rewrite !mxE eq_sym | apply/val_inj; case: k => [[|[|]]]].
- exact: wave2_opp.
Qed.
End Case.
Print Assumptions C74_propagator.
Print Assumptions C75_documented_refuted.
