(* C105: the eigenvalues of the linearized Eliashberg equation, of which IRAM returns the real parts, are real. *)
From mathcomp Require Import all_ssreflect all_algebra all_field.
From mathcomp Require Import zify.
From Verif Require Import Base Fring MpiModel FourierModel BubbleModel ImtimeModel MpiProofs MpiSpec GwSpec GwModel GwThms EliashbergModel EliashbergSpec EliashbergThms PowerModel PowerThms EliSolveThms.
Set Implicit Arguments.
Unset Strict Implicit.
Unset Printing Implicit Defensive.
Import Order.TTheory GRing.Theory Num.Theory.
Local Open Scope ring_scope.

Section Real.
Variables (C : numClosedFieldType) (n1 n2 n3 nb nw : nat) (beta : C).
Add Ring Cring : (fld_rt C).
Local Notation K := (site n1 n2 n3).
Local Notation t4 := (tensor4 C nb).
Local Notation gfun := (gfun C n1 n2 n3 nb).
Local Notation wk := ('I_(2 * nw) -> K -> 'M[C]_nb).
Local Notation X := ('I_(2 * nw) * K * ('I_nb * 'I_nb))%type.
(* a Hermitian vertex *)
Definition hermitian_vertex (gamma : int -> K -> t4) : Prop := forall n k a b c d, (gamma n k a b c d)^* = gamma (- n) (- k) d c b a.
(* degenerate orbitals and a symmetric dispersion; for one orbital the first part is always met *)
Definition degenerate (g : gfun) : Prop := exists2 s : int -> K -> C, forall n k, g n k = (s n k)%:M & forall n k, s n (- k) = s n k.
Definition is_eigenpair (P : wk -> option wk) (l : C) (m : wk) : Prop := nonzero m /\ exists2 D, P m = Some D & forall w k a b, D w k a b = l * m w k a b.

Lemma form_real (M : X -> X -> C) (v : X -> C) : (forall p q, (M p q)^* = M q p) -> \sum_p \sum_q (v p)^* * M p q * v q \is Num.real.
Proof.
move=> h; apply/CrealP; rewrite rmorph_sum /=.
under eq_bigr => p _ do (rewrite rmorph_sum /=; under eq_bigr => q _ do rewrite !rmorphM /= conjCK h).
by rewrite exchange_big /=; apply: eq_bigr => p _; apply: eq_bigr => q _; fring C.
Qed.
(* C105: with a Hermitian vertex and degenerate orbitals every eigenvalue is real *)
Theorem C105_real ng gsize nranks sched ksched (gamma : int -> K -> t4) (g : gfun) l m :
  fair_all nranks sched -> fair_all nranks ksched -> beta \is Num.real -> hermitian_vertex gamma -> degenerate g ->
  is_eigenpair (eliashberg_product beta conjC ng gsize nranks sched ksched gamma g) l m -> l \is Num.real.
Proof.
move=> fs fks hb hg [s hs si] [[w0 [k0 [a0 [b0 m0]]]] [D e hl]].
pose Q n k := s n k * (s n k)^*.
have Q0 n k : 0 <= Q n k by rewrite /Q -normCK exprn_ge0.
pose v (p : X) := Q (fidx p.1.1) p.1.2 * m p.1.1 p.1.2 p.2.1 p.2.2.
pose M (p q : X) := gamma (fidx p.1.1 - fidx q.1.1) (p.1.2 - q.1.2) q.2.2 p.2.1 q.2.1 p.2.2.
have hM p q : (M p q)^* = M q p by rewrite /M hg !opprB.
pose x := - (2%:R * (ncells n1 n2 n3)%:R * beta)^-1.
have hx : x \is Num.real by rewrite realN realV !realM // realn.
have pa w k d c : pair_amplitude conjC (fun k a b => g (fidx w) k a b) (fun k a b => m w k a b) k d c = v (w, k, (d, c)).
  rewrite /pair_amplitude (bigD1 d) //= (bigD1 c) //= !hs si !mxE !eqxx !mulr1n /v /Q /=.
  rewrite !big1 ?addr0 // => [e1 he|f hf]; last by rewrite !mxE eq_sym (negbTE hf) mulr0n !mul0r.
  by rewrite big1 // => f _; rewrite !mxE (negbTE he) mulr0n conjC0 mulr0 mul0r.
have eD p : l * m p.1.1 p.1.2 p.2.1 p.2.2 = x * \sum_q M p q * v q.
  rewrite -hl (productE fs fks e) mulNr /x mulNr; congr (- _); rewrite mulrC; congr (_ * _).
  rewrite -(pair_bigA _ (fun (y : 'I_(2 * nw) * K) (z : 'I_nb * 'I_nb) => M p (y, z) * v (y, z))) /=.
  rewrite -(pair_bigA _ (fun (w : 'I_(2 * nw)) (k : K) => \sum_z M p ((w, k), z) * v ((w, k), z))) /=.
  apply: eq_bigr => w _; apply: eq_bigr => k _; rewrite exchange_big /= pair_bigA /=; apply: eq_bigr => -[d c] _.
  by rewrite pa.
pose N := \sum_(p : X) Q (fidx p.1.1) p.1.2 * `|m p.1.1 p.1.2 p.2.1 p.2.2| ^+ 2.
have eN : l * N = x * \sum_p \sum_q (v p)^* * M p q * v q.
  rewrite /N [LHS]mulr_sumr [RHS]mulr_sumr; apply: eq_bigr => p _.
  under [in RHS]eq_bigr do rewrite -mulrA; rewrite -mulr_sumr [RHS]mulrCA -eD /v rmorphM normCK.
  have -> : (Q (fidx p.1.1) p.1.2)^* = Q (fidx p.1.1) p.1.2 by apply/CrealP; rewrite ger0_real.
  fring C.
have N0 : 0 <= N by apply: sumr_ge0 => p _; rewrite mulr_ge0 ?exprn_ge0.
have [nz|nz] := eqVneq N 0; last first.
  have -> : l = x * (\sum_p \sum_q (v p)^* * M p q * v q) / N by rewrite -eN mulfK.
  by rewrite !realM ?form_real // realV ger0_real.
have v0 q : v q = 0.
  move/eqP: nz; rewrite psumr_eq0 => [/allP/(_ q (mem_index_enum _))|p _]; last by rewrite mulr_ge0 ?exprn_ge0.
  by rewrite mulf_eq0 expf_eq0 normr_eq0 /= /v => /orP[] /eqP->; rewrite ?mul0r ?mulr0.
have := eD (w0, k0, (a0, b0)); rewrite big1 ?mulr0 => [/eqP|q _]; last by rewrite v0 mulr0.
by rewrite /= mulf_eq0 (negbTE m0) orbF => /eqP ->; exact: real0.
Qed.
End Real.

Section Returned.
Variables (C : numClosedFieldType) (n1 n2 n3 nb nw n : nat) (beta z1 z2 z3 : C).
Local Notation K := (site n1 n2 n3).
Local Notation t4 := (tensor4 C nb).
Local Notation gfun := (gfun C n1 n2 n3 nb).
Local Notation wk := ('I_(2 * nw) -> K -> 'M[C]_nb).
Local Notation vec := 'rV[C]_n.+1.
Variables (pos : 'I_(2 * nw) * K * ('I_nb * 'I_nb) -> 'I_n.+1) (ind : 'I_n.+1 -> 'I_(2 * nw) * K * ('I_nb * 'I_nb)).
Hypotheses (posK : cancel pos ind) (indK : cancel ind pos).
Variable eigs : (vec -> option vec) -> nat -> C -> vec -> option (seq (C * vec)).
Local Notation solve P := (solve_eliashberg (reshape pos) (flatten ind) eigs (Some P) id).
Lemma returned P init0 rnd tol k max_it Es modes : exact_eigs eigs -> (forall l m, is_eigenpair P l m -> l \is Num.real) ->
  solve P init0 rnd IRAM tol k max_it = Some (Es, modes) ->
  size Es = size modes /\ forall i, (i < size modes)%N -> is_eigenpair P (nth 0 Es i) (nth rnd modes i).
Proof.
move=> ex hr h; have [sz hm] := C85_iram_modes (reshapeK indK) ex h; split=> // i hi.
have [d [l [hd m0 hl hE _]]] := hm rnd i hi.
have hp : is_eigenpair P l (nth rnd modes i).
  split; first exact: (flatten_nonzero m0).
  exists d => // w q a b; have := congr1 (fun v : vec => v 0 (pos (w, q, (a, b)))) hl; by rewrite (flattenE posK) mxE (flattenE posK).
by rewrite hE; have /Creal_ReP -> := hr _ _ hp.
Qed.
(* C105: the numbers that solve_eliashberg returns are eigenvalues, with the returned modes, of the product by summation *)
Theorem C105_returned ng gsize nranks sched ksched (gamma : int -> K -> t4) (g : gfun) init0 rnd tol k max_it Es modes :
  exact_eigs eigs -> fair_all nranks sched -> fair_all nranks ksched -> beta \is Num.real -> hermitian_vertex gamma -> degenerate g ->
  solve (eliashberg_product beta conjC ng gsize nranks sched ksched gamma g) init0 rnd IRAM tol k max_it = Some (Es, modes) ->
  size Es = size modes /\ forall i, (i < size modes)%N ->
    is_eigenpair (eliashberg_product beta conjC ng gsize nranks sched ksched gamma g) (nth 0 Es i) (nth rnd modes i).
Proof.
move=> ex fs fks hb hg hd; apply: returned => // l m; exact: C105_real.
Qed.
Variables (L : nat) (wt : ('I_(2 * nw) -> 'M[C]_nb) -> 'I_L.+1 -> 'M[C]_nb).
Hypotheses (hz1 : n1.+1.-primitive_root z1) (hz2 : n2.+1.-primitive_root z2) (hz3 : n3.+1.-primitive_root z3).
(* C105: and of the Fourier product with a static vertex *)
Theorem C105_returned_fft ng nranks sched (gamma : K -> t4) (g : gfun) init0 rnd tol k max_it Es modes :
  exact_eigs eigs -> fair_all nranks sched -> beta \is Num.real ->
  hermitian_vertex (fun _ => gamma) -> degenerate g -> (forall t i j, linfun_mx (fun x => wt x t i j)) -> (forall x, wt x ord0 = beta^-1 *: \sum_w x w) -> (nw <= ng)%N ->
  let P := eliashberg_product_fft_constant z1 z2 z3 conjC wt ng nranks sched (fun r a b c d => fourier_k_to_r z1 z2 z3 (fun q => gamma q a b c d) r) g in
  solve P init0 rnd IRAM tol k max_it = Some (Es, modes) ->
  size Es = size modes /\ forall i, (i < size modes)%N -> is_eigenpair P (nth 0 Es i) (nth rnd modes i).
Proof.
move=> ex fs hb hg hd lwt avg hn P; apply: returned => // l m [m0 [D e hl]].
have f0 := @fair_all_inorder [finType of 'I_(2 * nw) * K] 1 isT.
have f1 := @fair_all_inorder [finType of K] 1 isT.
apply: (C105_real (ng := ng) (gsize := 2 * (2 * nw)) f0 f1 hb hg hd (m := m)); split=> //.
case e' : (eliashberg_product _ _ _ _ _ _ _ _ _ _) => [D'|]; last by move: e'; rewrite /eliashberg_product /eliashberg_g_delta_g_product ltnNge leqnn /= ltnNge leq_mul2l hn.
exists D' => // w q a b; rewrite -hl; have cc : (ncells n1 n2 n3)%:R != 0 :> C by rewrite pnatr_eq0 -lt0n /ncells !muln_gt0.
exact: (C25_sum_is_fft hz1 hz2 hz3 cc w q a b f0 f1 fs lwt avg e' e).
Qed.
End Returned.

(* two orbitals: levels -2 and 1, two frequencies, one k point *)
Section Two.
Variable (C : numClosedFieldType).
Add Ring Cring2 : (fld_rt C).
Add Field Cfield2 : (fld_ft (Num.ClosedField.fieldType C)).
Definition inu (n : int) : C := if 0 <= n then 'i else - 'i.
Definition two_e (a : 'I_2) : C := if a == 0 then - 2%:R else 1.
Definition two_g : gfun C 0 0 0 2 := fun n _ => \matrix_(a, b) (if a == b then (inu n - two_e a)^-1 else 0).
Definition two_gamma : int -> site 0 0 0 -> tensor4 C 2 := fun _ _ a b c d => if (a + b + c + d == 1)%N then 5%:R else 0.
Definition two_m : 'I_(2 * 1) -> site 0 0 0 -> 'M[C]_2 := fun _ _ => \matrix_(a, b) (if (a + b == 0)%N then 1 else if (a + b == 1)%N then - 'i else 0).
Lemma inuC n : (inu (- n - 1))^* = inu n.
Proof.
rewrite /inu; have -> : ((0 : int) <= - n - 1) = ~~ ((0 : int) <= n) by apply/idP/idP => h; lia.
by case: (_ <= _); rewrite /= ?rmorphN /= conjCi ?opprK.
Qed.
Lemma inu_sq n : inu n * inu n = - 1.
Proof. by rewrite /inu; case: ifP; rewrite ?mulrNN -expr2 sqrCi. Qed.
Lemma two_e_real a : (two_e a)^* = two_e a.
Proof. by rewrite /two_e; case: ifP => _; rewrite ?rmorphN ?rmorph1 //= conjC_nat. Qed.
Lemma two_gC n k k' a b : two_g (- n - 1) k a b = (two_g n k' b a)^*.
Proof.
rewrite !mxE eq_sym; case: eqP => [->|_]; last by rewrite conjC0.
by rewrite fmorphV rmorphB /= two_e_real -[in RHS]inuC conjCK.
Qed.
Lemma sum2 (F : 'I_2 -> C) : \sum_i F i = F 0 + F 1.
Proof. by rewrite big_ord_recl big_ord1; congr (_ + F _); apply: val_inj. Qed.
Lemma n5 : (5%:R : C) != 0. Proof. by rewrite pnatr_eq0. Qed.
Lemma n2 : (2%:R : C) != 0. Proof. by rewrite pnatr_eq0. Qed.
Lemma e5 : (5%:R : C) = 1 + 2%:R * 2%:R. Proof. by rewrite -natrM -mulrS. Qed.
Lemma e2 : (2%:R : C) = 1 + 1. Proof. by rewrite -[1]/(1%:R) -natrD. Qed.
Lemma lev0 n : (inu n - two_e 0)^-1 = (2%:R - inu n) / 5%:R.
Proof.
have h : (inu n - two_e 0) * ((2%:R - inu n) / 5%:R) = 1.
  rewrite /two_e eqxx opprK mulrA; have -> : (inu n + 2%:R) * (2%:R - inu n) = 2%:R * 2%:R - inu n * inu n by fring C.
  by rewrite inu_sq opprK -[_ + 1]addrC -e5 mulfV ?n5.
exact: mulr1_eq h.
Qed.
Lemma lev1 n : (inu n - two_e 1)^-1 = - (1 + inu n) / 2%:R.
Proof.
have h : (inu n - two_e 1) * (- (1 + inu n) / 2%:R) = 1.
  rewrite /two_e /= mulrA; have -> : (inu n - 1) * - (1 + inu n) = 1 - inu n * inu n by fring C.
  by rewrite inu_sq opprK -e2 mulfV ?n2.
exact: mulr1_eq h.
Qed.
Lemma inuC' n : (inu n)^* = - inu n.
Proof. by rewrite /inu; case: ifP => _; rewrite ?rmorphN /= conjCi ?opprK. Qed.
Lemma pa w k d c : pair_amplitude conjC (fun k a b => two_g (fidx w) k a b) (fun k a b => two_m w k a b) k d c =
  (inu (fidx w) - two_e c)^-1 * ((inu (fidx w) - two_e d)^-1)^* * two_m w k d c.
Proof.
rewrite /pair_amplitude (bigD1 d) //= (bigD1 c) //= !mxE !eqxx.
rewrite !big1 ?addr0 // => [e1 he|f hf]; last by rewrite !mxE eq_sym (negbTE hf) !mul0r.
by rewrite big1 // => f _; rewrite !mxE (negbTE he) conjC0 mulr0 mul0r.
Qed.
Lemma bubble00 n : (inu n - two_e 0)^-1 * ((inu n - two_e 0)^-1)^* = 5%:R^-1.
Proof.
rewrite lev0 rmorphM fmorphV rmorphB /= !conjC_nat inuC' opprK.
have -> : (2%:R - inu n) / 5%:R * ((2%:R + inu n) / 5%:R) = (2%:R * 2%:R - inu n * inu n) / 5%:R / 5%:R by fring C.
by rewrite inu_sq opprK -[_ + 1]addrC -e5 mulfV ?n5 // mul1r.
Qed.
Lemma bubble01 n : (inu n - two_e 0)^-1 * ((inu n - two_e 1)^-1)^* = - (1 - 3%:R * inu n) / (2%:R * 5%:R).
Proof.
rewrite lev0 lev1 rmorphM fmorphV rmorphN rmorphD /= !conjC_nat inuC' rmorph1 invfM.
have -> : (2%:R - inu n) / 5%:R * (- (1 - inu n) / 2%:R) = - (2%:R - 3%:R * inu n + inu n * inu n) / 5%:R / 2%:R.
  by rewrite (_ : 3%:R = 1 + 2%:R); [fring C | rewrite -mulrS].
rewrite inu_sq (_ : 2%:R - 3%:R * inu n - 1 = 1 - 3%:R * inu n); first by fring C.
by rewrite {1}e2; fring C.
Qed.
Lemma bubble10 n : (inu n - two_e 1)^-1 * ((inu n - two_e 0)^-1)^* = - (1 + 3%:R * inu n) / (2%:R * 5%:R).
Proof.
rewrite -[LHS]conjCK rmorphM /= conjCK mulrC bubble01 !rmorphM fmorphV rmorphN rmorphB !rmorphM /= !conjC_nat inuC' rmorph1.
by rewrite mulrN opprK.
Qed.
Lemma sumnu (F : int -> C) : \sum_(w < 2 * 1) F (fidx w) = F (- 1) + F 0.
Proof. by rewrite big_ord_recl big_ord1. Qed.
(* C105: two orbitals with a Hermitian vertex can have the eigenvalue -i *)
Theorem C105_two_orbitals nranks sched ksched : fair_all nranks sched -> fair_all nranks ksched ->
  [/\ hermitian_vertex two_gamma, conj_symmetric conjC (fun n k a b => two_g n k a b), forall n k k', two_g n k = two_g n k' &
  is_eigenpair (eliashberg_product 1 conjC 1 4 nranks sched ksched two_gamma two_g) (- 'i) two_m].
Proof.
move=> fs fks; split=> //.
- by move=> n k a b c d; rewrite /two_gamma (_ : (d + c + b + a = a + b + c + d)%N); [case: ifP; rewrite ?conjC_nat ?conjC0 | lia].
- by move=> n k a b; exact: two_gC.
split; first by exists ord0, 0, 0, 0; rewrite mxE oner_eq0.
case e : (eliashberg_product _ _ _ _ _ _ _ _ _) => [D|]; last by [].
exists D => // w k a b; rewrite (productE fs fks e).
have k1 (F : site 0 0 0 -> C) : \sum_k F k = F 0.
  rewrite (big_pred1 (0 : site 0 0 0)) // => -[[x y] z] /=; apply/esym/eqP; by rewrite (ord1 x) (ord1 y) (ord1 z).
have N1 : (ncells 0 0 0)%:R = 1 :> C by [].
pose H n := \sum_c \sum_d two_gamma 0 0 c a d b * ((inu n - two_e c)^-1 * ((inu n - two_e d)^-1)^* * two_m ord0 0 d c).
rewrite (eq_bigr (fun w' => H (fidx w'))); last by move=> w' _; rewrite k1; apply: eq_bigr => c _; apply: eq_bigr => d _; rewrite pa.
rewrite sumnu N1 !mulr1 {}/H !sum2 !bubble00 !bubble01 !bubble10.
have hi : inu 0 = 'i by []. have hi' : inu (- 1) = - 'i by [].
rewrite hi hi' /two_m !mxE /two_gamma.
case: a => [[|[|a]] ha] //; case: b => [[|[|b]] hb] //=; rewrite ?mul0r ?add0r ?addr0 ?mulr0 ?mulN0r ?oppr0 ?mul0r ?mulr1 //.
- rewrite !mulrN; move: (5%:R : C) n5 (3%:R : C) n2 => f hf t; rewrite e2 => h2; ffield C; do ?split; exact/eqP.
- by rewrite mulfV ?n5 // -e2 mulNr mulfV ?n2 // mulrNN -expr2 sqrCi.
- by rewrite mulfV ?n5 // -e2 mulNr mulfV ?n2 // mulrNN -expr2 sqrCi.
Qed.
End Two.


(* a case of both theorems: one orbital, two frequencies, a real vertex *)
Theorem C105_case nranks sched ksched rnd : fair_all nranks sched -> fair_all nranks ksched ->
  [/\ hermitian_vertex (case_gamma (- 1)), degenerate case_g, exact_eigs (eigs_ones (- 1)),
  solve_eliashberg (reshape case_pos) (flatten case_ind) (eigs_ones (- 1)) (Some (case_P (- 1) nranks sched ksched)) id None rnd IRAM 0 1 1 = Some ([:: 1], [:: reshape case_pos ones]) &
  is_eigenpair (case_P (- 1) nranks sched ksched) 1 (reshape case_pos ones)].
Proof.
move=> fs fks.
have hg : hermitian_vertex (case_gamma (- 1)) by move=> n k a b c d; rewrite /case_gamma rmorphN rmorph1.
have hd : degenerate case_g by exists (fun _ _ => 1) => // n k; apply/matrixP => i j; rewrite !mxE (ord1 i) (ord1 j) eqxx.
have hs := C85_documented_equation_case rnd fs fks; case: hs => h1 h2 h3 h4.
split=> //.
by have [_ /(_ 0%N isT)] := C105_returned h1 h2 h3 fs fks (real1 _) hg hd h4.
Qed.
Print Assumptions C105_real.
Print Assumptions C105_returned.
Print Assumptions C105_returned_fft.
Print Assumptions C105_two_orbitals.
Print Assumptions C105_case.
