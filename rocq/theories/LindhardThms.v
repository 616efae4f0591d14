(* C50: the Lindhard function. *)
From mathcomp Require Import all_ssreflect all_algebra.
From Verif Require Import LindhardModel Fring.
Set Implicit Arguments.
Unset Strict Implicit.
Unset Printing Implicit Defensive.
Import Order.TTheory GRing.Theory Num.Theory.
Local Open Scope ring_scope.

Section Thms.
Variables (C : numClosedFieldType) (nb : nat) (K : finZmodType).
Add Ring Cring : (fld_rt C).
Add Field Cfield : (fld_ft (Num.ClosedField.fieldType C)).
Local Notation M := 'M[C]_nb.
Variables (fermi cosh : C -> C).
(* specification of the eigenvalue problem: real eigenvalues, eigenvectors in the columns of a unitary matrix *)
Definition decomposes (m : M) (l : 'rV[C]_nb) (U : M) : Prop :=
  [/\ forall i, l 0 i \is Num.real, U *m dagger U = 1%:M & m = U *m diag_mx l *m dagger U].
Definition eigensolver (eig : M -> 'rV[C]_nb * M) : Prop := forall m, dagger m = m -> decomposes m (eig m).1 (eig m).2.
Lemma daggerM (U V : M) : dagger (U *m V) = dagger V *m dagger U.
Proof. by apply/matrixP => i j; rewrite !mxE rmorph_sum; apply: eq_bigr => k _; rewrite !mxE rmorphM mulrC. Qed.
Lemma daggerK : involutive (@dagger C nb).
Proof. by move=> U; apply/matrixP => i j; rewrite !mxE conjCK. Qed.
Lemma unitary_l (U : M) : U *m dagger U = 1%:M -> dagger U *m U = 1%:M.
Proof. exact: mulmx1C. Qed.
(* functions of a matrix do not depend on the choice of the eigenvectors *)
Definition func (phi : C -> C) (l : 'rV[C]_nb) (U : M) : M := U *m diag_mx (map_mx phi l) *m dagger U.
Lemma funcE phi l U a d : func phi l U a d = \sum_i U a i * dagger U i d * phi (l 0 i).
Proof. by rewrite mxE; apply: eq_bigr => i _; rewrite mul_mx_diag !mxE mulrAC. Qed.
Lemma func_gauge phi m l U l' U' : decomposes m l U -> decomposes m l' U' -> func phi l U = func phi l' U'.
Proof.
move=> [_ u e] [_ u' e'].
have v := unitary_l u; have v' := unitary_l u'.
pose W := dagger U *m U'.
have ew : diag_mx l *m W = W *m diag_mx l'.
  transitivity (dagger U *m m *m U'); first by rewrite e !mulmxA v mul1mx -mulmxA.
  by rewrite e' !mulmxA -(mulmxA _ (dagger U') U') v' mulmx1.
have ep : diag_mx (map_mx phi l) *m W = W *m diag_mx (map_mx phi l').
  apply/matrixP => i j; rewrite mul_diag_mx mul_mx_diag !mxE; move/matrixP/(_ i j): ew; rewrite mul_diag_mx mul_mx_diag !mxE.
  set x := \sum_k _; case: (x =P 0) => [->|nx]; first by rewrite !mulr0 !mul0r.
  by rewrite mulrC => /(mulfI (introN eqP nx))->; rewrite mulrC.
rewrite /func -[RHS]mul1mx -u -!mulmxA; congr (_ *m _); rewrite (mulmxA (dagger U) U') (mulmxA (dagger U *m U')) -/W -ep -!mulmxA.
by rewrite /W u' mulmx1.
Qed.
(* two-body factors: sums over pairs of eigenvalues *)
Definition pair_sum (phi : C -> C -> C) (l : 'rV[C]_nb) (U : M) (l' : 'rV[C]_nb) (U' : M) a b c d : C :=
  \sum_i \sum_j U a i * dagger U i d * U' c j * dagger U' j b * phi (l 0 i) (l' 0 j).
Lemma pair_sum_l phi l U l' U' a b c d : pair_sum phi l U l' U' a b c d = \sum_j U' c j * dagger U' j b * func (fun x => phi x (l' 0 j)) l U a d.
Proof.
rewrite /pair_sum exchange_big; apply: eq_bigr => j _; rewrite funcE mulr_sumr; apply: eq_bigr => i _.
fring C.
Qed.
Lemma pair_sum_r phi l U l' U' a b c d : pair_sum phi l U l' U' a b c d = \sum_i U a i * dagger U i d * func (phi (l 0 i)) l' U' c b.
Proof.
rewrite /pair_sum; apply: eq_bigr => i _; rewrite funcE mulr_sumr; apply: eq_bigr => j _.
fring C.
Qed.
Lemma pair_gauge phi m l U l1 U1 m' l' U' l1' U1' a b c d : decomposes m l U -> decomposes m l1 U1 -> decomposes m' l' U' -> decomposes m' l1' U1' ->
  pair_sum phi l U l' U' a b c d = pair_sum phi l1 U1 l1' U1' a b c d.
Proof.
move=> h h1 h' h1'; transitivity (pair_sum phi l1 U1 l' U' a b c d).
  by rewrite !pair_sum_l; apply: eq_bigr => j _; rewrite (func_gauge _ h h1).
by rewrite !pair_sum_r; apply: eq_bigr => j _; rewrite (func_gauge _ h' h1').
Qed.
Lemma lindhardE eig (e : K -> M) beta mu idelta w q a b c d : lindhard_chi00 fermi cosh eig e beta mu idelta w q a b c d =
  (\sum_(k : K) pair_sum (total_factor fermi cosh beta idelta w) (eig (e k - mu%:M)).1 (eig (e k - mu%:M)).2
     (eig (e (k + q) - mu%:M)).1 (eig (e (k + q) - mu%:M)).2 a b c d) / #|K|%:R.
Proof. by congr (_ / _); apply: eq_bigr => k _; case: (eig (e k - mu%:M)) => l U; case: (eig _). Qed.
(* a Hermitian dispersion *)
Definition hermitian (e : K -> M) : Prop := forall k, dagger (e k) = e k.
Lemma hermitian_mu e mu : hermitian e -> mu \is Num.real -> forall k, dagger (e k - mu%:M) = e k - mu%:M.
Proof.
move=> he hm k; apply/matrixP => i j; have /matrixP/(_ i j) := he k; rewrite !mxE rmorphB => ->.
by rewrite rmorphMn (CrealP hm) eq_sym.
Qed.
(* C50: the result does not depend on the eigenvectors that the solver chooses (phases, degenerate bands) *)
Theorem C50_gauge eig eig' e beta mu idelta w q a b c d : eigensolver eig -> eigensolver eig' -> hermitian e -> mu \is Num.real ->
  lindhard_chi00 fermi cosh eig e beta mu idelta w q a b c d = lindhard_chi00 fermi cosh eig' e beta mu idelta w q a b c d.
Proof.
move=> h h' he hm; rewrite !lindhardE; congr (_ / _); apply: eq_bigr => k _.
have hk := hermitian_mu he hm.
exact: pair_gauge (h _ (hk k)) (h' _ (hk k)) (h _ (hk _)) (h' _ (hk _)).
Qed.

(* exchange of the two particles *)
Lemma pair_sum_flip phi l U l' U' a b c d : pair_sum phi l U l' U' a b c d = pair_sum (fun x y => phi y x) l' U' l U c d a b.
Proof. by rewrite /pair_sum exchange_big; apply: eq_bigr => j _; apply: eq_bigr => i _; congr (_ * _); fring C. Qed.
Lemma pair_sum_eq phi phi' (l : 'rV[C]_nb) U (l' : 'rV[C]_nb) U' a b c d : (forall i j, phi (l 0 i) (l' 0 j) = phi' (l 0 i) (l' 0 j)) ->
  pair_sum phi l U l' U' a b c d = pair_sum phi' l U l' U' a b c d.
Proof. by move=> h; apply: eq_bigr => i _; apply: eq_bigr => j _; rewrite h. Qed.
(* bands closer than the tolerance are degenerate *)
Definition separated (eig : M -> 'rV[C]_nb * M) (e : K -> M) (mu : C) : Prop := forall k k' i j,
  let x := (eig (e k - mu%:M)).1 0 i in let y := (eig (e k' - mu%:M)).1 0 j in `|y - x| < tol C -> x = y.
Lemma factor_flip beta w x y : (`|y - x| < tol C -> x = y) -> total_factor fermi cosh beta 0 w x y = total_factor fermi cosh beta 0 (- w) y x.
Proof.
move=> h; rewrite /total_factor !addr0 normrN (distrC x y); case: ifP => [/andP[_ /h->] //|_].
by rewrite -[LHS]opprK -mulNr -mulrN -invrN !opprD !opprK (addrC (- fermi _)) (addrC (- y)).
Qed.
Theorem C50_exchange eig e beta mu w q a b c d : separated eig e mu ->
  lindhard_chi00 fermi cosh eig e beta mu 0 w q a b c d = lindhard_chi00 fermi cosh eig e beta mu 0 (- w) (- q) c d a b.
Proof.
move=> hs; rewrite !lindhardE; congr (_ / _); rewrite [RHS](reindex_inj (addIr q)) /=; apply: eq_bigr => k _.
by rewrite addrK pair_sum_flip; apply: pair_sum_eq => i j; apply/factor_flip/hs.
Qed.
(* complex conjugation *)
Definition real_function (f : C -> C) : Prop := forall x, x \is Num.real -> f x \is Num.real.
Lemma factor_conj beta idelta w x y : real_function fermi -> real_function cosh -> beta \is Num.real -> x \is Num.real -> y \is Num.real ->
  (total_factor fermi cosh beta idelta w x y)^* = total_factor fermi cosh beta idelta^* w^* x y.
Proof.
move=> hf hc hb hx hy; rewrite /total_factor -rmorphD norm_conjC.
have h2 : (2%:R : C)^-1 \is Num.real by rewrite realV realn.
case: ifP => _; rewrite rmorphM fmorphV; congr (_ / _).
- exact/CrealP.
- by apply/CrealP; rewrite !rpredM ?realn // hc // !rpredM.
- by apply/CrealP; rewrite rpredB // hf // rpredM.
rewrite [LHS]rmorphD; congr (_ + _); by apply/CrealP; rewrite rpredB.
Qed.
Theorem C50_conj eig e beta mu idelta w q a b c d : eigensolver eig -> hermitian e -> mu \is Num.real -> beta \is Num.real -> real_function fermi -> real_function cosh ->
  (lindhard_chi00 fermi cosh eig e beta mu idelta w q a b c d)^* = lindhard_chi00 fermi cosh eig e beta mu idelta^* w^* q d c b a.
Proof.
move=> he hh hm hb hf hc; rewrite !lindhardE rmorphM fmorphV rmorph_nat; congr (_ / _).
rewrite rmorph_sum; apply: eq_bigr => k _; rewrite rmorph_sum; apply: eq_bigr => i _; rewrite rmorph_sum; apply: eq_bigr => j _.
have hk := hermitian_mu hh hm.
have [rl _ _] := he _ (hk k); have [rl' _ _] := he _ (hk (k + q)).
by rewrite !rmorphM factor_conj // !mxE !conjCK; congr (_ * _); fring C.
Qed.
(* the static susceptibility of a pair of orbitals is not negative *)
Theorem C50_static_positive eig e beta mu q a b : eigensolver eig -> hermitian e -> mu \is Num.real -> 0 <= beta -> real_function cosh ->
  (forall x y, x \is Num.real -> y \is Num.real -> x <= y -> fermi y <= fermi x) ->
  0 <= lindhard_chi00 fermi cosh eig e beta mu 0 0 q a b b a.
Proof.
move=> he hh hm hb hc hf; rewrite lindhardE divr_ge0 ?ler0n //; apply: sumr_ge0 => k _; apply: sumr_ge0 => i _; apply: sumr_ge0 => j _.
have hk := hermitian_mu hh hm.
have [rl _ _] := he _ (hk k); have [rl' _ _] := he _ (hk (k + q)).
set x := (eig (e k - _)).1 0 i in rl *; set y := _ 0 j.
have rx : x \is Num.real by apply: rl. have ry : y \is Num.real by apply: rl'.
have rb : beta \is Num.real by rewrite realE hb.
have -> : (eig (e k - mu%:M)).2 a i * dagger (eig (e k - mu%:M)).2 i a * (eig (e (k + q) - mu%:M)).2 b j * dagger (eig (e (k + q) - mu%:M)).2 j b =
  `|(eig (e k - mu%:M)).2 a i| ^+ 2 * `|(eig (e (k + q) - mu%:M)).2 b j| ^+ 2 by rewrite !normCK !mxE; fring C.
rewrite !mulr_ge0 // ?exprn_ge0 //.
have h2 : (2%:R : C)^-1 \is Num.real by rewrite realV realn.
rewrite /total_factor !addr0; case: ifP => [_|/negbT].
  by rewrite divr_ge0 // -mulrA -expr2 mulr_ge0 ?ler0n // real_exprn_even_ge0 // hc // !rpredM.
rewrite normr0 /tol invr_gt0 exprn_gt0 ?ltr0n //= add0r => _.
have /orP[h|h] := real_leVge rx ry.
  by rewrite divr_ge0 // ?subr_ge0 // hf ?rpredM // ler_wpmul2r.
by rewrite -[_ / _]opprK -mulNr -mulrN -invrN !opprB divr_ge0 // ?subr_ge0 // hf ?rpredM // ler_wpmul2r.
Qed.

(* the transposed dispersion *)
Lemma dec_tr m l U : decomposes m l U -> decomposes m^T l (map_mx conjC U).
Proof.
move=> [rl u e]; have ed : dagger (map_mx conjC U) = U^T by apply/matrixP => i j; rewrite !mxE conjCK.
have ed' : map_mx conjC U = (dagger U)^T by apply/matrixP => i j; rewrite !mxE.
split=> //; rewrite ed ed'; first by rewrite -trmx_mul u trmx1.
by rewrite e !trmx_mul tr_diag_mx mulmxA.
Qed.
Lemma pair_sum_tr phi l (U : M) l' (U' : M) a b c d : pair_sum phi l (map_mx conjC U) l' (map_mx conjC U') a b c d = pair_sum phi l U l' U' d c b a.
Proof. by apply: eq_bigr => i _; apply: eq_bigr => j _; rewrite !mxE !conjCK; fring C. Qed.
(* the Green's function: resolvent *)
Lemma resolvent m l U z (G : M) : decomposes m l U -> z \isn't Num.real -> (z%:M - m) *m G = 1%:M -> G = func (fun x => (z - x)^-1) l U.
Proof.
move=> [rl u e] hz hG; have v := unitary_l u.
suff h : func (fun x => (z - x)^-1) l U *m (z%:M - m) = 1%:M by rewrite -[LHS]mul1mx -h -mulmxA hG mulmx1.
apply: mulmx1C; rewrite /func.
have -> : z%:M - m = U *m (z%:M - diag_mx l) *m dagger U.
  by rewrite e mulmxBr mulmxBl scalar_mxC -(mulmxA _ U) u mulmx1.
rewrite -!mulmxA (mulmxA (dagger U) U) v mul1mx (mulmxA (_ - _)).
have -> : (z%:M - diag_mx l) *m diag_mx (map_mx (fun x => (z - x)^-1) l) = 1%:M; last by rewrite mul1mx.
apply/matrixP => i j; rewrite mul_mx_diag !mxE; case: (i =P j) => [<-|_]; last by rewrite !mulr0n subr0 mul0r.
rewrite !mulr1n mulfV // subr_eq0; apply: contraNneq hz => ->; exact: rl.
Qed.
(* specification: a Matsubara sum is a linear functional S on functions of the fermionic frequencies Z with the values f and f' of the simple and double poles,
   invariant under the shift by the bosonic frequency w, for the poles in sp *)
Definition matsubara_sum (S : (C -> C) -> C) (Z : C -> Prop) (w : C) (sp : C -> Prop) (f f' : C -> C) : Prop :=
  [/\ forall h h', (forall z, Z z -> h z = h' z) -> S h = S h',
      forall x h h', S (fun z => x * h z + h' z) = x * S h + S h',
      forall z, Z z -> z \isn't Num.real /\ z + w \isn't Num.real &
      forall x, sp x -> [/\ S (fun z => (z - x)^-1) = f x, S (fun z => (z + w - x)^-1) = f x & S (fun z => (z - x)^-1 * (z - x)^-1) = f' x]].
Section Bubble.
Variables (S : (C -> C) -> C) (Z : C -> Prop) (w : C) (sp : C -> Prop) (beta : C).
Let f x := fermi (x * beta).
Let f' x := - (beta / (4%:R * cosh (2%:R^-1 * beta * x) * cosh (2%:R^-1 * beta * x))).
Hypothesis hS : matsubara_sum S Z w sp f f'.
Lemma S_sum (I : Type) (r : seq I) (x : I -> C) (h : I -> C -> C) : S (fun z => \sum_(i <- r) x i * h i z) = \sum_(i <- r) x i * S (h i).
Proof.
have [ext lin _ _] := hS; elim: r => [|i r ih].
  rewrite big_nil; transitivity (S (fun z => -1 * (fun _ => 0) z + (fun _ => 0) z)); first by apply: ext => z _; rewrite big_nil mulr0 addr0.
  by rewrite lin mulN1r addNr.
rewrite big_cons -ih -lin; apply: ext => z _; rewrite big_cons //.
Qed.
(* bosonic frequencies are imaginary and not small unless they vanish *)
Hypotheses (hw : w \is Num.real -> w = 0) (hw0 : `|w| < tol C -> w = 0).
Lemma kernel x y : x \is Num.real -> y \is Num.real -> sp x -> sp y -> (`|y - x| < tol C -> x = y) ->
  S (fun z => (z + w - x)^-1 * (z - y)^-1) = - total_factor fermi cosh beta 0 w x y.
Proof.
have [ext lin hZ hp] := hS; move=> rx ry /hp[px sx dx] /hp[py _ dy] hs; rewrite /total_factor !addr0; case: ifP => [/andP[/hw0 w0 /hs exy]|/negbT hn].
  rewrite -/(f' x) -dx exy; apply: ext => z _; by rewrite w0 addr0.
have t0 : 0 < tol C by rewrite invr_gt0 exprn_gt0 ?ltr0n.
have nz : w + (y - x) != 0.
  apply: contra hn; rewrite addr_eq0 opprB => /eqP ew; have w0 : w = 0 by apply: hw; rewrite ew rpredB.
  have exy : y = x by apply/eqP; rewrite eq_sym -subr_eq0 -ew w0.
  by rewrite w0 exy subrr !normr0 t0.
transitivity (S (fun z => (w + (y - x))^-1 * (z - y)^-1 + (- (w + (y - x))^-1 * (z + w - x)^-1 + 0))).
  apply: ext => z /hZ[h1 h2]; rewrite addr0.
  have n1 : z - y != 0 by rewrite subr_eq0; apply: contraNneq h1 => ->.
  have n2 : z + w - x != 0 by rewrite subr_eq0; apply: contraNneq h2 => ->.
  have -> : w + (y - x) = (z + w - x) - (z - y) by fring C.
  have n3 : (z + w - x) - (z - y) != 0 by have -> : (z + w - x) - (z - y) = w + (y - x) by fring C.
  move: n1 n2 n3; move: (z + w - x) (z - y) => p r /eqP n1 /eqP n2 /eqP n3; ffield C; do !split=> //.
have z0 : S (fun _ => 0) = 0.
  transitivity (S (fun z => \sum_(i <- [::] : seq nat) (fun _ => 0) i * (fun _ _ => 0) i z)); first by apply: ext => u _; rewrite big_nil.
  by rewrite S_sum big_nil.
rewrite !lin z0 py sx -/(f x) -/(f y); fring C.
Qed.
Variables (eig : M -> 'rV[C]_nb * M) (e : K -> M) (mu : C) (G : K -> C -> M).
Hypotheses (heig : eigensolver eig) (he : hermitian e) (hmu : mu \is Num.real).
Hypothesis hG : forall k z, z \isn't Num.real -> (z%:M - (e k - mu%:M)) *m G k z = 1%:M.
Hypothesis hsp : forall k i, sp ((eig (e k - mu%:M)).1 0 i).
Hypothesis hsep : separated eig e mu.
(* the bubble: - 1/N sum_k T sum_z G_da(z + w, k + q) G_bc(z, k), the Fourier transform of - G_da(tau, r) G_bc(- tau, - r) *)
Definition bubble (q : K) a b c d : C := - (\sum_(k : K) S (fun z => G (k + q) (z + w) d a * G k z b c)) / #|K|%:R.
(* C50: the bubble is the Lindhard function of the dispersion with inverted momentum and transposed orbitals *)
Theorem C50_bubble_partial q a b c d :
  bubble q a b c d = lindhard_chi00 fermi cosh eig (fun k => (e (- k))^T) beta mu 0 w q a b c d.
Proof.
have [ext lin hZ hp] := hS; rewrite lindhardE /bubble; congr (_ / _); have hk := hermitian_mu he hmu.
rewrite [RHS](reindex_inj (inj_comp oppr_inj (addIr q))) /= -sumrN; apply: eq_bigr => k _.
have tr k' : (e k')^T - mu%:M = (e k' - mu%:M)^T by rewrite linearB /= tr_scalar_mx.
have dt k' : dagger (e k' - mu%:M)^T = (e k' - mu%:M)^T by rewrite -{2}(hk k'); apply/matrixP => i j; rewrite !mxE.
have -> : - (- (k + q) + q) = k by rewrite opprD opprK addrK.
rewrite opprK !tr.
rewrite (pair_gauge _ _ _ _ _ (heig (dt (k + q))) (dec_tr (heig (hk (k + q)))) (heig (dt k)) (dec_tr (heig (hk k)))) pair_sum_tr.
set l1 := (eig (e (k + q) - _)).1; set U1 := (eig (e (k + q) - _)).2; set l := (eig (e k - _)).1; set U := (eig (e k - _)).2.
have [rl1 _ _] : decomposes _ l1 U1 := heig (hk (k + q)); have [rl _ _] : decomposes _ l U := heig (hk k).
have -> : S (fun z => G (k + q) (z + w) d a * G k z b c) =
  S (fun z => \sum_(p : 'I_nb * 'I_nb) (U1 d p.1 * dagger U1 p.1 a * U b p.2 * dagger U p.2 c) * ((z + w - l1 0 p.1)^-1 * (z - l 0 p.2)^-1)).
  apply: ext => z /hZ[h1 h2].
  rewrite (resolvent (heig (hk (k + q))) h2 (hG _ h2)) (resolvent (heig (hk k)) h1 (hG _ h1)) !funcE -/l1 -/U1 -/l -/U.
  rewrite mulr_suml (eq_bigr (fun i => \sum_j U1 d i * dagger U1 i a * (z + w - l1 0 i)^-1 * (U b j * dagger U j c * (z - l 0 j)^-1))); last first.
    by move=> i _; rewrite mulr_sumr.
  by rewrite pair_bigA; apply: eq_bigr => -[i j] _ /=; fring C.
rewrite S_sum -(pair_bigA _ (fun i j => U1 d i * dagger U1 i a * U b j * dagger U j c * S (fun z => (z + w - l1 0 i)^-1 * (z - l 0 j)^-1))) /=.
rewrite -sumrN /pair_sum; apply: eq_bigr => i _; rewrite -sumrN; apply: eq_bigr => j _ /=.
by rewrite (kernel (rl1 i) (rl j)) ?mulrN ?opprK //; [apply: hsp|apply: hsp|apply: hsep].
Qed.
(* ... so it is the Lindhard function of time-reversal symmetric dispersions. *)
Theorem C50_time_reversal_partial q a b c d : (forall k, e (- k) = (e k)^T) ->
  bubble q a b c d = lindhard_chi00 fermi cosh eig e beta mu 0 w q a b c d.
Proof.
move=> ht; rewrite C50_bubble_partial !lindhardE; congr (_ / _); apply: eq_bigr => k _.
by rewrite !ht !trmxK.
Qed.
End Bubble.
End Thms.

(* one band *)
Section OneBand.
Variables (C : numClosedFieldType) (fermi cosh : C -> C).
Add Ring Cring1 : (fld_rt C).
Add Field Cfield1 : (fld_ft (Num.ClosedField.fieldType C)).
Definition eig1 (m : 'M[C]_1) : 'rV[C]_1 * 'M[C]_1 := (\row_i m i i, 1%:M).
Lemma eig1_solves : eigensolver eig1.
Proof.
move=> m hm; have d1 : dagger (1%:M : 'M[C]_1) = 1%:M by apply/matrixP => i j; rewrite !mxE !ord1 eqxx mulr1n conjC1.
split=> /=; rewrite ?d1 ?mul1mx ?mulmx1 //.
  by move=> i; rewrite mxE; apply/CrealP; rewrite -{2}hm mxE.
by apply/matrixP => i j; rewrite !mxE !ord1 mulr1n.
Qed.
Lemma one_band (m : 'M[C]_1) l U : decomposes m l U -> l 0 0 = m 0 0 /\ U 0 0 * dagger U 0 0 = 1.
Proof.
move=> [_ u e]; have h : U 0 0 * dagger U 0 0 = 1 by move/matrixP/(_ 0 0): u; rewrite [LHS]mxE big_ord1 [RHS]mxE.
split=> //; rewrite e [RHS]mxE big_ord1 mul_mx_diag [X in _ = X * _]mxE; by rewrite mulrAC h mul1r.
Qed.
Lemma lindhard1 (K : finZmodType) (eig : 'M[C]_1 -> 'rV[C]_1 * 'M[C]_1) (v : K -> C) beta w q : eigensolver eig -> (forall k, v k \is Num.real) ->
  lindhard_chi00 fermi cosh eig (fun k => (v k)%:M) beta 0 0 w q 0 0 0 0 = (\sum_k total_factor fermi cosh beta 0 w (v k) (v (k + q))) / #|K|%:R.
Proof.
move=> h hv; rewrite lindhardE; congr (_ / _); apply: eq_bigr => k _.
have hd k' : dagger ((v k')%:M - 0%:M : 'M[C]_1) = (v k')%:M - 0%:M.
  apply/matrixP => i j; rewrite !mxE !ord1 !mul0rn !subr0 !mulr1n; exact/CrealP.
have [e1 u1] := one_band (h _ (hd k)); have [e2 u2] := one_band (h _ (hd (k + q))).
rewrite /pair_sum !big_ord1 u1 mul1r u2 mul1r e1 e2 !mxE !mul0rn !subr0 !mulr1n //.
Qed.
(* three momenta with the energies 0, 1 and 3: for every decreasing fermi function and every Matsubara frequency but zero, the Lindhard function differs from that of the
   inverted dispersion, which is the bubble by C50_bubble_partial *)
Definition chain (k : 'Z_3) : C := nth 0 [:: 0; 1; 3%:R] k.
Lemma chain_real k : chain k \is Num.real.
Proof. by rewrite /chain; case: k => -[|[|[|]]] //= _; rewrite ?real0 ?real1 ?realn. Qed.
Lemma tol_lt1 : tol C < 1.
Proof. by rewrite /tol invf_lt1 ?exprn_gt0 ?ltr0n // exprn_egt1 // ltr1n. Qed.
Lemma factor_far beta w x y n : (0 < n)%N -> `|y - x| = n%:R ->
  total_factor fermi cosh beta 0 w x y = (fermi (x * beta) - fermi (y * beta)) / (w + (y - x)).
Proof.
move=> hn e; rewrite /total_factor e !addr0; case: ifP => // /andP[_ h].
by have := lt_trans h tol_lt1; rewrite -[1]/(1%:R) ltr_nat ltnNge hn.
Qed.
Theorem C50_bubble_refuted (eig : 'M[C]_1 -> 'rV[C]_1 * 'M[C]_1) beta x : eigensolver eig -> 0 < beta -> x \is Num.real -> x != 0 ->
  fermi (3%:R * beta) < fermi beta -> fermi beta < fermi 0 ->
  lindhard_chi00 fermi cosh eig (fun k => (chain k)%:M) beta 0 0 ('i * x) 1 0 0 0 0 <>
  lindhard_chi00 fermi cosh eig (fun k => ((chain (- k))%:M)^T) beta 0 0 ('i * x) 1 0 0 0 0.
Proof.
move=> heig hb hx nx h3 h1.
have -> : lindhard_chi00 fermi cosh eig (fun k => ((chain (- k))%:M)^T) beta 0 0 ('i * x) 1 0 0 0 0 =
   lindhard_chi00 fermi cosh eig (fun k => (chain (- k))%:M) beta 0 0 ('i * x) 1 0 0 0 0.
  by rewrite !lindhardE; congr (_ / _); apply: eq_bigr => k _; rewrite !tr_scalar_mx.
rewrite !lindhard1 // => [|k|k]; try exact: chain_real.
rewrite !big_ord_recl !big_ord0 /chain /= !addr0; set w := 'i * x.
have e31 : 3%:R - 1 = 2%:R :> C by rewrite -[1]/(1%:R) -natrB.
rewrite (@factor_far _ _ 0 1 1) ?subr0 ?normr1 // (@factor_far _ _ 1 3%:R 2) ?e31 ?normr_nat // (@factor_far _ _ 3%:R 0 3) ?sub0r ?normrN ?normr_nat //.
rewrite (@factor_far _ _ 0 3%:R 3) ?subr0 ?normr_nat // (@factor_far _ _ 3%:R 1 2) 1?distrC ?e31 ?normr_nat // (@factor_far _ _ 1 0 1) ?sub0r ?normrN ?normr1 //.
have w2 : w * w = - (x * x) by rewrite /w mulrACA -expr2 sqrCi mulN1r.
have px n : 0 < x * x + n.+1%:R ^+ 2 by rewrite -expr2 ltr_paddl ?exprn_gt0 ?ltr0n // real_exprn_even_ge0.
have nz n : w + n.+1%:R != 0 /\ w - n.+1%:R != 0.
  have h : (w + n.+1%:R) * (w - n.+1%:R) != 0.
    by have -> : (w + n.+1%:R) * (w - n.+1%:R) = - (x * x + n.+1%:R ^+ 2); [rewrite opprD -w2 expr2; fring C | rewrite oppr_eq0 gt_eqF].
  by move: h; rewrite mulf_eq0 negb_or => /andP[].
have F n : (w + n.+1%:R)^-1 + (w - n.+1%:R)^-1 = - (2%:R * w) / (x * x + n.+1%:R ^+ 2).
  have [/eqP a /eqP b] := nz n.
  have -> : x * x + n.+1%:R ^+ 2 = - ((w + n.+1%:R) * (w - n.+1%:R)) by rewrite -[x * x]opprK -w2 expr2; fring C.
  move: a b; move: (n.+1%:R : C) => m a b; rewrite mulr2n; ffield C; repeat (split=> //).
  by move/eqP; rewrite [_ == _](_ : _ = (- ((w + m) * (w - m)) == 0)) // oppr_eq0 mulf_eq0 => /orP[]/eqP.
rewrite mul0r mul1r; set A := fermi 0 - fermi beta; set B := fermi beta - fermi (3%:R * beta).
have nc : (#|'Z_3|%:R : C)^-1 != 0 by rewrite invr_eq0 pnatr_eq0 card_ord.
move=> /(mulIf nc)/eqP; rewrite -subr_eq0.
have -> : A / (w + 1) + (B / (w + 2%:R) + (fermi (3%:R * beta) - fermi 0) / (w - 3%:R)) -
  ((fermi 0 - fermi (3%:R * beta)) / (w + 3%:R) + ((fermi (3%:R * beta) - fermi beta) / (w + (1 - 3%:R)) + (fermi beta - fermi 0) / (w - 1))) =
  - (2%:R * w) * (A * ((x * x + 1%:R ^+ 2)^-1 - (x * x + 3%:R ^+ 2)^-1) + B * ((x * x + 2%:R ^+ 2)^-1 - (x * x + 3%:R ^+ 2)^-1)).
  rewrite mulrDr !(mulrCA (- _)) !(mulrBr (- _)) -!F -[1 - 3%:R]opprB e31 /A /B; fring C.
have lt n : (n < 2)%N -> 0 < (x * x + n.+1%:R ^+ 2)^-1 - (x * x + 3%:R ^+ 2)^-1.
  move=> hn; rewrite subr_gt0 ltf_pinv ?posrE ?(px 2) ?(px n) // ltr_add2l ltr_sqr ?qualifE ?ler0n // ltr_nat.
  by case: (n) hn => [|[]].
apply/negP; rewrite mulf_neq0 ?oppr_eq0 ?mulf_neq0 ?pnatr_eq0 ?neq0Ci //.
by rewrite gt_eqF //; apply: addr_gt0; apply: mulr_gt0; rewrite ?lt //; rewrite subr_gt0.
Qed.
(* the hypotheses hold for ...: a sum over two frequencies with the poles 1 and - 1 at w = 0 *)
Definition sum2 (h : C -> C) : C := 25%:R / 24%:R * (h (2%:R * 'i) + h (- (2%:R * 'i))).
Example C50_case : matsubara_sum sum2 (fun z => z = 2%:R * 'i \/ z = - (2%:R * 'i)) 0 (fun x => x = 1 \/ x = -1)
  (fun x => - (5%:R / 12%:R) * (x * 1)) (fun x => - (1 / (4%:R * 1 * 1))).
Proof.
have i0 : (2%:R * 'i : C) \isn't Num.real.
  by rewrite CrealE rmorphM rmorph_nat conjCi mulrN -subr_eq0 -opprD oppr_eq0 -mulr2n mulrn_eq0 /= mulf_neq0 ?pnatr_eq0 ?neq0Ci.
split.
- by move=> h h' e; rewrite /sum2 !e; auto.
- by move=> x h h'; rewrite /sum2; fring C.
- by move=> z hz; rewrite addr0; case: hz => ->; rewrite ?rpredN.
have i2 : ('i : C) * 'i = -1 by rewrite -expr2 sqrCi.
have ns : forall x : C, x * x = 1 -> 2%:R * 'i - x != 0 /\ - (2%:R * 'i) - x != 0.
  move=> x hx; have h : (2%:R * 'i - x) * (- (2%:R * 'i) - x) = 5%:R.
    transitivity (- (2%:R * 2%:R) * ('i * 'i) + x * x); first by fring C.
    by rewrite i2 hx mulrNN mulr1 -natrM -mulrSr.
  by apply/andP; rewrite -negb_or -mulf_eq0 h pnatr_eq0.
have hs x : x * x = 1 -> [/\ sum2 (fun z => (z - x)^-1) = - (5%:R / 12%:R) * x & sum2 (fun z => (z - x)^-1 * (z - x)^-1) = - (1 / 4%:R)].
  move=> hx; have [n1 n2] := ns x hx; have n5 : (5%:R : C) != 0 by rewrite pnatr_eq0.
  have i4 : (2%:R * 'i : C) * (2%:R * 'i) = - 4%:R by rewrite mulrACA i2 mulrN1 -natrM.
  have p5 : (2%:R * 'i - x) * (- (2%:R * 'i) - x) = 5%:R by transitivity (x * x - (2%:R * 'i) * (2%:R * 'i)); [fring C | rewrite hx i4 opprK -mulrS].
  have v1 : (2%:R * 'i - x)^-1 = (- (2%:R * 'i) - x) / 5%:R by rewrite -p5 invfM mulrCA mulfV // mulr1.
  have v2 : (- (2%:R * 'i) - x)^-1 = (2%:R * 'i - x) / 5%:R by rewrite -p5 invfM mulrA mulfV // mul1r.
  rewrite /sum2 v1 v2; split.
    have -> : (- (2%:R * 'i) - x) / 5%:R + (2%:R * 'i - x) / 5%:R = - (2%:R * x) / 5%:R by rewrite -mulrDl; congr (_ / _); rewrite mulr2n; fring C.
    have -> : 25%:R = 5%:R * 5%:R :> C by rewrite -natrM.
    have -> : 24%:R = 2%:R * 12%:R :> C by rewrite -natrM.
    have [m2 m12] : (2%:R : C) != 0 /\ (12%:R : C) != 0 by rewrite !pnatr_eq0.
    move: n5 m2 m12; move: (5%:R : C) (2%:R : C) (12%:R : C) => a b c /eqP ha /eqP hb /eqP hc; ffield C; do !split=> //.
  have -> : (- (2%:R * 'i) - x) / 5%:R * ((- (2%:R * 'i) - x) / 5%:R) + (2%:R * 'i - x) / 5%:R * ((2%:R * 'i - x) / 5%:R) =
    (2%:R * (x * x) + 2%:R * ((2%:R * 'i) * (2%:R * 'i))) / (5%:R * 5%:R).
    rewrite invfM; move: (5%:R^-1 : C) (2%:R * 'i : C) => u v; rewrite !mulr2n; fring C.
  rewrite hx i4 mulr1 mulrN -natrM -natrM.
  have -> : 2%:R - (2 * 4)%N%:R = - 6%:R :> C by rewrite -[(2 * 4)%N]/(2 + 6)%N natrD opprD addrA subrr sub0r.
  have -> : (5 * 5)%N = 25%N by []; have -> : 24%:R = 6%:R * 4%:R :> C by rewrite -natrM.
  have [[m25 m6] m4] : ((25%:R : C) != 0 /\ (6%:R : C) != 0) /\ (4%:R : C) != 0 by rewrite !pnatr_eq0.
  move: m25 m6 m4; move: (25%:R : C) (6%:R : C) (4%:R : C) => a b c /eqP ha /eqP hb /eqP hc; ffield C; do !split=> //.
move=> x hx; have /hs[h1 h2] : x * x = 1 by case: hx => ->; rewrite ?mulrNN mulr1.
split; rewrite ?h2 ?mulr1 // -?h1; rewrite /sum2 ?addr0 //.
Qed.
End OneBand.
Print Assumptions C50_bubble_refuted.
Print Assumptions C50_time_reversal_partial.
Print Assumptions C50_gauge.
Print Assumptions C50_static_positive.
