(* C122: symmetries of the dispersion in the Lindhard function. *)
From mathcomp Require Import all_ssreflect all_algebra.
From mathcomp Require Import zify.
From Verif Require Import LindhardModel LindhardThms Spectral Fring.
Set Implicit Arguments.
Unset Strict Implicit.
Unset Printing Implicit Defensive.
Import GRing.Theory Num.Theory Order.Theory.
Local Open Scope ring_scope.

Section Sym.
Variables (C : numClosedFieldType) (nb : nat) (K : finZmodType).
Add Ring Cring : (fld_rt C).
Local Notation M := 'M[C]_nb.
Variables (fermi cosh : C -> C) (eig : M -> 'rV[C]_nb * M).
Hypothesis hS : eigensolver eig.
Variables (e : K -> M) (beta mu : C).
Hypotheses (he : hermitian e) (muR : mu \is Num.real) (betaR : beta \is Num.real).
Local Notation chi := (lindhard_chi00 fermi cosh eig).
(* the dispersions after time reversal and after the exchange of particles and holes *)
Definition time_reversed (e : K -> M) : K -> M := fun k => map_mx conjC (e (- k)).
Definition holes (e : K -> M) : K -> M := fun k => - (e (- k))^T.
(* the occupations of holes, and a function of the size of the energy only *)
Definition hole_statistics : Prop := (forall x, x \is Num.real -> fermi (- x) = 1 - fermi x) /\ (forall x, x \is Num.real -> cosh (- x) = cosh x).
(* a quantity sum_a x_a c^+_a c_a that the dispersion conserves *)
Definition conserved (x : 'I_nb -> C) : Prop := forall k a b, x a != x b -> e k a b = 0.

Lemma conj_tr (m : M) : dagger m = m -> map_mx conjC m = m^T.
Proof. by move=> h; apply/matrixP=> i j; rewrite -[in RHS]h !mxE. Qed.
Lemma dec_opp (m : M) l U : decomposes m l U -> decomposes (- m) (- l) U.
Proof.
move=> [lR u ->]; split=> // [i|]; first by rewrite mxE rpredN.
by rewrite -mulNmx -mulmxN; congr (_ *m _ *m _); apply/matrixP=> i j; rewrite !mxE mulNrn.
Qed.
Lemma subm_tr (m : M) : (m - mu%:M)^T = m^T - mu%:M. Proof. by rewrite linearB /= tr_scalar_mx. Qed.
Let hk := hermitian_mu he muR.
Lemma dagger_tr (m : M) : dagger m = m -> dagger m^T = m^T.
Proof. by move=> h; apply/matrixP=> i j; rewrite -[in RHS]h !mxE. Qed.
(* C122: time reversal *)
Theorem C122_reversal idelta w q a b c d : chi (time_reversed e) beta mu idelta w q a b c d = chi e beta mu idelta w (- q) d c b a.
Proof.
rewrite !lindhardE; congr (_ / _); rewrite (reindex_inj oppr_inj) /=; apply: eq_bigr => k _; rewrite -[RHS]pair_sum_tr /time_reversed opprK opprD opprK.
have E k' : map_mx conjC (e k') - mu%:M = (e k' - mu%:M)^T by rewrite subm_tr conj_tr.
have D k' : dagger (e k' - mu%:M)^T = (e k' - mu%:M)^T by exact: dagger_tr (hk k').
by rewrite !E (pair_gauge _ _ _ _ _ (hS (D k)) (dec_tr (hS (hk k))) (hS (D (k - q))) (dec_tr (hS (hk (k - q))))).
Qed.
(* C122: without magnetic field *)
Theorem C122_no_field idelta w q a b c d : (forall k, e k = map_mx conjC (e (- k))) -> chi e beta mu idelta w q a b c d = chi e beta mu idelta w (- q) d c b a.
Proof.
move=> h; rewrite -C122_reversal !lindhardE; congr (_ / _); apply: eq_bigr => k _.
by rewrite {1 2}h [e (k + q)]h.
Qed.
Lemma factor_hole idelta w x y : hole_statistics -> x \is Num.real -> y \is Num.real ->
  total_factor fermi cosh beta idelta w (- x) (- y) = total_factor fermi cosh beta (- idelta) (- w) x y.
Proof.
move=> [hf hc] xR yR; rewrite /total_factor -opprD normrN -[- y - - x]opprD normrN; case: ifP => _.
  by rewrite mulrN hc // !rpredM // rpredV realn.
rewrite !mulNr !hf ?rpredM // -[RHS]mulrNN -invrN; congr (_ / _); fring C.
Qed.
(* C122: particles and holes *)
Theorem C122_hole idelta w q a b c d : hole_statistics -> chi (holes e) beta (- mu) idelta w q a b c d = chi e beta mu (- idelta) (- w) (- q) d c b a.
Proof.
move=> hh; rewrite !lindhardE; congr (_ / _); rewrite (reindex_inj oppr_inj) /=; apply: eq_bigr => k _; rewrite -[RHS]pair_sum_tr /holes opprK opprD opprK.
have E k' : - (e k')^T - (- mu)%:M = - (e k' - mu%:M)^T by rewrite subm_tr opprB addrC raddfN opprK.
have D k' : dagger (- (e k' - mu%:M)^T) = - (e k' - mu%:M)^T.
  by rewrite -[in RHS](dagger_tr (hk k')); apply/matrixP=> i j; rewrite !mxE rmorphN.
rewrite !E; rewrite (pair_gauge _ _ _ _ _ (hS (D k)) (dec_opp (dec_tr (hS (hk k)))) (hS (D (k - q))) (dec_opp (dec_tr (hS (hk (k - q)))))).
apply: eq_bigr => i _; apply: eq_bigr => j _; congr (_ * _); rewrite [fun_of_matrix (- _) 0 i]mxE [fun_of_matrix (- _) 0 j]mxE.
by apply: factor_hole => //; [case: (hS (hk k)) | case: (hS (hk (k - q)))].
Qed.
(* C122: the origin of the momenta *)
Theorem C122_origin k0 idelta w q a b c d : chi (fun k => e (k + k0)) beta mu idelta w q a b c d = chi e beta mu idelta w q a b c d.
Proof.
rewrite !lindhardE; congr (_ / _); rewrite [RHS](reindex_inj (addIr k0)) /=; apply: eq_bigr => k _.
by rewrite [k + q + k0]addrAC.
Qed.
(* functions of a matrix keep what it conserves *)
Lemma func_conserved phi (m : M) l U (x : 'I_nb -> C) a b : decomposes m l U -> (forall a b, x a != x b -> m a b = 0) -> x a != x b -> func phi l U a b = 0.
Proof.
move=> [_ u em] hx hab; have v := unitary_l u.
pose D : M := diag_mx (\row_i x i); pose W := dagger U *m D *m U.
have cm : D *m m = m *m D.
  apply/matrixP=> i j; rewrite mul_diag_mx mul_mx_diag !mxE; case: (x i =P x j) => [->|/eqP h]; first by rewrite mulrC.
  by rewrite hx // mulr0 mul0r.
have ew : diag_mx l *m W = W *m diag_mx l.
  have -> : diag_mx l = dagger U *m m *m U by rewrite em !mulmxA v mul1mx -mulmxA v mulmx1.
  rewrite /W !mulmxA -(mulmxA _ U (dagger U)) u mulmx1 -(mulmxA _ m D) -cm.
  by rewrite -!mulmxA (mulmxA U (dagger U)) u mul1mx !mulmxA.
have eD : D = U *m W *m dagger U by rewrite /W !mulmxA u mul1mx -mulmxA u mulmx1.
clearbody W.
have ep : diag_mx (map_mx phi l) *m W = W *m diag_mx (map_mx phi l).
  apply/matrixP => i j; rewrite mul_diag_mx mul_mx_diag !mxE; move/matrixP/(_ i j): ew; rewrite mul_diag_mx mul_mx_diag !mxE.
  move: (W i j) => y; case: (y =P 0) => [->|ny]; first by rewrite !mulr0 !mul0r.
  by rewrite mulrC => /(mulfI (introN eqP ny))->; rewrite mulrC.
have ef : D *m func phi l U = func phi l U *m D.
  pose P := diag_mx (map_mx phi l); transitivity (U *m (W *m P) *m dagger U).
    by rewrite eD /func -/P !mulmxA -(mulmxA (U *m W) (dagger U) U) v mulmx1.
  by rewrite -ep eD /func -/P !mulmxA -(mulmxA (U *m P) (dagger U) U) v mulmx1.
move/matrixP/(_ a b): ef; rewrite mul_diag_mx mul_mx_diag !mxE => /eqP; rewrite [X in _ == X]mulrC -subr_eq0 -mulrBl mulf_eq0 subr_eq0 (negbTE hab) => /eqP.
by [].
Qed.
(* C122: only the pairs of states with the same conserved quantity respond *)
Theorem C122_selection (x : 'I_nb -> C) idelta w q a b c d : conserved x -> (x a != x d) || (x c != x b) -> chi e beta mu idelta w q a b c d = 0.
Proof.
move=> hx h; rewrite lindhardE big1 ?mul0r // => k _.
have hx' k' i j : x i != x j -> (e k' - mu%:M) i j = 0.
  by move=> n; rewrite !mxE hx // sub0r (_ : i == j = false) ?mulr0n ?oppr0 //; apply: contraNF n => /eqP->.
case/orP: h => n.
  by rewrite pair_sum_l big1 // => j _; rewrite (func_conserved _ (hS (hk k)) (hx' k) n) mulr0.
by rewrite pair_sum_r big1 // => j _; rewrite (func_conserved _ (hS (hk _)) (hx' _) n) mulr0.
Qed.
End Sym.
Section Own.
Variables (C : numClosedFieldType) (nb : nat) (K : finZmodType) (fermi cosh : C -> C) (eig : 'M[C]_nb -> 'rV[C]_nb * 'M[C]_nb).
(* C122: a dispersion which is its own transform, at half filling *)
Theorem C122_hole_symmetric (e : K -> 'M[C]_nb) beta idelta w q a b c d : eigensolver eig -> hermitian e -> beta \is Num.real -> hole_statistics fermi cosh ->
  (forall k, e k = - (e (- k))^T) ->
  lindhard_chi00 fermi cosh eig e beta 0 idelta w q a b c d = lindhard_chi00 fermi cosh eig e beta 0 (- idelta) (- w) (- q) d c b a.
Proof.
move=> hS he bR hh h; rewrite -(C122_hole hS he (real0 _) bR _ _ _ _ _ _ _ hh) oppr0 !lindhardE; congr (_ / _); apply: eq_bigr => k _.
by rewrite /holes -!h.
Qed.
(* C122: together with the exchange of the two particles, at the same frequency and momentum *)
Theorem C122_hole_exchange (e : K -> 'M[C]_nb) beta w q a b c d : eigensolver eig -> hermitian e -> beta \is Num.real -> hole_statistics fermi cosh ->
  separated eig e 0 -> (forall k, e k = - (e (- k))^T) ->
  lindhard_chi00 fermi cosh eig e beta 0 0 w q a b c d = lindhard_chi00 fermi cosh eig e beta 0 0 w q b a d c.
Proof. by move=> hS he bR hh sp h; rewrite C122_hole_symmetric // oppr0 C50_exchange // !opprK. Qed.
End Own.
Section Case.
Variable C : numClosedFieldType.
(* two orbitals with an imaginary hopping between them; two levels that cross; occupations at zero temperature, and an even function *)
Definition ring_e (k : 'Z_3) : 'M[C]_2 := \matrix_(i, j) (if i == j then 0 else if i == 0 then 'i else - 'i).
Definition spin_z (a : 'I_2) : C := if a == 0 then 1 else - 1.
Definition level_e (k : 'Z_3) : 'M[C]_2 := diag_mx (\row_i (if i == 0 then (k : nat)%:R else - (k : nat)%:R)).
Definition step_fermi (x : C) : C := if x == 0 then 2%:R^-1 else if 0 < x then 0 else 1.
Theorem C122_case : [/\ hermitian ring_e, forall k, ring_e k = - (ring_e (- k))^T, ring_e 0 <> map_mx conjC (ring_e 0),
  hole_statistics step_fermi (fun x => 1 + x ^+ 2) & hermitian level_e /\ conserved level_e spin_z /\ spin_z 0 != spin_z 1 /\ level_e 1 <> level_e 0].
Proof.
have n2 : 1 != - 1 :> C by rewrite -subr_eq0 opprK -[1 + 1](natrD _ 1 1) pnatr_eq0.
split.
- move=> k; apply/matrixP=> i j; rewrite !mxE; case: i => -[|[|//]] hi; case: j => -[|[|//]] hj; rewrite -!val_eqE /= ?conjC0 ?rmorphN /= ?conjCi ?opprK //.
- move=> k; apply/matrixP=> i j; rewrite !mxE; case: i => -[|[|//]] hi; case: j => -[|[|//]] hj; rewrite -!val_eqE /= ?oppr0 ?opprK //.
- move/matrixP/(_ 0 1); rewrite !mxE /= conjCi => /eqP; rewrite -addr_eq0 -mulr2n mulrn_eq0 /=; exact/negP/neq0Ci.
- split=> x xR; last by rewrite sqrrN.
  have h2 : 2%:R^-1 = 1 - 2%:R^-1 :> C by rewrite -[X in X - _](@mulfV _ 2%:R) ?pnatr_eq0 // mulr_natl mulr2n addrK.
  rewrite /step_fermi oppr_eq0; case: (x =P 0) => // /eqP x0; rewrite oppr_gt0; move: x0; case: (real_ltgt0P xR) => // h _; by rewrite ?subr0 ?subrr.
- split; last split; last split.
  + move=> k; apply/matrixP=> i j; rewrite !mxE; case: i => -[|[|//]] hi; case: j => -[|[|//]] hj; rewrite -!val_eqE /= ?mulr0n ?mulr1n ?conjC0 ?rmorphN ?rmorph_nat //.
  + move=> k a b h; rewrite !mxE (_ : a == b = false) ?mulr0n //; by apply: contraNF h => /eqP->.
  + by rewrite /spin_z.
  + by move/matrixP/(_ 0 0)/eqP; rewrite !mxE /= ?mulr1n ?mulr0n ?oner_eq0.
Qed.
(* one band, odd in the momentum *)
Definition odd_e (k : 'Z_3) : 'M[C]_1 := (if (k : nat) == 0%N then 0 else if (k : nat) == 1%N then 1 else - 1)%:M.
Theorem C122_separated_case eig : eigensolver eig -> [/\ hermitian odd_e, forall k, odd_e k = - (odd_e (- k))^T & separated eig odd_e 0].
Proof.
move=> hS; have hz k : exists z : int, odd_e k 0 0 = z%:~R.
  by rewrite !mxE mulr1n; case: ifP => _; [exists 0 | case: ifP => _; [exists 1 | exists (- 1); rewrite mulrNz]].
have hh : hermitian odd_e.
  by move=> k; apply/matrixP=> i j; rewrite !ord1 !mxE !mulr1n; case: ifP => _; rewrite ?conjC0 //; case: ifP => _; rewrite ?rmorphN rmorph1.
split=> //.
  move=> k; rewrite tr_scalar_mx; apply/matrixP=> i j; rewrite !ord1 !mxE !mulr1n; by case: k => -[|[|[|//]]] hk; rewrite /= ?oppr0 ?opprK.
move=> k k' i j; rewrite !ord1 /= raddf0 !subr0.
have [-> _] := one_band (hS _ (hh k)); have [-> _] := one_band (hS _ (hh k')).
have [z ->] := hz k; have [z' ->] := hz k'; move=> h; congr (_%:~R); move: (lt_trans h (tol_lt1 C)).
rewrite -mulrzBr -intr_norm -[1]/(1%:~R) ltr_int; lia.
Qed.
End Case.
Print Assumptions C122_separated_case.
Print Assumptions C122_reversal.
Print Assumptions C122_no_field.
Print Assumptions C122_hole.
Print Assumptions C122_origin.
Print Assumptions C122_selection.
Print Assumptions C122_hole_symmetric.
Print Assumptions C122_hole_exchange.
Print Assumptions C122_case.
