(* C119: time reversal in the Hartree-Fock and Hartree solvers. *)
From mathcomp Require Import all_ssreflect all_algebra.
From Verif Require Import OperatorModel KanamoriModel SymmetryModel HfModel HfSpec HfThms HfBasisThms Spectral Fring.
Set Implicit Arguments.
Unset Strict Implicit.
Unset Printing Implicit Defensive.
Import GRing.Theory Num.Theory Order.Theory.
Local Open Scope ring_scope.

Section Spec.
Variables (C : numClosedFieldType) (n : nat) (K : finType).
Local Notation mx := 'M[C]_n.
(* complex conjugation of matrices and of tensors; minus is the map of the momenta k -> -k *)
Definition conj_mx (m : mx) : mx := \matrix_(a, b) (m a b)^*.
Definition conj_tensor (U U' : arr4 C) : Prop := forall a b c d : 'I_n, U' a b c d = (U a b c d)^*.
Definition reversed_dispersion (minus : K -> K) (e e' : K -> mx) : Prop := forall k, e' k = conj_mx (e (minus k)).
(* the attributes of the second solver are the conjugates of those of the first *)
Definition conj_state (s s' : solver C n) : Prop := [/\ s_mu s' = s_mu s, s_M s' = conj_mx (s_M s) & s_rho s' = conj_mx (s_rho s)].
End Spec.

Section Conj.
Variables (C : numClosedFieldType) (n : nat).
Local Notation mx := 'M[C]_n.
Implicit Types (A B : mx).
Lemma conjE A : conj_mx A = map_mx (fun x : C => x^*) A. Proof. by apply/matrixP=> i j; rewrite !mxE. Qed.
Lemma conjM A B : conj_mx (A *m B) = conj_mx A *m conj_mx B. Proof. by rewrite !conjE map_mxM. Qed.
Lemma conjD A B : conj_mx (A + B) = conj_mx A + conj_mx B. Proof. by apply/matrixP=> i j; rewrite !mxE rmorphD. Qed.
Lemma conjZ x A : x \is Num.real -> conj_mx (x *: A) = x *: conj_mx A.
Proof. by move=> /CrealP h; apply/matrixP=> i j; rewrite !mxE rmorphM h. Qed.
Lemma conj0 : conj_mx (0 : mx) = 0. Proof. by apply/matrixP=> i j; rewrite !mxE conjC0. Qed.
Lemma conj_sum (I : finType) (F : I -> mx) : conj_mx (\sum_k F k) = \sum_k conj_mx (F k).
Proof. exact: (big_morph _ conjD conj0). Qed.
Lemma conjK A : conj_mx (conj_mx A) = A. Proof. by apply/matrixP=> i j; rewrite !mxE conjCK. Qed.
Lemma conj_adj A : adjoint (conj_mx A) = conj_mx (adjoint A). Proof. by apply/matrixP=> i j; rewrite !mxE. Qed.
Lemma conj_herm A : hermitian_mx A -> hermitian_mx (conj_mx A).
Proof. by move=> h; rewrite /hermitian_mx conj_adj h. Qed.
Lemma conj1 : conj_mx (1%:M : mx) = 1%:M. Proof. by apply/matrixP=> i j; rewrite !mxE rmorph_nat. Qed.
Lemma adj1 : adjoint (1%:M : mx) = 1%:M. Proof. by apply/matrixP=> i j; rewrite !mxE rmorph_nat eq_sym. Qed.
Lemma basis1 A : in_basis 1%:M A = A. Proof. by rewrite /in_basis adj1 mul1mx mulmx1. Qed.
Lemma conj_unitary A : unitary_mx A -> unitary_mx (conj_mx A).
Proof. by move=> h; rewrite /unitary_mx conj_adj -conjM h conj1. Qed.
Lemma conj_diag (l : 'rV[C]_n) : (forall i, l 0 i \is Num.real) -> conj_mx (diag_mx l) = diag_mx l.
Proof. by move=> h; apply/matrixP=> i j; rewrite !mxE rmorphMn /= (CrealP (h _)). Qed.
Lemma conj_mean (U U' : arr4 C) (rho : mx) : conj_tensor n U U' -> update_mean_field U' (conj_mx rho) = conj_mx (update_mean_field U rho).
Proof.
move=> h; apply/matrixP=> b a; rewrite !mxE rmorph_sum; apply: eq_bigr => c _; rewrite rmorph_sum; apply: eq_bigr => d _.
by rewrite h mxE rmorphM rmorphN.
Qed.
Lemma conj_energy (U U' : arr4 C) (rho : mx) : conj_tensor n U U' -> update_interaction_energy U' (conj_mx rho) = (update_interaction_energy U rho)^*.
Proof.
move=> h; rewrite /update_interaction_energy rmorphM fmorphV rmorph_nat; congr (_ * _).
do 4!(rewrite rmorph_sum; apply: eq_bigr => ? _); by rewrite h !mxE !rmorphM.
Qed.
Lemma energy_real (U : arr4 C) (rho : mx) : hermitian_tensor n U -> hermitian_mx rho -> (update_interaction_energy U rho)^* = update_interaction_energy U rho.
Proof.
move=> hU hr; have r i j : (rho i j)^* = rho j i by rewrite -[in RHS]hr !mxE.
rewrite /update_interaction_energy rmorphM fmorphV rmorph_nat; congr (_ * _).
pose F (a b c d : 'I_n) := rho a b * U a b c d * rho c d.
have hF a b c d : (F a b c d)^* = F b a d c by rewrite /F !rmorphM /= !r hU.
transitivity (\sum_a \sum_b \sum_c \sum_d F b a d c).
  by do 4!(rewrite rmorph_sum; apply: eq_bigr => ? _); exact: hF.
rewrite exchange_big; apply: eq_bigr => a _; apply: eq_bigr => b _; exact: exchange_big.
Qed.
(* packing: every element of the vector of the conjugate is plus or minus the one of the matrix *)
Lemma at_conj A i j : at_ (conj_mx A) i j = (at_ A i j)^*.
Proof. by rewrite /at_; case: (insub i) => [i'|]; [case: (insub j) => [j'|]|]; rewrite ?mxE ?conjC0. Qed.
Lemma norm_pack A B : norm [seq p.1 - p.2 | p <- zip (mat2vec (conj_mx A)) (mat2vec (conj_mx B))] = norm [seq p.1 - p.2 | p <- zip (mat2vec A) (mat2vec B)].
Proof.
have z T (f g : T -> C) l : [seq p.1 - p.2 | p <- zip (map f l) (map g l)] = [seq f x - g x | x <- l] by elim: l => //= x l ->.
rewrite /norm; congr sqrtC; rewrite /mat2vec -!map_comp !zip_cat ?size_map // !map_cat !z !big_cat !big_map /=; congr (_ + (_ + _)).
- by apply: eq_bigr => i _; rewrite !at_conj !Re_conj.
- by apply: eq_bigr => i _; rewrite !at_conj !Re_conj.
- by apply: eq_bigr => i _; rewrite !at_conj !Im_conj -opprD normrN.
Qed.
Lemma norm_pack1 A : norm (mat2vec (conj_mx A)) = norm (mat2vec A).
Proof.
rewrite /norm; congr sqrtC; rewrite /mat2vec -!map_comp !big_cat !big_map /=; congr (_ + (_ + _)).
- by apply: eq_bigr => i _; rewrite !at_conj !Re_conj.
- by apply: eq_bigr => i _; rewrite !at_conj !Re_conj.
- by apply: eq_bigr => i _; rewrite !at_conj !Im_conj normrN.
Qed.
End Conj.

(* what the two ways of packing have in common *)
Section Pack.
Variables (C : numClosedFieldType) (n : nat).
Local Notation mx := 'M[C]_n.
Definition packing_ok (pack : mx -> seq C) (unpack : seq C -> option mx) (keep : mx -> mx) : Prop :=
  [/\ forall A, hermitian_mx A -> unpack (pack A) = Some (keep A), forall A, hermitian_mx A -> hermitian_mx (keep A), forall A, keep (conj_mx A) = conj_mx (keep A),
    forall m A B, m \is Num.real -> mixed m (pack A) (pack B) = pack ((1 - m) *: A + m *: B) &
    forall tol A B, below tol (pack (conj_mx A)) (pack (conj_mx B)) = below tol (pack A) (pack B)].
Lemma fock_pack : packing_ok (@mat2vec C n) (vec2mat n) id.
Proof.
split=> //; [exact: C36_matrix_proof | by move=> m A B; exact: mixed_pack | by move=> tol A B; rewrite /below norm_pack norm_pack1].
Qed.
Definition diagonal (A : mx) : mx := \matrix_(i, j) (if i == j then 'Re (A i i) else 0).
Lemma hartree_pack : packing_ok (@mat2vec_hartree C n) (@vec2mat_hartree C n) diagonal.
Proof.
have e (A : mx) : mat2vec_hartree (conj_mx A) = mat2vec_hartree A.
  by rewrite /mat2vec_hartree; apply: eq_map => i; rewrite at_conj Re_conj.
split=> [A hA|A hA|A|m A B mR|tol A B]; last by rewrite !e.
- rewrite /vec2mat_hartree /mat2vec_hartree size_map size_iota eqxx; congr Some; apply/matrixP => i j; rewrite !mxE.
  case: eqP => // _; rewrite (nth_map 0%N) ?size_iota // nth_iota // add0n at_ord; apply/Creal_ReP; exact: Creal_Re.
- apply/matrixP=> i j; rewrite !mxE eq_sym; case: eqP => [->|_]; rewrite ?conjC0 //; apply/CrealP; exact: Creal_Re.
- apply/matrixP=> i j; rewrite !mxE; case: eqP => [->|_]; rewrite ?conjC0 // Re_conj; symmetry; apply/CrealP; exact: Creal_Re.
- have m1 : 1 - m \is Num.real by rewrite rpredB ?rpred1.
  rewrite /mat2vec_hartree mixed_map; apply: eq_map => i.
  by rewrite /at_; case: (insub i) => [i'|]; rewrite ?mxE ?raddfD /= ?ReMl // raddf0 !mulr0 addr0.
Qed.
End Pack.

Section Run.
Variables (C : numClosedFieldType) (n : nat) (K : finType).
Local Notation mx := 'M[C]_n.
Variables (eigh : mx -> 'rV[C]_n * mx) (exp log : C -> C) (brentq : (C -> C) -> C -> C -> option C) (beta : C).
Hypotheses (hE : forall m, hermitian_mx m -> eigh_at eigh m) (bC : brentq_calls brentq).
Hypotheses (betaR : beta \is Num.real) (expP : forall x, x \is Num.real -> 0 < exp x) (bR : forall f a b x, brentq f a b = Some x -> x \is Num.real).
Variables (minus : K -> K) (minusK : involutive minus).
Section Dispersion.
Variables (e e' : K -> mx).
Hypotheses (he : forall k, hermitian_mx (e k)) (he' : reversed_dispersion minus e e').
Lemma he'h k : hermitian_mx (e' k). Proof. by rewrite he'; apply: conj_herm. Qed.
Lemma function_conj (f : C -> C) k : let (l, U1) := eigh (e (minus k)) in let (l', U2) := eigh (e' k) in
  U2 *m diag_mx (map_mx f l') *m adjoint U2 = conj_mx U1 *m diag_mx (map_mx f l) *m adjoint (conj_mx U1) /\ \sum_i f (l' 0 i) = \sum_i f (l 0 i).
Proof.
have := hE (he (minus k)); have := hE (he'h k); rewrite /eigh_at; case e1: (eigh (e (minus k))) => [l U1]; case: (eigh (e' k)) => l' U2 [_ u2 e2] [lR u1 e3].
have := @same_function C n 1%:M l l' (conj_mx U1) U2 f; rewrite !basis1; apply=> //.
- by rewrite /unitary_mx adj1 mul1mx.
- exact: conj_unitary.
- by rewrite -e2 he' e3 !conjM conj_adj conj_diag.
Qed.
Lemma levels_conj : perm_eq (levels eigh e') (levels eigh e).
Proof.
apply/allP=> x _ /=; rewrite -(eqr_nat C) -!sum1_count !natr_sum big_mkcond [X in _ == X]big_mkcond /=.
rewrite !(levels_sum _ _ (fun y => if y == x then 1 else 0)) [X in _ == X](reindex_inj (inv_inj minusK)); apply/eqP; apply: eq_bigr => k _.
by have := function_conj (fun y => if y == x then 1 else 0) k; case: (eigh (e _)) => l U1; case: (eigh (e' k)) => l' U2 [].
Qed.
Lemma mu_conj mu_min mu_max N : update_chemical_potential eigh exp brentq beta mu_min mu_max e' N = update_chemical_potential eigh exp brentq beta mu_min mu_max e N.
Proof.
have p := levels_conj; have [e1 e2] : minimum (levels eigh e') = minimum (levels eigh e) /\ maximum (levels eigh e') = maximum (levels eigh e).
  by apply: perm_extremes => // x; rewrite (perm_mem p); apply: (levels_real hE he).
rewrite /update_chemical_potential e1 e2; apply: bC => mu; rewrite /target_function; congr (_ / _ - _); exact: perm_big.
Qed.
Lemma density_k_conj mu k : mu \is Num.real -> update_momentum_density_matrix eigh exp beta e' mu k = conj_mx (update_momentum_density_matrix eigh exp beta e mu (minus k)).
Proof.
move=> muR; rewrite !density_kE; have := function_conj (fun x => fermi exp beta (x - mu)) k; have := hE (he (minus k)); rewrite /eigh_at.
case: (eigh (e _)) => l U1; case: (eigh (e' k)) => l' U2 [lR _ _] [-> _]; rewrite !conjM conj_adj conj_diag // => i.
by rewrite mxE gtr0_real // fermi_pos // rpredB.
Qed.
Lemma density_conj mu : mu \is Num.real -> update_density_matrix eigh exp beta e' mu = conj_mx (update_density_matrix eigh exp beta e mu).
Proof.
move=> muR; rewrite /update_density_matrix conjZ ?realV ?realn // conj_sum; congr (_ *: _).
by rewrite [RHS](reindex_inj (inv_inj minusK)); apply: eq_bigr => k _; exact: density_k_conj.
Qed.
Lemma free_conj mu : update_non_int_free_energy eigh exp log beta e' mu = update_non_int_free_energy eigh exp log beta e mu.
Proof. by rewrite /update_non_int_free_energy (perm_big _ levels_conj). Qed.
End Dispersion.
Variables (e_k e_k' : K -> mx) (U U' : arr4 C) (mu_min mu_max : option C).
Variables (pack : mx -> seq C) (unpack : seq C -> option mx) (keep : mx -> mx).
Hypothesis hP : packing_ok pack unpack keep.
Hypotheses (hk : forall k, hermitian_mx (e_k k)) (hk' : reversed_dispersion minus e_k e_k').
Hypotheses (hU : hermitian_tensor n U) (hU' : conj_tensor n U U').
Lemma kinetic_conj (e e' : K -> mx) mu : mu \is Num.real -> (forall k, hermitian_mx (e k)) -> reversed_dispersion minus e e' ->
  update_kinetic_energy eigh exp beta e_k' e' mu = update_kinetic_energy eigh exp beta e_k e mu.
Proof.
move=> muR he he'; rewrite /update_kinetic_energy; congr (_ / _); rewrite [RHS](reindex_inj (inv_inj minusK)); apply: eq_bigr => k _.
rewrite (density_k_conj he he') // hk' exchange_big; apply: eq_bigr => a _; apply: eq_bigr => b _; rewrite !mxE.
have h (A : mx) : hermitian_mx A -> forall i j, (A i j)^* = A j i by move=> hA i j; rewrite -[in RHS]hA !mxE.
by rewrite (h _ (hk _)); congr (_ * _); apply: h; apply: rho_k_hermitian => // k'; apply: hE.
Qed.
Lemma disp_conj M : reversed_dispersion minus (update_mean_field_dispersion e_k M) (update_mean_field_dispersion e_k' (conj_mx M)).
Proof. by move=> k; rewrite /update_mean_field_dispersion hk' conjD. Qed.
Lemma disp_herm M : hermitian_mx M -> forall k, hermitian_mx (update_mean_field_dispersion e_k M k).
Proof. by move=> hM k; apply: hermD. Qed.
Definition conj_vec (v v' : seq C) : Prop := exists rho, [/\ hermitian_mx rho, v = pack rho & v' = pack (conj_mx rho)].
Definition good_state (s : solver C n) : Prop := [/\ hermitian_mx (s_M s), hermitian_mx (s_rho s) & s_mu s \is Num.real].
Definition conj_step (r r' : option (solver C n * seq C)) : Prop := match r, r' with
  | Some (s, v), Some (s', v') => [/\ conj_state s s', good_state s & conj_vec v v'] | None, None => True | _, _ => False end.
Local Notation step := (density_matrix_step eigh exp brentq beta e_k U mu_min mu_max pack unpack).
Local Notation step' := (density_matrix_step eigh exp brentq beta e_k' U' mu_min mu_max pack unpack).
Lemma density_herm M mu : hermitian_mx M -> mu \is Num.real -> hermitian_mx (update_density_matrix eigh exp beta (update_mean_field_dispersion e_k M) mu).
Proof. by move=> hM muR; apply: rho_hermitian => // k; apply: hE; apply: disp_herm. Qed.
Lemma step_conj s s' v v' N : conj_vec v v' -> conj_step (step s v (Some N)) (step' s' v' (Some N)).
Proof.
case: hP => p1 p2 p3 _ _ [rho [hr -> ->]]; rewrite /density_matrix_step !p1 //; last exact: conj_herm.
have hM := mean_field_herm hU (p2 _ hr); rewrite p3 (conj_mean _ hU') (mu_conj (disp_herm hM) (@disp_conj _)).
case e1 : update_chemical_potential => [mu|] //=; have muR := bR e1; have hd := density_herm hM muR.
rewrite (density_conj (disp_herm hM) (@disp_conj _)) //; split=> //.
by exists (update_density_matrix eigh exp beta (update_mean_field_dispersion e_k (update_mean_field U (keep rho))) mu).
Qed.
Lemma setup_conj s s' N M0 mu0 : hermitian_mx (s_M s) -> s_M s' = conj_mx (s_M s) -> hermitian_mx M0 ->
  conj_step (solve_setup eigh exp brentq beta e_k mu_min mu_max pack s N M0 mu0) (solve_setup eigh exp brentq beta e_k' mu_min mu_max pack s' N (conj_mx M0) mu0).
Proof.
move=> hs es h0; rewrite /solve_setup es (mu_conj (disp_herm hs) (@disp_conj _)) (mu_conj (disp_herm h0) (@disp_conj _)).
case: (if mu0 is Some m then Some m else _) => // _; case e1 : update_chemical_potential => [mu|] //=; have muR := bR e1; have hd := density_herm h0 muR.
rewrite (density_conj (disp_herm h0) (@disp_conj _)) //; split=> //.
by exists (update_density_matrix eigh exp beta (update_mean_field_dispersion e_k M0) mu).
Qed.
Lemma mixed_conj m v v' w w' : m \is Num.real -> conj_vec v v' -> conj_vec w w' -> conj_vec (mixed m v w) (mixed m v' w').
Proof.
case: hP => _ _ _ p4 _ mR [A [hA -> ->]] [B [hB -> ->]]; have m1 : 1 - m \is Num.real by rewrite rpredB ?rpred1.
exists ((1 - m) *: A + m *: B); rewrite !p4 // conjD !conjZ //; split=> //.
by apply: hermD; apply: hermZ.
Qed.
Definition conj_run (r r' : option (solver C n * seq (seq C))) : Prop := match r, r' with
  | Some (s, h), Some (s', h') => [/\ conj_state s s', good_state s, size h' = size h & forall t, (t < size h)%N -> conj_vec (nth [::] h t) (nth [::] h' t)]
  | None, None => True | _, _ => False end.
Lemma iterate_conj fuel N m tol s s' v v' h h' : m \is Num.real -> conj_vec v v' -> conj_state s s' -> good_state s ->
  size h' = size h -> (forall t, (t < size h)%N -> conj_vec (nth [::] h t) (nth [::] h' t)) ->
  conj_run (iterate eigh exp brentq beta e_k U mu_min mu_max pack unpack fuel N m tol s v h)
    (iterate eigh exp brentq beta e_k' U' mu_min mu_max pack unpack fuel N m tol s' v' h').
Proof.
move=> mR; elim: fuel s s' v v' h h' => [|fuel ih] s s' v v' h h' hv hs hM sz hh //.
have sz' : size (rcons h' v') = size (rcons h v) by rewrite !size_rcons sz.
have hh' t : (t < size (rcons h v))%N -> conj_vec (nth [::] (rcons h v) t) (nth [::] (rcons h' v') t).
  rewrite size_rcons !nth_rcons sz ltnS leq_eqVlt => /orP[/eqP ->|ht]; first by rewrite ltnn eqxx.
  by rewrite ht; apply: hh.
rewrite !iterateS; have := step_conj s s' N hv; case: (step _ _ _) => [[s1 v1]|] //; case: (step' _ _ _) => [[s1' v1']|] // [hs1 hM1 hv1].
have -> : below tol v' v1' = below tol v v1.
  by case: hP hv hv1 => _ _ _ _ p5 [A [_ -> ->]] [B [_ -> ->]]; rewrite p5.
by case: ifP => _ //; apply: ih => //; exact: mixed_conj.
Qed.
Lemma run_conj s s' N M0 mu0 nitermax mixing tol : hermitian_mx (s_M s) -> s_M s' = conj_mx (s_M s) -> hermitian_mx M0 ->
  conj_run (solve_iter eigh exp brentq beta e_k U mu_min mu_max pack unpack s N M0 mu0 nitermax mixing tol)
    (solve_iter eigh exp brentq beta e_k' U' mu_min mu_max pack unpack s' N (conj_mx M0) mu0 nitermax mixing tol).
Proof.
move=> hs es h0; rewrite /solve_iter; case: ifP => // /andP[m0 _]; have := setup_conj N mu0 hs es h0.
case: (solve_setup _ _ _ _ _ _ _ _ _ _ _ _) => [[s0 v0]|] //; case: (solve_setup _ _ _ _ _ _ _ _ _ _ _ _) => [[s0' v0']|] // [ss hm sv].
by apply: iterate_conj => //; exact: ger0_real.
Qed.
Lemma energies_conj s s' : conj_state s s' -> good_state s ->
  update_total_energy eigh exp log beta U' e_k' (update_mean_field_dispersion e_k' (s_M s')) (s_mu s') (s_rho s') =
  update_total_energy eigh exp log beta U e_k (update_mean_field_dispersion e_k (s_M s)) (s_mu s) (s_rho s).
Proof.
case=> -> -> -> [hM hr muR]; have he := disp_herm hM; have he' := @disp_conj (s_M s).
by rewrite /update_total_energy (conj_energy _ hU') (energy_real hU hr) (free_conj he he') (kinetic_conj muR he he').
Qed.
End Run.

Section Statements.
Variables (C : numClosedFieldType) (n : nat) (K : finType).
Local Notation mx := 'M[C]_n.
Variables (eigh : mx -> 'rV[C]_n * mx) (exp log : C -> C) (brentq : (C -> C) -> C -> C -> option C) (beta : C).
Hypotheses (hE : forall m, hermitian_mx m -> eigh_at eigh m) (bC : brentq_calls brentq).
Hypotheses (betaR : beta \is Num.real) (expP : forall x, x \is Num.real -> 0 < exp x) (bR : forall f a b x, brentq f a b = Some x -> x \is Num.real).
Variables (minus : K -> K) (minusK : involutive minus) (mu_min mu_max : option C).
Variables (e_k : K -> mx) (U : arr4 C) (s : solver C n) (N mixing tol : C) (M0 : mx) (mu0 : option C) (nitermax : nat).
Hypotheses (hk : forall k, hermitian_mx (e_k k)) (hU : hermitian_tensor n U) (hs : hermitian_mx (s_M s)) (h0 : hermitian_mx M0).
Local Notation solve e U s M0 := (solve_iter eigh exp brentq beta e U mu_min mu_max (@mat2vec C n) (vec2mat n) s N M0 mu0 nitermax mixing tol).
Local Notation solve_hartree e U s M0 := (solve_iter eigh exp brentq beta e U mu_min mu_max (@mat2vec_hartree C n) (@vec2mat_hartree C n) s N M0 mu0 nitermax mixing tol).
Local Notation total e U s := (update_total_energy eigh exp log beta U e (update_mean_field_dispersion e (s_M s)) (s_mu s) (s_rho s)).

(* C119: the solver for the reversed Hamiltonian makes equally many iterations, with the conjugate density matrices, and ends with the same chemical potential
   and energies and the conjugate mean field and density matrix; or both raise *)
Theorem C119_reversal e_k' U' s' : reversed_dispersion minus e_k e_k' -> conj_tensor n U U' -> s_M s' = conj_mx (s_M s) ->
  match solve e_k U s M0, solve e_k' U' s' (conj_mx M0) with
  | Some (s1, h), Some (s1', h') => [/\ conj_state s1 s1', total e_k' U' s1' = total e_k U s1, size h' = size h &
      forall t, (t < size h)%N -> exists rho, vec2mat n (nth [::] h t) = Some rho /\ vec2mat n (nth [::] h' t) = Some (conj_mx rho)]
  | None, None => True | _, _ => False end.
Proof.
move=> ek eU es; have := run_conj hE bC betaR expP bR minusK mu_min mu_max (@fock_pack C n) hk ek hU eU N mu0 nitermax mixing tol hs es h0.
case: (solve e_k U s M0) => [[s1 h]|]; case: (solve e_k' U' s' (conj_mx M0)) => [[s1' h']|] //= [cs gs sz hh]; split=> //.
  exact: (energies_conj log hE betaR expP minusK hk ek hU eU cs gs).
move=> t /hh[rho [hr -> ->]]; exists rho; by rewrite !C36_matrix_proof //; apply: conj_herm.
Qed.
(* the Hartree solver only keeps the diagonal, which is real: the histories are the same *)
Theorem C119_hartree e_k' U' s' : reversed_dispersion minus e_k e_k' -> conj_tensor n U U' -> s_M s' = conj_mx (s_M s) ->
  match solve_hartree e_k U s M0, solve_hartree e_k' U' s' (conj_mx M0) with
  | Some (s1, h), Some (s1', h') => [/\ conj_state s1 s1', total e_k' U' s1' = total e_k U s1 & h' = h]
  | None, None => True | _, _ => False end.
Proof.
move=> ek eU es; have := run_conj hE bC betaR expP bR minusK mu_min mu_max (@hartree_pack C n) hk ek hU eU N mu0 nitermax mixing tol hs es h0.
case: (solve_hartree e_k U s M0) => [[s1 h]|]; case: (solve_hartree e_k' U' s' (conj_mx M0)) => [[s1' h']|] //= [cs gs sz hh]; split=> //.
  exact: (energies_conj log hE betaR expP minusK hk ek hU eU cs gs).
apply: (@eq_from_nth _ [::]) => // t; rewrite sz => /hh[rho [hr -> ->]]; rewrite /mat2vec_hartree; apply: eq_map => i; by rewrite at_conj Re_conj.
Qed.
(* C119: without magnetic field and with a real interaction, a real start leads to real density matrices and mean fields only *)
Theorem C119_real s1 h : reversed_dispersion minus e_k e_k -> (forall a b c d : 'I_n, U a b c d \is Num.real) -> (forall a b, s_M s a b \is Num.real) ->
  (forall a b, M0 a b \is Num.real) -> solve e_k U s M0 = Some (s1, h) ->
  [/\ forall a b, s_M s1 a b \is Num.real, forall a b, s_rho s1 a b \is Num.real &
    forall t, (t < size h)%N -> exists2 rho, vec2mat n (nth [::] h t) = Some rho & forall a b, rho a b \is Num.real].
Proof.
move=> ek Ur sr mr run; have cr (A : mx) : (forall a b, A a b \is Num.real) -> conj_mx A = A by move=> h1; apply/matrixP=> a b; rewrite mxE (CrealP (h1 _ _)).
have rc (A : mx) : A = conj_mx A -> forall a b, A a b \is Num.real by move=> e a b; apply/CrealP; rewrite {2}e mxE.
have eU : conj_tensor n U U by move=> a b c d; rewrite (CrealP (Ur _ _ _ _)).
have := C119_reversal ek eU (esym (cr _ sr)); rewrite (cr _ mr) run => -[[_ eM er] _ _ hh].
split; [exact: rc | exact: rc | move=> t /hh[rho [e1 e2]]; exists rho => //; apply: rc; by move: e2; rewrite e1 => -[]].
Qed.
(* C119: time reversal of particles with spin, V times conjugation (V = i sigma_y): a symmetry of the Hamiltonian and of the start is one of every density matrix *)
Theorem C119_antiunitary V s1 h : unitary_mx V -> (forall k, e_k k = in_basis V (conj_mx (e_k (minus k)))) ->
  (forall Uc, conj_tensor n U Uc -> tensor_in_basis V Uc U) -> s_M s = in_basis V (conj_mx (s_M s)) -> M0 = in_basis V (conj_mx M0) ->
  solve e_k U s M0 = Some (s1, h) ->
  [/\ s_M s1 = in_basis V (conj_mx (s_M s1)), s_rho s1 = in_basis V (conj_mx (s_rho s1)) &
    forall t, (t < size h)%N -> exists2 rho, vec2mat n (nth [::] h t) = Some rho & rho = in_basis V (conj_mx rho)].
Proof.
move=> uV ek eU es e0 run; pose e2 k := conj_mx (e_k (minus k)); pose U2 : arr4 C := fun a b c d => (U a b c d)^*.
pose s2 := Solver (s_mu s) (conj_mx (s_M s)) (s_rho s).
have cU : conj_tensor n U U2 by []. have ce : reversed_dispersion minus e_k e2 by [].
have := C119_reversal ce cU (erefl : s_M s2 = _); rewrite run; case run2: (solve e2 U2 s2 (conj_mx M0)) => [[s3 h3]|] // [[em eM er] _ sz hh].
have hk2 k : hermitian_mx (e2 k) by exact: conj_herm.
have hU2 : hermitian_tensor n U2 by move=> a b c d; rewrite /U2 hU.
have run' : solve e_k U s (in_basis V (conj_mx M0)) = Some (s1, h) by rewrite -e0.
have hs2 : hermitian_mx (s_M s2) by exact: conj_herm.
have [_ hM hr _ _] := C109_result (fun x => x) hE bC betaR expP bR uV hk2 ek hU2 (eU _ cU) hs2 es (conj_herm h0) run2 run' sz.
split; [by rewrite -eM | by rewrite -er | move=> t ht].
have ht3 : (t < size h3)%N by rewrite sz.
have [rho [_ e3 e4]] := C109_history hE bC betaR expP bR uV hk2 ek hU2 (eU _ cU) hs2 es (conj_herm h0) run2 run' ht3 ht.
have [rho' [e5 e6]] := hh _ ht; exists rho' => //; move: e3 e4; rewrite e5 e6 => -[->] [<-]; by [].
Qed.
End Statements.

(* two orbitals at two opposite momenta with imaginary hybridizations, a repulsion of the two orbitals; the search returns 0 *)
Section Case.
Variables (C : numClosedFieldType).
Definition case_e (k : bool) : 'M[C]_2 := \matrix_(i, j) (if i == j then 0 else if (i == 0) (+) k then 'i else - 'i).
Definition case_U : arr4 C := fun a b c d => ((a == b) && (c == d) && (a != c))%:R.
Definition case_brentq (f : C -> C) (a b : C) : option C := Some 0.
Lemma case_runs eigh fuel N m tol s v h : size v = 4%N ->
  iterate eigh (@case_exp C) case_brentq 1 case_e case_U None None (@mat2vec C 2) (vec2mat 2) fuel N m tol s v h <> None.
Proof.
elim: fuel s v h => [|f ih] s v h sv //; rewrite iterateS /density_matrix_step vec2matE //=; case: ifP => // _; apply: ih.
by rewrite /mixed size_map size_zip sv sz_mat2vec.
Qed.
Theorem C119_case : exists eigh, (forall m, hermitian_mx m -> eigh_at eigh m) /\
  [/\ brentq_calls case_brentq /\ (forall f a b x, case_brentq f a b = Some x -> x \is Num.real), forall x : C, x \is Num.real -> 0 < case_exp x,
    (forall k, hermitian_mx (case_e k)) /\ reversed_dispersion negb case_e case_e, hermitian_tensor 2 case_U /\ (forall a b c d : 'I_2, case_U a b c d \is Num.real) &
    [/\ involutive negb, case_e true <> case_e false, ~ (forall a b, case_e true a b \is Num.real) & forall nitermax, exists s1 h,
      solve_iter eigh (@case_exp C) case_brentq 1 case_e case_U None None (@mat2vec C 2) (vec2mat 2) (Solver 0 0 0) 1 0 None nitermax 2%:R^-1 0 = Some (s1, h)]].
Proof.
have [eigh hE] := @C109_eigh_exists C 2; exists eigh; split=> //.
have iN : - 'i <> 'i :> C by move/eqP; rewrite eq_sym -addr_eq0 -mulr2n mulrn_eq0 /= => /eqP h; move/eqP: (neq0Ci C); rewrite h.
split.
- by split=> // f a b x [<-]; exact: real0.
- exact: case_exp_pos.
- split=> k; apply/matrixP=> i j; rewrite !mxE; case: i => -[|[|//]] hi; case: j => -[|[|//]] hj; case: k; rewrite -!val_eqE /= ?conjC0 ?rmorphN /= ?conjCi ?opprK //.
- split=> a b c d; last exact: realn.
  by rewrite /case_U rmorph_nat [(b : nat) == a]eq_sym [(d : nat) == c]eq_sym; case: ((a : nat) =P b) => [->|_] //; case: ((c : nat) =P d) => [->|_].
- split=> //; first exact: negbK.
  + by move/matrixP/(_ 0 1); rewrite !mxE.
  + move/(_ 0 1)/CrealP; rewrite !mxE /= rmorphN /= conjCi opprK => h; by apply: iN.
  move=> nit; rewrite /solve_iter /=.
  have m01 : (0 <= 2%:R^-1 :> C) && (2%:R^-1 <= 1 :> C) by rewrite invr_ge0 ler0n invf_le1 ?ler1n ?ltr0n.
  rewrite m01; have := @case_runs eigh nit 1 2%:R^-1 0 (Solver 0 0 (update_density_matrix eigh (@case_exp C) 1 (update_mean_field_dispersion case_e 0) 0))
    (mat2vec (update_density_matrix eigh (@case_exp C) 1 (update_mean_field_dispersion case_e 0) 0)) [::] (sz_mat2vec _).
  by case: (iterate _ _ _ _ _ _ _ _ _ _ _ _ _ _ _ _ _) => [[s1 h]|] // _; exists s1, h.
Qed.
(* the same model with the orbitals as the two spins: i sigma_y times conjugation is a symmetry, and the start need not be real *)
Definition case_V : 'M[C]_2 := \matrix_(i, j) (if i == j then 0 else if i == 0 then 1 else - 1).
Theorem C119_antiunitary_case : [/\ unitary_mx case_V, forall k, case_e k = in_basis case_V (conj_mx (case_e (~~ k))),
  forall Uc, conj_tensor 2 case_U Uc -> tensor_in_basis case_V Uc case_U & 0 = in_basis case_V (conj_mx 0)].
Proof.
split.
- apply/matrixP=> i j; rewrite !mxE !big_ord_recl big_ord0 !mxE.
  by case: i => -[|[|//]] hi; case: j => -[|[|//]] hj; rewrite -!val_eqE /= ?rmorphN ?rmorph1 ?rmorph0 /= ?mulrNN ?mulr0 ?mul0r ?mulr1 ?addr0 ?add0r.
- move=> k; apply/matrixP=> i j; rewrite in_basisE !big_ord_recl !big_ord0 !mxE.
  by case: i => -[|[|//]] hi; case: j => -[|[|//]] hj; case: k; rewrite -!val_eqE /= ?rmorphN ?rmorph1 ?rmorph0 /= ?conjCi ?opprK ?mulr0 ?mul0r ?mulr1 ?mul1r ?mulN1r ?opprK ?mulr0 ?mul0r ?addr0 ?add0r.
- move=> Uc hc a b c d; rewrite !big_ord_recl !big_ord0 !hc /case_U !rmorph_nat !mxE.
  case: a => -[|[|//]] ha; case: b => -[|[|//]] hb; case: c => -[|[|//]] hcc; case: d => -[|[|//]] hd;
  by rewrite -!val_eqE /= ?rmorphN ?rmorph1 ?rmorph0 /= ?mulrNN ?mulr0 ?mul0r ?mulr1 ?mul1r ?mulrNN ?mulr0 ?mul0r ?mulr1 ?addr0 ?add0r.
- by rewrite conj0 /in_basis mulmx0 mul0mx.
Qed.
End Case.
Print Assumptions C119_reversal.
Print Assumptions C119_hartree.
Print Assumptions C119_real.
Print Assumptions C119_antiunitary.
Print Assumptions C119_case.
Print Assumptions C119_antiunitary_case.
