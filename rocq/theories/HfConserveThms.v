(* C124: Hartree-Fock keeps the quantum numbers that the Hamiltonian conserves. *)
From mathcomp Require Import all_ssreflect all_algebra.
From Verif Require Import OperatorModel KanamoriModel SymmetryModel HfModel HfSpec HfThms HfBasisThms HfReversalThms Spectral Fring.
Set Implicit Arguments.
Unset Strict Implicit.
Unset Printing Implicit Defensive.
Import GRing.Theory Num.Theory Order.Theory.
Local Open Scope ring_scope.

Section Spec.
Variables (C : numClosedFieldType) (n : nat) (L : eqType) (lab : 'I_n -> L).
(* no matrix elements between states with different quantum numbers *)
Definition keeps (m : 'M[C]_n) : Prop := forall a b, lab a != lab b -> m a b = 0.
(* the interaction c+_a c_b c+_c c_d puts back the quantum numbers it takes *)
Definition conserving (U : arr4 C) : Prop := forall a b c d : 'I_n, ~~ perm_eq [:: lab a; lab c] [:: lab b; lab d] -> U a b c d = 0.
End Spec.

Section Conserve.
Variables (C : numClosedFieldType) (n : nat) (L : eqType) (lab : 'I_n -> L).
Local Notation mx := 'M[C]_n.
Definition sg (s : option L) (a : 'I_n) : C := if Some (lab a) == s then 1 else - 1.
Definition signs (s : option L) : mx := diag_mx (\row_i sg s i).
Lemma sg_conj s a : (sg s a)^* = sg s a. Proof. by rewrite /sg; case: ifP => _; rewrite ?rmorphN rmorph1. Qed.
Lemma sg2 s a : sg s a * sg s a = 1. Proof. by rewrite /sg; case: ifP => _; rewrite ?mulrNN mulr1. Qed.
Lemma adj_signs s : adjoint (signs s) = signs s.
Proof.
apply/matrixP=> i j; rewrite !mxE rmorphMn sg_conj [j == i]eq_sym; by case: (i =P j) => [->|].
Qed.
Lemma signs_unitary s : unitary_mx (signs s).
Proof.
rewrite /unitary_mx adj_signs /signs mulmx_diag; apply/matrixP=> i j; rewrite !mxE; by rewrite sg2.
Qed.
Lemma in_signs s A i j : in_basis (signs s) A i j = sg s i * sg s j * A i j.
Proof. by rewrite /in_basis adj_signs /signs mul_diag_mx mul_mx_diag !mxE mulrAC. Qed.
Lemma keeps_signs s A : keeps lab A -> in_basis (signs s) A = A.
Proof.
move=> h; apply/matrixP=> i j; rewrite in_signs; case: (lab i =P lab j) => [e|/eqP ne]; last by rewrite h // mulr0.
by rewrite /sg e -/(sg s j) sg2 mul1r.
Qed.
Lemma signs_keeps A : (forall s, in_basis (signs s) A = A) -> keeps lab A.
Proof.
move=> h a b ne; move/matrixP/(_ a b): (h (Some (lab a))); rewrite in_signs /sg eqxx (_ : Some (lab b) == Some (lab a) = false); last (by apply/negbTE; rewrite eq_sym); rewrite mul1r mulN1r => /eqP.
by rewrite eq_sym -addr_eq0 -mulr2n mulrn_eq0 => /eqP.
Qed.
Lemma sum_signs s (F : 'I_n -> C) a : \sum_a' signs s a a' * F a' = sg s a * F a.
Proof.
rewrite (bigD1 a) //= big1 ?addr0 => [|b hb]; first by rewrite !mxE eqxx mulr1n.
by rewrite !mxE eq_sym (negbTE hb) mulr0n mul0r.
Qed.
Lemma signsC s a b : (signs s a b)^* = signs s a b.
Proof. by rewrite !mxE rmorphMn sg_conj. Qed.
Lemma tensor_signs s (U : arr4 C) : conserving lab U -> tensor_in_basis (signs s) U U.
Proof.
move=> h a b c d.
have -> : \sum_(a' < n) \sum_(b' < n) \sum_(c' < n) \sum_(d' < n) (signs s a a')^* * signs s b b' * (signs s c c')^* * signs s d d' * U a' b' c' d' =
    sg s a * (sg s b * (sg s c * (sg s d * U a b c d))).
  rewrite -(sum_signs s (fun a' => sg s b * (sg s c * (sg s d * U a' b c d)))); apply: eq_bigr => a' _.
  rewrite -(sum_signs s (fun b' => sg s c * (sg s d * U a' b' c d))) mulr_sumr; apply: eq_bigr => b' _.
  rewrite -(sum_signs s (fun c' => sg s d * U a' b' c' d)) !mulr_sumr; apply: eq_bigr => c' _.
  rewrite -(sum_signs s (fun d' => U a' b' c' d')) !mulr_sumr; apply: eq_bigr => d' _.
  by rewrite !signsC !mulrA.
have [p|/h ->] := boolP (perm_eq [:: lab a; lab c] [:: lab b; lab d]); last by rewrite !mulr0.
have e : sg s a * sg s c = sg s b * sg s d.
  have : \prod_(l <- [:: lab a; lab c]) (if Some l == s then 1 else - 1 : C) = \prod_(l <- [:: lab b; lab d]) (if Some l == s then 1 else - 1).
    by apply: perm_big.
  by rewrite !big_cons !big_nil !mulr1.
have -> : sg s a * (sg s b * (sg s c * (sg s d * U a b c d))) = (sg s a * sg s c) * (sg s b * sg s d) * U a b c d by rewrite !mulrA [sg s a * sg s b * _]mulrAC.
by rewrite e mulrACA !sg2 !mul1r.
Qed.
Variables (K : finType) (eigh : mx -> 'rV[C]_n * mx) (exp : C -> C) (brentq : (C -> C) -> C -> C -> option C) (beta : C).
Hypotheses (hE : forall m, hermitian_mx m -> eigh_at eigh m) (bC : brentq_calls brentq).
Hypotheses (betaR : beta \is Num.real) (expP : forall x, x \is Num.real -> 0 < exp x) (bR : forall f a b x, brentq f a b = Some x -> x \is Num.real).
Variables (e_k : K -> mx) (U : arr4 C) (mu_min mu_max : option C).
Hypotheses (hk : forall k, hermitian_mx (e_k k)) (hU : hermitian_tensor n U).
Variables (s : solver C n) (N mixing tol : C) (M0 : mx) (mu0 : option C) (nitermax : nat).
Hypotheses (hs : hermitian_mx (s_M s)) (h0 : hermitian_mx M0).
(* C124: mean field and density matrices do not mix states with different quantum numbers *)
Theorem C124_conserved s1 h : (forall k, keeps lab (e_k k)) -> conserving lab U -> keeps lab (s_M s) -> keeps lab M0 ->
  solve_iter eigh exp brentq beta e_k U mu_min mu_max (@mat2vec C n) (vec2mat n) s N M0 mu0 nitermax mixing tol = Some (s1, h) ->
  [/\ keeps lab (s_M s1), keeps lab (s_rho s1) & forall t, (t < size h)%N -> exists rho, vec2mat n (nth [::] h t) = Some rho /\ keeps lab rho].
Proof.
move=> ke kU ks k0 run.
have S l := C109_symmetry hE bC betaR expP bR (signs_unitary l) hk hU hs h0 (fun k => keeps_signs l (ke k)) (tensor_signs l kU) (keeps_signs l ks) (keeps_signs l k0) run.
split; [by apply: signs_keeps => l; case: (S l) | by apply: signs_keeps => l; case: (S l) |] => t ht.
have [_ _ /(_ t ht)[rho [e _]]] := S None.
exists rho; split=> //; apply: signs_keeps => l; have [_ _ /(_ t ht)[rho' []]] := S l; by rewrite e => -[->].
Qed.
End Conserve.

(* three orbitals at two momenta: the first two hybridize, the third has another quantum number; density-density repulsion and exchange, the search returns 0 *)
Section Case.
Variables (C : numClosedFieldType).
Definition cons_lab (i : 'I_3) : bool := (i : nat) == 2%N.
Definition cons_e (k : bool) : 'M[C]_3 := \matrix_(i, j) (if i == j then 0 else if cons_lab i == cons_lab j then (if k then 1 else 2%:R) else 0).
Definition cons_U : arr4 C := fun a b c d => ((a == b) && (c == d) && (a != c) || (a == d) && (b == c) && (a != b))%:R.
Lemma cons_runs eigh fuel N m tol s v h : size v = 9%N ->
  iterate eigh (@case_exp C) (@case_brentq C) 1 cons_e cons_U None None (@mat2vec C 3) (vec2mat 3) fuel N m tol s v h <> None.
Proof.
elim: fuel s v h => [|f ih] s v h sv //; rewrite iterateS /density_matrix_step vec2matE //=; case: ifP => // _; apply: ih.
by rewrite /mixed size_map size_zip sv sz_mat2vec.
Qed.
Theorem C124_case : exists eigh, (forall m, hermitian_mx m -> eigh_at eigh m) /\
  [/\ brentq_calls (@case_brentq C) /\ (forall f a b x, @case_brentq C f a b = Some x -> x \is Num.real), forall x : C, x \is Num.real -> 0 < case_exp x,
    (forall k, hermitian_mx (cons_e k)) /\ hermitian_tensor 3 cons_U, (forall k, keeps cons_lab (cons_e k)) /\ conserving cons_lab cons_U &
    [/\ cons_e true <> cons_e false, cons_U 0%N 2%N 2%N 0%N <> 0 & forall nitermax, exists s1 h,
      solve_iter eigh (@case_exp C) (@case_brentq C) 1 cons_e cons_U None None (@mat2vec C 3) (vec2mat 3) (Solver 0 0 0) 1 0 None nitermax 2%:R^-1 0 = Some (s1, h)]].
Proof.
have [eigh hE] := @C109_eigh_exists C 3; exists eigh; split=> //; split.
- by split=> // f a b x [<-]; exact: real0.
- exact: case_exp_pos.
- split=> [k|a b c d].
    apply/matrixP=> i j; rewrite !mxE [j == i]eq_sym [cons_lab j == _]eq_sym; case: ifP => _; rewrite ?rmorph0 //.
    by case: ifP => _; rewrite ?rmorph0 //; case: k; rewrite ?rmorph1 ?rmorph_nat.
  rewrite /cons_U rmorph_nat; congr (nat_of_bool _)%:R.
  by case: a => -[|[|[|//]]] ha; case: b => -[|[|[|//]]] hb; case: c => -[|[|[|//]]] hc; case: d => -[|[|[|//]]] hd.
- split=> [k a b ne|a b c d].
    by rewrite !mxE (negbTE ne); case: (a =P b) => // e; move: ne; rewrite e eqxx.
  rewrite /cons_U /cons_lab; case: a => -[|[|[|//]]] ha; case: b => -[|[|[|//]]] hb; case: c => -[|[|[|//]]] hc; by case: d => -[|[|[|//]]] hd.
- split.
  + move/matrixP/(_ 0 1); rewrite !mxE /= => /eqP; by rewrite -[1]/(1%:R) eqr_nat.
  + by rewrite /cons_U /= => /eqP; rewrite oner_eq0.
  move=> nit; rewrite /solve_iter /=.
  have m01 : (0 <= 2%:R^-1 :> C) && (2%:R^-1 <= 1 :> C) by rewrite invr_ge0 ler0n invf_le1 ?ler1n ?ltr0n.
  rewrite m01; have := @cons_runs eigh nit 1 2%:R^-1 0 (Solver 0 0 (update_density_matrix eigh (@case_exp C) 1 (update_mean_field_dispersion cons_e 0) 0))
    (mat2vec (update_density_matrix eigh (@case_exp C) 1 (update_mean_field_dispersion cons_e 0) 0)) [::] (sz_mat2vec _).
  by case: (iterate _ _ _ _ _ _ _ _ _ _ _ _ _ _ _ _ _) => [[s1 h]|] // _; exists s1, h.
Qed.
End Case.
Print Assumptions C124_conserved.
Print Assumptions C124_case.
