(* C109: the Hartree-Fock solver in two orbital bases. *)
From mathcomp Require Import all_ssreflect all_algebra.
From Verif Require Import OperatorModel KanamoriModel SymmetryModel HfModel HfSpec HfThms Spectral Fring.
Set Implicit Arguments.
Unset Strict Implicit.
Unset Printing Implicit Defensive.
Import GRing.Theory Num.Theory Order.Theory.
Local Open Scope ring_scope.

Section Spec.
Variables (C : numClosedFieldType) (n : nat).
Local Notation mx := 'M[C]_n.
(* the new orbitals are c'_a = sum_b V_ab c_b; matrices and tensors in terms of them *)
Definition in_basis (V m : mx) : mx := V *m m *m adjoint V.
Definition tensor_in_basis (V : mx) (U U' : arr4 C) : Prop := forall a b c d : 'I_n,
  U' a b c d = \sum_(a' < n) \sum_(b' < n) \sum_(c' < n) \sum_(d' < n) (V a a')^* * V b b' * (V c c')^* * V d d' * U a' b' c' d'.
(* the tensor of a Hermitian operator *)
Definition hermitian_tensor (U : arr4 C) : Prop := forall a b c d : 'I_n, (U a b c d)^* = U b a d c.
(* brentq only calls the function *)
Definition brentq_calls (brentq : (C -> C) -> C -> C -> option C) : Prop := forall f g a b, (forall x, f x = g x) -> brentq f a b = brentq g a b.
End Spec.

Section Basis.
Variables (C : numClosedFieldType) (n : nat).
Local Notation mx := 'M[C]_n.
Add Ring Cring : (fld_rt C).
Implicit Types (A B V W : mx).
Lemma in_basisD V A B : in_basis V (A + B) = in_basis V A + in_basis V B.
Proof. by rewrite /in_basis mulmxDr mulmxDl. Qed.
Lemma in_basisZ V x A : in_basis V (x *: A) = x *: in_basis V A.
Proof. by rewrite /in_basis -scalemxAr -scalemxAl. Qed.
Lemma in_basis_sum V (K : finType) (F : K -> mx) : in_basis V (\sum_k F k) = \sum_k in_basis V (F k).
Proof. by rewrite /in_basis mulmx_sumr mulmx_suml. Qed.
Lemma in_basis_herm V A : hermitian_mx A -> hermitian_mx (in_basis V A).
Proof. by move=> hA; rewrite /hermitian_mx /in_basis !adjointM adjointK hA mulmxA. Qed.
Lemma in_basisE V A i j : in_basis V A i j = \sum_a \sum_b V i a * (V j b)^* * A a b.
Proof.
rewrite mxE exchange_big; apply: eq_bigr => b _; rewrite mxE mulr_suml; apply: eq_bigr => a _; rewrite !mxE; fring C.
Qed.
Lemma hermD A B : hermitian_mx A -> hermitian_mx B -> hermitian_mx (A + B).
Proof. by move=> hA hB; rewrite /hermitian_mx -[in RHS]hA -[in RHS]hB; apply/matrixP=> i j; rewrite !mxE rmorphD. Qed.
Lemma hermZ x A : x \is Num.real -> hermitian_mx A -> hermitian_mx (x *: A).
Proof. by move=> hx hA; rewrite /hermitian_mx -[in RHS]hA; apply/matrixP=> i j; rewrite !mxE rmorphM (CrealP hx). Qed.
(* functions of matrices *)
Lemma same_function V (l1 l2 : 'rV[C]_n) (U1 U2 : mx) (f : C -> C) : unitary_mx V -> unitary_mx U1 -> unitary_mx U2 ->
  U2 *m diag_mx l2 *m adjoint U2 = in_basis V (U1 *m diag_mx l1 *m adjoint U1) ->
  U2 *m diag_mx (map_mx f l2) *m adjoint U2 = in_basis V (U1 *m diag_mx (map_mx f l1) *m adjoint U1) /\ \sum_i f (l2 0 i) = \sum_i f (l1 0 i).
Proof.
move=> uV u1 u2 e; have v1 := unit_other u1; have v2 := unit_other u2; have vV := unit_other uV.
have [W WE] : exists W, W = adjoint U2 *m V *m U1 by eexists.
have uW : unitary_mx W by rewrite /unitary_mx WE !adjointM adjointK !mulmxA -[_ *m U1 *m _]mulmxA u1 mulmx1 -[_ *m V *m _]mulmxA uV mulmx1.
have eW : diag_mx l2 *m W = W *m diag_mx l1.
  have := congr1 (fun m => adjoint U2 *m m *m V *m U1) e; rewrite /in_basis WE !mulmxA v2 mul1mx => ->.
  by rewrite -[_ *m adjoint V *m V]mulmxA vV mulmx1 -[_ *m adjoint U1 *m U1]mulmxA v1 mulmx1.
have el i j : l2 0 i * W i j = W i j * l1 0 j by have := congr1 (fun m : mx => m i j) eW; rewrite mul_diag_mx mul_mx_diag !mxE.
have ef i j : f (l2 0 i) * W i j = W i j * f (l1 0 j).
  case: (W i j =P 0) => [->|/eqP w0]; first by rewrite mulr0 mul0r.
  by have := el i j; rewrite mulrC => /(mulfI w0) ->; rewrite mulrC.
have fW : diag_mx (map_mx f l2) *m W = W *m diag_mx (map_mx f l1) by apply/matrixP=> i j; rewrite mul_diag_mx mul_mx_diag !mxE ef.
split.
  have VU : V *m U1 = U2 *m W by rewrite WE !mulmxA u2 mul1mx.
  by rewrite /in_basis -!mulmxA -adjointM mulmxA [V *m (U1 *m _)]mulmxA VU adjointM !mulmxA -[U2 *m W *m _]mulmxA -fW !mulmxA -[_ *m W *m adjoint W]mulmxA uW mulmx1.
have vW := unit_other uW.
have r1 i : \sum_j W i j * (W i j)^* = 1 by have := congr1 (fun m : mx => m i i) uW; rewrite !mxE eqxx; apply: etrans; apply: eq_bigr => j _; rewrite !mxE.
have r2 j : \sum_i W i j * (W i j)^* = 1.
  by have := congr1 (fun m : mx => m j j) vW; rewrite !mxE eqxx; apply: etrans; apply: eq_bigr => i _; rewrite !mxE mulrC.
transitivity (\sum_i \sum_j f (l2 0 i) * W i j * (W i j)^*).
  by apply: eq_bigr => i _; under eq_bigr do rewrite -mulrA; rewrite -mulr_sumr r1 mulr1.
rewrite exchange_big; apply: eq_bigr => j _; under eq_bigr do rewrite ef [_ * f _]mulrC -mulrA; by rewrite -mulr_sumr r2 mulr1.
Qed.
Lemma sum_in (F : 'I_n -> 'I_n -> 'I_n -> 'I_n -> 'I_n -> C) : \sum_x \sum_a \sum_b \sum_c \sum_d F a b c d x = \sum_a \sum_b \sum_c \sum_d \sum_x F a b c d x.
Proof.
by rewrite exchange_big; apply: eq_bigr => a _; rewrite exchange_big; apply: eq_bigr => b _; rewrite exchange_big; apply: eq_bigr => c _; rewrite exchange_big.
Qed.
(* the mean field *)
Lemma mean_field_basis V (U U' : arr4 C) (rho : mx) : unitary_mx V -> tensor_in_basis V U U' ->
  update_mean_field U' (in_basis V rho) = in_basis V (update_mean_field U rho).
Proof.
move=> uV hU; have vV := unit_other uV.
have col i j : \sum_c (V c i)^* * V c j = (i == j)%:R by have := congr1 (fun m : mx => m i j) vV; rewrite !mxE => <-; apply: eq_bigr => c _; rewrite !mxE.
apply/matrixP=> b a; rewrite in_basisE mxE.
have key c' d' : \sum_(c < n) \sum_(d < n) (V c c')^* * V d d' * in_basis V rho c d = rho c' d'.
  under eq_bigr => c _ do under eq_bigr => d _ do rewrite in_basisE mulr_sumr.
  under eq_bigr => c _ do under eq_bigr => d _ do under eq_bigr => i _ do rewrite mulr_sumr.
  transitivity (\sum_i \sum_j (\sum_c (V c c')^* * V c i) * (\sum_d (V d j)^* * V d d') * rho i j); last first.
    under eq_bigr => i _ do under eq_bigr => j _ do rewrite !col.
    rewrite (bigD1 c') //= (bigD1 d') //= !eqxx !mul1r big1 ?addr0; last by move=> j hj; rewrite (negbTE hj) mulr0 mul0r.
    by rewrite big1 ?addr0 // => i hi; rewrite big1 // => j _; rewrite eq_sym (negbTE hi) !mul0r.
  under [RHS]eq_bigr => i _ do under eq_bigr => j _ do rewrite big_distrlr /= mulr_suml.
  under [RHS]eq_bigr => i _ do under eq_bigr => j _ do under eq_bigr => c _ do rewrite mulr_suml.
  under [RHS]eq_bigr => i _ do rewrite exchange_big; rewrite [RHS]exchange_big; apply: eq_bigr => c _.
  under [RHS]eq_bigr => i _ do rewrite exchange_big; rewrite [RHS]exchange_big; apply: eq_bigr => d _.
  apply: eq_bigr => i _; apply: eq_bigr => j _; fring C.
transitivity (\sum_(a' < n) \sum_(b' < n) \sum_(c' < n) \sum_(d' < n) \sum_(c < n) \sum_(d < n) V b b' * (V a a')^* * (- U a' b' c' d' * ((V c c')^* * V d d' * in_basis V rho c d))).
  rewrite -sum_in; apply: eq_bigr => c _; rewrite -sum_in; apply: eq_bigr => d _; rewrite hU -sumrN mulr_suml.
  apply: eq_bigr => a' _; rewrite -sumrN mulr_suml; apply: eq_bigr => b' _; rewrite -sumrN mulr_suml; apply: eq_bigr => c' _; rewrite -sumrN mulr_suml; apply: eq_bigr => d' _; fring C.
rewrite exchange_big; apply: eq_bigr => b' _; apply: eq_bigr => a' _; rewrite mxE !mulr_sumr; apply: eq_bigr => c' _; rewrite !mulr_sumr; apply: eq_bigr => d' _.
under eq_bigr do rewrite -mulr_sumr; rewrite -mulr_sumr; under eq_bigr do rewrite -mulr_sumr; by rewrite -mulr_sumr key.
Qed.
Lemma mean_field_herm (U : arr4 C) (rho : mx) : hermitian_tensor n U -> hermitian_mx rho -> hermitian_mx (update_mean_field U rho).
Proof.
move=> hU hr; have r i j : (rho i j)^* = rho j i by rewrite -[in RHS]hr !mxE.
apply/matrixP=> b a; rewrite !mxE rmorph_sum /=; under eq_bigr do rewrite rmorph_sum /=; rewrite exchange_big.
by apply: eq_bigr => c _; apply: eq_bigr => d _; rewrite rmorphM rmorphN /= hU r.
Qed.
Lemma energy_basis V (U U' : arr4 C) (rho : mx) : unitary_mx V -> tensor_in_basis V U U' -> update_interaction_energy U' (in_basis V rho) = update_interaction_energy U rho.
Proof.
have tr (T : arr4 C) (r : mx) : update_interaction_energy T r = - (2%:R^-1 * \tr (r *m update_mean_field T r)).
  rewrite /update_interaction_energy -mulrN; congr (_ * _); rewrite /mxtrace -sumrN; apply: eq_bigr => a _; rewrite mxE -sumrN; apply: eq_bigr => b _.
  rewrite mxE mulr_sumr -sumrN; apply: eq_bigr => c _; rewrite mulr_sumr -sumrN; apply: eq_bigr => d _; fring C.
move=> uV hU; rewrite !tr (mean_field_basis _ uV hU) /in_basis !mulmxA -[_ *m adjoint V *m V]mulmxA (unit_other uV) mulmx1.
by rewrite mxtrace_mulC !mulmxA (unit_other uV) mul1mx.
Qed.
End Basis.

Section Extremes.
Variable C : numClosedFieldType.
Implicit Types (l : seq C).
Lemma foldl_min x l : x \is Num.real -> {in l, forall y, y \is Num.real} -> {in x :: l, forall y, foldl Order.min x l <= y}.
Proof.
elim: l x => [|z l ih] x xR lR y; first by rewrite inE => /eqP ->.
have zR : z \is Num.real by apply: lR; rewrite inE eqxx.
have mR : Order.min x z \is Num.real by rewrite minElt; case: ifP.
have lR' : {in l, forall y, y \is Num.real} by move=> t ht; apply: lR; rewrite inE ht orbT.
have h := ih _ mR lR'; rewrite !inE => /or3P[/eqP ->|/eqP ->|hy] /=.
- apply: le_trans (h _ (mem_head _ _)) _; rewrite minElt; case: ifP => // /negbT; by rewrite -real_leNgt.
- apply: le_trans (h _ (mem_head _ _)) _; rewrite minElt; by case: ifP => // /ltW.
- by have := h y; rewrite inE hy orbT => /(_ isT).
Qed.
Lemma foldl_max x l : x \is Num.real -> {in l, forall y, y \is Num.real} -> {in x :: l, forall y, y <= foldl Order.max x l}.
Proof.
elim: l x => [|z l ih] x xR lR y; first by rewrite inE => /eqP ->.
have zR : z \is Num.real by apply: lR; rewrite inE eqxx.
have mR : Order.max x z \is Num.real by rewrite maxElt; case: ifP.
have lR' : {in l, forall y, y \is Num.real} by move=> t ht; apply: lR; rewrite inE ht orbT.
have h := ih _ mR lR'; rewrite !inE => /or3P[/eqP ->|/eqP ->|hy] /=.
- apply: le_trans (h _ (mem_head _ _)); rewrite maxElt; by case: ifP => // /ltW.
- apply: le_trans (h _ (mem_head _ _)); rewrite maxElt; case: ifP => // /negbT; by rewrite -real_leNgt.
- by have := h y; rewrite inE hy orbT => /(_ isT).
Qed.
Lemma perm_extremes l l' : perm_eq l l' -> {in l, forall y, y \is Num.real} -> minimum l = minimum l' /\ maximum l = maximum l'.
Proof.
move=> p lR; have [e|l0] := eqVneq l [::].
  by have := perm_size p; rewrite e; case: l' {p}.
have l0' : l' != [::] by rewrite -size_eq0 -(perm_size p) size_eq0.
have lR' : {in l', forall y, y \is Num.real} by move=> y; rewrite -(perm_mem p); apply: lR.
have lo (m : seq C) : m != [::] -> {in m, forall y, y \is Num.real} -> {in m, forall y, minimum m <= y}.
  by case: m => // x m _ mR; rewrite /minimum /= => y hy; apply: (foldl_min _ _ hy) => [|t ht]; apply: mR; rewrite inE ?eqxx // ht orbT.
have hi (m : seq C) : m != [::] -> {in m, forall y, y \is Num.real} -> {in m, forall y, y <= maximum m}.
  by case: m => // x m _ mR; rewrite /maximum /= => y hy; apply: (foldl_max _ _ hy) => [|t ht]; apply: mR; rewrite inE ?eqxx // ht orbT.
split; apply: le_anti; apply/andP; split.
- by apply: lo => //; rewrite (perm_mem p); apply: minimum_in.
- by apply: lo => //; rewrite -(perm_mem p); apply: minimum_in.
- by apply: hi => //; rewrite -(perm_mem p); apply: maximum_in.
- by apply: hi => //; rewrite (perm_mem p); apply: maximum_in.
Qed.
End Extremes.

Section Packed.
Variables (C : numClosedFieldType) (n : nat).
Lemma mixed_cat m (a b c d : seq C) : size a = size c -> mixed m (a ++ b) (c ++ d) = mixed m a c ++ mixed m b d.
Proof. by move=> e; rewrite /mixed zip_cat // map_cat. Qed.
Lemma mixed_map m (T : Type) (f g : T -> C) (l : seq T) : mixed m (map f l) (map g l) = [seq (1 - m) * f x + m * g x | x <- l].
Proof. by elim: l => //= x l <-. Qed.
Lemma mixed_pack m (A B : 'M[C]_n) : m \is Num.real -> mixed m (mat2vec A) (mat2vec B) = mat2vec ((1 - m) *: A + m *: B).
Proof.
move=> mR; have m1 : 1 - m \is Num.real by rewrite rpredB ?rpred1.
have re (x y : C) : 'Re ((1 - m) * x + m * y) = (1 - m) * 'Re x + m * 'Re y by rewrite raddfD /= !ReMl.
have im (x y : C) : 'Im ((1 - m) * x + m * y) = (1 - m) * 'Im x + m * 'Im y by rewrite raddfD /= !ImMl.
have at1 i j : at_ ((1 - m) *: A + m *: B) i j = (1 - m) * at_ A i j + m * at_ B i j.
  by rewrite /at_; case: (insub i) => [i'|]; [case: (insub j) => [j'|]|]; rewrite ?mxE ?mulr0 ?addr0.
rewrite /mat2vec -!map_comp !mixed_cat ?size_map // !mixed_map; congr (_ ++ (_ ++ _)); apply: eq_map => x /=; by rewrite at1 ?re ?im.
Qed.
End Packed.

Section Run.
Variables (C : numClosedFieldType) (n : nat) (K : finType).
Local Notation mx := 'M[C]_n.
Variables (eigh : mx -> 'rV[C]_n * mx) (exp log : C -> C) (brentq : (C -> C) -> C -> C -> option C) (beta : C).
Hypotheses (hE : forall m, hermitian_mx m -> eigh_at eigh m) (bC : brentq_calls brentq).
Hypotheses (betaR : beta \is Num.real) (expP : forall x, x \is Num.real -> 0 < exp x) (bR : forall f a b x, brentq f a b = Some x -> x \is Num.real).
Variables (V : mx) (uV : unitary_mx V).
Section Dispersion.
Variables (e e' : K -> mx).
Hypotheses (he : forall k, hermitian_mx (e k)) (he' : forall k, e' k = in_basis V (e k)).
Lemma he'h k : hermitian_mx (e' k). Proof. by rewrite he'; apply: in_basis_herm. Qed.
Lemma levels_sum (e1 : K -> mx) (f : C -> C) : \sum_(x <- levels eigh e1) f x = \sum_k \sum_i f ((eigh (e1 k)).1 0 i).
Proof. by rewrite /levels big_allpairs_dep /= big_enum; apply: eq_bigr => k _; rewrite big_enum. Qed.
Lemma function_basis (f : C -> C) k : let (l, U1) := eigh (e k) in let (l', U2) := eigh (e' k) in
  U2 *m diag_mx (map_mx f l') *m adjoint U2 = in_basis V (U1 *m diag_mx (map_mx f l) *m adjoint U1) /\ \sum_i f (l' 0 i) = \sum_i f (l 0 i).
Proof.
have := hE (he k); have := hE (he'h k); rewrite /eigh_at; case: (eigh (e k)) => l U1; case: (eigh (e' k)) => l' U2 [_ u2 e2] [_ u1 e1].
by apply: same_function => //; rewrite -e2 -e1.
Qed.
Lemma levels_basis : perm_eq (levels eigh e') (levels eigh e).
Proof.
apply/allP=> x _ /=; rewrite -(eqr_nat C) -!sum1_count !natr_sum big_mkcond [X in _ == X]big_mkcond /=.
rewrite !(levels_sum _ (fun y => if y == x then 1 else 0)); apply/eqP; apply: eq_bigr => k _.
by have := function_basis (fun y => if y == x then 1 else 0) k; case: (eigh (e k)) => l U1; case: (eigh (e' k)) => l' U2 [].
Qed.
Lemma levels_real : {in levels eigh e, forall y, y \is Num.real}.
Proof. by move=> x /allpairsP[[k i] /= [_ _ ->]]; have := hE (he k); rewrite /eigh_at; case: (eigh _) => l U1 []. Qed.
Lemma mu_basis mu_min mu_max N : update_chemical_potential eigh exp brentq beta mu_min mu_max e' N = update_chemical_potential eigh exp brentq beta mu_min mu_max e N.
Proof.
have p := levels_basis; have [e1 e2] : minimum (levels eigh e') = minimum (levels eigh e) /\ maximum (levels eigh e') = maximum (levels eigh e).
  by apply: perm_extremes => // x; rewrite (perm_mem p); apply: levels_real.
rewrite /update_chemical_potential e1 e2; apply: bC => mu; rewrite /target_function; congr (_ / _ - _); exact: perm_big.
Qed.
Lemma density_kE (e1 : K -> mx) mu k : update_momentum_density_matrix eigh exp beta e1 mu k =
  (eigh (e1 k)).2 *m diag_mx (map_mx (fun x => fermi exp beta (x - mu)) (eigh (e1 k)).1) *m adjoint (eigh (e1 k)).2.
Proof.
rewrite /update_momentum_density_matrix; case: (eigh _) => l U1 /=; apply/matrixP => a c; rewrite mul_mx_diag !mxE; apply: eq_bigr => b _; by rewrite !mxE.
Qed.
Lemma density_k_basis mu k : update_momentum_density_matrix eigh exp beta e' mu k = in_basis V (update_momentum_density_matrix eigh exp beta e mu k).
Proof.
by rewrite !density_kE; have := function_basis (fun x => fermi exp beta (x - mu)) k; case: (eigh (e k)) => l U1; case: (eigh (e' k)) => l' U2 [].
Qed.
Lemma density_basis mu : update_density_matrix eigh exp beta e' mu = in_basis V (update_density_matrix eigh exp beta e mu).
Proof. by rewrite /update_density_matrix in_basisZ in_basis_sum; congr (_ *: _); apply: eq_bigr => k _; exact: density_k_basis. Qed.
Lemma free_basis mu : update_non_int_free_energy eigh exp log beta e' mu = update_non_int_free_energy eigh exp log beta e mu.
Proof. by rewrite /update_non_int_free_energy (perm_big _ levels_basis). Qed.
End Dispersion.
Variables (e_k e_k' : K -> mx) (U U' : arr4 C) (mu_min mu_max : option C).
Hypotheses (hk : forall k, hermitian_mx (e_k k)) (hk' : forall k, e_k' k = in_basis V (e_k k)).
Hypotheses (hU : hermitian_tensor n U) (hU' : tensor_in_basis V U U').
Lemma kinetic_basis (e e' : K -> mx) mu : (forall k, hermitian_mx (e k)) -> (forall k, e' k = in_basis V (e k)) ->
  update_kinetic_energy eigh exp beta e_k' e' mu = update_kinetic_energy eigh exp beta e_k e mu.
Proof.
move=> he he'; have tr (A B : mx) : \sum_a \sum_b A a b * B b a = \tr (A *m B) by apply: eq_bigr => a _; rewrite mxE.
rewrite /update_kinetic_energy; congr (_ / _); apply: eq_bigr => k _; rewrite !tr hk' (density_k_basis he he') /in_basis.
by rewrite !mulmxA -[_ *m adjoint V *m V]mulmxA (unit_other uV) mulmx1 mxtrace_mulC !mulmxA (unit_other uV) mul1mx.
Qed.
Lemma mean_disp M M' : M' = in_basis V M -> forall k, update_mean_field_dispersion e_k' M' k = in_basis V (update_mean_field_dispersion e_k M k).
Proof. by move=> -> k; rewrite /update_mean_field_dispersion hk' in_basisD. Qed.
Lemma mean_disp_herm M : hermitian_mx M -> forall k, hermitian_mx (update_mean_field_dispersion e_k M k).
Proof. by move=> hM k; apply: hermD. Qed.
(* the attributes of the two solvers *)
Definition same_state (s s' : solver C n) : Prop := [/\ s_mu s' = s_mu s, s_M s' = in_basis V (s_M s) & s_rho s' = in_basis V (s_rho s)].
Definition same_vec (v v' : seq C) : Prop := exists rho, [/\ hermitian_mx rho, v = mat2vec rho & v' = mat2vec (in_basis V rho)].
Definition same_step (r r' : option (solver C n * seq C)) : Prop := match r, r' with
  | Some (s, v), Some (s', v') => [/\ same_state s s', hermitian_mx (s_M s) & same_vec v v'] | None, None => True | _, _ => False end.
Local Notation step := (density_matrix_step eigh exp brentq beta e_k U mu_min mu_max (@mat2vec C n) (vec2mat n)).
Local Notation step' := (density_matrix_step eigh exp brentq beta e_k' U' mu_min mu_max (@mat2vec C n) (vec2mat n)).
Lemma solve_basis M M' N : hermitian_mx M -> M' = in_basis V M ->
  let e := update_mean_field_dispersion e_k M in let e' := update_mean_field_dispersion e_k' M' in
  update_chemical_potential eigh exp brentq beta mu_min mu_max e' N = update_chemical_potential eigh exp brentq beta mu_min mu_max e N /\
  forall mu, update_chemical_potential eigh exp brentq beta mu_min mu_max e N = Some mu -> same_vec (mat2vec (update_density_matrix eigh exp beta e mu)) (mat2vec (update_density_matrix eigh exp beta e' mu))
    /\ update_density_matrix eigh exp beta e' mu = in_basis V (update_density_matrix eigh exp beta e mu).
Proof.
move=> hM eM e e'; have he := mean_disp_herm hM; have he' := mean_disp eM; split; first exact: (mu_basis he he').
move=> mu hmu; rewrite (density_basis he he'); split; last by [].
exists (update_density_matrix eigh exp beta e mu); split; [| by [] | by []].
by apply: rho_hermitian => // [k|]; [apply: hE; exact: he | apply: bR hmu].
Qed.
Lemma step_basis s s' v v' N : same_vec v v' -> same_step (step s v (Some N)) (step' s' v' (Some N)).
Proof.
move=> [rho [hr -> ->]]; rewrite /density_matrix_step !C36_matrix_proof //; last exact: in_basis_herm.
have hM := mean_field_herm hU hr; have eM := mean_field_basis rho uV hU'; have [em er] := solve_basis N hM eM.
rewrite em; case e1 : update_chemical_potential => [mu|] //=; have [sv er'] := er _ e1; by split=> //; split.
Qed.
Lemma setup_basis s s' N M0 M0' mu0 : hermitian_mx (s_M s) -> s_M s' = in_basis V (s_M s) -> hermitian_mx M0 -> M0' = in_basis V M0 ->
  same_step (solve_setup eigh exp brentq beta e_k mu_min mu_max (@mat2vec C n) s N M0 mu0) (solve_setup eigh exp brentq beta e_k' mu_min mu_max (@mat2vec C n) s' N M0' mu0).
Proof.
move=> hs es h0 e0; rewrite /solve_setup; have [em1 _] := solve_basis N hs es; have [em er] := solve_basis N h0 e0.
rewrite em1 em; case: (if mu0 is Some m then Some m else _) => // _; case e1 : update_chemical_potential => [mu|] //=; have [sv er'] := er _ e1; by split=> //; split.
Qed.
Lemma mixed_basis m v v' w w' : m \is Num.real -> same_vec v v' -> same_vec w w' -> same_vec (mixed m v w) (mixed m v' w').
Proof.
move=> mR [A [hA -> ->]] [B [hB -> ->]]; exists ((1 - m) *: A + m *: B); rewrite !mixed_pack // in_basisD !in_basisZ; split=> //.
by apply: hermD; apply: hermZ => //; rewrite rpredB ?rpred1.
Qed.
Local Notation iter := (iterate eigh exp brentq beta e_k U mu_min mu_max (@mat2vec C n) (vec2mat n)).
Local Notation iter' := (iterate eigh exp brentq beta e_k' U' mu_min mu_max (@mat2vec C n) (vec2mat n)).
Lemma iterate_basis fuel N m tol s s' v v' h h' r r' : m \is Num.real -> same_vec v v' -> same_state s s' -> hermitian_mx (s_M s) ->
  size h = size h' -> (forall t, (t < size h)%N -> same_vec (nth [::] h t) (nth [::] h' t)) ->
  iter fuel N m tol s v h = Some r -> iter' fuel N m tol s' v' h' = Some r' ->
  (forall t, (t < minn (size r.2) (size r'.2))%N -> same_vec (nth [::] r.2 t) (nth [::] r'.2 t)) /\
  (size r.2 = size r'.2 -> same_state r.1 r'.1 /\ hermitian_mx (s_M r.1)).
Proof.
move=> mR; elim: fuel s s' v v' h h' => [|fuel ih] s s' v v' h h' hv hs hM sz hh.
  by move=> [<-] [<-] /=; split=> // t; rewrite -sz minnn; apply: hh.
have sz' : size (rcons h v) = size (rcons h' v') by rewrite !size_rcons sz.
have hh' t : (t < size (rcons h v))%N -> same_vec (nth [::] (rcons h v) t) (nth [::] (rcons h' v') t).
  rewrite size_rcons !nth_rcons -sz ltnS leq_eqVlt => /orP[/eqP ->|ht]; first by rewrite ltnn eqxx.
  by rewrite ht; apply: hh.
rewrite !iterateS; have := step_basis s s' N hv; case: (step _ _ _) => [[s1 v1]|] //; case: (step' _ _ _) => [[s1' v1']|] // [hs1 hM1 hv1].
have mono (ek : K -> mx) (T : arr4 C) f s0 v0 h0 r0 : iterate eigh exp brentq beta ek T mu_min mu_max (@mat2vec C n) (vec2mat n) f N m tol s0 v0 h0 = Some r0 ->
    exists x, r0.2 = h0 ++ x /\ if f is 0%N then r0.1 = s0 else x != [::].
  case: r0 => s2 h2 hr; have /iterate_proof[x [-> _ hx _ _]] := hr; exists x; split=> //.
  by case: f hr hx => [[<-] //|f _ /(_ isT)[x' ->]].
case: ifP => b1; case: ifP => b2.
- by move=> [<-] [<-] /=; split=> // t; rewrite -sz' minnn; apply: hh'.
- move=> [<-] /mono[x [e2 ex]] /=; split=> [t|].
    rewrite e2 size_cat -sz' (minn_idPl (leq_addr _ _)) => ht; rewrite nth_cat -sz' ht; exact: hh'.
  rewrite e2 size_cat sz' => /eqP; rewrite -{1}[size _]addn0 eqn_add2l eq_sym => /eqP/size0nil ex'; by move: ex; rewrite ex'; case: (fuel) => // ->.
- move=> /mono[x [e2 ex]] [<-] /=; split=> [t|].
    rewrite e2 size_cat -sz' (minn_idPr (leq_addr _ _)) => ht; rewrite nth_cat ht; exact: hh'.
  rewrite e2 size_cat -sz' => /eqP; rewrite -{2}[size _]addn0 eqn_add2l => /eqP/size0nil ex'; by move: ex; rewrite ex'; case: (fuel) => // ->.
- by apply: ih => //; apply: mixed_basis.
Qed.
Local Notation solve := (solve_iter eigh exp brentq beta e_k U mu_min mu_max (@mat2vec C n) (vec2mat n)).
Local Notation solve' := (solve_iter eigh exp brentq beta e_k' U' mu_min mu_max (@mat2vec C n) (vec2mat n)).
Local Notation total := (update_total_energy eigh exp log beta U e_k).
Local Notation total' := (update_total_energy eigh exp log beta U' e_k').
Section Solve.
Variables (s s' s1 s1' : solver C n) (h h' : seq (seq C)) (N mixing tol : C) (M0 : mx) (mu0 : option C) (nitermax : nat).
Hypotheses (hs : hermitian_mx (s_M s)) (es : s_M s' = in_basis V (s_M s)) (h0 : hermitian_mx M0).
Hypotheses (run : solve s N M0 mu0 nitermax mixing tol = Some (s1, h)) (run' : solve' s' N (in_basis V M0) mu0 nitermax mixing tol = Some (s1', h')).
Lemma runs : (forall t, (t < minn (size h) (size h'))%N -> same_vec (nth [::] h t) (nth [::] h' t)) /\
  (size h = size h' -> same_state s1 s1' /\ hermitian_mx (s_M s1)).
Proof.
move: run run'; rewrite /solve_iter; case: ifP => // /andP[m0 _].
have := setup_basis N mu0 hs es h0 erefl.
case: (solve_setup _ _ _ _ _ _ _ _ _ _ _ _) => [[s0 v0]|] //; case: (solve_setup _ _ _ _ _ _ _ _ _ _ _ _) => [[s0' v0']|] // [ss hm sv] r r'.
exact: (iterate_basis (r := (s1, h)) (r' := (s1', h')) (ger0_real m0) sv ss hm _ _ r r').
Qed.
(* C109: the densities of the two histories are the same in the two bases *)
Theorem C109_history t : (t < size h)%N -> (t < size h')%N ->
  exists rho, [/\ hermitian_mx rho, vec2mat n (nth [::] h t) = Some rho & vec2mat n (nth [::] h' t) = Some (in_basis V rho)].
Proof.
move=> t1 t2; have [/(_ t) + _] := runs; rewrite leq_min t1 t2 => /(_ isT)[rho [hr e1 e2]]; exists rho; split=> //.
  by rewrite e1 C36_matrix_proof.
by rewrite e2 C36_matrix_proof //; apply: in_basis_herm.
Qed.
(* C109: after equally many iterations the attributes of the solvers are the same in the two bases, and the energies agree *)
Theorem C109_result : size h = size h' -> [/\ s_mu s1' = s_mu s1, s_M s1' = in_basis V (s_M s1), s_rho s1' = in_basis V (s_rho s1),
  N_tot (s_rho s1') = N_tot (s_rho s1) &
  total' (update_mean_field_dispersion e_k' (s_M s1')) (s_mu s1') (s_rho s1') = total (update_mean_field_dispersion e_k (s_M s1)) (s_mu s1) (s_rho s1)].
Proof.
move=> sz; have [_ /(_ sz)[[em eM er] hM]] := runs; split=> //.
  by rewrite er /N_tot -!/(\tr _) /in_basis mxtrace_mulC mulmxA (unit_other uV) mul1mx.
have he := mean_disp_herm hM; have he' := mean_disp eM.
by rewrite /update_total_energy em er (energy_basis _ uV hU') (free_basis he he') (kinetic_basis _ he he').
Qed.
End Solve.
End Run.

Section Statements.
Variables (C : numClosedFieldType) (n : nat) (K : finType).
Local Notation mx := 'M[C]_n.
Variables (eigh : mx -> 'rV[C]_n * mx) (exp : C -> C) (brentq : (C -> C) -> C -> C -> option C) (beta : C).
Hypotheses (hE : forall m, hermitian_mx m -> eigh_at eigh m) (bC : brentq_calls brentq).
Hypotheses (betaR : beta \is Num.real) (expP : forall x, x \is Num.real -> 0 < exp x) (bR : forall f a b x, brentq f a b = Some x -> x \is Num.real).
Variables (V : mx) (uV : unitary_mx V) (e_k : K -> mx) (U : arr4 C) (mu_min mu_max : option C).
Hypotheses (hk : forall k, hermitian_mx (e_k k)) (hU : hermitian_tensor n U).
Variables (s : solver C n) (N mixing tol : C) (M0 : mx) (mu0 : option C) (nitermax : nat).
Hypotheses (hs : hermitian_mx (s_M s)) (h0 : hermitian_mx M0).
Local Notation solve e U := (solve_iter eigh exp brentq beta e U mu_min mu_max (@mat2vec C n) (vec2mat n)).
(* C109: a symmetry of the Hamiltonian and of the start is one of every density matrix and of the solution *)
Theorem C109_symmetry s1 h : (forall k, in_basis V (e_k k) = e_k k) -> tensor_in_basis V U U -> in_basis V (s_M s) = s_M s -> in_basis V M0 = M0 ->
  solve e_k U s N M0 mu0 nitermax mixing tol = Some (s1, h) ->
  [/\ in_basis V (s_M s1) = s_M s1, in_basis V (s_rho s1) = s_rho s1 &
    forall t, (t < size h)%N -> exists rho, vec2mat n (nth [::] h t) = Some rho /\ in_basis V rho = rho].
Proof.
move=> ek eU es e0 run; have ek' k : e_k k = in_basis V (e_k k) by rewrite ek.
have run' : solve e_k U s N (in_basis V M0) mu0 nitermax mixing tol = Some (s1, h) by rewrite e0.
have [_ hM hr _ _] := C109_result (fun x => x) hE bC betaR expP bR uV hk ek' hU eU hs (esym es) h0 run run' erefl.
split=> // t ht; have [rho [_ e1 e2]] := C109_history hE bC betaR expP bR uV hk ek' hU eU hs (esym es) h0 run run' ht ht.
by exists rho; split=> //; move: e2; rewrite e1 => -[].
Qed.
(* C109: without convergence criterion both run equally long, or both raise *)
Lemma below0 (v w : seq C) : tol <= 0 -> below tol v w = false.
Proof.
move=> t0; rewrite /below; apply/negbTE; rewrite negb_and; apply/orP; right; apply/negP => lt.
have ge : 0 <= norm [seq p.1 - p.2 | p <- zip v w] / norm v by rewrite divr_ge0 // sqrtC_ge0; apply: sumr_ge0 => i _; rewrite exprn_ge0.
by have := le_lt_trans ge (lt_le_trans lt t0); rewrite ltxx.
Qed.
Theorem C109_fixed_number e_k' U' s' : (forall k, e_k' k = in_basis V (e_k k)) -> tensor_in_basis V U U' -> s_M s' = in_basis V (s_M s) -> tol <= 0 ->
  match solve e_k U s N M0 mu0 nitermax mixing tol, solve e_k' U' s' N (in_basis V M0) mu0 nitermax mixing tol with
  | Some (_, h), Some (_, h') => size h = size h' | None, None => True | _, _ => False end.
Proof.
move=> ek eU es t0; rewrite /solve_iter; case: ifP => // /andP[m0 _].
have := setup_basis hE bC betaR expP bR uV mu_min mu_max hk ek N mu0 hs es h0 erefl.
case: (solve_setup _ _ _ _ _ _ _ _ _ _ _ _) => [[s0 v0]|] //; case: (solve_setup _ _ _ _ _ _ _ _ _ _ _ _) => [[s0' v0']|] // [_ _ sv].
suff gen (h h' : seq (seq C)) : size h = size h' -> match iterate eigh exp brentq beta e_k U mu_min mu_max (@mat2vec C n) (vec2mat n) nitermax N mixing tol s0 v0 h,
    iterate eigh exp brentq beta e_k' U' mu_min mu_max (@mat2vec C n) (vec2mat n) nitermax N mixing tol s0' v0' h' with
  | Some (_, h), Some (_, h') => size h = size h' | None, None => True | _, _ => False end by exact: gen.
elim: nitermax s0 s0' v0 v0' h h' sv => [|f ih] s0 s0' v0 v0' h h' sv sz //.
rewrite !iterateS; have := step_basis hE bC betaR expP bR uV mu_min mu_max hk ek hU eU s0 s0' N sv.
case: (density_matrix_step _ _ _ _ _ _ _ _ _ _ _ _ _) => [[s2 v2]|] //; case: (density_matrix_step _ _ _ _ _ _ _ _ _ _ _ _ _) => [[s2' v2']|] // [_ _ sv2].
rewrite !below0 //; apply: ih; last by rewrite !size_rcons sz.
by apply: mixed_basis => //; apply: ger0_real.
Qed.
End Statements.

(* One momentum, two orbitals without Hamiltonian; the start has a splitting of the levels, diagonal in one basis. *)
Section Refuted.
Variables (C : numClosedFieldType) (eigh : 'M[C]_2 -> 'rV[C]_2 * 'M[C]_2).
Hypothesis hE : forall m, hermitian_mx m -> eigh_at eigh m.
Add Field Cfield : (fld_ft (Num.ClosedField.fieldType C)).
Local Notation mx := 'M[C]_2.
Definition ref_brentq (f : C -> C) (a b : C) : option C := if f 0 == 0 then Some 0 else None.
Definition ref_e (k : unit) : mx := 0.
Definition ref_U : arr4 C := fun _ _ _ _ => 0.
Definition ref_l : 'rV[C]_2 := \row_i (if i == 0 then 1 else - 1).
Definition ref_V : mx := \matrix_(i, j) ((sqrtC 2%:R)^-1 * (if (i == 1) && (j == 1) then - 1 else 1)).
Lemma ref_unitary : unitary_mx ref_V.
Proof.
pose h : C := (sqrtC 2%:R)^-1.
have hC : h^* = h by apply/CrealP; rewrite realV ger0_real // sqrtC_ge0 ler0n.
have e : h * h + h * h = 1 by rewrite /h -invfM -expr2 sqrtCK -mulr2n -[_ *+ 2]mulr_natl mulfV ?pnatr_eq0.
apply/matrixP=> i j; rewrite !mxE !big_ord_recl big_ord0 !mxE !rmorphM /= -/h hC addr0.
by case: i => [[|[|i]] hi] //; case: j => [[|[|j]] hj] //=; rewrite ?(rmorphN, rmorph1) /= !(mulr1, mulrN1, mulrN, mulNr, opprK) ?subrr ?addNr ?e.
Qed.
Lemma ref_fermi1 : fermi (@case_exp C) 1 1 = 2%:R / 6%:R.
Proof.
have n2 : (2%:R : C) <> 0 by apply/eqP; rewrite pnatr_eq0.
have n3 : (3%:R : C) <> 0 by apply/eqP; rewrite pnatr_eq0.
have -> : fermi (@case_exp C) 1 1 = 1 / 3%:R by rewrite /fermi /case_exp mulr1 ler01 -addrA.
rewrite -[6%:R]/((2 * 3)%:R) natrM; move: n2 n3; move: (2%:R : C) (3%:R : C) => a b *; ffield C; by split.
Qed.
Lemma ref_fermiN : fermi (@case_exp C) 1 (- 1) = 4%:R / 6%:R.
Proof.
have n2 : (2%:R : C) <> 0 by apply/eqP; rewrite pnatr_eq0.
have n3 : (3%:R : C) <> 0 by apply/eqP; rewrite pnatr_eq0.
have -> : fermi (@case_exp C) 1 (- 1) = 1 / (2%:R^-1 + 1) by rewrite /fermi /case_exp !mul1r oppr_ge0 ler10 opprK.
have -> : 2%:R^-1 + 1 = 3%:R / 2%:R :> C by rewrite -[3%:R]/(1 + 2%:R) mulrDl mulfV ?mul1r //; apply/eqP.
rewrite -[4%:R]/((2 * 2)%:R) -[6%:R]/((2 * 3)%:R) !natrM; move: n2 n3; move: (2%:R : C) (3%:R : C) => a b *; ffield C; by split.
Qed.
Lemma ref_fermi0 : fermi (@case_exp C) 1 0 = 3%:R / 6%:R.
Proof.
rewrite /fermi /case_exp mulr0 lexx addr0 -[6%:R]/((3 * 2)%:R) natrM invfM mulrA mulfV ?pnatr_eq0 //.
Qed.
Section Level.
Variables (W : mx) (l : 'rV[C]_2) (e : unit -> mx).
Hypotheses (uW : unitary_mx W) (hl : forall i, l 0 i \is Num.real) (he : e tt = in_basis W (diag_mx l)).
Lemma diag_herm (l1 : 'rV[C]_2) : (forall i, l1 0 i \is Num.real) -> hermitian_mx (diag_mx l1).
Proof. by move=> h; apply/matrixP=> i j; rewrite !mxE eq_sym; case: (i =P j) => [->|_]; rewrite ?mulr1n ?mulr0n ?conjC0 // (CrealP (h _)). Qed.
Lemma e_decomp (f : C -> C) : (eigh (e tt)).2 *m diag_mx (map_mx f (eigh (e tt)).1) *m adjoint (eigh (e tt)).2 = in_basis W (diag_mx (map_mx f l)) /\
  \sum_i f ((eigh (e tt)).1 0 i) = \sum_i f (l 0 i).
Proof.
have := hE (in_basis_herm W (diag_herm hl)); rewrite -he /eigh_at; case: (eigh _) => l2 U2 [_ u2 e2] /=.
have a1 : adjoint (1%:M : mx) = 1%:M by apply/matrixP=> i j; rewrite !mxE rmorph_nat eq_sym.
have u1 : unitary_mx (1%:M : mx) by rewrite /unitary_mx a1 mulmx1.
by have := @same_function C 2 W l l2 1%:M U2 f uW u1 u2; rewrite !mul1mx a1 !mulmx1; apply; rewrite -e2.
Qed.
Lemma ref_density : update_density_matrix eigh (@case_exp C) 1 e 0 = in_basis W (diag_mx (map_mx (fermi (@case_exp C) 1) l)).
Proof.
rewrite /update_density_matrix /n_k card_unit invr1 scale1r (big_pred1 tt); last by case.
rewrite density_kE; have [-> _] := e_decomp (fun x => fermi (@case_exp C) 1 (x - 0)).
by congr (in_basis W (diag_mx _)); apply/matrixP=> i j; rewrite !mxE subr0.
Qed.
Lemma ref_mu : \sum_i fermi (@case_exp C) 1 (l 0 i) = 1 -> update_chemical_potential eigh (@case_exp C) ref_brentq 1 None None e 1 = Some 0.
Proof.
move=> h; rewrite /update_chemical_potential /ref_brentq /target_function levels_sum (big_pred1 tt); last by case.
have [_ ->] := e_decomp (fun x => fermi (@case_exp C) 1 (x - 0)); rewrite /n_k card_unit divr1 (_ : _ - 1 = 0) ?eqxx //.
by under eq_bigr do rewrite subr0; rewrite h subrr.
Qed.
End Level.
Lemma pack2 (m : mx) : mat2vec m = [:: 'Re (m 0 0); 'Re (m 1 1); 'Re (m 0 1); 'Im (m 0 1)].
Proof.
have e0 : (insub 0%N : option 'I_2) = Some 0 by rewrite insubT //; congr Some; apply: val_inj.
have e1 : (insub 1%N : option 'I_2) = Some 1 by rewrite insubT //; congr Some; apply: val_inj.
by rewrite /mat2vec /triu /all_pairs /at_ /= e0 e1.
Qed.
Lemma ref_state : hermitian_mx (diag_mx ref_l) /\ \sum_i fermi (@case_exp C) 1 (ref_l 0 i) = 1.
Proof.
split; first by apply: diag_herm => i; rewrite mxE; case: ifP => _; rewrite ?realN ?real1.
rewrite !big_ord_recl big_ord0 !mxE /= ref_fermi1 ref_fermiN addr0 -mulrDl -natrD mulfV // pnatr_eq0 //.
Qed.
Lemma ref_zero (W : mx) : unitary_mx W -> (0 : mx) = in_basis W (diag_mx 0).
Proof. by move=> _; rewrite /in_basis raddf0 mulmx0 mul0mx. Qed.
Lemma ref_half (W : mx) : unitary_mx W -> in_basis W (diag_mx (map_mx (fermi (@case_exp C) 1) (0 : 'rV[C]_2))) = (3%:R / 6%:R)%:M.
Proof.
move=> uW; have -> : diag_mx (map_mx (fermi (@case_exp C) 1) (0 : 'rV[C]_2)) = (3%:R / 6%:R)%:M :> mx by apply/matrixP=> i j; rewrite !mxE ref_fermi0.
by rewrite /in_basis mul_mx_scalar -scalemxAl uW scalemx1.
Qed.
Lemma sum0 : \sum_i fermi (@case_exp C) 1 ((0 : 'rV[C]_2) 0 i) = 1.
Proof. by rewrite !big_ord_recl big_ord0 !mxE ref_fermi0 addr0 -mulrDl -natrD mulfV // pnatr_eq0. Qed.
Lemma real6 k : (k%:R / 6%:R : C) \is Num.real. Proof. by rewrite ger0_real // divr_ge0 ?ler0n. Qed.
Lemma pack_half : mat2vec ((3%:R / 6%:R)%:M : mx) = [:: 3%:R / 6%:R; 3%:R / 6%:R; 0; 0].
Proof. by rewrite pack2 !mxE /= mulr1n mulr0n raddf0 raddf0 (Creal_ReP _ (real6 3)). Qed.
Local Notation solve := (solve_iter eigh (@case_exp C) ref_brentq 1 ref_e ref_U None None (@mat2vec C 2) (vec2mat 2) (Solver 0 0 0)).
Lemma ref_setup (W : mx) : unitary_mx W -> exists s0, solve_setup eigh (@case_exp C) ref_brentq 1 ref_e None None (@mat2vec C 2) (Solver 0 0 0) 1 (in_basis W (diag_mx ref_l)) None =
  Some (s0, mat2vec (in_basis W (diag_mx (map_mx (fermi (@case_exp C) 1) ref_l)))).
Proof.
move=> uW; have [_ sl] := ref_state.
have rl i : ref_l 0 i \is Num.real by rewrite mxE; case: ifP => _; rewrite ?realN ?real1.
have r0 i : (0 : 'rV[C]_2) 0 i \is Num.real by rewrite mxE real0.
rewrite /solve_setup (ref_mu uW r0 (e := update_mean_field_dispersion ref_e 0) _ sum0); last by rewrite /update_mean_field_dispersion addr0 -ref_zero.
have e1 : update_mean_field_dispersion ref_e (in_basis W (diag_mx ref_l)) tt = in_basis W (diag_mx ref_l) by rewrite /update_mean_field_dispersion add0r.
rewrite (ref_mu uW rl e1 sl) (ref_density uW rl e1); by eexists.
Qed.
Lemma ref_step s v rho : vec2mat 2 v = Some rho -> exists s1, density_matrix_step eigh (@case_exp C) ref_brentq 1 ref_e ref_U None None (@mat2vec C 2) (vec2mat 2) s v (Some 1) =
  Some (s1, [:: 3%:R / 6%:R; 3%:R / 6%:R; 0; 0]).
Proof.
move=> ev; have r0 i : (0 : 'rV[C]_2) 0 i \is Num.real by rewrite mxE real0.
have uV := ref_unitary; rewrite /density_matrix_step ev.
have e1 : update_mean_field_dispersion ref_e (update_mean_field ref_U rho) tt = in_basis ref_V (diag_mx 0).
  rewrite -ref_zero // /update_mean_field_dispersion add0r; apply/matrixP=> i j; rewrite !mxE big1 // => c _; rewrite big1 // => d _; by rewrite oppr0 mul0r.
rewrite (ref_mu uV r0 e1 sum0) (ref_density uV r0 e1) (ref_half uV) pack_half; by eexists.
Qed.
Lemma basis_one (A : mx) : in_basis 1%:M A = A.
Proof. by rewrite /in_basis mul1mx (_ : adjoint _ = 1%:M) ?mulmx1 //; apply/matrixP=> i j; rewrite !mxE rmorph_nat eq_sym. Qed.
Lemma unitary_one : unitary_mx (1%:M : mx).
Proof. by rewrite /unitary_mx mul1mx; apply/matrixP=> i j; rewrite !mxE rmorph_nat eq_sym. Qed.
Lemma pack_diag : mat2vec (diag_mx (map_mx (fermi (@case_exp C) 1) ref_l)) = [:: 2%:R / 6%:R; 4%:R / 6%:R; 0; 0].
Proof. by rewrite pack2 !mxE /= ref_fermi1 ref_fermiN !mulr1n mulr0n !raddf0 !(Creal_ReP _ (real6 _)). Qed.
Lemma pack_rot : mat2vec (in_basis ref_V (diag_mx (map_mx (fermi (@case_exp C) 1) ref_l))) = [:: 3%:R / 6%:R; 3%:R / 6%:R; - (1 / 6%:R); 0].
Proof.
pose h : C := (sqrtC 2%:R)^-1.
have hC : h^* = h by apply/CrealP; rewrite realV ger0_real // sqrtC_ge0 ler0n.
have e : h * h = 2%:R^-1 by rewrite /h -invfM -expr2 sqrtCK.
have n2 : (2%:R : C) <> 0 by apply/eqP; rewrite pnatr_eq0.
have el i j (a b : C) : a = ref_V i 0 * (ref_V j 0)^* * (2%:R / 6%:R) + ref_V i 1 * (ref_V j 1)^* * (4%:R / 6%:R) -> in_basis ref_V (diag_mx (map_mx (fermi (@case_exp C) 1) ref_l)) i j = a.
  move=> ->; rewrite in_basisE !big_ord_recl !big_ord0 !mxE /= ref_fermi1 ref_fermiN !mulr1n !mulr0n !mulr0 !addr0 add0r; by [].
have n6 : (6%:R : C) <> 0 by apply/eqP; rewrite pnatr_eq0.
have v00 : ref_V 0 0 = h by rewrite mxE mulr1. have v01 : ref_V 0 1 = h by rewrite mxE mulr1.
have v10 : ref_V 1 0 = h by rewrite mxE mulr1. have v11 : ref_V 1 1 = - h by rewrite mxE mulrN1.
have f4 : (4%:R : C) = 2%:R + 2%:R by rewrite -natrD. have f3 : (3%:R : C) = 2%:R + 1 by rewrite -(natrD _ 2 1).
have e00 : in_basis ref_V (diag_mx (map_mx (fermi (@case_exp C) 1) ref_l)) 0 0 = 3%:R / 6%:R.
  apply: el => //; rewrite v00 v01 hC e f4 f3; move: n2 n6; rewrite (_ : 2%:R = 1 + 1) //; move: (6%:R : C) => x *; ffield C; by split.
have e11 : in_basis ref_V (diag_mx (map_mx (fermi (@case_exp C) 1) ref_l)) 1 1 = 3%:R / 6%:R.
  apply: el => //; rewrite v10 v11 rmorphN /= hC mulrNN e f4 f3; move: n2 n6; rewrite (_ : 2%:R = 1 + 1) //; move: (6%:R : C) => x *; ffield C; by split.
have e01 : in_basis ref_V (diag_mx (map_mx (fermi (@case_exp C) 1) ref_l)) 0 1 = - (1 / 6%:R).
  apply: el => //; rewrite v00 v10 v01 v11 rmorphN /= hC mulrN e f4; move: n2 n6; rewrite (_ : 2%:R = 1 + 1) //; move: (6%:R : C) => x *; ffield C; by split.
have r1 : (- (1 / 6%:R) : C) \is Num.real by rewrite realN (real6 1).
by rewrite pack2 e00 e11 e01 (Creal_ReP _ (real6 3)) (Creal_ReP _ r1) (Creal_ImP _ r1).
Qed.
(* C109: the number of iterations depends on the basis, since the packed vector has every element above the diagonal once *)
Theorem C109_iterations_refuted : let M0 := diag_mx ref_l in
  [/\ brentq_root ref_brentq, brentq_calls ref_brentq, tensor_in_basis ref_V ref_U ref_U /\ unitary_mx ref_V, forall k, ref_e k = in_basis ref_V (ref_e k) &
    exists s1 s1' h h', [/\ solve 1 M0 None 2 2%:R^-1 4%:R^-1 = Some (s1, h), solve 1 (in_basis ref_V M0) None 2 2%:R^-1 4%:R^-1 = Some (s1', h'), size h = 2%N & size h' = 1%N]].
Proof.
have m01 : (0 <= 2%:R^-1 :> C) && (2%:R^-1 <= 1 :> C) by rewrite invr_ge0 ler0n invf_le1 ?ler1n ?ltr0n.
have t0 : 0 <= 4%:R^-1 :> C by rewrite invr_ge0 ler0n.
have uV := ref_unitary; have [hm _] := ref_state.
have herm : hermitian_mx (diag_mx (map_mx (fermi (@case_exp C) 1) ref_l)).
  apply: diag_herm => i; rewrite !mxE; case: ifP => _; by rewrite ?ref_fermi1 ?ref_fermiN real6.
have x0 : 0 < (6%:R^-1 : C) ^+ 2 by rewrite exprn_gt0 // invr_gt0 ltr0n.
split.
- by move=> f a b x; rewrite /ref_brentq; case: eqP => // e [<-].
- by move=> f g a b e; rewrite /ref_brentq e.
- by split=> // a b c d; rewrite big1 // => ? _; rewrite big1 // => ? _; rewrite big1 // => ? _; rewrite big1 // => ? _; rewrite mulr0.
- by move=> k; rewrite /in_basis mulmx0 mul0mx.
have [s0 e0] := ref_setup unitary_one; have [s0' e0'] := ref_setup uV; rewrite !basis_one in e0.
have u0 := C36_matrix_proof herm; have u0' := C36_matrix_proof (in_basis_herm ref_V herm).
have [s1 st] := ref_step s0 u0; have [s1' st'] := ref_step s0' u0'.
rewrite pack_diag in e0 st; rewrite pack_rot in e0' st'.
have four : (4%:R^-1 : C) ^+ 2 = 16%:R^-1 by rewrite exprVn -natrX.
have nk k : `|k%:R / 6%:R| ^+ 2 = k%:R ^+ 2 * 6%:R^-1 ^+ 2 :> C by rewrite ger0_norm ?divr_ge0 ?ler0n // exprMn.
have b1 : below (4%:R^-1 : C) [:: 2%:R / 6%:R; 4%:R / 6%:R; 0; 0] [:: 3%:R / 6%:R; 3%:R / 6%:R; 0; 0] = false.
  apply/negbTE/negP => b; have : close (4%:R^-1 : C) [:: 2%:R / 6%:R; 4%:R / 6%:R; 0; 0] [:: 3%:R / 6%:R; 3%:R / 6%:R; 0; 0] by apply/(below_close t0).
  have d1 : 2%:R / 6%:R - 3%:R / 6%:R = - (1%:R / 6%:R) :> C by rewrite -mulrBl -opprB -natrB // mulNr.
  have d2 : 4%:R / 6%:R - 3%:R / 6%:R = 1%:R / 6%:R :> C by rewrite -mulrBl -natrB.
  rewrite /close /= !big_ord_recl !big_ord0 /= !subrr four d1 d2 normrN !nk normr0 !expr0n /= !addr0.
  rewrite -!mulrDl [16%:R^-1 * _]mulrA ltr_pmul2r // -!natrX -!natrD [16%:R^-1 * _]mulrC ltr_pdivl_mulr ?ltr0n // mulr1 -natrM ltr_nat //.
have b1' : below (4%:R^-1 : C) [:: 3%:R / 6%:R; 3%:R / 6%:R; - (1 / 6%:R); 0] [:: 3%:R / 6%:R; 3%:R / 6%:R; 0; 0].
  apply/(below_close t0) => //; rewrite /close /= !big_ord_recl !big_ord0 /= !subrr subr0 four normrN !nk normr0 !expr0n /= !addr0 !add0r.
  by rewrite (nk 1%N) -!mulrDl [16%:R^-1 * _]mulrA ltr_pmul2r // -!natrX -!natrD [16%:R^-1 * _]mulrC ltr_pdivl_mulr ?ltr0n // -natrM ltr_nat.
have [rho2 e2] : exists rho, vec2mat 2 (mixed 2%:R^-1 [:: 2%:R / 6%:R; 4%:R / 6%:R; 0; 0] [:: 3%:R / 6%:R; 3%:R / 6%:R; 0; 0]) = Some (rho : mx).
  by rewrite vec2matE //; eexists.
have [s2 st2] := ref_step s1 e2.
exists (if below (4%:R^-1 : C) (mixed 2%:R^-1 [:: 2%:R / 6%:R; 4%:R / 6%:R; 0; 0] [:: 3%:R / 6%:R; 3%:R / 6%:R; 0; 0]) [:: 3%:R / 6%:R; 3%:R / 6%:R; 0; 0] then s2 else s2), s1'.
eexists; eexists; rewrite /solve_iter m01 e0 e0' !iterateS st b1 iterateS st2 st' b1'; split; [by case: ifP | by [] | by [] | by []].
Qed.
End Refuted.

(* the eigenvalue routine assumed above exists *)
Theorem C109_eigh_exists (C : numClosedFieldType) n : exists eigh : 'M[C]_n -> 'rV[C]_n * 'M[C]_n, forall m, hermitian_mx m -> eigh_at eigh m.
Proof.
pose good (m : 'M[C]_n) (p : 'rV[C]_n * 'M[C]_n) := (adjoint m == m) ==> [&& [forall i, p.1 0 i \is Num.real], p.2 *m adjoint p.2 == 1%:M & m == p.2 *m diag_mx p.1 *m adjoint p.2].
have hcE (m : 'M[C]_n) : hc m = adjoint m by apply/matrixP=> i j; rewrite !mxE.
have h m : exists p, good m p.
  have [hm|hm] := boolP (adjoint m == m); last by exists (0, 0); rewrite /good (negbTE hm).
  have hm' : hc m = m by rewrite hcE; exact/eqP.
  have [l [U [h1 h2 h3]]] := spectral hm'; exists (l, U); rewrite /good hm /= -!hcE; apply/and3P; split; [exact/forallP | exact/eqP | exact/eqP].
exists (fun m => xchoose (h m)) => m hm; have := xchooseP (h m); rewrite /good {1}hm eqxx /= /eigh_at; case: (xchoose _) => e V /and3P[/forallP h1 /eqP h2 /eqP h3].
by split.
Qed.
Print Assumptions C109_history.
Print Assumptions C109_result.
Print Assumptions C109_symmetry.
Print Assumptions C109_fixed_number.
Print Assumptions C109_iterations_refuted.
Print Assumptions C109_eigh_exists.
