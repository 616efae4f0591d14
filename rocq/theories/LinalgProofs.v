From mathcomp Require Import all_ssreflect all_algebra.
From Verif Require Import Base LinalgModel LinalgSpec.
Set Implicit Arguments.
Unset Strict Implicit.
Unset Printing Implicit Defensive.
Import GRing.Theory.
Local Open Scope ring_scope.

Section P.
Variables (F : fieldType) (nn nb : nat).
Local Notation g2 := (g2nn F nn nb).
Local Notation "A =t B" := (eq_g2 A B) (at level 70).

Lemma tidxE (n : 'I_nn) (x y : 'I_nb) :
  (tnu (tidx n x y) = n) * (tx (tidx n x y) = x) * (ty (tidx n x y) = y).
Proof. by rewrite /tnu /tx /ty /tidx !pidxK1 !pidxK2. Qed.

Lemma tidx_eta (i : 'I_(nn * nb * nb)) : tidx (tnu i) (tx i) (ty i) = i.
Proof. by rewrite /tidx /tnu /tx /ty !pidx_eta. Qed.

Lemma tidx_eq (n n' : 'I_nn) (x y x' y' : 'I_nb) :
  (tidx n x y == tidx n' x' y') = (n == n') && ((x == x') && (y == y')).
Proof. by rewrite /tidx !pidx_eq andbA. Qed.

Lemma sum_tidx (V : zmodType) (f : 'I_(nn * nb * nb) -> V) :
  \sum_k f k = \sum_n \sum_x \sum_y f (tidx n x y).
Proof. by rewrite sum_pidx sum_pidx. Qed.

Lemma chmatE C (g : g2) n n' a b c d :
  chmat C g (channel_row C n a b c d) (channel_col C n' a b c d) = g n n' a b c d.
Proof. by case: C; rewrite mxE !tidxE. Qed.

Lemma chtenK C (M : 'M[F]_(nn * nb * nb)) : chmat C (chten C M) = M.
Proof.
by apply/matrixP=> i j; rewrite mxE; case: C; rewrite /chten /= !tidx_eta.
Qed.

Lemma chmatK C (g : g2) : chten C (chmat C g) =t g.
Proof. by move=> n n' a b c d; rewrite /chten chmatE. Qed.

Lemma chmat_inj C (A B : g2) : chmat C A = chmat C B <-> A =t B.
Proof.
split=> [h n n' a b c d|h]; first by rewrite -(chmatE C) h chmatE.
by apply/matrixP=> i j; rewrite !mxE; case: C; rewrite h.
Qed.

Lemma product_mat C (A B : g2) : chmat C (product C A B) = chmat C A *m chmat C B.
Proof. exact: chtenK. Qed.
Lemma identity_mat C : chmat C (identity F nn nb C) = 1%:M.
Proof. exact: chtenK. Qed.
Lemma inverse_mat C (A : g2) : chmat C (inverse C A) = invmx (chmat C A).
Proof. exact: chtenK. Qed.

(* ---- index formulas ---- *)
Lemma product_PH_formula (A B : g2) : product PH A B =t spec_prod_PH A B.
Proof.
move=> n n' a b c d; rewrite /product /chten mxE sum_tidx /spec_prod_PH.
by do 3 (apply: eq_bigr => ? _); rewrite !mxE !tidxE.
Qed.
Lemma product_PH_bar_formula (A B : g2) : product PH_bar A B =t spec_prod_PH_bar A B.
Proof.
move=> n n' a b c d; rewrite /product /chten mxE sum_tidx /spec_prod_PH_bar.
by do 3 (apply: eq_bigr => ? _); rewrite !mxE !tidxE.
Qed.
Lemma product_PP_formula (A B : g2) : product PP A B =t spec_prod_PP A B.
Proof.
move=> n n' a b c d; rewrite /product /chten mxE sum_tidx /spec_prod_PP.
by do 3 (apply: eq_bigr => ? _); rewrite !mxE !tidxE.
Qed.

Lemma identity_PH_formula : identity F nn nb PH =t @spec_id_PH F nn nb.
Proof. by move=> n n' a b c d; rewrite /identity /chten mxE tidx_eq. Qed.
Lemma identity_PH_bar_formula : identity F nn nb PH_bar =t @spec_id_PH_bar F nn nb.
Proof. by move=> n n' a b c d; rewrite /identity /chten mxE tidx_eq. Qed.
Lemma identity_PP_formula : identity F nn nb PP =t @spec_id_PP F nn nb.
Proof. by move=> n n' a b c d; rewrite /identity /chten mxE tidx_eq. Qed.

(* ---- laws ---- *)
Lemma product_ext C (A A' B B' : g2) : A =t A' -> B =t B' -> product C A B =t product C A' B'.
Proof.
by move=> /(chmat_inj C) hA /(chmat_inj C) hB; apply/(chmat_inj C); rewrite !product_mat hA hB.
Qed.

Lemma product_id_l C (A : g2) : product C (identity F nn nb C) A =t A.
Proof. by apply/(chmat_inj C); rewrite product_mat identity_mat mul1mx. Qed.
Lemma product_id_r C (A : g2) : product C A (identity F nn nb C) =t A.
Proof. by apply/(chmat_inj C); rewrite product_mat identity_mat mulmx1. Qed.

Lemma product_assoc C (A B D : g2) :
  product C A (product C B D) =t product C (product C A B) D.
Proof. by apply/(chmat_inj C); rewrite !product_mat mulmxA. Qed.

Lemma chmat_lin C (k : F) (A B : g2) :
  chmat C (fun n n' a b c d => k * A n n' a b c d + B n n' a b c d) = k *: chmat C A + chmat C B.
Proof. by apply/matrixP=> i j; rewrite !mxE; case: C. Qed.

Lemma product_lin_l C (k : F) (A A' B : g2) :
  product C (fun n n' a b c d => k * A n n' a b c d + A' n n' a b c d) B =t
  (fun n n' a b c d => k * product C A B n n' a b c d + product C A' B n n' a b c d).
Proof.
by apply/(chmat_inj C); rewrite product_mat !chmat_lin mulmxDl -scalemxAl -!product_mat.
Qed.
Lemma product_lin_r C (k : F) (A B B' : g2) :
  product C A (fun n n' a b c d => k * B n n' a b c d + B' n n' a b c d) =t
  (fun n n' a b c d => k * product C A B n n' a b c d + product C A B' n n' a b c d).
Proof.
by apply/(chmat_inj C); rewrite product_mat !chmat_lin mulmxDr -scalemxAr -!product_mat.
Qed.

Lemma left_inv_unit C (A B : g2) : product C B A =t identity F nn nb C -> chmat C A \in unitmx.
Proof.
move/(chmat_inj C); rewrite product_mat identity_mat => /mulmx1_unit [_ ->] //.
Qed.

Lemma inverse_left C (A : g2) :
  (exists B, product C B A =t identity F nn nb C) ->
  product C (inverse C A) A =t identity F nn nb C.
Proof.
case=> B /left_inv_unit u; apply/(chmat_inj C).
by rewrite product_mat inverse_mat identity_mat mulVmx.
Qed.
Lemma inverse_right C (A : g2) :
  (exists B, product C B A =t identity F nn nb C) ->
  product C A (inverse C A) =t identity F nn nb C.
Proof.
case=> B /left_inv_unit u; apply/(chmat_inj C).
by rewrite product_mat inverse_mat identity_mat mulmxV.
Qed.
Lemma inverse_unique C (A B : g2) :
  product C B A =t identity F nn nb C -> B =t inverse C A.
Proof.
move=> h; have u := left_inv_unit h; move/(chmat_inj C): h => h.
apply/(chmat_inj C); rewrite inverse_mat; rewrite product_mat identity_mat in h.
by rewrite -[LHS]mulmx1 -(mulmxV u) mulmxA h mul1mx.
Qed.
Lemma inverse_involutive C (A : g2) : inverse C (inverse C A) =t A.
Proof. by apply/(chmat_inj C); rewrite !inverse_mat invmxK. Qed.
Lemma inverse_product C (A B : g2) :
  (exists A', product C A' A =t identity F nn nb C) ->
  (exists B', product C B' B =t identity F nn nb C) ->
  inverse C (product C A B) =t product C (inverse C B) (inverse C A).
Proof.
move=> [A' /left_inv_unit uA] [B' /left_inv_unit uB].
apply/(chmat_inj C); rewrite product_mat !inverse_mat product_mat.
set A0 := chmat C A in uA *; set B0 := chmat C B in uB *.
have uAB : A0 *m B0 \in unitmx by rewrite unitmx_mul uA uB.
have e : (A0 *m B0) *m (invmx B0 *m invmx A0) = 1%:M.
  by rewrite -mulmxA (mulmxA B0) mulmxV // mul1mx mulmxV.
by rewrite -[RHS](mulKmx uAB) e mulmx1.
Qed.

Lemma scalar_product_formula (vL : g2n F nn nb) (M : g2) (vR : g2n F nn nb) a b c d :
  scalar_product_PH vL M vR a b c d = spec_scalar vL M vR a b c d.
Proof.
rewrite /scalar_product_PH /mten -mulmxA mxE sum_tidx /spec_scalar.
do 3 (apply: eq_bigr => ? _).
rewrite [X in _ * X]mxE sum_tidx mulr_sumr; apply: eq_bigr => n' _.
rewrite mulr_sumr; apply: eq_bigr => g _; rewrite mulr_sumr; apply: eq_bigr => h _.
by rewrite !mxE !tidxE !pidxK1 !pidxK2 mulrA.
Qed.

(* the same contraction written in the particle-hole grouping: transpose(L) . M . R *)
Definition ph_col (v : g2n F nn nb) : 'M[F]_(nn * nb * nb, nb * nb) :=
  \matrix_(i, j) v (tnu i) (tx i) (ty i) (psnd j) (pfst j).
Lemma scalar_product_PH_grouping (vL vR : g2n F nn nb) (M : g2) a b c d :
  scalar_product_PH vL M vR a b c d =
  ((ph_col vL)^T *m chmat PH M *m ph_col vR) (pidx a b) (pidx d c).
Proof.
rewrite scalar_product_formula -mulmxA mxE sum_tidx /spec_scalar.
do 3 (apply: eq_bigr => ? _).
rewrite [X in _ * X]mxE sum_tidx mulr_sumr; apply: eq_bigr => n' _.
rewrite exchange_big mulr_sumr; apply: eq_bigr => g _; rewrite mulr_sumr; apply: eq_bigr => h _.
by rewrite !mxE !tidxE !pidxK1 !pidxK2 mulrA.
Qed.
End P.
