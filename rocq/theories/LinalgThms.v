(* C02-C05: algebra of two-particle functions in the three channels. *)
From mathcomp Require Import all_ssreflect all_algebra.
From Verif Require Import Base LinalgModel LinalgSpec LinalgProofs.
Set Implicit Arguments.
Unset Strict Implicit.
Unset Printing Implicit Defensive.
Import GRing.Theory.
Local Open Scope ring_scope.
Local Notation "A =t B" := (eq_g2 A B) (at level 70).

(* C02: the identity is the documented Kronecker delta and a two-sided unit, at every bosonic frequency. *)
Theorem C02_identity_unit (F : fieldType) (nn nb nw : nat) (C : channel)
    (A : g2iw F nn nb nw) (w : 'I_nw) :
  product_iw C (identity_iw C A) A w =t A w /\ product_iw C A (identity_iw C A) w =t A w.
Proof. exact (conj (product_id_l C (A w)) (product_id_r C (A w))). Qed.
Print Assumptions C02_identity_unit.

Theorem C02_identity_formula (F : fieldType) (nn nb : nat) :
  identity F nn nb PH =t @spec_id_PH F nn nb /\
  identity F nn nb PH_bar =t @spec_id_PH_bar F nn nb /\
  identity F nn nb PP =t @spec_id_PP F nn nb.
Proof.
exact (conj (@identity_PH_formula F nn nb)
  (conj (@identity_PH_bar_formula F nn nb) (@identity_PP_formula F nn nb))).
Qed.
Print Assumptions C02_identity_formula.

(* C03: if a left inverse exists at all, [inverse] is a two-sided inverse, the only one; and it is an involution. *)
Theorem C03_inverse_two_sided (F : fieldType) (nn nb nw : nat) (C : channel)
    (A : g2iw F nn nb nw) (w : 'I_nw) :
  (exists B, product C B (A w) =t identity F nn nb C) ->
  product_iw C (inverse_iw C A) A w =t identity F nn nb C /\
  product_iw C A (inverse_iw C A) w =t identity F nn nb C /\
  (forall B, product C B (A w) =t identity F nn nb C -> B =t inverse_iw C A w).
Proof.
exact (fun h => conj (inverse_left h) (conj (inverse_right h) (fun B => @inverse_unique F nn nb C (A w) B))).
Qed.
Print Assumptions C03_inverse_two_sided.

Theorem C03_inverse_involutive (F : fieldType) (nn nb : nat) (C : channel) (A : g2nn F nn nb) :
  inverse C (inverse C A) =t A.
Proof. exact (inverse_involutive C A). Qed.
Print Assumptions C03_inverse_involutive.

Theorem C03_inverse_of_product (F : fieldType) (nn nb : nat) (C : channel) (A B : g2nn F nn nb) :
  (exists A', product C A' A =t identity F nn nb C) ->
  (exists B', product C B' B =t identity F nn nb C) ->
  inverse C (product C A B) =t product C (inverse C B) (inverse C A).
Proof. exact (@inverse_product F nn nb C A B). Qed.
Print Assumptions C03_inverse_of_product.

(* C04: documented contractions, associativity, bilinearity *)
Theorem C04_product_formula (F : fieldType) (nn nb : nat) (A B : g2nn F nn nb) :
  product PH A B =t spec_prod_PH A B /\
  product PH_bar A B =t spec_prod_PH_bar A B /\
  product PP A B =t spec_prod_PP A B.
Proof.
exact (conj (product_PH_formula A B) (conj (product_PH_bar_formula A B) (product_PP_formula A B))).
Qed.
Print Assumptions C04_product_formula.

Theorem C04_product_associative (F : fieldType) (nn nb : nat) (C : channel) (A B D : g2nn F nn nb) :
  product C A (product C B D) =t product C (product C A B) D.
Proof. exact (product_assoc C A B D). Qed.
Print Assumptions C04_product_associative.

Theorem C04_product_bilinear (F : fieldType) (nn nb : nat) (C : channel) (k : F) (A A' B : g2nn F nn nb) :
  product C (fun n n' a b c d => k * A n n' a b c d + A' n n' a b c d) B =t
    (fun n n' a b c d => k * product C A B n n' a b c d + product C A' B n n' a b c d) /\
  product C B (fun n n' a b c d => k * A n n' a b c d + A' n n' a b c d) =t
    (fun n n' a b c d => k * product C B A n n' a b c d + product C B A' n n' a b c d).
Proof. exact (conj (product_lin_l C k A A' B) (product_lin_r C k B A A')). Qed.
Print Assumptions C04_product_bilinear.

(* C05 *)
Theorem C05_scalar_product (F : fieldType) (nn nb : nat) (vL : g2n F nn nb) (M : g2nn F nn nb)
    (vR : g2n F nn nb) a b c d :
  scalar_product_PH vL M vR a b c d = spec_scalar vL M vR a b c d.
Proof. exact (scalar_product_formula vL M vR a b c d). Qed.
Print Assumptions C05_scalar_product.

(* Non-vacuity: for two frequencies and two orbitals, 1 + (one off-diagonal entry) is invertible and
   is not the identity. *)
Section Example.
Let N := (2 * 2 * 2)%N.
Let E : 'M[rat]_N := delta_mx (@tidx 2 2 0 0 0) (@tidx 2 2 0 0 1).
Let A (C : channel) : g2nn rat_fieldType 2 2 := chten C (1%:M + E).

Example invertible_example (C : channel) :
  (exists B, product C B (A C) =t identity rat_fieldType 2 2 C) /\ ~ (A C =t identity rat_fieldType 2 2 C).
Proof.
have EE : E *m E = 0.
  by rewrite mul_delta_mx_cond tidx_eq /= mulr0n.
split.
  exists (chten C (1%:M - E)); apply/(chmat_inj C); rewrite product_mat identity_mat !chtenK.
  by rewrite mulmxDr mulmx1 mulmxBl mul1mx EE subr0 subrK.
move/(chmat_inj C); rewrite identity_mat chtenK => /matrixP /(_ (@tidx 2 2 0 0 0) (@tidx 2 2 0 0 1)).
by rewrite !mxE !eqxx tidx_eq /= => /eqP.
Qed.
End Example.
