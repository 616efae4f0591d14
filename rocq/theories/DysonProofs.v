From mathcomp Require Import all_ssreflect all_algebra.
From Verif Require Import MpiModel MpiProofs MpiSpec MatAlg DysonModel DysonSpec.
Set Implicit Arguments.
Unset Strict Implicit.
Unset Printing Implicit Defensive.
Import GRing.Theory Num.Theory.
Local Open Scope ring_scope.

Section Dyson.
Variables (C : fieldType) (nb : nat) (W K : finType) (freq : W -> C).
Local Notation mat := 'M[C]_nb.

Lemma dyson_eqP (z : C) (e s g : mat) : dyson_eq z e s g <-> (z%:M - e - s) *m g = 1%:M.
Proof.
split=> [h|h a b].
  apply/matrixP=> a b; rewrite !mxE -h; apply: eq_bigr => c _; rewrite !mxE.
  by rewrite mulr_natr.
move/matrixP: h => /(_ a b); rewrite !mxE => <-; apply: eq_bigr => c _; rewrite !mxE.
by rewrite mulr_natr.
Qed.
Lemma dyson_solvableP (z : C) (e s : mat) : dyson_solvable z e s <-> z%:M - e - s \in unitmx.
Proof.
split=> [[g /dyson_eqP h]|u]; first exact: unitmx_right h.
by exists (invmx (z%:M - e - s)); apply/dyson_eqP; rewrite mulmxV.
Qed.
Lemma dyson_inverse (z : C) (e s : mat) : dyson_solvable z e s ->
  let g := invmx (z%:M - e - s) in dyson_eq z e s g /\ forall X, dyson_eq z e s X -> X = g.
Proof.
move=> /dyson_solvableP u g; split; first by apply/dyson_eqP; rewrite mulmxV.
by move=> X /dyson_eqP h; rewrite -[X]mul1mx -(mulVmx u) -mulmxA h mulmx1.
Qed.
Lemma dyson_average nranks (wsched : nat -> K -> seq W) (h : K * W -> mat) w :
  (0 < nranks)%N -> (forall r k, (r < nranks)%N -> perm_eq (wsched r k) (enum W)) ->
  mpi_accumulate nranks (enum K) wsched h w = \sum_k h (k, w).
Proof.
move=> n0 hs; rewrite (mpi_accumulate_correct _ _ n0 (enum_uniq _) hs) mem_enum /=.
by rewrite big_enum.
Qed.
End Dyson.

Section Hermitian.
Variables (C : numClosedFieldType) (nb : nat).
Local Notation mat := 'M[C]_nb.
(* Hermitian conjugate *)
Definition adj (A : mat) : mat := \matrix_(i, j) (A j i)^*.
Lemma adj_mul (A B : mat) : adj (A *m B) = adj B *m adj A.
Proof.
apply/matrixP=> i j; rewrite !mxE rmorph_sum; apply: eq_bigr => k _.
by rewrite !mxE rmorphM mulrC.
Qed.
Lemma adj1 : adj 1%:M = 1%:M.
Proof. by apply/matrixP=> i j; rewrite !mxE rmorph_nat eq_sym. Qed.
Lemma adjB (A B : mat) : adj (A - B) = adj A - adj B.
Proof. by apply/matrixP=> i j; rewrite !mxE rmorphB. Qed.
Lemma adj0 : adj 0 = 0.
Proof. by apply/matrixP => i j; rewrite !mxE rmorph0. Qed.
Lemma adj_norm0 (A : mat) : A *m adj A = 0 -> A = 0.
Proof.
move=> h; apply/matrixP => i j; rewrite mxE.
have : (A *m adj A) i i = 0 by rewrite h mxE.
rewrite mxE; under eq_bigr do rewrite mxE -normCK.
move/eqP; rewrite psumr_eq0; last by move=> c _; rewrite exprn_ge0 // normr_ge0.
by move/allP/(_ j (mem_index_enum _)); rewrite /= expf_eq0 normr_eq0 /= => /eqP.
Qed.
Lemma adj_scalar (z : C) : adj z%:M = (z^*)%:M.
Proof. by apply/matrixP=> i j; rewrite !mxE rmorphMn eq_sym. Qed.
Lemma adjK (A : mat) : adj (adj A) = A.
Proof. by apply/matrixP=> i j; rewrite !mxE conjCK. Qed.
Lemma hconjP (A B : mat) : hconj A B <-> B = adj A.
Proof. by split=> [h|-> a b]; [apply/matrixP=> a b; rewrite h|]; rewrite !mxE. Qed.
Lemma hermitianP (A : mat) : hermitian A <-> adj A = A.
Proof. by split=> [h|h a b]; [apply/matrixP=> a b; rewrite mxE -h|rewrite -{1}h mxE]. Qed.
Lemma adj_inv (A : mat) : A \in unitmx -> adj (invmx A) = invmx (adj A).
Proof.
move=> u; have h : adj (invmx A) *m adj A = 1%:M by rewrite -adj_mul mulmxV ?adj1.
have u' := unitmx_left h.
by rewrite -[LHS]mulmx1 -(mulmxV u') mulmxA h mul1mx.
Qed.
Lemma unit_adj (A : mat) : (adj A \in unitmx) = (A \in unitmx).
Proof.
have main B : B \in unitmx -> adj B \in unitmx.
  by move=> u; apply: (@unitmx_left _ _ (adj (invmx B))); rewrite -adj_mul mulmxV ?adj1.
by apply/idP/idP => u; [rewrite -(adjK A)|]; apply: main.
Qed.
End Hermitian.
