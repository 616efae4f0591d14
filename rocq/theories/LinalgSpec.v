(* Index-level specification of the two-particle channel algebra, written without the matrix views:
   the pairing of indices documented for the three channels (channel_grouping.hpp 51-72 comments,
   doc: [AB]_{ab cd} = sum A_{ab ..} B_{.. cd} in PH). *)
From mathcomp Require Import all_ssreflect all_algebra.
Set Implicit Arguments.
Unset Strict Implicit.
Unset Printing Implicit Defensive.
Import GRing.Theory.
Local Open Scope ring_scope.

Section Spec.
Variables (F : fieldType) (nn nb : nat).
Let g2 := 'I_nn -> 'I_nn -> 'I_nb -> 'I_nb -> 'I_nb -> 'I_nb -> F.
Let g1 := 'I_nn -> 'I_nb -> 'I_nb -> 'I_nb -> 'I_nb -> F.

Definition spec_prod_PH (A B : g2) : g2 := fun n n' a b c d =>
  \sum_m \sum_e \sum_f A n m a b f e * B m n' e f c d.
Definition spec_prod_PH_bar (A B : g2) : g2 := fun n n' a b c d =>
  \sum_m \sum_e \sum_f A n m a f e d * B m n' e b c f.
Definition spec_prod_PP (A B : g2) : g2 := fun n n' a b c d =>
  \sum_m \sum_e \sum_f A n m a e c f * B m n' e b f d.

Definition spec_id_PH : g2 := fun n n' a b c d => ((n == n') && ((a == d) && (b == c)))%:R.
Definition spec_id_PH_bar : g2 := fun n n' a b c d => ((n == n') && ((a == c) && (d == b)))%:R.
Definition spec_id_PP : g2 := fun n n' a b c d => ((n == n') && ((a == b) && (c == d)))%:R.

(* pointwise equality of tensors *)
Definition eq_g2 (A B : g2) := forall n n' a b c d, A n n' a b c d = B n n' a b c d.

Definition spec_scalar (vL : g1) (M : g2) (vR : g1) a b c d : F :=
  \sum_n \sum_e \sum_f \sum_n' \sum_g \sum_h
    vL n e f b a * M n n' e f g h * vR n' h g c d.
End Spec.
