(* Specification of RPA, screened interaction and ladder vertex at one mesh point, by explicit index sums. *)
From mathcomp Require Import all_ssreflect all_algebra.
Set Implicit Arguments.
Unset Strict Implicit.
Unset Printing Implicit Defensive.
Import GRing.Theory.
Local Open Scope ring_scope.

Section Spec.
Variables (F : fieldType) (nb : nat).
Let t4 := 'I_nb -> 'I_nb -> 'I_nb -> 'I_nb -> F.

Definition eq_t4 (A B : t4) := forall a b c d, A a b c d = B a b c d.
(* contraction of the trailing pair of A with the leading pair of B, in the same order *)
Definition contract (A B : t4) : t4 := fun a b c d => \sum_e \sum_f A a b e f * B e f c d.
(* contraction in the particle-hole grouping of linalg: trailing pair of A reversed *)
Definition contract_PH (A B : t4) : t4 := fun a b c d => \sum_e \sum_f A a b f e * B e f c d.
Definition add4 (A B : t4) : t4 := fun a b c d => A a b c d + B a b c d.
Definition delta4 : t4 := fun a b c d => ((a == c) && (b == d))%:R.
(* exchange the indices inside both pairs *)
Definition swap_pairs (A : t4) : t4 := fun a b c d => A b a d c.

(* X solves X = X0 + X0.U.X *)
Definition rpa_equation (X0 U X : t4) := eq_t4 X (add4 X0 (contract X0 (contract U X))).
Definition rpa_equation_PH (X0 U X : t4) := eq_t4 X (add4 X0 (contract_PH X0 (contract_PH U X))).
(* the denominator 1 - A.B has a left inverse *)
Definition nonsingular (A B : t4) :=
  exists D : t4, eq_t4 (contract D (fun a b c d => delta4 a b c d - contract A B a b c d)) delta4.
End Spec.
