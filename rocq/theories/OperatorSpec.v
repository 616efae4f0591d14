(* What the operator utilities are to do, in terms of coefficients of normal-ordered monomials. *)
From mathcomp Require Import all_ssreflect all_algebra.
From Verif Require Import OperatorModel.
Set Implicit Arguments.
Unset Strict Implicit.
Unset Printing Implicit Defensive.
Import GRing.Theory Num.Theory.
Local Open Scope ring_scope.

Section OperatorSpec.
Variable C : numClosedFieldType.
(* the coefficient of a monomial *)
Definition coef (A : operator C) (m : mono) : C := \sum_(t <- A | t.1 == m) t.2.
(* the same operator *)
Definition same_operator (A B : operator C) : Prop := forall m, coef A m = coef B m.
(* what TRIQS stores: every monomial is normal ordered and occurs once, with a non-zero coefficient *)
Definition stored (A : operator C) : bool :=
  [&& uniq [seq t.1 | t <- A], all (fun t => sorted clt t.1) A & all (fun t => t.2 != 0) A].
(* annihilation operators of the given modes *)
Definition modes (idx : seq nat) : seq (operator C) := [seq c C i | i <- idx].
Definition hermitian (n : nat) (h : nat -> nat -> C) : Prop := forall i j, (i < n)%N -> (j < n)%N -> h i j = (h j i)^*.
(* c+_i c+_j c_k c_l with modes of the list *)
Definition quartic_in (idx : seq nat) (m : mono) : bool :=
  if m is [:: (true, i); (true, j); (false, k); (false, l)] then [&& i \in idx, j \in idx, k \in idx & l \in idx] else false.
Definition quartic (idx : seq nat) (A : operator C) : Prop := forall t, t \in A -> quartic_in idx t.1.
Definition eq2 (n : nat) (h g : nat -> nat -> C) : Prop := forall i j, (i < n)%N -> (j < n)%N -> h i j = g i j.
Definition eq4 (n : nat) (U V : arr4 C) : Prop :=
  forall a b c d, (a < n)%N -> (b < n)%N -> (c < n)%N -> (d < n)%N -> U a b c d = V a b c d.
(* symmetries of an interaction tensor *)
Definition antisymmetric (n : nat) (U : arr4 C) : Prop := eq4 n (fun a b c d => - U b a c d) U /\ eq4 n (fun a b c d => - U a b d c) U.
Definition conjugation_symmetric (n : nat) (U : arr4 C) : Prop := eq4 n (fun a b c d => (U d c b a)^*) U.
Definition pauli_symmetric (n : nat) (U : arr4 C) : Prop :=
  forall a b c d, (a < n)%N -> (b < n)%N -> (c < n)%N -> (d < n)%N -> (a == b) || (c == d) -> U a b c d = 0.
Definition product (n : nat) (U V : nat -> nat -> C) : nat -> nat -> C := fun i j => \sum_(0 <= l < n) U i l * V l j.
Definition unit_matrix : nat -> nat -> C := fun i j => (i == j)%:R.
(* both products with the adjoint are the unit matrix *)
Definition unitary (n : nat) (U : nat -> nat -> C) : Prop :=
  eq2 n (fun i j => \sum_(0 <= l < n) U i l * (U j l)^*) unit_matrix.
Definition avoids (idx : seq nat) (A : operator C) : Prop := forall t x, t \in A -> x \in t.1 -> x.2 \notin idx.
End OperatorSpec.
