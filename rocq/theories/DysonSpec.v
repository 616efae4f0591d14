(* Specification of the lattice Dyson equation by components. *)
From mathcomp Require Import all_ssreflect all_algebra.
Set Implicit Arguments.
Unset Strict Implicit.
Unset Printing Implicit Defensive.
Import GRing.Theory Num.Theory.
Local Open Scope ring_scope.

Section Spec.
Variables (C : fieldType) (nb : nat).
(* sum_c [z delta_ac - e_ac - s_ac] g_cb = delta_ab *)
Definition dyson_eq (z : C) (e s g : 'M[C]_nb) :=
  forall a b, \sum_c (z * (a == c)%:R - e a c - s a c) * g c b = (a == b)%:R.
(* the equation has a solution *)
Definition dyson_solvable (z : C) (e s : 'M[C]_nb) := exists g, dyson_eq z e s g.
End Spec.

Section Hermitian.
Variables (C : numClosedFieldType) (nb : nat).
Definition hermitian (A : 'M[C]_nb) := forall a b, A a b = (A b a)^*.
(* B is the Hermitian conjugate of A *)
Definition hconj (A B : 'M[C]_nb) := forall a b, B a b = (A b a)^*.
(* sum_ab conj(x_a) M_ab x_b *)
Definition quadform (x : 'I_nb -> C) (M : 'M[C]_nb) : C := \sum_a \sum_b (x a)^* * M a b * x b.
End Hermitian.
