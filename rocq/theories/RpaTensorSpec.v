(* Spin structure of quartic tensors, independent of the model. Index maps send (spin, orbital) to the combined index. *)
From mathcomp Require Import all_ssreflect all_algebra.
Set Implicit Arguments.
Unset Strict Implicit.
Unset Printing Implicit Defensive.
Import GRing.Theory.
Local Open Scope ring_scope.

(* spin is slow: up orbitals 0..nb-1, then down orbitals; spin is fast: orbital 0 up, orbital 0 down, ... *)
Definition combined_value (nb : nat) (spin_fast spin : bool) (o : nat) : nat :=
  if spin_fast then (2 * o + spin)%N else (spin * nb + o)%N.

Section Spec.
Variables (F : fieldType) (nb : nat) (I : Type) (at_ : bool -> 'I_nb -> I).
(* the spin part false is up, true is down *)
Definition conserves_spin (s1 s2 s3 s4 : bool) : bool := ((s1 == s2) && (s3 == s4)) || ((s1 == s4) && (s2 == s3)).
(* invariance under spin rotations of a tensor in c+ c c+ c order *)
Definition su2_invariant (T : I -> I -> I -> I -> F) : Prop :=
  forall a b c d,
  [/\ forall s1 s2 s3 s4, ~~ conserves_spin s1 s2 s3 s4 -> T (at_ s1 a) (at_ s2 b) (at_ s3 c) (at_ s4 d) = 0,
      T (at_ true a) (at_ true b) (at_ true c) (at_ true d) = T (at_ false a) (at_ false b) (at_ false c) (at_ false d),
      T (at_ true a) (at_ true b) (at_ false c) (at_ false d) = T (at_ false a) (at_ false b) (at_ true c) (at_ true d) &
      forall s, T (at_ s a) (at_ (~~ s) b) (at_ (~~ s) c) (at_ s d) =
        T (at_ false a) (at_ false b) (at_ false c) (at_ false d) - T (at_ false a) (at_ false b) (at_ true c) (at_ true d)].
End Spec.
