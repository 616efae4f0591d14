(* Specification of the Bethe-Salpeter equation in the particle-hole channel by explicit sums. *)
From mathcomp Require Import all_ssreflect all_algebra.
From Verif Require Import LinalgSpec RpaSpec.
Set Implicit Arguments.
Unset Strict Implicit.
Unset Printing Implicit Defensive.
Import GRing.Theory.
Local Open Scope ring_scope.

Section Spec.
Variables (F : fieldType) (nn nb : nat).
Let g2 := 'I_nn -> 'I_nn -> 'I_nb -> 'I_nb -> 'I_nb -> 'I_nb -> F.
Let g1 := 'I_nn -> 'I_nb -> 'I_nb -> 'I_nb -> 'I_nb -> F.

(* a function of one fermionic frequency placed on the frequency diagonal *)
Definition on_diag (x : g1) : g2 := fun n n' a b c d => if n == n' then x n a b c d else 0.
Definition freq_diagonal (A : g2) := forall n n' a b c d, n != n' -> A n n' a b c d = 0.
(* invertible in the particle-hole pairing *)
Definition invertible_PH (A : g2) := exists B : g2, eq_g2 (spec_prod_PH B A) (@spec_id_PH F nn nb).
(* the denominator 1 - A Gamma is invertible *)
Definition nonsingular_PH (A G : g2) :=
  invertible_PH (fun n n' a b c d => @spec_id_PH F nn nb n n' a b c d - spec_prod_PH A G n n' a b c d).
(* chi = chi0 + chi0 Gamma chi *)
Definition bse_equation (chi0 G chi : g2) :=
  eq_g2 chi (fun n n' a b c d => chi0 n n' a b c d + spec_prod_PH chi0 (spec_prod_PH G chi) n n' a b c d).
(* chi_abcd = 1/beta^2 sum_nn' chi_abcd(n,n') *)
Definition freq_trace (beta : F) (chi : g2) (a b c d : 'I_nb) : F :=
  (\sum_n \sum_n' chi n n' a b c d) / beta ^+ 2.
(* the right triangle vertex L = 1/beta sum_n' [chi0^-1 chi](n, n') and the left one *)
Definition triangle_right (beta : F) (A' X : g2) : g1 := fun n a b c d =>
  beta^-1 * \sum_n' spec_prod_PH A' X n n' a b c d.
Definition triangle_left (beta : F) (A' X : g2) : g1 := fun n a b c d =>
  beta^-1 * \sum_n' spec_prod_PH X A' n' n a b c d.
(* the left vertex is the right one read backwards *)
Definition reciprocal (L R : g1) := forall n a b c d, L n a b c d = R n d c b a.
(* transposition symmetry in the particle-hole pairing *)
Definition ph_symmetric (A : g2) := forall n n' a b c d, A n n' a b c d = A n' n d c b a.
End Spec.
