(* Hartree-Fock theory in terms of the interaction operator and of one-body density matrices. *)
From mathcomp Require Import all_ssreflect all_algebra.
From Verif Require Import OperatorModel.
Set Implicit Arguments.
Unset Strict Implicit.
Unset Printing Implicit Defensive.
Import GRing.Theory Num.Theory.
Local Open Scope ring_scope.

Section HfSpec.
Variables (C : numClosedFieldType) (n : nat).
Local Notation mx := 'M[C]_n.
Definition adjoint (m : mx) : mx := map_mx (fun x => x^*) m^T.
Definition hermitian_mx (m : mx) : Prop := adjoint m = m.
Definition unitary_mx (m : mx) : Prop := m *m adjoint m = 1%:M.
(* what np_eigh returns for a Hermitian matrix: real eigenvalues and a unitary matrix of eigenvectors in its columns *)
Definition eigh_at (eigh : mx -> 'rV[C]_n * mx) (m : mx) : Prop := let (e, V) := eigh m in
  [/\ forall i, e ord0 i \is Num.real, unitary_mx V & m = V *m diag_mx e *m adjoint V].
(* scipy's brentq returns a root of the function and raises when it has the same strict sign at both ends of the interval *)
Definition brentq_root (brentq : (C -> C) -> C -> C -> option C) : Prop := forall f a b x, brentq f a b = Some x -> f x = 0.
Definition brentq_raises (brentq : (C -> C) -> C -> C -> option C) : Prop := forall f a b, 0 < f a * f b -> brentq f a b = None.
Definition trace_product (A B : mx) : C := \sum_a \sum_b A b a * B a b.
(* occupation of a one-particle state *)
Definition occupation (m : mx) (x : 'cV[C]_n) : C := \sum_a \sum_b (x a ord0)^* * m a b * x b ord0.
Definition norm2 (x : 'cV[C]_n) : C := \sum_a (x a ord0)^* * x a ord0.
(* rho a b is the expectation value of c+_b c_a, modes given by their positions in a list *)
Variable idx : seq nat.
Definition pair_value (rho : mx) (create annihilate : nat) : C :=
  if (insub (index annihilate idx), insub (index create idx)) is (Some a, Some b) then rho a b else 0.
(* Wick's theorem for one normal-ordered term with two creation operators *)
Definition wick (rho : mx) (m : mono) : C :=
  if m is [:: (true, i); (true, j); (false, k); (false, l)] then
    pair_value rho i l * pair_value rho j k - pair_value rho i k * pair_value rho j l
  else 0.
Definition mean_interaction (H : operator C) (rho : mx) : C := \sum_(t <- H) t.2 * wick rho t.1.
End HfSpec.

(* Linear mixing of a map on vectors. *)
Section Mixing.
Variables (C : numClosedFieldType) (F : seq C -> option (seq C)) (mixing tol : C).
(* relative change of the vector smaller than tol *)
Definition close (old new : seq C) : Prop :=
  \sum_(i < size old) `|nth 0 old i - nth 0 new i| ^+ 2 < tol ^+ 2 * \sum_(i < size old) `|nth 0 old i| ^+ 2.
Definition follows (old next : seq C) : Prop :=
  exists new, [/\ F old = Some new, size next = size old, ~ close old new &
    forall i, (i < size old)%N -> nth 0 next i = (1 - mixing) * nth 0 old i + mixing * nth 0 new i].
Definition orbit (h : seq (seq C)) : Prop := forall t, (t.+1 < size h)%N -> follows (nth [::] h t) (nth [::] h t.+1).
End Mixing.
