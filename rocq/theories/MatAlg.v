(* Non-commutative identities of square matrices over a field used by several proofs. *)
From mathcomp Require Import all_ssreflect all_algebra.
Set Implicit Arguments.
Unset Strict Implicit.
Unset Printing Implicit Defensive.
Import GRing.Theory.
Local Open Scope ring_scope.

Section M.
Variables (F : fieldType) (n : nat).
Implicit Types A B X : 'M[F]_n.

Lemma unitmx_left A B : A *m B = 1%:M -> B \in unitmx.
Proof. by case/mulmx1_unit. Qed.
Lemma unitmx_right A B : A *m B = 1%:M -> A \in unitmx.
Proof. by case/mulmx1_unit. Qed.

Lemma invmx_uniq A B : A *m B = 1%:M -> invmx A = B.
Proof.
move=> h; have u := unitmx_right h.
by rewrite -[RHS](mulKmx u) h mulmx1.
Qed.

Lemma invmx_mul A B : A \in unitmx -> B \in unitmx -> invmx (A *m B) = invmx B *m invmx A.
Proof.
move=> uA uB; apply: invmx_uniq.
by rewrite -mulmxA (mulmxA B) mulmxV // mul1mx mulmxV.
Qed.

(* 1 - BA is invertible when 1 - AB is, with inverse 1 + B (1-AB)^-1 A *)
Lemma swap_inv p (A : 'M[F]_(n, p)) (B : 'M[F]_(p, n)) : 1%:M - A *m B \in unitmx ->
  (1%:M - B *m A) *m (1%:M + B *m invmx (1%:M - A *m B) *m A) = 1%:M.
Proof.
move=> u; set Y := invmx _.
have e : A *m B *m Y = Y - 1%:M.
  apply/eqP; rewrite eq_sym subr_eq eq_sym -(mulmxV u) -/Y mulmxBl mul1mx addrC subrK //.
rewrite mulmxDr mulmx1 mulmxBl mul1mx.
have -> : B *m A *m (B *m Y *m A) = B *m (A *m B *m Y) *m A by rewrite !mulmxA.
rewrite e mulmxBr mulmx1 mulmxBl.
by rewrite opprB (addrCA (B *m Y *m A)) subrr addr0 subrK.
Qed.

End M.

Section M2.
Variables (F : fieldType) (n p : nat).

Lemma swap_unit (A : 'M[F]_(n, p)) (B : 'M[F]_(p, n)) :
  1%:M - A *m B \in unitmx -> 1%:M - B *m A \in unitmx.
Proof. by move=> u; apply: (unitmx_right (swap_inv u)). Qed.

(* push-through identity *)
Lemma push_through (A : 'M[F]_(n, p)) (B : 'M[F]_(p, n)) : 1%:M - A *m B \in unitmx ->
  invmx (1%:M - A *m B) *m A = A *m invmx (1%:M - B *m A).
Proof.
move=> u; have v := swap_unit u.
apply: (can_inj (mulKmx u)); rewrite mulKVmx // mulmxA.
rewrite mulmxBl mul1mx -mulmxA -{2}(mulmx1 A) -mulmxBr -mulmxA mulmxV // mulmx1 //.
Qed.
End M2.

Section M3.
Variables (F : fieldType) (n : nat).
Implicit Types A B X : 'M[F]_n.

(* X = A + A B X has the unique solution (1-AB)^-1 A *)
Lemma dyson_solution A B : 1%:M - A *m B \in unitmx ->
  let X := invmx (1%:M - A *m B) *m A in X = A + A *m B *m X.
Proof.
move=> u X; apply/eqP; rewrite -subr_eq -{1}[X]mul1mx -mulmxBl /X mulKVmx //.
Qed.
Lemma dyson_unique A B X : 1%:M - A *m B \in unitmx ->
  X = A + A *m B *m X -> X = invmx (1%:M - A *m B) *m A.
Proof.
move=> u h; rewrite -[LHS](mulKmx u) mulmxBl mul1mx {1}h addrK //.
Qed.
End M3.
