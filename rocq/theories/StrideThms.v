(* Reading of nda group_indices_view (rpa.cpp 40, 54, 55, eliashberg.cpp 338-352, dynamical_screened_interaction.cpp 69-71, 110-111) used by C10, C16 and
   C51: a matrix view of a C-ordered array U[a, b, c, d] has an offset, one row stride and one column stride. *)
From mathcomp Require Import all_ssreflect all_algebra.
From mathcomp Require Import zify.
Set Implicit Arguments.
Unset Strict Implicit.
Unset Printing Implicit Defensive.
Import GRing.Theory.
Local Open Scope ring_scope.

(* memory position of U[a, b, c, d] for n orbitals, C order *)
Definition position (n a b c d : nat) : nat := (((a * n + b) * n + c) * n + d)%N.
(* the matrix view with offset o, row stride rs and column stride cs has U[a, b, c, d] in row and column (row a b, col c d) *)
Definition is_view (n : nat) (o rs cs : int) (row col : nat -> nat -> nat) : Prop :=
  forall a b c d, (a < n)%N -> (b < n)%N -> (c < n)%N -> (d < n)%N -> (position n a b c d)%:Z = o + rs * (row a b)%:Z + cs * (col c d)%:Z.

(* C10: grouping the last two indices in memory order is such a view *)
Theorem C10_view n : is_view n 0 (n * n)%N%:Z 1 (fun a b => a * n + b)%N (fun c d => c * n + d)%N.
Proof. by move=> a b c d *; rewrite /position; nia. Qed.
(* C10: grouping them in the opposite order is not, whatever the offset and the strides, for two or more orbitals *)
Theorem C10_no_swapped_view n o rs cs : (2 <= n)%N -> ~ is_view n o rs cs (fun a b => a * n + b)%N (fun c d => d * n + c)%N.
Proof.
case: n => [|[|n]] // _ h; have h0 := h 0%N 0%N 0%N 0%N isT isT isT isT; have h1 := h 0%N 0%N 0%N 1%N isT isT isT isT.
have h2 := h 0%N 0%N 1%N 0%N isT isT isT isT; move: h0 h1 h2; rewrite /position !(mul0n, add0n, addn0, mul1n, mulr0, addr0, mulr1) => <-.
rewrite !add0r => h1 h2; rewrite -h2 in h1; nia.
Qed.
(* with one orbital both are the same *)
Theorem C10_view_case : is_view 1 0 1 1 (fun a b => a * 1 + b)%N (fun c d => d * 1 + c)%N /\ position 2 1 0 1 0 = 10%N.
Proof. by split=> // [[|a] [|b] [|c] [|d]]. Qed.
Print Assumptions C10_view.
Print Assumptions C10_no_swapped_view.
Print Assumptions C10_view_case.
