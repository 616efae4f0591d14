(* The Kanamori Hamiltonian as it is written in the documentation of kanamori_quartic_tensor (rpa_tensor.py 199-211). *)
From mathcomp Require Import all_ssreflect all_algebra.
From Verif Require Import Base OperatorModel RpaTensorModel.
Set Implicit Arguments.
Unset Strict Implicit.
Unset Printing Implicit Defensive.
Import GRing.Theory Num.Theory.
Local Open Scope ring_scope.

Section Hamiltonian.
Variables (C : numClosedFieldType) (norb : nat).
(* the library index of a spin and an orbital *)
Variable mode : 'I_2 -> 'I_norb -> nat.
Local Notation up := (mode s_up).
Local Notation dn := (mode s_dn).
Definition op_sum (l : seq (operator C)) : operator C := foldl (@op_add C) [::] l.
Definition number (x : nat) : operator C := op_mul (c_dag C x) (c C x).
Definition ccrcra (p q r s : nat) : operator C := op_mul (op_mul (op_mul (c_dag C p) (c_dag C q)) (c C r)) (c C s).
Definition pairs_of : seq ('I_norb * 'I_norb) := [seq (i, j) | i <- enum 'I_norb, j <- enum 'I_norb].
Definition density_part (U Up J : C) : seq (operator C) :=
  [seq op_scale U (op_mul (number (up i)) (number (dn i))) | i <- enum 'I_norb] ++
  flatten [seq [seq op_scale (Up - J * (t.1 == t.2)%:R) (op_mul (number (mode t.1 p.1)) (number (mode t.2 p.2)))
               | t <- [:: (s_up, s_up); (s_up, s_dn); (s_dn, s_up); (s_dn, s_dn)]] | p : ('I_norb * 'I_norb) <- pairs_of & (p.2 < p.1)%N].
(* spin flip with strength K, pair hopping with strength P, each pair i <> j in both orders *)
Definition flip_part (K P : C) : seq (operator C) :=
  flatten [seq [:: op_scale (- K) (ccrcra (dn p.1) (up p.2) (dn p.2) (up p.1));
                   op_scale (- P) (ccrcra (up p.2) (dn p.2) (up p.1) (dn p.1))] | p <- pairs_of & p.1 != p.2].
Definition kanamori (U Up J K P : C) : operator C := op_sum (density_part U Up J ++ flip_part K P).
(* as printed in the documentation: both terms with J, and "+ h.c." under the sum over i <> j *)
Definition kanamori_documented (U Up J : C) : operator C :=
  op_sum (density_part U Up J ++ flip_part J J ++ [seq dagger x | x <- flip_part J^* J^*]).
End Hamiltonian.
