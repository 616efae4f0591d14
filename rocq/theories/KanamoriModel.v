(* Model of python/triqs_tprf/rpa_tensor.py 58-70 (get_rpa_tensor) on the operators of OperatorModel.v. *)
From mathcomp Require Import all_ssreflect all_algebra.
From Verif Require Import OperatorModel.
Set Implicit Arguments.
Unset Strict Implicit.
Unset Printing Implicit Defensive.
Import GRing.Theory Num.Theory.
Local Open Scope ring_scope.

Section RpaTensor.
Variable C : numClosedFieldType.
(* np.transpose(U, (2, 0, 3, 1)): axis n of the result is axis (2, 0, 3, 1)[n] of U *)
Definition transpose_2031 (U : arr4 C) : arr4 C := fun a b c d => U b d a c.
Definition get_rpa_tensor (H_int : operator C) (fundamental_operators : seq (operator C)) : option (arr4 C) :=
  if quartic_tensor_from_operator H_int fundamental_operators false is Some U then
    let U4 : arr4 C := fun a b c d => 4%:R * quartic_permutation_symmetrize U a b c d in
    Some (transpose_2031 U4)
  else None.
End RpaTensor.
