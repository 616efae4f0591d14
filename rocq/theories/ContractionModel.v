(* Model of python/triqs_tprf/lattice_utils.py 272-296 (chi_contraction). Arrays are a shape and a function of the indices (numpy: entries outside
   the shape do not exist, the sums run over the shape); X is the type of the points of the product mesh. *)
From mathcomp Require Import all_ssreflect all_algebra.
Set Implicit Arguments.
Unset Strict Implicit.
Unset Printing Implicit Defensive.
Import GRing.Theory.
Local Open Scope ring_scope.

Section Contraction.
Variables (F : fieldType) (X : Type).
Record array2 := Array2 { shape2 : seq nat; dat2 : nat -> nat -> F }.
(* a Green function with target rank four *)
Record gf4 := Gf4 { target_shape : seq nat; dat4 : X -> nat -> nat -> nat -> nat -> F }.
(* None is the ValueError of line 290 *)
Definition chi_contraction (chi : gf4) (op1 op2 : array2) : option (X -> F) :=
  if (take 2 (target_shape chi) != shape2 op1) || (drop 2 (target_shape chi) != shape2 op2) then None
  else Some (fun p => \sum_(a < nth 0%N (target_shape chi) 0) \sum_(b < nth 0%N (target_shape chi) 1)
    \sum_(c < nth 0%N (target_shape chi) 2) \sum_(d < nth 0%N (target_shape chi) 3) dat4 chi p a b c d * dat2 op1 a b * dat2 op2 c d).
End Contraction.
