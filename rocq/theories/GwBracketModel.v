(* Model of python/triqs_tprf/gw_solver.py: the default of mu_bracket, lines 92-95. *)
From mathcomp Require Import all_ssreflect all_algebra.
From Verif Require Import HfModel.
Set Implicit Arguments.
Unset Strict Implicit.
Unset Printing Implicit Defensive.
Import GRing.Theory Num.Theory.
Local Open Scope ring_scope.

Section Bracket.
Variables (C : numClosedFieldType) (nb : nat) (K : finType).
(* lines 92-93: e_k.data.real.min() and e_k.data.real.max(), over all momenta and matrix elements *)
Definition elements (e_k : K -> 'M[C]_nb) : seq C := [seq 'Re (e_k p.1 p.2.1 p.2.2) | p <- enum [finType of K * ('I_nb * 'I_nb)]].
Definition default_bracket (e_k : K -> 'M[C]_nb) : C * C := (minimum (elements e_k), maximum (elements e_k)).
(* lines 92-95 *)
Definition bracket (e_k : K -> 'M[C]_nb) (mu_bracket : option (C * C)) : C * C := odflt (default_bracket e_k) mu_bracket.
End Bracket.
