(* Documented formulas for the particle-hole bubble (doc of chi0q_from_g_wk_PH, chi_imfreq.hpp:
   chi0_abcd(iw, in, q) = - beta / N_k sum_k G_da(in, k) G_bc(in + iw, k - q)). *)
From mathcomp Require Import all_ssreflect all_algebra.
From Verif Require Import FourierModel.
Set Implicit Arguments.
Unset Strict Implicit.
Unset Printing Implicit Defensive.
Import GRing.Theory.
Local Open Scope ring_scope.

Section Spec.
Variables (C : fieldType) (n1 n2 n3 nb : nat) (beta : C).
Local Notation K := (site n1 n2 n3).
Definition bubble_spec (g : int -> K -> 'M[C]_nb) (w n : int) (q : K) (a b c d : 'I_nb) : C :=
  - beta / (ncells n1 n2 n3)%:R * \sum_(k : K) g n k d a * g (n + w) (k - q) b c.

(* the propagator of Dyson's equation: g solves ((i nu_n + mu) 1 - e_k - sigma_n) g = 1 *)
Definition solves_dyson (iw : int -> C) (mu : C) (e : K -> 'M[C]_nb) (sigma : int -> 'M[C]_nb)
    (g : int -> K -> 'M[C]_nb) (n : int) (k : K) :=
  ((iw n + mu)%:M - e k - sigma n) *m g n k = 1%:M.
End Spec.
