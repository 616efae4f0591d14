(* Model of the impurity bubble in imaginary time: c++/triqs_tprf/chi_from_gg2.cpp 65-76. As in ImtimeModel the mesh
   has L+1 points 0, beta/L, .., beta and beta - tau is the point at position rev_ord; the rounding of beta - tau and
   the interpolation of g_tau between the points, which is exact at a point, are not modelled. *)
From mathcomp Require Import all_ssreflect all_algebra.
From Verif Require Import Base.
Set Implicit Arguments.
Unset Strict Implicit.
Unset Printing Implicit Defensive.
Import GRing.Theory.
Local Open Scope ring_scope.

(* chi_from_gg2.cpp 73: chi0_tau(tau)(a, b, c, d) << g_tau(tau)(d, a) * g_tau(beta - tau)(b, c) *)
Definition chi0_tau_from_g_tau_PH (C : fieldType) (nb L : nat) (g_tau : 'I_L.+1 -> 'M[C]_nb) : 'I_L.+1 -> tensor4 C nb :=
  fun tau a b c d => g_tau tau d a * g_tau (rev_ord tau) b c.
