(* The self energies as the header documents them (c++/triqs_tprf/lattice/gw.hpp 36-143), index by index, and what is
   asked of the time/frequency transforms. Independent of GwModel. *)
From mathcomp Require Import all_ssreflect all_algebra.
From Verif Require Import FourierModel.
Set Implicit Arguments.
Unset Strict Implicit.
Unset Printing Implicit Defensive.
Import GRing.Theory.
Local Open Scope ring_scope.

Section Spec.
Variables (C : fieldType) (n1 n2 n3 nb : nat).
Local Notation K := (site n1 n2 n3).
Local Notation N := ((n1.+1 * n2.+1 * n3.+1)%N%:R : C).
Local Notation I := 'I_nb.

(* Sigma_ab(k) = - 1/N sum_{q,c,d} V_acdb(q) rho_dc(k + q) *)
Definition fock_doc (V : K -> I -> I -> I -> I -> C) (rho : K -> I -> I -> C) (k : K) (a b : I) : C :=
  - ((\sum_(q : K) \sum_c \sum_d V q a c d b * rho (k + q) d c) / N).
(* the convolution: Sigma_ab(k) = - 1/N sum_{q,c,d} V_acdb(q) rho_dc(k - q) *)
Definition fock_conv (V : K -> I -> I -> I -> I -> C) (rho : K -> I -> I -> C) (k : K) (a b : I) : C :=
  - ((\sum_(q : K) \sum_c \sum_d V q a c d b * rho (k - q) d c) / N).
(* Sigma_ab(k) = 1/N sum_{q,c,d} V_abcd(q) rho_cd(k + q) *)
Definition hartree_doc (V : K -> I -> I -> I -> I -> C) (rho : K -> I -> I -> C) (k : K) (a b : I) : C :=
  (\sum_(q : K) \sum_c \sum_d V q a b c d * rho (k + q) c d) / N.
(* the textbook term: the interaction at zero momentum transfer times the local density *)
Definition hartree_local (V0 : I -> I -> I -> I -> C) (rho : K -> I -> I -> C) (a b : I) : C :=
  \sum_c \sum_d V0 a b c d * ((\sum_(q : K) rho q c d) / N).
(* - 1/N sum_{q,c,d} W_acdb(tau, q) G_cd(tau, k - q) *)
Definition gw_conv (W : K -> I -> I -> I -> I -> C) (G : K -> I -> I -> C) (k : K) (a b : I) : C :=
  - ((\sum_(q : K) \sum_c \sum_d W q a c d b * G (k - q) c d) / N).

(* an interaction even under q -> -q *)
Definition even_interaction (V : K -> I -> I -> I -> I -> C) := forall q a b c d, V (- q) a b c d = V q a b c d.
(* an interaction between densities only: V_acdb vanishes unless a = c and d = b *)
Definition density_density (V : K -> I -> I -> I -> I -> C) :=
  forall q a c d b, (a != c) || (d != b) -> V q a c d b = 0.

(* a linear functional that looks at values only *)
Definition linfun (A : Type) (f : (A -> C) -> C) :=
  (forall x y, x =1 y -> f x = f y) /\ (forall c x y, f (fun a => c * x a + y a) = c * f x + f y).
Definition linfun_mx (A : Type) (f : (A -> 'M[C]_nb) -> C) :=
  (forall x y, x =1 y -> f x = f y) /\ (forall c x y, f (fun a => c *: x a + y a) = c * f x + f y).
End Spec.
