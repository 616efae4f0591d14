(* Model of c++/triqs_tprf/hubbard_atom.cpp 44-146 and python/triqs_tprf/analytic_hubbard_atom.py 92-121: analytic Green function, magnetic
   susceptibility and vertex of the half-filled Hubbard atom. The functions are modelled at all Matsubara frequencies; the meshes restrict them to windows.
   exp, tan and pi are parameters. Not modelled: floating-point rounding, the numeric vertex gamma_m_num (a finite matrix inverse, see linalg). *)
From mathcomp Require Import all_ssreflect all_algebra.
Set Implicit Arguments.
Unset Strict Implicit.
Unset Printing Implicit Defensive.
Import GRing.Theory Num.Theory.
Local Open Scope ring_scope.

Section HubbardAtom.
Variables (C : numClosedFieldType) (exp tan : C -> C) (pi : C).
(* values of the points of the meshes {beta, Fermion, n}, {beta, Boson, n} *)
Definition fermion (beta : C) (n : int) : C := 'i * pi * (n + n + 1)%:~R / beta.
Definition boson (beta : C) (m : int) : C := 'i * pi * (m + m)%:~R / beta.
Definition kronecker (x y : C) : C := if x == y then 1 else 0.
(* lines 44-48 *)
Definition single_particle_greens_function (U iw : C) : C := 1 / (iw - U * U / (4%:R * iw)).
Variables (beta U : C).
Local Notation half := (2%:R^-1).
Local Notation quarter := (4%:R^-1).
(* lines 63-64, 102-104; abs of a real number *)
Definition cA : C := 'i * U * half.
Definition cB : C := 'i * U * half * sqrtC (`|3%:R - exp (beta * U * half)| / (1 + exp (beta * U * half))).
Definition denominator (w n : C) : C := (- (n * n) + U * U * quarter) * (- ((n + w) * (n + w)) + U * U * quarter).
(* lines 50-90 *)
Definition cC (w : C) : C := if w == 0 then - beta * U * half / (1 + exp (- beta * U * half)) else 0.
Definition cD (w : C) : C := U * U * quarter * (1 + cC w) / (1 - cC w).
Definition chi_a0 (w n : C) : C := beta * half * (- n * (n + w) - cA * cA) / denominator w n.
Definition chi_b0 (w n : C) : C := beta * half * (- n * (n + w) - cB * cB) / denominator w n.
Definition chi_b1 (w n : C) : C := sqrtC (U * (1 - cC w)) * (- n * (n + w) - cD w) / denominator w n.
Definition chi_b2 (w n : C) : C := 'i * sqrtC (U * U * U * quarter) * sqrtC (U * U / (1 - cC w) - w * w) / denominator w n.
Definition chi_ph_magnetic (w n1 n2 : C) : C :=
  kronecker n1 n2 * (chi_b0 w n1 + chi_a0 w n1) + kronecker n1 (- w - n2) * (chi_b0 w n1 - chi_a0 w n1) +
  chi_b1 w n1 * chi_b1 w n2 + chi_b2 w n1 * chi_b2 w n2.
(* lines 92-146, with s = 1, A0 = B0 = B1 = 1 *)
Definition gamma_a0 (w n : C) : C := beta * half * cA * cA * denominator w n / ((- n * (n + w) - cA * cA) * (- n * (n + w))).
Definition gamma_b0 (w n : C) : C := beta * half * cB * cB * denominator w n / ((- n * (n + w) - cB * cB) * (- n * (n + w))).
Definition gamma_D (w : C) : C :=
  let sqrtBBww := sqrtC (4%:R * cB * cB - w * w) in
  let powBBUU1 := (4%:R * cB * cB / (U * U) + 1) ^+ 2 in
  let UU4 := U * U * quarter in
  - U * (UU4 * (UU4 * powBBUU1 - w * w)) / (U * tan (beta * quarter * (sqrtBBww - 'i * w)) / sqrtBBww - 1).
Definition gamma_ph_magnetic (w n1 n2 : C) : C :=
  - (1 / beta / beta) *
  (kronecker n1 n2 * (gamma_b0 w n1 + gamma_a0 w n1) + kronecker n1 (- w - n2) * (gamma_b0 w n1 - gamma_a0 w n1) +
   gamma_D w / (- n1 * (n1 + w) - cB * cB) / (- n2 * (n2 + w) - cB * cB) - U).
(* analytic_hubbard_atom.py 98-103: chi0_from_gg2_PH of this Green function (element 0, 0 of the diagonal matrix g_mat) *)
Definition chi0_m (w n1 n2 : C) : C :=
  - beta * kronecker n1 n2 * single_particle_greens_function U n1 * single_particle_greens_function U (w + n2).
(* lines 114-116 *)
Definition hubbard_Z : C := 2%:R + 2%:R * exp (- beta * half * U).
Definition hubbard_m2 : C := quarter * (2%:R / hubbard_Z).
Definition chi_m_static : C := 2%:R * beta * hubbard_m2.
End HubbardAtom.
