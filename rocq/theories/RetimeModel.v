(* Model of c++/triqs_tprf/lattice/chi_retime.cpp: g0_Tk_les_gtr_from_e_k (lines 54-90) and chi0_Tr_from_g_Tr_PH (lines 95-122). The momenta and lattice vectors
   form a finite abelian group, the time is any real number; the eigenvalue problem, exp and the Fermi function are functions (see FermiModel). *)
From mathcomp Require Import all_ssreflect all_algebra.
From Verif Require Import LindhardModel.
Set Implicit Arguments.
Unset Strict Implicit.
Unset Printing Implicit Defensive.
Import GRing.Theory Num.Theory.
Local Open Scope ring_scope.

Section Retime.
Variables (C : numClosedFieldType) (nb : nat) (K : finZmodType).
Local Notation M := 'M[C]_nb.
Variables (fermi ex : C -> C) (eig : M -> 'rV[C]_nb * M).
(* lines 68-85: the lesser and greater functions at time T and momentum k *)
Definition g0_Tk_les_gtr_from_e_k (e_k : K -> M) (beta : C) (T : C) (k : K) : M * M :=
  let: (ek, Uk) := eig (e_k k) in
  let occ c := fermi (beta * ek 0 c) in
  let exp_T c := ex (- 'i * ek 0 c * T) in
  let occ_exp_les c := 'i * occ c * exp_T c in
  let occ_exp_gtr c := - 'i * (1 - occ c) * exp_T c in
  (\matrix_(a, b) \sum_c Uk a c * occ_exp_les c * dagger Uk c b,
   \matrix_(a, b) \sum_c Uk a c * occ_exp_gtr c * dagger Uk c b).
(* lines 113-116; conj(g(T, -r)(b, c)) *)
Definition chi0_Tr_from_g_Tr_PH (g_Tr_les g_Tr_gtr : C -> K -> M) (T : C) (r : K) (a b c d : 'I_nb) : C :=
  'i * g_Tr_les T r d a * (g_Tr_gtr T (- r) b c)^* - 'i * g_Tr_gtr T r d a * (g_Tr_les T (- r) b c)^*.
End Retime.
