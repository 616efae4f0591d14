(* Model of c++/triqs_tprf/lattice/lindhard_chi00.cpp lines 35-94 for the Matsubara (delta = 0) and the real frequency mesh. The momenta form a finite
   abelian group; exp and cosh enter through the functions fermi (lattice_utility.cpp 146-153, see FermiModel) and cosh; the eigenvalue problem of LAPACK is
   the function eig; the sum over the momenta of all MPI ranks is one sum. *)
From mathcomp Require Import all_ssreflect all_algebra.
Set Implicit Arguments.
Unset Strict Implicit.
Unset Printing Implicit Defensive.
Import GRing.Theory Num.Theory.
Local Open Scope ring_scope.

Section Lindhard.
Variables (C : numClosedFieldType) (nb : nat) (K : finZmodType).
Local Notation M := 'M[C]_nb.
Variables (fermi cosh : C -> C) (eig : M -> 'rV[C]_nb * M).
Definition tol : C := 10%:R ^- 10.
(* lines 62-81 *)
Definition total_factor (beta idelta w ei ej : C) : C :=
  let de := ej - ei in
  let dn := fermi (ei * beta) - fermi (ej * beta) in
  if (`|w + idelta| < tol) && (`|de| < tol) then
    let cosh_be := cosh (2%:R^-1 * beta * ei) in beta / (4%:R * cosh_be * cosh_be)
  else dn / (w + idelta + de).
Definition dagger (U : M) : M := \matrix_(i, j) (U j i)^*.
(* lines 47-94: e is the dispersion *)
Definition lindhard_chi00 (e : K -> M) (beta mu idelta w : C) (q : K) (a b c d : 'I_nb) : C :=
  (\sum_(k : K)
     let: (ek, Uk) := eig (e k - mu%:M) in
     let: (ekq, Ukq) := eig (e (k + q) - mu%:M) in
     \sum_i \sum_j Uk a i * dagger Uk i d * Ukq c j * dagger Ukq j b * total_factor beta idelta w (ek 0 i) (ekq 0 j))
  / #|K|%:R.
End Lindhard.
