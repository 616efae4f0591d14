(* Model of the momentum <-> real-space transforms:
   c++/triqs_tprf/fourier/fourier_lattice.cpp 25-60 (FFTW plan directions and the 1/N factor) and the wrappers
   that apply them at every other mesh point (c++/triqs_tprf/lattice/fourier.hpp, lattice/chi_imfreq.cpp 365-485).
   FFTW is modelled by the finite sum it documents. z1, z2, z3 are primitive roots of unity standing for
   exp(2 pi i / n) in the three lattice directions; the mesh is the periodic cluster of n1+1 x n2+1 x n3+1 cells. *)
From mathcomp Require Import all_ssreflect all_algebra.
Set Implicit Arguments.
Unset Strict Implicit.
Unset Printing Implicit Defensive.
Import GRing.Theory.
Local Open Scope ring_scope.

Section Lattice.
Variables n1 n2 n3 : nat.
(* mesh point indices of brzone/cyclat, addition and negation are periodic (TRIQS mesh arithmetic) *)
Definition site : Type := ('I_n1.+1 * 'I_n2.+1 * 'I_n3.+1)%type.
Definition ncells : nat := (n1.+1 * n2.+1 * n3.+1)%N.
End Lattice.

Section Transform.
Variables (C : fieldType) (n1 n2 n3 : nat) (z1 z2 z3 : C).
Local Notation K := (site n1 n2 n3).

(* exp(+ i k.r) for mesh indices *)
Definition phase (k r : K) : C :=
  z1 ^+ (k.1.1 * r.1.1) * z2 ^+ (k.1.2 * r.1.2) * z3 ^+ (k.2 * r.2).

(* fourier_lattice.cpp 37, 42-50: k -> r with FFTW_FORWARD (exp(-ikr)), divided by the number of points *)
Definition fourier_k_to_r (f : K -> C) : K -> C :=
  fun r => (\sum_k (phase k r)^-1 * f k) / (ncells n1 n2 n3)%:R.

(* fourier_lattice.cpp 38, 54-58: r -> k with FFTW_BACKWARD (exp(+ikr)), no factor *)
Definition fourier_r_to_k (f : K -> C) : K -> C :=
  fun k => \sum_r phase k r * f r.
End Transform.
