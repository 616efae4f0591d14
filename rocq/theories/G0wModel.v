(* Model of c++/triqs_tprf/lattice/gw.cpp 261-330 (g0w_dynamic_sigma) and 373-414 (g0w_sigma) at mesh momenta: real frequency GW self energy by the spectral
   representation. The momenta form a finite abelian group; exp is a parameter (fermi and bose of lattice_utility.cpp 146-158); the eigenvalue problem is
   the function eig. A division by zero gives inf or nan in C++, and no sum with such a term is finite again: the result is then None. Not modelled:
   momenta off the mesh (interpolation of e_k), the mesh checks. *)
From mathcomp Require Import all_ssreflect all_algebra.
From Verif Require Import LindhardModel.
Set Implicit Arguments.
Unset Strict Implicit.
Unset Printing Implicit Defensive.
Import GRing.Theory Num.Theory.
Local Open Scope ring_scope.

Section G0w.
Variables (C : numClosedFieldType) (nb nf : nat) (K : finZmodType).
Local Notation M := 'M[C]_nb.
Local Notation t4 := ('I_nb -> 'I_nb -> 'I_nb -> 'I_nb -> C).
Variables (exp : C -> C) (pi : C) (eig : M -> 'rV[C]_nb * M).
(* lattice_utility.cpp 146-153 *)
Definition g0w_fermi (e : C) : C := if e < 0 then 1 / (exp e + 1) else let exp_me := exp (- e) in exp_me / (1 + exp_me).
(* lattice_utility.cpp 155-157 *)
Definition g0w_bose (e : C) : C := 1 / (exp e - 1).
(* fmesh: points and spacing of the real frequency mesh *)
Variables (fmesh : 'I_nf -> C) (dw : C).
(* gw.cpp 290-301 *)
Definition W_spec (W : 'I_nf -> K -> t4) (v : K -> t4) (fp : 'I_nf) (q : K) (a b : 'I_nb) : C := - 1 / pi * 'Im (W fp q a a b b - v q a a b b).
Definition kernel (beta z : C) (fp : 'I_nf) (e : C) : C := (g0w_bose (fmesh fp * beta) + g0w_fermi (e * beta)) / (z + fmesh fp - e).
(* no division by zero in one term *)
Definition regular (beta z : C) (fp : 'I_nf) (e : C) : bool := (exp (fmesh fp * beta) - 1 != 0) && (z + fmesh fp - e != 0).
Definition g0w_value (e : K -> M) (mu beta : C) (W : 'I_nf -> K -> t4) (v : K -> t4) (z : C) (k : K) (a b : 'I_nb) : C :=
  \sum_(q : K) let: (ekq, Ukq) := eig (e (k + q) - mu%:M) in
    \sum_l \sum_fp Ukq a l * dagger Ukq l b * (W_spec W v fp q a b * kernel beta z fp (ekq 0 l) * dw / #|K|%:R).
(* gw.cpp 261-330 *)
Definition g0w_dynamic_sigma (e : K -> M) (mu beta : C) (W : 'I_nf -> K -> t4) (v : K -> t4) (delta : C) (f : 'I_nf) (k : K) (a b : 'I_nb) : option C :=
  let z := fmesh f + 'i * delta in
  if [forall q, forall l, forall fp, regular beta z fp ((eig (e (k + q) - mu%:M)).1 0 l)] then Some (g0w_value e mu beta W v z k a b) else None.
(* gw.cpp 334-371, static part *)
Definition g0w_static_sigma (e : K -> M) (mu beta : C) (v : K -> t4) (k : K) (a b : 'I_nb) : C :=
  \sum_(q : K) let: (ekq, Ukq) := eig (e (k + q) - mu%:M) in
    \sum_l - (Ukq a l * dagger Ukq l b * v q a a b b * g0w_fermi (ekq 0 l * beta) / #|K|%:R).
(* gw.cpp 388-414 *)
Definition g0w_total_sigma (e : K -> M) (mu beta : C) (W : 'I_nf -> K -> t4) (v : K -> t4) (delta : C) (f : 'I_nf) (k : K) (a b : 'I_nb) : option C :=
  omap (fun s => g0w_static_sigma e mu beta v k a b + s) (g0w_dynamic_sigma e mu beta W v delta f k a b).
End G0w.
