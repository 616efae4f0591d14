(* Model of c++/triqs_tprf/lattice/lattice_utility.cpp lines 146-157 and of c++/triqs_tprf/lattice/chi_retime.cpp lines 40-47 on the real numbers of the
   standard library; rounding and overflow of double are not modelled. *)
From Coq Require Import Reals.
Local Open Scope R_scope.

(* lattice_utility.cpp 146-153; chi_retime.cpp 40-47 has the same text *)
Definition fermi (e : R) : R :=
  if Rlt_dec e 0 then 1 / (exp e + 1) else let exp_me := exp (- e) in exp_me / (1 + exp_me).
Definition fermi_scalar (e : R) : R :=
  if Rlt_dec e 0 then 1 / (exp e + 1) else let exp_me := exp (- e) in exp_me / (1 + exp_me).
(* lattice_utility.cpp 155-157 *)
Definition bose (e : R) : R := 1 / (exp e - 1).
(* lindhard_chi00.cpp 73-76: the factor of the double pole *)
Definition second_order_pole (beta e : R) : R := let cosh_be := cosh (5 / 10 * beta * e) in beta / (4 * cosh_be * cosh_be).
