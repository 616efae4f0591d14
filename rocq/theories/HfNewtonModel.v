(* Model of python/triqs_tprf/hf_solver.py 349-445: solve_newton, solve_newton_mu and the accessors of the Hartree-Fock solver. scipy's fsolve is any
   strategy that asks for values of the target function and ends with a vector; every question runs density_matrix_step and so changes the solver.
   An exception is None, and so is a run of fsolve that does not end within fuel questions. Not modelled: printing. *)
From mathcomp Require Import all_ssreflect all_algebra.
From Verif Require Import OperatorModel KanamoriModel HfModel.
Set Implicit Arguments.
Unset Strict Implicit.
Unset Printing Implicit Defensive.
Import GRing.Theory Num.Theory.
Local Open Scope ring_scope.

Section Newton.
Variables (C : numClosedFieldType) (n : nat) (K : finType).
Local Notation mx := 'M[C]_n.
Local Notation vec := (seq C).
Variables (eigh : mx -> 'rV[C]_n * mx) (exp log : C -> C) (brentq : (C -> C) -> C -> C -> option C) (beta : C).
Variables (e_k : K -> mx) (U : arr4 C) (mu_min mu_max : option C).
Variables (pack : mx -> vec) (unpack : vec -> option mx).
Local Notation step := (density_matrix_step eigh exp brentq beta e_k U mu_min mu_max pack unpack).
Inductive move := Ask (x : vec) | Return (x : vec).
(* the next move, from the points and values so far, the last one first *)
Variable fsolve : seq (vec * vec) -> move.
(* lines 374-376 and 410-412 *)
Definition target (N_target : option C) (s : solver C n) (rho_vec : vec) : option (solver C n * vec) :=
  if step s rho_vec N_target is Some (s', new) then Some (s', [seq p.1 - p.2 | p <- zip new rho_vec]) else None.
(* the solver after the run, the result and the history *)
Fixpoint run (fuel : nat) (N_target : option C) (s : solver C n) (asked : seq (vec * vec)) : option (solver C n * vec * seq (vec * vec)) :=
  if fuel is fuel'.+1 then
    match fsolve asked with
    | Return x => Some (s, x, asked)
    | Ask x => if target N_target s x is Some (s', y) then run fuel' N_target s' ((x, y) :: asked) else None
    end
  else None.
Definition energies (s : solver C n) : C * C := update_total_energy eigh exp log beta U e_k (update_mean_field_dispersion e_k (s_M s)) (s_mu s) (s_rho s).
(* lines 378-383 and 414-419: the attributes E_tot and Omega, then one step at the result *)
Definition finish (s : solver C n) (rho_vec : vec) : option (solver C n * (C * C)) :=
  if step s rho_vec None is Some (s', _) then Some (s', energies s) else None.
(* lines 349-383 *)
Definition solve_newton (fuel : nat) (s : solver C n) (N_target : C) (M0 : mx) (mu0 : option C) : option (solver C n * (C * C)) :=
  if solve_setup eigh exp brentq beta e_k mu_min mu_max pack s N_target M0 mu0 is Some (s0, _) then
    if run fuel (Some N_target) s0 [::] is Some (s1, rho_vec, _) then finish s1 rho_vec else None
  else None.
(* lines 386-419 *)
Definition solve_newton_mu (fuel : nat) (mu : C) (M0 : mx) : option (solver C n * (C * C)) :=
  let s0 := Solver mu M0 (update_density_matrix eigh exp beta (update_mean_field_dispersion e_k M0) mu) in
  if run fuel None s0 [::] is Some (s1, rho_vec, _) then finish s1 rho_vec else None.
(* lines 422-445 *)
Definition total_density (s : solver C n) : C := N_tot (s_rho s).
Definition expectation_value (s : solver C n) (op : mx) : C := \sum_a \sum_b op a b * s_rho s b a.
End Newton.
