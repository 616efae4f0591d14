(* Model of python/triqs_tprf/gw_solver.py: GWSolver.calc_real_space (lines 109-130), calc_real_freq (lines 133-170), __reduce_to_dict__ and
   __factory_from_dict__ (lines 392-402), on top of the object and solve_iter of GwSolverModel. The Fourier transforms and pade_analytical_continuation_wk
   (see GfShapeModel) are parameters. An attribute that does not exist is None; reading it is an exception (None). Not modelled: printing, timers. *)
From Coq Require Import String.
From mathcomp Require Import all_ssreflect all_algebra.
From Verif Require Import GwSolverModel.
Set Implicit Arguments.
Unset Strict Implicit.
Unset Printing Implicit Defensive.
Local Open Scope ring_scope.

Section Output.
Variables (R : numDomainType) (G : zmodType) (Rho P W X Gr Pr Wr Gf Pf Wf Xf : Type).
Local Notation attributes := (attributes R G Rho P W X).
(* lines 118-122 *)
Variables (fourier_g : G -> Gr) (fourier_P : P -> Pr) (fourier_W : W -> Wr).
Record real_space := RealSpace { g0_wr : Gr; g_wr : Gr; sigma_wr : Gr; P_wr : Pr; W_wr : Wr }.
Definition calc_real_space (s : attributes) : option real_space :=
  if (s_P s, s_W s) is (Some P_wk, Some W_wk) then
    Some (RealSpace (fourier_g (s_g0 s)) (fourier_g (s_g s)) (fourier_g (s_sigma s)) (fourier_P P_wk) (fourier_W W_wk))
  else None.
(* lines 139-170; the fmesh argument for fermions, fbmesh for bosons is part of the continuation *)
Variables (pade_g : G -> Gf) (pade_P : P -> Pf) (pade_W : W -> Wf) (pade_X : X -> Xf).
Record collection := Collection { rf_mu : R; rf_mu0 : R; rf_g0_fk : Gf; rf_g_fk : Gf; rf_hartree : G; rf_fock : G;
  rf_P : option Pf; rf_W : option Wf; rf_chi : option Xf; rf_Wdyn : option Wf }.
Definition calc_real_freq (s : attributes) : option collection :=
  if (s_hartree s, s_fock s) is (Some sigma_hartree_k, Some sigma_fock_k) then
    Some (Collection (s_mu s) (s_mu0 s) (pade_g (s_g0 s)) (pade_g (s_g s)) sigma_hartree_k sigma_fock_k
      (omap pade_P (s_P s)) (omap pade_W (s_W s)) (omap pade_X (s_chi s)) (omap pade_W (s_Wdyn s)))
  else None.
End Output.

Section StaticInteraction.
Variables (K Rs A : Type) (fourier : (K -> A) -> Rs -> A) (zero : A).
(* lines 124-130: V_wk[w, :] = V_k for every w of the bosonic mesh, then the transform at every frequency *)
Definition V_wk (bmesh : seq nat) (V_k : K -> A) : nat -> K -> A :=
  foldl (fun acc w => fun w' => if w' == w then V_k else acc w') (fun _ _ => zero) bmesh.
Definition V_wr (bmesh : seq nat) (V_k : K -> A) : nat -> Rs -> A := fun w => fourier (V_wk bmesh V_k w).
End StaticInteraction.

Section Storage.
(* the __dict__ of an object: attribute names and values *)
Variable Val : Type.
Definition dict := seq (string * Val).
Fixpoint lookup (d : dict) (k : string) : option Val := if d is (k', v) :: r then if String.eqb k k' then Some v else lookup r k else None.
(* dict.update: later entries win *)
Definition update (d e : dict) : dict := (e ++ d)%SEQ.
(* dict.pop(k): KeyError without the key *)
Definition pop (d : dict) (k : string) : option dict := if lookup d k is Some _ then Some [seq p <- d | ~~ String.eqb k p.1] else None.
(* lines 392-395 *)
Definition reduce_to_dict (obj : dict) : option dict := pop obj "timer".
(* lines 398-402; new e_k V_k wmesh is the __dict__ after the constructor *)
Variable new : Val -> Val -> Val -> option dict.
Definition factory_from_dict (d : dict) : option dict :=
  if (lookup d "e_k", lookup d "V_k", lookup d "wmesh") is (Some e_k, Some V_k, Some wmesh) then
    if new e_k V_k wmesh is Some ret then Some (update ret d) else None
  else None.
End Storage.
