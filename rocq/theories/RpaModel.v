(* Model of the lattice routines that act pointwise on the mesh with rank-four tensors:
   c++/triqs_tprf/lattice/rpa.cpp 29-64,
   c++/triqs_tprf/lattice/dynamical_screened_interaction.cpp 32-131,
   c++/triqs_tprf/lattice/eliashberg.cpp 328-361 (construct_phi_wk).
   group_indices_view(.., idx_group<0,1>, idx_group<3,2>) of a C-ordered array is the C-order view [tmat]
   (a view has one stride per merged index, so the order inside a group is the memory order; see DESIGN.md).
   The distribution over ranks is the one of MpiModel. *)
From mathcomp Require Import all_ssreflect all_algebra.
From Verif Require Import Base MpiModel.
Set Implicit Arguments.
Unset Strict Implicit.
Unset Printing Implicit Defensive.
Import GRing.Theory.
Local Open Scope ring_scope.

Section Pointwise.
Variables (F : fieldType) (nb : nat).
Local Notation t4 := (tensor4 F nb).

(* rpa.cpp 49-60: chi = inverse(I - chi0 * U) * chi0 *)
Definition rpa_point (U chi0 : t4) : t4 :=
  mten (invmx (1%:M - tmat chi0 *m tmat U) *m tmat chi0).

(* dynamical_screened_interaction.cpp 65-76, susType == bubble: W = V * inverse(I - chi * V) *)
Definition W_generic_bubble (chi V : t4) : t4 :=
  mten (tmat V *m invmx (1%:M - tmat chi *m tmat V)).

(* dynamical_screened_interaction.cpp 77-78, susType == generalized: W = V * chi * V + V *)
Definition W_generic_generalized (chi V : t4) : t4 :=
  mten (tmat V *m tmat chi *m tmat V + tmat V).

(* dynamical_screened_interaction.cpp 113-118: denom starts as the unit matrix (in the view) and the loops subtract
   chi(a,b,e,f) V(e,f,c,d) *)
Definition W_opt_denom (chi V : t4) : t4 := fun a b c d =>
  mten 1%:M a b c d - \sum_e \sum_f chi a b e f * V e f c d.
(* lines 120-125: inv_denom through the view, then W(a,b,c,d) += V(a,b,e,f) inv_denom(e,f,c,d) from zero *)
Definition W_opt_bubble (chi V : t4) : t4 :=
  let inv_denom := mten (invmx (tmat (W_opt_denom chi V))) in
  fun a b c d => \sum_e \sum_f V a b e f * inv_denom e f c d.

(* eliashberg.cpp 345-357: phi = U * chi * U *)
Definition phi_point (U chi : t4) : t4 := mten (tmat U *m tmat chi *m tmat U).

End Pointwise.

(* tensor-valued Green functions on a product mesh (frequency x momentum); the mesh identity used by the
   run-time checks is an abstract label, the points are listed *)
Section OnMesh.
Variables (F : fieldType) (nb : nat) (W K M : eqType).
Local Notation t4 := (tensor4 F nb).

Record chi_wk := ChiWK { wmesh : seq W; kmesh : seq K; kmesh_id : M; chi_dat : W -> K -> t4 }.
Record chi_k := ChiK { vkmesh_id : M; v_dat : K -> t4 }.

(* distributed evaluation of a pointwise routine: zero array, chunks in thread order, all_reduce *)
Definition on_mesh (nranks : nat) (sched : nat -> seq (W * K)) (f : W -> K -> t4) : W -> K -> t4 :=
  fun w k a b c d => mpi_map nranks sched (fun p : W * K => f p.1 p.2 a b c d) (w, k).

(* rpa.cpp 29-64 *)
Definition solve_rpa_PH nranks sched (chi0 : chi_wk) (U : t4) : chi_wk :=
  ChiWK (wmesh chi0) (kmesh chi0) (kmesh_id chi0)
    (on_mesh nranks sched (fun w k => rpa_point U (chi_dat chi0 w k))).

(* dynamical_screened_interaction.cpp 132-156: overload with static V_k, Matsubara meshes;
   None is TRIQS_RUNTIME_ERROR (mesh mismatch, line 92) *)
Definition W_static nranks sched (chi : chi_wk) (V : chi_k) : option chi_wk :=
  if kmesh_id chi != vkmesh_id V then None else
  Some (ChiWK (wmesh chi) (kmesh chi) (kmesh_id chi)
    (on_mesh nranks sched (fun w k => W_opt_bubble (chi_dat chi w k) (v_dat V k)))).

(* overload with static V_k on the real-frequency mesh (142-144) *)
Definition W_static_generic nranks sched (chi : chi_wk) (V : chi_k) : option chi_wk :=
  if kmesh_id chi != vkmesh_id V then None else
  Some (ChiWK (wmesh chi) (kmesh chi) (kmesh_id chi)
    (on_mesh nranks sched (fun w k => W_generic_bubble (chi_dat chi w k) (v_dat V k)))).

(* overloads with dynamic V_wk (146-156) *)
Definition W_dynamic nranks sched (chi V : chi_wk) : option chi_wk :=
  if kmesh_id chi != kmesh_id V then None else
  Some (ChiWK (wmesh chi) (kmesh chi) (kmesh_id chi)
    (on_mesh nranks sched (fun w k => W_generic_bubble (chi_dat chi w k) (chi_dat V w k)))).

(* dynamical_screened_interaction_W_from_generalized_susceptibility (158-180), static and dynamic V *)
Definition W_from_chi_static nranks sched (chi : chi_wk) (V : chi_k) : option chi_wk :=
  if kmesh_id chi != vkmesh_id V then None else
  Some (ChiWK (wmesh chi) (kmesh chi) (kmesh_id chi)
    (on_mesh nranks sched (fun w k => W_generic_generalized (chi_dat chi w k) (v_dat V k)))).
Definition W_from_chi_dynamic nranks sched (chi V : chi_wk) : option chi_wk :=
  if kmesh_id chi != kmesh_id V then None else
  Some (ChiWK (wmesh chi) (kmesh chi) (kmesh_id chi)
    (on_mesh nranks sched (fun w k => W_generic_generalized (chi_dat chi w k) (chi_dat V w k)))).

(* eliashberg.cpp 328-361 *)
Definition construct_phi_wk nranks sched (chi : chi_wk) (U : t4) : chi_wk :=
  ChiWK (wmesh chi) (kmesh chi) (kmesh_id chi)
    (on_mesh nranks sched (fun w k => phi_point U (chi_dat chi w k))).

End OnMesh.
