(* Model of the lattice Dyson equation, c++/triqs_tprf/lattice/gf.cpp 39-206.
   W is the type of points of the frequency mesh (imfreq, dlr_imfreq or refreq) and [freq] the complex value of a
   point; K is the type of points of the Brillouin-zone mesh. *)
From mathcomp Require Import all_ssreflect all_algebra.
From Verif Require Import MpiModel.
Set Implicit Arguments.
Unset Strict Implicit.
Unset Printing Implicit Defensive.
Import GRing.Theory.
Local Open Scope ring_scope.

Section Dyson.
Variables (C : fieldType) (nb : nat) (W K : finType) (freq : W -> C).
Local Notation mat := 'M[C]_nb.

(* gf.cpp 41-58 (lattice_dyson_g0_wk on both Matsubara meshes) *)
Definition lattice_dyson_g0_Xk nranks (sched : nat -> seq (W * K)) (mu : C) (e_k : K -> mat) : W -> K -> mat :=
  fun w k => mpi_map nranks sched (fun p : W * K => invmx ((freq p.1 + mu)%:M - e_k p.2)) (w, k).

(* gf.cpp 71-87: idelta is i times the broadening *)
Definition lattice_dyson_g0_fk nranks (sched : nat -> seq (W * K)) (mu : C) (e_k : K -> mat) (idelta : C) : W -> K -> mat :=
  fun w k => mpi_map nranks sched (fun p : W * K => invmx ((freq p.1 + idelta + mu)%:M - e_k p.2)) (w, k).

(* the self energy argument: sigma_w (arity 1) or sigma_wk (arity 2) *)
Inductive self_energy := SigmaW of (W -> mat) | SigmaWK of (W -> K -> mat).
(* gf.cpp 117-119, 179-181 *)
Definition sigmaterm (s : self_energy) (w : W) (k : K) : mat :=
  match s with SigmaW f => f w | SigmaWK f => f w k end.

(* gf.cpp 91-123 and its instances 126-148 (idelta = 0 on the Matsubara meshes) *)
Definition lattice_dyson_g_Xk nranks (sched : nat -> seq (W * K)) (mu : C) (e_k : K -> mat) (s : self_energy) (idelta : C) :
    W -> K -> mat := fun w k =>
  mpi_map nranks sched (fun p : W * K => invmx ((freq p.1 + idelta + mu)%:M - e_k p.2 - sigmaterm s p.1 p.2)) (w, k).

(* gf.cpp 152-192 and its instances 194-206: each rank adds its momenta, threads share the frequencies *)
Definition lattice_dyson_g_X nranks (wsched : nat -> K -> seq W) (mu : C) (e_k : K -> mat) (s : self_energy) (idelta : C) :
    W -> mat := fun w =>
  (#|K|%:R)^-1 *: mpi_accumulate nranks (enum K) wsched
    (fun p : K * W => invmx ((freq p.2 + idelta + mu)%:M - e_k p.1 - sigmaterm s p.2 p.1)) w.
End Dyson.
Arguments SigmaW {C nb W K}.
Arguments SigmaWK {C nb W K}.
