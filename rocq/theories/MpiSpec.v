(* What counts as a run of a distributed loop: at least one rank, a mesh without repeated points, and on every
   rank the threads execute the points of that rank's chunk in an arbitrary order. *)
From mathcomp Require Import all_ssreflect all_algebra.
From Verif Require Import MpiModel MpiProofs.
Set Implicit Arguments.
Unset Strict Implicit.
Unset Printing Implicit Defensive.

Definition fair (T : eqType) (nranks : nat) (mesh : seq T) (sched : nat -> seq T) :=
  [/\ 0 < nranks, uniq mesh &
   forall r, r < nranks -> perm_eq (sched r) (mpi_view mesh nranks r)].

(* a run over all points of a finite mesh type *)
Definition fair_all (T : finType) (nranks : nat) (sched : nat -> seq T) := fair nranks (enum T) sched.

Lemma fair_map (T : eqType) (V : GRing.Zmodule.type) nranks (mesh : seq T) sched (f : T -> V) p :
  fair nranks mesh sched -> p \in mesh -> mpi_map nranks sched f p = f p.
Proof. by case=> h1 h2 h3 hp; rewrite (mpi_map_correct f h1 h2 h3) hp. Qed.

Lemma fair_all_map (T : finType) (V : GRing.Zmodule.type) nranks (sched : nat -> seq T) (f : T -> V) p :
  fair_all nranks sched -> mpi_map nranks sched f p = f p.
Proof. by move=> h; apply: (fair_map _ h); rewrite mem_enum. Qed.

(* in-order execution on any number of ranks is a run *)
Lemma fair_all_inorder (T : finType) nranks : 0 < nranks ->
  fair_all nranks (mpi_view (enum T) nranks).
Proof. by move=> h; split=> //; exact: enum_uniq. Qed.
