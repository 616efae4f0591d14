(* C01: the distribution over ranks and threads cannot be seen in the result. *)
From mathcomp Require Import all_ssreflect all_algebra.
From Verif Require Import MpiModel MpiProofs.
Set Implicit Arguments.
Unset Strict Implicit.
Unset Printing Implicit Defensive.
Import GRing.Theory.
Local Open Scope ring_scope.

(* the chunks, in rank order, are exactly the mesh: nothing lost, nothing twice, order kept *)
Theorem C01_chunks_partition (T : Type) (mesh : seq T) (nranks : nat) :
  (0 < nranks)%N -> flatten [seq mpi_view mesh nranks r | r <- iota 0 nranks] = mesh.
Proof. exact (@chunks_cat T mesh nranks). Qed.
Print Assumptions C01_chunks_partition.

(* no rank has more than one point more than the average (load balance) *)
Theorem C01_chunk_sizes_balanced (s n r : nat) :
  ((chunk_range s n r).2 - (chunk_range s n r).1 = s %/ n + (r < s - n * (s %/ n)))%N.
Proof. exact (chunk_size s n r). Qed.
Print Assumptions C01_chunk_sizes_balanced.

(* every rank holds f on the mesh after all_reduce, for every rank count and thread order *)
Theorem C01_mpi_map_is_serial (T : eqType) (V : zmodType) (mesh : seq T) (nranks : nat)
    (sched : nat -> seq T) (f : T -> V) :
  (0 < nranks)%N -> uniq mesh ->
  (forall r, (r < nranks)%N -> perm_eq (sched r) (mpi_view mesh nranks r)) ->
  forall p, mpi_map nranks sched f p = if p \in mesh then f p else 0.
Proof. exact (@mpi_map_correct T V mesh nranks sched f). Qed.
Print Assumptions C01_mpi_map_is_serial.

(* accumulating routines: the momentum sum does not depend on ranks or threads *)
Theorem C01_mpi_accumulate_is_serial (K W : eqType) (V : zmodType) (nranks : nat)
    (kmesh : seq K) (wmesh : seq W) (wsched : nat -> K -> seq W) (h : K * W -> V) :
  (0 < nranks)%N -> uniq wmesh ->
  (forall r k, (r < nranks)%N -> perm_eq (wsched r k) wmesh) ->
  forall w, mpi_accumulate nranks kmesh wsched h w =
            if w \in wmesh then \sum_(k <- kmesh) h (k, w) else 0.
Proof. exact (@mpi_accumulate_correct K W V nranks kmesh wmesh wsched h). Qed.
Print Assumptions C01_mpi_accumulate_is_serial.

(* non-vacuity: 5 points on 3 ranks with one chunk executed backwards; 2 points on 4 ranks *)
Example C01_instance : let mesh := [:: 10; 11; 12; 13; 14]%N in
  let sched r := if r == 0%N then rev (mpi_view mesh 3 r) else mpi_view mesh 3 r in
  [/\ uniq mesh, (forall r, (r < 3)%N -> perm_eq (sched r) (mpi_view mesh 3 r)),
      [seq mpi_view mesh 3 r | r <- iota 0 3] = [:: [:: 10; 11]; [:: 12; 13]; [:: 14]]%N
    & [seq mpi_view [:: 7; 8]%N 4 r | r <- iota 0 4] = [:: [:: 7]; [:: 8]; [::]; [::]]%N].
Proof. by split=> // -[|[|[|]]]. Qed.
