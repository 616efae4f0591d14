(* Model of c++/triqs_tprf/mpi.hpp 33-48 (mpi_view) and of the loop pattern shared by the lattice
   routines: zero array, each rank (and each OpenMP thread, in any order) writes the points of its
   chunk, mpi::all_reduce sums over ranks (e.g. lattice/gf.cpp 41-58, lattice/rpa.cpp 30-64,
   lattice/chi_imfreq.cpp 489-514).
   itertools::chunk_range and mpi::all_reduce are external: modelled by their documented effect. *)
From mathcomp Require Import all_ssreflect all_algebra.
Set Implicit Arguments.
Unset Strict Implicit.
Unset Printing Implicit Defensive.
Import GRing.Theory.
Local Open Scope ring_scope.

(* itertools::chunk_range(0, size, nranks, rank) (called at mpi.hpp 35): chunks of size/nranks points,
   the first size mod nranks ranks hold one point more; returns [first, second) *)
Definition chunk_range (size nranks rank : nat) : nat * nat :=
  let chunk := (size %/ nranks)%N in
  let large := (size - nranks * chunk)%N in
  if (rank < large)%N then (rank * chunk.+1, rank.+1 * chunk.+1)%N
  else (large + rank * chunk, large + rank.+1 * chunk)%N.

(* mpi.hpp 33-48: the mesh points [first, second) in mesh order *)
Definition mpi_view (T : Type) (mesh : seq T) (nranks rank : nat) : seq T :=
  let sl := chunk_range (size mesh) nranks rank in
  let sz := (sl.2 - sl.1)%N in
  take sz (drop sl.1 mesh).

Section Arrays.
Variables (T : eqType) (V : zmodType).

(* arrays indexed by mesh points *)
Definition arr := T -> V.
Definition zero_arr : arr := fun _ => 0.
Definition upd (A : arr) (p : T) (v : V) : arr := fun q => if q == p then v else A q.

(* "for (auto p : pts) A[p] = f(p)", pts in the order in which the threads execute them
   (gf.cpp 49-54, rpa.cpp 45-61, ...) *)
Definition fill (f : T -> V) (pts : seq T) : arr :=
  foldl (fun A p => upd A p (f p)) zero_arr pts.

(* "for (auto k : pts) A[key(k)] += h(k)" over the events executed by one rank (gf.cpp 172-187) *)
Definition accumulate (E : Type) (key : E -> T) (h : E -> V) (evs : seq E) : arr :=
  foldl (fun A e => upd A (key e) (A (key e) + h e)) zero_arr evs.

(* mpi::all_reduce: sum of the arrays of all ranks *)
Definition all_reduce (nranks : nat) (As : nat -> arr) : arr :=
  fun p => \sum_(r < nranks) As r p.

(* gf.cpp 49-57 etc.: distributed evaluation of f on the mesh; sched r is the order in which the
   threads of rank r execute its chunk *)
Definition mpi_map (nranks : nat) (sched : nat -> seq T) (f : T -> V) : arr :=
  all_reduce nranks (fun r => fill f (sched r)).
End Arrays.

(* gf.cpp 152-192: accumulation over the distributed momentum mesh followed by all_reduce;
   ws is the frequency mesh, each rank visits its k-chunk in order and, for each k, the
   frequencies in thread order (wsched r k) *)
Definition mpi_accumulate (K W : eqType) (V : zmodType) (nranks : nat) (kmesh : seq K)
    (wsched : nat -> K -> seq W) (h : K * W -> V) : W -> V :=
  all_reduce nranks (fun r =>
    accumulate (fun e : K * W => e.2) h
      (flatten [seq [seq (k, w) | w <- wsched r k] | k <- mpi_view kmesh nranks r])).
