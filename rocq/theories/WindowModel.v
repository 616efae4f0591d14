(* Model of the fermionic windows: python/triqs_tprf/utilities.py lines 130-153 and python/triqs_tprf/bse.py lines 121-155.
   A frequency axis is a sequence of slabs (everything at one frequency); a mesh with n_max = N has 2 N fermionic points. *)
From mathcomp Require Import all_ssreflect all_algebra.
Set Implicit Arguments.
Unset Strict Implicit.
Unset Printing Implicit Defensive.
Import GRing.Theory Num.Theory Order.Theory.
Local Open Scope ring_scope.

Section Window.
Variable X : Type.
(* a Python slice bound: negative ones count from the end, all are clipped to the axis *)
Definition bound (n : nat) (i : int) : nat :=
  match i with Posz k => minn k n | Negz k => (n - k.+1)%N end.
Definition slice (l : seq X) (s e : int) : seq X := drop (bound (size l) s) (take (bound (size l) e) l).
(* numpy assignment to an axis of length m: an axis of length one is repeated, other lengths must agree *)
Definition assign_axis (m : nat) (l : seq X) : option (seq X) :=
  if size l == m then Some l else if l is [:: x] then Some (nseq m x) else None.
(* bse.py lines 121-155 *)
Definition window_wnk (l : seq X) (nwf : nat) : option (seq X) :=
  let n := Posz (size l)./2 in assign_axis (nwf * 2) (slice l (n - nwf%:Z) (n + nwf%:Z)).
End Window.
(* utilities.py lines 130-153, for one bosonic frequency: rows are first, columns second fermionic frequencies; the rows of a mesh object
   have the length of the axis *)
Definition window_loc (X : Type) (rows : seq (seq X)) (nwf : nat) : option (seq (seq X)) :=
  let n := Posz (size rows)./2 in
  if (nwf <= (size rows)./2)%N then
    let cut := [seq slice r (n - nwf%:Z) (n + nwf%:Z) | r <- slice rows (n - nwf%:Z) (n + nwf%:Z)] in
    if all (fun r => size r == (nwf * 2)%N) cut then assign_axis (nwf * 2) cut else None
  else None.
