(* Model of python/triqs_tprf/vasp_crpa_parsers.py 11-132. A file is the list of its numeric rows (np.genfromtxt with the header skipped, a table with a
   single row comes back one-dimensional); the files are given in the order of the sorted names. Momenta are triples over an ordered field, the values are
   in a ring. An exception is None. Not modelled: verbose output, text parsing, indices that are not whole numbers. *)
From mathcomp Require Import all_ssreflect all_algebra.
From Verif Require Import SymmetryModel KgridModel.
Set Implicit Arguments.
Unset Strict Implicit.
Unset Printing Implicit Defensive.
Import GRing.Theory Num.Theory Order.TTheory.
Local Open Scope ring_scope.

Section Vasp.
Variables (R : realFieldType) (V : zmodType).
Definition momentum : Type := (R * R * R)%type.
Definition index4 : Type := (nat * nat * nat * nat)%type.
(* columns 1-3, 4-7 (orbitals counted from one) and 8-9 *)
Record row := Row { r_q : momentum; r_idx : index4; r_val : V }.
Definition tensor := nat -> nat -> nat -> nat -> V.
(* rows are compared column by column, as np.unique does *)
Definition lexle (p q : momentum) : bool :=
  let: (x, y, z) := p in let: (x', y', z') := q in (x < x') || (x == x') && ((y < y') || (y == y') && (z <= z')).
(* line 68: np.unique(Q, return_index=True, axis=0): the sorted rows and the position of the first occurrence *)
Definition unique (Q : seq momentum) : seq (momentum * nat) := [seq (q, index q Q) | q <- sort lexle (undup Q)].
(* numpy index x - 1, where -1 is the last position *)
Definition position (norb x : nat) : nat := if x is x'.+1 then x' else norb.-1.
Definition max4 (i : index4) : nat := let: (a, b, c, d) := i in maxn (maxn a b) (maxn c d).
(* lines 48-53: np.testing.assert_array_almost_equal with its tolerance eps *)
Definition almost_equal (eps : R) (p q : momentum) : bool :=
  let: (x, y, z) := p in let: (x', y', z') := q in [&& `|x - x'| < eps, `|y - y'| < eps & `|z - z'| < eps].
Definition fill (norb : nat) (rows : seq row) : tensor :=
  foldl (fun (u : tensor) r => let: (a, b, c, d) := r_idx r in fun i j k l => if (i, j, k, l) == (position norb a, position norb b, position norb c, position norb d) then r_val r else u i j k l)
    (fun _ _ _ _ => 0) rows.
(* lines 11-70; aliases: whether numpy still has np.float and np.complex (removed in numpy 1.24) *)
Definition read_to_ndarray (aliases : bool) (eps : R) (files : seq (seq row)) (orbsub : seq nat) : option (seq (tensor * momentum) * nat) :=
  let data := flatten [seq d <- files | (1 < size d)%N] in
  if data is [::] then None
  else
    let norb := foldr maxn 0%N [seq max4 (r_idx r) | r <- data] in
    if norb == 0%N then None
    else if ~~ aliases then None
    else
      let nq := (size data %/ norb ^ 4)%N in
      let orb := if orbsub is [::] then iota 0 norb else orbsub in
      if ~~ all (fun x => x < norb)%N orb then None
      else
        let block qidx := take (norb ^ 4) (drop (qidx * norb ^ 4) data) in
        let first qidx := r_q (nth (Row (0, 0, 0) (0, 0, 0, 0)%N 0) data (qidx * norb ^ 4)) in
        if all (fun qidx => all (fun r => almost_equal eps (r_q r) (first qidx)) (block qidx)) (iota 0 nq) then
          let U qidx : tensor := fun a b c d => fill norb (block qidx) (nth 0%N orb b) (nth 0%N orb a) (nth 0%N orb d) (nth 0%N orb c) in
          Some ([seq (U p.2, p.1) | p <- unique [seq first qidx | qidx <- iota 0 nq]], size orb)
        else None.
(* lines 72-117: kpts has the mesh sizes; kunits are the reciprocal vectors of the mesh *)
Definition wrap_index (kpts : seq nat) (i : seq int) : seq int := [seq (if p.1 < 0 then p.1 + p.2%:Z else p.1) | p <- zip i kpts].
Definition comp (q : momentum) : seq R := let: (x, y, z) := q in [:: x; y; z].
Definition convert_to_triqs (rint : R -> int) (U_Q : seq (tensor * momentum)) (units : 'M[R]_3) (kpts : seq nat) : option (nat -> tensor) :=
  if get_relative_k (mesh_values units kpts) units is Some q then
    let target (p : tensor * momentum) := wrap_index kpts [seq rint (x.1 * x.2%:R) | x <- zip (comp p.2) kpts] in
    let j l := [seq rint ((nth 0%N kpts a)%:R * q l ord0 a) | a : 'I_3 <- enum 'I_3] in
    Some (fun l => foldl (fun (u : tensor) p => if target p == j l then p.1 else u) (fun _ _ _ _ => 0) U_Q)
  else None.
(* numpy broadcasting of the first axis *)
Definition broadcast (f : tensor -> tensor -> tensor) (x y : seq tensor) : option (seq tensor) :=
  if size x == size y then Some [seq f p.1 p.2 | p <- zip x y]
  else if x is [:: a] then Some [seq f a b | b <- y] else if y is [:: b] then Some [seq f a b | a <- x] else None.
(* lines 119-132: V_q and U_q; orbital axes of different lengths are an error (numpy would repeat an axis of length one) *)
Definition read_to_triqs (aliases : bool) (eps : R) (rint : R -> int) (u_full v_full v_redu : seq (seq row)) (units : 'M[R]_3) (kpts orbsub : seq nat) :
    option ((nat -> tensor) * (nat -> tensor)) :=
  match read_to_ndarray aliases eps u_full orbsub, read_to_ndarray aliases eps v_full orbsub, read_to_ndarray aliases eps v_redu orbsub with
  | Some (UR, n1), Some (VR, n2), Some (VRR, n3) =>
    if ~~ ((n1 == n2) && (n2 == n3)) then None
    else
      let Q := [seq p.2 | p <- VRR] in
      let t := [seq p.1 | p <- VR] in
      if broadcast (fun x y a b c d => x a b c d - y a b c d) t [seq p.1 | p <- VRR] is Some D then
        if broadcast (fun x y a b c d => x a b c d + y a b c d) [seq p.1 | p <- UR] D is Some U then
          (* U_Q[qidx] for every q of the last file set *)
          if (size Q <= size t)%N && (size Q <= size U)%N then
            match convert_to_triqs rint (zip t Q) units kpts, convert_to_triqs rint (zip U Q) units kpts with Some v, Some u => Some (v, u) | _, _ => None end
          else None
        else None
      else None
  | _, _, _ => None
  end.
End Vasp.
