(* Model of c++/triqs_tprf/freq_conv.cpp: assembly of tensor-valued Green's functions from blocks and the frequency conventions of the
   channels; and of chi_from_gg2.cpp lines 43-106 for the latter. Frequencies are the integers of the Matsubara frequencies, i pi (2 n + 1) / beta
   for fermions and i pi 2 n / beta for bosons. *)
From mathcomp Require Import all_ssreflect all_algebra.
Set Implicit Arguments.
Unset Strict Implicit.
Unset Printing Implicit Defensive.
Import GRing.Theory Num.Theory.
Local Open Scope ring_scope.

Section FreqConv.
Variable C : numClosedFieldType.
Definition kron {T : eqType} (x y : T) : C := (x == y)%:R.

(* lines 46-69 at one frequency: blocks of matrices of the given sizes; all blocks are square and on the same mesh.
   None is the access to block 0 of an empty block function. *)
Definition block := (nat * (nat -> nat -> C))%type.
Definition assign_range (g : nat -> nat -> C) (idx : nat) (b : block) : nat -> nat -> C :=
  fun i j => if (idx <= i < idx + b.1)%N && (idx <= j < idx + b.1)%N then b.2 (i - idx)%N (j - idx)%N else g i j.
Definition place (s : nat * (nat -> nat -> C)) (b : block) : nat * (nat -> nat -> C) := ((s.1 + b.1)%N, assign_range s.2 s.1 b).
Definition block_iw_AB_to_matrix_valued (bg : seq block) : option (nat * (nat -> nat -> C)) :=
  if bg is [::] then None
  else
    let n := foldl (fun n (b : block) => (n + b.1)%N) 0%N bg in
    Some (n, (foldl place (0%N, fun _ _ => 0) bg).2).

(* lines 98-120: a clef assignment visits the mesh points and components one after another, here in any order, and reads the
   current contents of g2 (the last statement reads the function it writes) *)
Definition point := (int * int * int)%type.
Definition comp := (nat * nat * nat * nat)%type.
Definition cell := (point * comp)%type.
Definition store := cell -> C.
Definition write (s : store) (c : cell) (v : C) : store := fun c' => if c' == c then v else s c'.
Definition clef (order : seq cell) (rhs : store -> cell -> C) (s : store) : store := foldl (fun s c => write s c (rhs s c)) s order.
Section AABB.
(* the mesh and the value that TRIQS returns outside *)
Variables (mesh : pred point) (outside : point -> comp -> C).
Definition read (s : store) (p : point) (i : comp) : C := if mesh p then s (p, i) else outside p i.
Definition rhs_AABB (bg2 : nat -> nat -> point -> C) (s : store) (c : cell) : C :=
  let: (p, (i, j, k, l)) := c in kron i j * kron k l * bg2 i k p.
Definition rhs_ABBA (s : store) (x : cell) : C :=
  let: ((n1, n2, n3), (a, b, c, d)) := x in
  s ((n1, n2, n3), (a, b, c, d)) + kron a d * kron b c * (1 - kron a c) * - read s (n1, n1 - n2 + n3, n3) (a, d, c, b).
Definition block_3nu_AABB_to_tensor_valued (order1 order2 : seq cell) (bg2 : nat -> nat -> point -> C) (g2 : store) : store :=
  clef order2 rhs_ABBA (clef order1 (rhs_AABB bg2) (fun c => g2 c * 0)).
End AABB.

(* lines 124-126 *)
Definition get_magnetic_component (g2 : point -> comp -> C) (p : point) : C := g2 p (0, 0, 0, 0)%N - g2 p (0, 0, 1, 1)%N.
(* lines 131-147: w bosonic, n and np fermionic; w - np is the fermionic frequency number w - np - 1 *)
Definition from_3nu_PH (g2 : point -> comp -> C) (w n np : int) : comp -> C := g2 (n, n + w, np + w).
Definition from_3nu_PH_bar (g2 : point -> comp -> C) (w n np : int) : comp -> C := g2 (n, np, np + w).
Definition from_3nu_PP (g2 : point -> comp -> C) (w n np : int) : comp -> C := g2 (n, np, w - np - 1).
(* chi_from_gg2.cpp 43-64 and 81-100; g is evaluated on all frequencies *)
Definition chi0_PH (beta : C) (g : int -> nat -> nat -> C) (w n np : int) (i : comp) : C :=
  let: (a, b, c, d) := i in - beta * kron n np * g n d a * g (n + w) b c.
Definition chi_PH (beta : C) (g : int -> nat -> nat -> C) (g2 : int -> int -> int -> comp -> C) (w n np : int) (i : comp) : C :=
  let: (a, b, c, d) := i in g2 w n np (a, b, c, d) - beta * kron w 0 * g n b a * g np d c.
Definition chi0_PP (beta : C) (g : int -> nat -> nat -> C) (w n np : int) (i : comp) : C :=
  let: (a, b, c, d) := i in - beta * kron n np * g n d a * g (w - n - 1) b c.
Definition chi_PP (beta : C) (g : int -> nat -> nat -> C) (g2 : int -> int -> int -> comp -> C) (w n np : int) (i : comp) : C :=
  let: (a, b, c, d) := i in g2 w n np (a, b, c, d) - beta * kron (n + np + 1) w * g n b a * g np d c.
End FreqConv.
