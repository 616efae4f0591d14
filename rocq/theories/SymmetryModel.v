(* Model of python/triqs_tprf/symmetries.py 25-426.
   The numpy data of a Green's function is a function of frequency, momentum and two orbital positions; an assignment
   through a view is an update of that function. Green's functions live in a store (a list of objects, a reference is a
   position), so that gf.copy() and in-place changes are visible. None is ValueError. *)
From Coq Require Import String.
From mathcomp Require Import all_ssreflect all_algebra.
Set Implicit Arguments.
Unset Strict Implicit.
Unset Printing Implicit Defensive.
Import GRing.Theory Num.Theory.
Local Open Scope ring_scope.

(* np.unravel_index, np.ravel_multi_index (row major). On a mesh with no dimension left numpy is given () *)
Fixpoint unravel (dims : seq nat) (i : nat) : seq nat :=
  if dims is m :: ds then (i %/ foldr muln 1%N ds)%N :: unravel ds (i %% foldr muln 1%N ds)%N else [::].
Fixpoint ravel (dims ks : seq nat) : nat :=
  match dims, ks with m :: ds, k :: l => (k * foldr muln 1%N ds + ravel ds l)%N | _, _ => 0%N end.
(* lines 186-208 *)
Definition invert_momentum (momentum mesh : seq nat) : seq nat := [seq (p.2 - p.1) %% p.2 | p <- zip momentum mesh]%N.
(* lines 226-234: position of the inverted momentum *)
Definition inv_idx (dims : seq nat) (idx : nat) : nat :=
  let mesh := [seq m <- dims | m != 1%N] in ravel mesh (invert_momentum (unravel mesh idx) mesh).

(* np.triu_indices(norb, k=1) and np.tril_indices(norb, k=-1): row-major lists of positions *)
Definition all_pairs (n : nat) : seq (nat * nat) := [seq (i, j) | i <- iota 0 n, j <- iota 0 n].
Definition triu (n : nat) := [seq p <- all_pairs n | (p.1 < p.2)%N].
Definition tril (n : nat) := [seq p <- all_pairs n | (p.2 < p.1)%N].

Section Symmetries.
Variable C : numFieldType.
Definition array := nat -> nat -> nat -> nat -> C.
(* fermionic or bosonic frequency mesh, number of frequencies, dims of the Brillouin-zone mesh, rank of the target and
   number of orbitals, data *)
Record gf := Gf { fermion : bool; nfreq : nat; dims : seq nat; nparticle : nat; norb : nat; data : array }.
Definition nk (g : gf) : nat := foldr muln 1%N (dims g).
Definition with_data (g : gf) (x : array) : gf := Gf (fermion g) (nfreq g) (dims g) (nparticle g) (norb g) x.

(* lines 158-182 with 101-104, 119-144: the average of the halves is the positive half. numpy refuses to assign arrays of
   different lengths unless the length is one *)
Definition symmetrize_frequency (g : gf) (even : bool) : option gf :=
  if ~~ fermion g then None else
  let h := (nfreq g)./2 in
  if ((nfreq g - h != h) && (nfreq g - h != 1))%N then None else
  Some (with_data g (fun n k a b =>
    if (n < h)%N then (if even then 1 else -1) * data g (h + (h.-1 - n))%N k a b else data g n k a b)).

(* lines 283-311 with 210-241. pos, neg: views at idx and inv_idx; avg is the view neg *)
Definition momentum_step (ds : seq nat) (even : bool) (x : array) (idx : nat) : array :=
  let inv := inv_idx ds idx in
  if idx == inv then
    (if even then x else fun n k a b => if k == idx then x n k a b * 0 else x n k a b)
  else
    let x1 : array := fun n k a b => if k == idx then x n inv a b else x n k a b in
    fun n k a b => if k == inv then (if even then 1 else -1) * x1 n inv a b else x1 n k a b.
Definition symmetrize_momentum (g : gf) (even : bool) : option gf :=
  Some (with_data g (foldl (momentum_step (dims g) even) (data g) (iota 0 (nk g)))).

(* lines 406-426 with 316-345, 347-365 *)
Definition orbital_step (even : bool) (x : array) (ul : (nat * nat) * (nat * nat)) : array :=
  let: (u, l) := ul in
  let x1 : array := fun n k a b => if (a, b) == u then x n k l.1 l.2 else x n k a b in
  fun n k a b => if (a, b) == l then (if even then 1 else -1) * x1 n k l.1 l.2 else x1 n k a b.
Definition diagonal_step (x : array) (o : nat) : array := fun n k a b =>
  if (a, b) == (o, o) then x n k a b * 0 else x n k a b.
Definition symmetrize_orbital (g : gf) (even : bool) : option gf :=
  if nparticle g != 2%N then None else
  let x := foldl (orbital_step even) (data g) (zip (triu (norb g)) (tril (norb g))) in
  Some (with_data g (if even then x else foldl diagonal_step x (iota 0 (norb g)))).

(* lines 27-71 *)
Inductive arg := Str of string | Strs of seq string.
Definition as_list (v : arg) : seq string := match v with Str s => [:: s] | Strs l => l end.
Definition symmetrize_fct (variable : string) : option (gf -> bool -> option gf) :=
  if String.eqb variable "frequency" then Some symmetrize_frequency
  else if String.eqb variable "momentum" then Some symmetrize_momentum
  else if String.eqb variable "orbital" then Some symmetrize_orbital
  else None.
Definition valid_symmetry (s : string) : bool := (String.eqb s "even" || String.eqb s "odd")%bool.
(* the loop on the object at position r of the store *)
Definition store := seq gf.
Fixpoint symmetrize_loop (st : store) (r : nat) (todo : seq (string * string)) : option store :=
  match todo with
  | [::] => Some st
  | (v, s) :: rest =>
    if symmetrize_fct v is Some f then
      if List.nth_error st r is Some g then
        if f g (String.eqb s "even") is Some g' then symmetrize_loop (set_nth g' st r g') r rest else None
      else None
    else None
  end.
(* the store afterwards and the returned reference *)
Definition enforce_symmetry (st : store) (r : nat) (variables symmetries : arg) : option (store * nat) :=
  let vs := as_list variables in let ss := as_list symmetries in
  if size vs != size ss then None else
  if ~~ all (fun v => if symmetrize_fct v is Some _ then true else false) vs then None else
  if ~~ all valid_symmetry ss then None else
  if List.nth_error st r is Some g then
    let st1 := rcons st g in
    if symmetrize_loop st1 (size st) (zip vs ss) is Some st2 then Some (st2, size st) else None
  else None.

(* np.allclose(x, y, atol=atol) of two arrays of the given extents; rtol = 1e-5 and atol0 = 1e-8 are the defaults *)
Variables (rtol atol0 : C).
Definition close (atol x y : C) : bool := `|x - y| <= atol + rtol * `|y|.
Definition allclose3 (n1 n2 n3 : nat) (atol : C) (x y : nat -> nat -> nat -> C) : bool :=
  all (fun i => all (fun j => all (fun l => close atol (x i j l) (y i j l)) (iota 0 n3)) (iota 0 n2)) (iota 0 n1).
Definition allclose2 (n1 n2 : nat) (atol : C) (x y : nat -> nat -> C) : bool :=
  all (fun i => all (fun j => close atol (x i j) (y i j)) (iota 0 n2)) (iota 0 n1).
(* lines 106-116: +1 is true, -1 is false *)
Definition overall_sign (signs : seq bool) : option bool :=
  if undup signs is [:: s] then Some s else None.

(* lines 146-156; the frequency axis of length h, momentum axis, both orbital axes *)
Definition check_frequency_symmetry (g : gf) (atol : C) : option (option bool) :=
  if ~~ fermion g then None else
  let h := (nfreq g)./2 in
  let o := norb g in
  if (nfreq g - h != h)%N then None else
  let neg n k a b := data g (h.-1 - n)%N k a b in
  let pos n k a b := data g (h + n)%N k a b in
  let cl s := all (fun a => allclose3 h (nk g) o atol (fun n k b => neg n k a b) (fun n k b => s * pos n k a b)) (iota 0 o) in
  Some (if cl 1 then Some true else if cl (-1) then Some false else None).

(* lines 243-281; Some signs, or None for "return None" in the loop *)
Definition check_momentum_step (g : gf) (atol : C) (acc : option (seq bool)) (idx : nat) : option (seq bool) :=
  if acc is Some signs then
    let inv := inv_idx (dims g) idx in
    let pos n a b := data g n idx a b in
    let neg n a b := data g n inv a b in
    let ac := allclose3 (nfreq g) (norb g) (norb g) in
    if ac atol pos (fun _ _ _ => 0) && ac atol neg (fun _ _ _ => 0) then Some signs else
    if idx == inv then (if ~~ ac atol0 (fun _ _ _ => 0) pos then Some (rcons signs true) else Some signs) else
    if ac atol pos neg then Some (rcons signs true)
    else if ac atol (fun n a b => -1 * pos n a b) neg then Some (rcons signs false)
    else None
  else None.
Definition check_momentum_symmetry (g : gf) (atol : C) : option bool :=
  obind overall_sign (foldl (check_momentum_step g atol) (Some [::]) (iota 0 (nk g))).

(* lines 367-404 *)
Definition check_triangle_step (g : gf) (atol : C) (acc : option (seq bool)) (ul : (nat * nat) * (nat * nat)) : option (seq bool) :=
  if acc is Some signs then
    let up n k := data g n k ul.1.1 ul.1.2 in
    let low n k := data g n k ul.2.1 ul.2.2 in
    if allclose2 (nfreq g) (nk g) atol up low then Some (rcons signs true)
    else if allclose2 (nfreq g) (nk g) atol up (fun n k => -1 * low n k) then Some (rcons signs false)
    else None
  else None.
Definition check_orbital_symmetry (g : gf) (atol : C) : option (option bool) :=
  if nparticle g != 2%N then None else
  Some (obind (fun signs =>
      overall_sign (signs ++ nseq (count (fun o => ~~ allclose2 (nfreq g) (nk g) atol (fun n k => data g n k o o) (fun _ _ => 0))
                                         (iota 0 (norb g))) true))
    (foldl (check_triangle_step g atol) (Some [::]) (zip (triu (norb g)) (tril (norb g))))).

(* lines 73-99: the values of the three keys *)
Definition check_symmetry (g : gf) (atol : C) : option (option bool * option bool * option bool) :=
  if check_frequency_symmetry g atol is Some f then
    let m := check_momentum_symmetry g atol in
    if check_orbital_symmetry g atol is Some o then Some (f, m, o) else None
  else None.
End Symmetries.
