(* Model of the parameter packing of python/triqs_tprf/fitdlr.py: Symmetrizer (lines 401-428), BlockSymmetrizer (lines 435-505) and the conversions
   g_from_x / x_from_g of constrained_lstsq_dlr_from_tau (lines 263-304). The constraints are in DlrConstraintModel. Not modelled: the minimizer.
   Arrays of shape (nx, no, no) are functions, one-dimensional arrays are sequences, None is an exception. The parameter vectors of the
   minimizer are sequences of real elements of C. *)
From mathcomp Require Import all_ssreflect all_algebra.
From Verif Require Import SymmetryModel.
Set Implicit Arguments.
Unset Strict Implicit.
Unset Printing Implicit Defensive.
Import GRing.Theory Num.Theory.
Local Open Scope ring_scope.

(* lines 433-434; np.unique sorts *)
Definition unique_non_zero (arr : seq int) : seq int := [seq i <- sort <=%R (undup arr) | i != 0].

Section DlrFit.
Variable C : numClosedFieldType.
Definition data := nat -> nat -> nat -> C.
(* ndarray.reshape((nx, m)) of a one-dimensional array *)
Definition reshape (nx m : nat) (v : seq C) : option (nat -> nat -> C) :=
  if size v == (nx * m)%N then Some (fun x k => nth 0 v (x * m + k)%N) else None.
(* g[:, pos[0], pos[1]].flatten() and g[:, pos[0], pos[1]] = val, for distinct positions *)
Definition get_at (nx : nat) (pos : seq (nat * nat)) (g : data) : seq C := [seq g x p.1 p.2 | x <- iota 0 nx, p <- pos].
Definition set_at (pos : seq (nat * nat)) (val : nat -> nat -> C) (g : data) : data :=
  fun x a b => if (a, b) \in pos then val x (index (a, b) pos) else g x a b.
Definition diagonal (s : seq nat) : seq (nat * nat) := [seq (a, a) | a <- s].

Record symmetrizer := Sym {
  get_x_d : data -> seq C;
  set_x_d : data -> seq C -> option data;
  get_x_u : data -> seq C;
  set_x_u : data -> seq C -> option data }.

(* lines 401-428 *)
Definition pairs_number (no : nat) : nat := (no * (no - 1)) %/ 2.
Definition Symmetrizer (nx no : nat) : symmetrizer :=
  let N := pairs_number no in
  let diag_idxs := iota 0 no in
  let triu_idxs := triu no in
  let tril_idxs := tril no in
  Sym (get_at nx (diagonal diag_idxs))
      (fun g x_d => if reshape nx no x_d is Some X then Some (set_at (diagonal diag_idxs) X g) else None)
      (get_at nx triu_idxs)
      (fun g x_u => if reshape nx N x_u is Some X then
         let g1 := set_at triu_idxs X g in
         Some (set_at tril_idxs (fun x k => (g1 x (nth (0, 0)%N triu_idxs k).1 (nth (0, 0)%N triu_idxs k).2)^* ) g1) else None).

(* lines 437-481: the matrix of labels, its different labels on the diagonal and above it, and their positions *)
Section Block.
Variables (nx no : nat) (block_mat : nat -> nat -> int).
Definition diag_terms : seq int := unique_non_zero [seq block_mat i i | i <- iota 0 no].
Definition triu_terms : seq int := unique_non_zero [seq block_mat p.1 p.2 | p <- triu no].
Definition diag_term_idxs : seq (seq nat) := [seq [seq i <- iota 0 no | block_mat i i == t] | t <- diag_terms].
Definition triu_term_idxs : seq (seq (nat * nat)) := [seq [seq p <- triu no | block_mat p.1 p.2 == t] | t <- triu_terms].
Definition diag_term_idx : seq nat := [seq head 0%N idxs | idxs <- diag_term_idxs].
Definition triu_term_idx : seq (nat * nat) := [seq head (0, 0)%N idxs | idxs <- triu_term_idxs].
(* lines 487-492: nx = 0 is a division by zero; reshape and the access to column term_idx may fail *)
Definition column (m : nat) (v : seq C) (term_idx : nat) : option (nat -> C) :=
  if reshape nx m v is Some X then (if (term_idx < m)%N then Some (fun x => X x term_idx) else None) else None.
Fixpoint set_terms (m : nat) (v : seq C) (term_idx : nat) (idxs : seq (seq (nat * nat))) (g : data) : option data :=
  if idxs is pos :: r then
    if column m v term_idx is Some col then set_terms m v term_idx.+1 r (set_at pos (fun x _ => col x) g) else None
  else Some g.
Definition block_set_x_d (g : data) (x_d : seq C) : option data :=
  if nx == 0%N then None else set_terms (size x_d %/ nx) x_d 0 (map diagonal diag_term_idxs) g.
(* lines 498-503 *)
Definition block_set_x_u (g : data) (x_u : seq C) : option data :=
  if set_terms (pairs_number no) x_u 0 triu_term_idxs g is Some g1 then Some (fun x a b => g1 x a b + (g1 x b a)^*) else None.
Definition BlockSymmetrizer : symmetrizer :=
  Sym (get_at nx (diagonal diag_term_idx)) block_set_x_d (get_at nx triu_term_idx) block_set_x_u.
End Block.

(* lines 263-287 *)
Definition merge_re_im (realvalued : bool) (nx no : nat) (x : seq C) : option (seq C * seq C) :=
  let x_d := take (nx * no) x in
  let x_u := drop (nx * no) x in
  if realvalued then Some (x_d, x_u)
  else if odd (size x_u) then None
  else
    let re := take (size x_u)./2 x_u in
    let im := drop (size x_u)./2 x_u in
    Some (x_d, [seq p.1 + 'i * p.2 | p <- zip re im]).
Definition split_re_im (realvalued : bool) (x_d x_u : seq C) : seq C :=
  if realvalued then map (fun z => 'Re z) x_d ++ map (fun z => 'Re z) x_u
  else map (fun z => 'Re z) x_d ++ map (fun z => 'Re z) x_u ++ map (fun z => 'Im z) x_u.
(* lines 293-304 *)
Definition g_from_x (sym : symmetrizer) (realvalued : bool) (nx no : nat) (x : seq C) : option data :=
  if merge_re_im realvalued nx no x is Some (x_d, x_u) then
    if set_x_u sym (fun _ _ _ => 0) x_u is Some g then set_x_d sym g x_d else None
  else None.
Definition x_from_g (sym : symmetrizer) (realvalued : bool) (g : data) : seq C :=
  split_re_im realvalued (get_x_d sym g) (get_x_u sym g).
End DlrFit.
