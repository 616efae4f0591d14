(* Specification of symmetric Green's functions, independent of how symmetries.py visits the data.
   A function on 2 h fermionic frequencies (position p stands for nu_{p-h}, so -nu is position 2h-1-p), on an
   n1 x n2 x n3 momentum mesh stored row by row, with norb orbitals. *)
From Coq Require Import String.
From mathcomp Require Import all_ssreflect all_algebra.
From Verif Require Import SymmetryModel.
Set Implicit Arguments.
Unset Strict Implicit.
Unset Printing Implicit Defensive.
Import GRing.Theory Num.Theory.
Local Open Scope ring_scope.

Section Spec.
Variable C : numFieldType.
Local Notation gf := (gf C).

(* sign of an even or odd function *)
Definition parity (even : bool) : C := if even then 1 else -1.
(* storage position of the momentum with mesh coordinates (i, j, l), and coordinate of the inverted momentum *)
Definition kpos (n2 n3 i j l : nat) : nat := ((i * n2 + j) * n3 + l)%N.
Definition minus (n i : nat) : nat := if i == 0%N then 0%N else (n - i)%N.
(* a Green's function as the library makes them: even number of fermionic frequencies, three mesh dimensions, two
   orbital indices *)
Definition proper (n1 n2 n3 : nat) (g : gf) : Prop :=
  [/\ fermion g, ~~ odd (nfreq g), dims g = [:: n1; n2; n3], nparticle g = 2%N & [&& 0 < n1, 0 < n2 & 0 < n3]%N].
Definition inside (g : gf) n k a b : Prop := [/\ n < nfreq g, k < nk g, a < norb g & b < norb g]%N.

Definition frequency_symmetric (even : bool) (g : gf) : Prop := forall n k a b, inside g n k a b ->
  data g ((nfreq g).-1 - n)%N k a b = parity even * data g n k a b.
Definition momentum_symmetric (n1 n2 n3 : nat) (even : bool) (g : gf) : Prop := forall n i j l a b,
  (i < n1)%N -> (j < n2)%N -> (l < n3)%N -> inside g n (kpos n2 n3 i j l) a b ->
  data g n (kpos n2 n3 (minus n1 i) (minus n2 j) (minus n3 l)) a b = parity even * data g n (kpos n2 n3 i j l) a b.
Definition orbital_symmetric (even : bool) (g : gf) : Prop := forall n k a b, inside g n k a b ->
  data g n k b a = parity even * data g n k a b.
Definition symmetric n1 n2 n3 (variable : string) (even : bool) (g : gf) : Prop :=
  if String.eqb variable "frequency" then frequency_symmetric even g
  else if String.eqb variable "momentum" then momentum_symmetric n1 n2 n3 even g
  else orbital_symmetric even g.

(* requests: the pairs (variable, symmetry) of a call; the last one for a variable counts *)
Definition requests (variables symmetries : arg) : seq (string * string) := zip (as_list variables) (as_list symmetries).
Definition last_request (v : string) (l : seq (string * string)) : option string :=
  foldl (fun acc p => if String.eqb p.1 v then Some p.2 else acc) None l.
Definition odd_orbital_requests (l : seq (string * string)) : nat :=
  count (fun p => String.eqb p.1 "orbital" && String.eqb p.2 "odd") l.
(* same function: same meshes and target, same values *)
Definition same_shape (g h : gf) : Prop :=
  [/\ fermion g = fermion h, nfreq g = nfreq h, dims g = dims h, nparticle g = nparticle h & norb g = norb h].
Definition scaled (s : C) (g h : gf) : Prop :=
  same_shape g h /\ forall n k a b, inside g n k a b -> data h n k a b = s * data g n k a b.

(* tolerance: x counts as y *)
Definition about (rtol atol x y : C) : Prop := `|x - y| <= atol + rtol * `|y|.
Definition frequency_about (rtol atol : C) (even : bool) (g : gf) : Prop := forall n k a b,
  (n < (nfreq g)./2)%N -> inside g n k a b ->
  about rtol atol (data g n k a b) (parity even * data g ((nfreq g).-1 - n)%N k a b).
(* at a pair k, -k the function is negligible or has the sign; atol0 is the tolerance of line 270 *)
Definition negligible (atol : C) (g : gf) (k : nat) : Prop := forall n a b, inside g n k a b -> `|data g n k a b| <= atol.
Definition momentum_about (n1 n2 n3 : nat) (rtol atol atol0 : C) (even : bool) (g : gf) : Prop := forall i j l,
  (i < n1)%N -> (j < n2)%N -> (l < n3)%N ->
  let k := kpos n2 n3 i j l in let k' := kpos n2 n3 (minus n1 i) (minus n2 j) (minus n3 l) in
  (negligible atol g k /\ negligible atol g k') \/
  (forall n a b, inside g n k a b ->
     if k == k' then even \/ `|data g n k a b| <= atol0 + rtol * `|data g n k a b|
     else about rtol atol (parity even * data g n k a b) (data g n k' a b)).
Definition orbital_about (rtol atol : C) (even : bool) (g : gf) : Prop := forall n k a b, inside g n k a b ->
  ((a < b)%N -> about rtol atol (data g n k a b) (parity even * data g n k b a)) /\
  (a = b -> even \/ `|data g n k a b| <= atol).
End Spec.
