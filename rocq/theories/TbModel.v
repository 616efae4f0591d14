(* Model of python/triqs_tprf/tight_binding.py, create_square_lattice (lines 31-101). The lattice object TBLattice belongs to TRIQS;
   modelled is its dispersion sum_R hopping[R] exp(i k R), with the unit complex numbers z1 = exp(i k_x), z2 = exp(i k_y). *)
From mathcomp Require Import all_ssreflect all_algebra.
Set Implicit Arguments.
Unset Strict Implicit.
Unset Printing Implicit Defensive.
Import GRing.Theory Num.Theory.
Local Open Scope ring_scope.

Section Tb.
Variable C : numClosedFieldType.
Definition mat := nat -> nat -> C.
(* np.eye, np.diag *)
Definition eye : mat := fun a b => (a == b)%:R.
Definition diag (f : nat -> C) : mat := fun a b => if a == b then f a else 0.
Definition scale (x : C) (m : mat) : mat := fun a b => x * m a b.
Definition hopping := seq ((int * int) * mat).
(* lines 65-98: number of orbitals and hopping matrices; None is the AttributeError of lines 65-66 *)
Definition square_lattice (norb : nat) (t tp zeeman : C) (spin : bool) : option (nat * hopping) :=
  if (zeeman != 0) && ~~ spin then None
  else
    let norb' := if spin then (norb * 2)%N else norb in
    let t_matrix := scale (- t) eye in
    let tp_matrix := scale (- tp) eye in
    let zeeman_matrix := scale zeeman (diag (fun orb => (-1) ^+ orb)) in
    Some (norb', [:: ((0 : int, 0 : int), zeeman_matrix);
      ((0 : int, 1 : int), t_matrix); ((0 : int, -1 : int), t_matrix); ((1 : int, 0 : int), t_matrix); ((-1 : int, 0 : int), t_matrix);
      ((1 : int, 1 : int), tp_matrix); ((-1 : int, -1 : int), tp_matrix); ((1 : int, -1 : int), tp_matrix); ((-1 : int, 1 : int), tp_matrix)]).
(* the Hamiltonian of TBLattice at a momentum *)
Definition fourier (h : hopping) (z1 z2 : C) : mat := fun a b => \sum_(e <- h) e.2 a b * (z1 ^ e.1.1 * z2 ^ e.1.2).
(* lines 104-125: the model for tests, in one to three dimensions *)
Definition unit_steps (dim : nat) : seq (nat * int) := [seq (d, s) | d <- iota 0 dim, s <- [:: -1 : int; 1 : int]].
Definition test_matrix (norb : nat) (t t1 t2 t12 t21 : C) : option mat :=
  match norb with
  | 1%N => Some (scale (- t) eye)
  | 2%N => Some (fun a b => - (if a == 0%N then if b == 0%N then t1 else t12 else if b == 0%N then t21 else t2))
  | _ => None
  end.
Definition test_fourier (dim : nat) (m : mat) (z : nat -> C) : mat := fun a b => \sum_(s <- unit_steps dim) m a b * z s.1 ^ s.2.
End Tb.
