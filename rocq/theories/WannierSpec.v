(* The text files of Wannier90, as documented in its user guide. *)
From Coq Require Import String Ascii ZArith QArith.
From mathcomp Require Import all_ssreflect.
From Verif Require Import ParamModel WannierModel.
Set Implicit Arguments.
Unset Strict Implicit.
Unset Printing Implicit Defensive.
Local Open Scope nat_scope.

(* the numbers on a line *)
Definition numbers (l : string) : option (seq Q) := map_opt read_float (words (before_hash l)).
Definition integers (l : string) : option (seq Z) := map_opt read_int (words (before_hash l)).
Definition all_pairs (n : nat) : seq (nat * nat) := [seq (i, j) | i <- iota 0 n, j <- iota 0 n].
(* the line of the matrix element t between the orbitals i and j (counted from zero) at distance R *)
Definition hopping_line (l : string) (R : vec) (ij : nat * nat) (t : amplitude) : Prop :=
  exists x y z a b re im, numbers l = Some [:: x; y; z; a; b; re; im] /\
    Qeq x (inject_Z R.1.1) /\ Qeq y (inject_Z R.1.2) /\ Qeq z (inject_Z R.2) /\
    Qeq a (inject_Z (Z.of_nat ij.1.+1)) /\ Qeq b (inject_Z (Z.of_nat ij.2.+1)) /\ Qeq re t.1 /\ Qeq im t.2.
(* numbers written fifteen to a line *)
Definition fifteen_per_line (deg : seq Z) (ls : seq string) : Prop :=
  exists rows, [seq integers l | l <- ls] = [seq Some r | r <- rows] /\ flatten rows = deg /\
    forall i, i < size rows -> 0 < size (nth [::] rows i) <= 15 /\ (i.+1 < size rows -> size (nth [::] rows i) = 15).
(* seedname_hr.dat for the Hamiltonian H on the points Rs with degeneracies deg; within a point the elements come in any order *)
Definition hr_file (lines : seq string) (n : nat) (Rs : seq vec) (deg : seq Z) (H : vec -> matrix) : Prop :=
  exists h l1 l2 dl hl (order : vec -> seq (nat * nat)),
    lines = [:: h, l1, l2 & dl ++ hl] /\ py_int l1 = Some (Z.of_nat n) /\ py_int l2 = Some (Z.of_nat (size Rs)) /\
    fifteen_per_line deg dl /\ (forall R, R \in Rs -> perm_eq (order R) (all_pairs n)) /\
    let es := [seq (R, ij) | R <- Rs, ij <- order R] in size hl = size es /\
    forall t, t < size es -> hopping_line (nth ""%string hl t) (nth (0%Z, 0%Z, 0%Z, (0, 0)) es t).1 (nth (0%Z, 0%Z, 0%Z, (0, 0)) es t).2
      (H (nth (0%Z, 0%Z, 0%Z, (0, 0)) es t).1 (nth (0%Z, 0%Z, 0%Z, (0, 0)) es t).2.1 (nth (0%Z, 0%Z, 0%Z, (0, 0)) es t).2.2).
Definition same_amplitude (s t : amplitude) : Prop := Qeq s.1 t.1 /\ Qeq s.2 t.2.
Definition over (t : amplitude) (w : Z) : amplitude := (Qmult t.1 (Qinv (inject_Z w)), Qmult t.2 (Qinv (inject_Z w))).

(* a label and three numbers *)
Definition vector_line (l : string) (x : vec3) : Prop :=
  exists label a b c rest, words (before_hash l) = [:: label, a, b, c & rest] /\
    read_float a = Some x.1.1 /\ read_float b = Some x.1.2 /\ read_float c = Some x.2.
Definition same_vector (r : seq Q) (x : vec3) : Prop :=
  exists a b c, r = [:: a; b; c] /\ Qeq a x.1.1 /\ Qeq b x.1.2 /\ Qeq c x.2.
Definition times (u : Q) (x : vec3) : vec3 := (Qmult u x.1.1, Qmult u x.1.2, Qmult u x.2).

(* WF centre and spread  n  ( x, y, z )  spread *)
Definition coordinate (w : string) (x : Q) : Prop :=
  exists v, read_float v = Some x /\ (String.length v <= 8 /\ w = v \/ String.length v = 8 /\ w = (v ++ ",")%string).
Definition centre_line (l : string) (x : vec3) : Prop :=
  exists a b c spread w0 w1 w2 w3 w4 w5, words (before_hash l) = [:: w0; w1; w2; w3; w4; w5; a; b; c] ++ spread /\
    size spread = 2 /\ coordinate a x.1.1 /\ coordinate b x.1.2 /\ coordinate c x.2.
(* f1 u1 + f2 u2 + f3 u3 = x *)
Definition combination (u1 u2 u3 f : vec3) (x : vec3) : Prop :=
  let: (f1, f2, f3) := f in
  Qeq (f1 * u1.1.1 + f2 * u2.1.1 + f3 * u3.1.1) x.1.1 /\ Qeq (f1 * u1.1.2 + f2 * u2.1.2 + f3 * u3.1.2) x.1.2 /\
  Qeq (f1 * u1.2 + f2 * u2.2 + f3 * u3.2) x.2.

(* seedname_band.dat: a line per point of the path and an empty line after every band *)
Definition band_line (l : string) (k e : Q) : Prop := numbers l = Some [:: k; e].
Definition empty_line (l : string) : Prop := exists n, l = iter n (String " "%char) (String newline "").
