(* Model of python/triqs_tprf/OperatorUtils.py (whole file) on a model of triqs.operators.
   The operator class of TRIQS is a dependency and is modelled by what it documents: an Operator is a finite map from
   normal-ordered monomials (creation operators first with increasing, then annihilation operators with decreasing index)
   to non-zero coefficients, products are normal ordered with the canonical anticommutation relations. Indices are numbered
   in the order of the library; the order of the terms is that of insertion. None is AssertionError. *)
From mathcomp Require Import all_ssreflect all_algebra.
Set Implicit Arguments.
Unset Strict Implicit.
Unset Printing Implicit Defensive.
Import GRing.Theory Num.Theory.
Local Open Scope ring_scope.

(* a creation (true) or annihilation (false) operator and its index *)
Definition cop : Type := (bool * nat)%type.
Definition mono : Type := seq cop.
(* order of canonical operators in a monomial *)
Definition clt (x y : cop) : bool :=
  if x.1 != y.1 then x.1 else if x.1 then (x.2 < y.2)%N else (y.2 < x.2)%N.
Definition cbar (x : cop) : cop := (~~ x.1, x.2).

Section Operators.
Variable C : numClosedFieldType.
Definition operator : Type := seq (mono * C).

(* triqs.operators: += of one term, sums, products *)
Fixpoint add_term (m : mono) (c : C) (A : operator) : operator :=
  match A with
  | [::] => if c == 0 then [::] else [:: (m, c)]
  | (m', c') :: r => if m == m' then (if c' + c == 0 then r else (m, c' + c) :: r) else (m', c') :: add_term m c r
  end.
Definition op_add (A B : operator) : operator := foldl (fun acc t => add_term t.1 t.2 acc) A B.
Definition op_scale (a : C) (A : operator) : operator := if a == 0 then [::] else [seq (t.1, a * t.2) | t <- A].
Definition op_const (a : C) : operator := if a == 0 then [::] else [:: ([::], a)].
(* one operator times a normal-ordered monomial: signed monomials *)
Fixpoint lmul (x : cop) (m : mono) : seq (C * mono) :=
  if m is y :: m' then
    if clt x y then [:: (1, x :: m)]
    else if x == y then [::]
    else [seq (- p.1, y :: p.2) | p <- lmul x m'] ++ (if x == cbar y then [:: (1, m')] else [::])
  else [:: (1, [:: x])].
Definition mono_mul (m1 m2 : mono) : seq (C * mono) :=
  foldr (fun x acc => flatten [seq [seq (p.1 * q.1, q.2) | q <- lmul x p.2] | p <- acc]) [:: (1, m2)] m1.
Definition op_mul (A B : operator) : operator :=
  foldl (fun acc (ab : (mono * C) * (mono * C)) =>
           foldl (fun acc p => add_term p.2 (ab.1.2 * ab.2.2 * p.1) acc) acc (mono_mul ab.1.1 ab.2.1))
        [::] [seq (a, b) | a <- A, b <- B].
Definition dagger (A : operator) : operator := [seq (rev [seq cbar x | x <- t.1], (t.2)^*) | t <- A].
Definition c (i : nat) : operator := [:: ([:: (false, i)], 1)].
Definition c_dag (i : nat) : operator := [:: ([:: (true, i)], 1)].

(* lines 38-51; an index is (block name, position), numbered by [number] *)
Definition fundamental_operators_from_gf_struct (S : Type) (number : S -> nat -> nat) (gf_struct : seq (S * nat)) : seq operator :=
  flatten [seq [seq c (number b.1 i) | i <- iota 0 b.2] | b <- gf_struct].
(* lines 68-82 *)
Definition op_is_fundamental (A : operator) : bool := if A is [:: (m, _)] then size m == 1%N else false.
(* lines 85-92 *)
Definition op_serialize_fundamental (A : operator) : option cop :=
  if A is [:: ([:: x], _)] then Some x else None.
(* lines 95-109 *)
Fixpoint get_operator_index_map (fops : seq operator) : option (seq nat) :=
  if fops is A :: r then
    if op_serialize_fundamental A is Some (false, i) then omap (cons i) (get_operator_index_map r) else None
  else Some [::].
Fixpoint get_operator_index_map_dag (fops : seq operator) : option (seq cop) :=
  if fops is A :: r then
    if op_serialize_fundamental A is Some x then omap (cons x) (get_operator_index_map_dag r) else None
  else Some [::].

(* lines 54-65; [almost_equal] is the tolerance of numpy.testing *)
Variable almost_equal : C -> C -> bool.
Definition get_quadratic_operator (h : nat -> nat -> C) (fops : seq operator) : option operator :=
  let n := size fops in
  if all (fun i => all (fun j => almost_equal (h i j) (h j i)^*) (iota 0 n)) (iota 0 n) then
    Some (foldl (fun H i => foldl (fun H j =>
      op_add H (op_mul (op_scale (h i j) (dagger (nth [::] fops i))) (nth [::] fops j))) H (iota 0 n)) [::] (iota 0 n))
  else None.

(* lines 112-133 *)
Definition set2 (h : nat -> nat -> C) (i j : nat) (v : C) : nat -> nat -> C :=
  fun a b => if (a == i) && (b == j) then v else h a b.
Definition quadratic_step (im : seq nat) (acc : option (nat -> nat -> C)) (t : mono * C) : option (nat -> nat -> C) :=
  if acc is Some h then
    match t.1 with
    | [:: (d1, t1); (d2, t2)] =>
      if d1 && ~~ d2 then
        if (t1 \in im) && (t2 \in im) then Some (set2 h (index t1 im) (index t2 im) t.2) else Some h
      else None
    | _ => Some h
    end
  else None.
Definition quadratic_matrix_from_operator (A : operator) (fops : seq operator) : option (nat -> nat -> C) :=
  if get_operator_index_map fops is Some im then foldl (quadratic_step im) (Some (fun _ _ => 0)) A else None.

(* numpy arrays with four axes *)
Definition arr4 : Type := nat -> nat -> nat -> nat -> C.
Definition set4 (h : arr4) (i j k l : nat) (v : C) : arr4 :=
  fun a b c d => if [&& a == i, b == j, c == k & d == l] then v else h a b c d.
(* lines 136-141 *)
Definition quartic_permutation_symmetrize (U : arr4) : arr4 :=
  let U1 : arr4 := fun a b c d => 2%:R^-1 * (U a b c d - U b a c d) in
  fun a b c d => 2%:R^-1 * (U1 a b c d - U1 a b d c).
(* lines 144-148: swapaxes(1, 2) then swapaxes(0, 3) *)
Definition quartic_conjugation_symmetrize (U : arr4) : arr4 :=
  let V : arr4 := fun a b c d => U a c b d in
  let W : arr4 := fun a b c d => V d b c a in
  fun a b c d => 2%:R^-1 * (U a b c d + (W a b c d)^*).
(* lines 151-160: the argument is changed in place and returned; the pair is (argument afterwards, result) *)
Definition pauli_step (U : arr4) (n : nat) : arr4 :=
  let U1 : arr4 := fun a b c d => if (a == n) && (b == n) then 0 else U a b c d in
  fun a b c d => if (c == n) && (d == n) then 0 else U1 a b c d.
Definition quartic_pauli_symmetrize (N : nat) (U : arr4) : arr4 * arr4 :=
  let U' := foldl pauli_step U (iota 0 N) in (U', U').
(* lines 163-189: the permutation symmetrization makes a new array *)
Definition symmetrize_quartic_tensor (N : nat) (U : arr4) (conjugation : bool) : arr4 * arr4 :=
  let U1 := quartic_permutation_symmetrize U in
  let U2 := if conjugation then quartic_conjugation_symmetrize U1 else U1 in
  (U, (quartic_pauli_symmetrize N U2).2).

(* lines 192-230 *)
Definition quartic_step (im : seq nat) (perm_sym : bool) (acc : option arr4) (t : mono * C) : option arr4 :=
  if acc is Some h then
    match t.1 with
    | [:: (d1, t1); (d2, t2); (d3, t3); (d4, t4)] =>
      if [&& d1, d2, ~~ d3 & ~~ d4] then
        if [&& t1 \in im, t2 \in im, t3 \in im & t4 \in im] then
          let i := index t1 im in let j := index t2 im in let k := index t3 im in let l := index t4 im in
          if perm_sym then
            let h := set4 h i j k l (4%:R^-1 * t.2) in
            let h := set4 h j i k l (- 4%:R^-1 * t.2) in
            let h := set4 h j i l k (4%:R^-1 * t.2) in
            Some (set4 h i j l k (- 4%:R^-1 * t.2))
          else Some (set4 h i j k l t.2)
        else Some h
      else None
    | _ => Some h
    end
  else None.
Definition quartic_tensor_from_operator (A : operator) (fops : seq operator) (perm_sym : bool) : option arr4 :=
  if get_operator_index_map fops is Some im then foldl (quartic_step im perm_sym) (Some (fun _ _ _ _ => 0)) A else None.

(* lines 233-251 *)
Definition operator_from_quartic_tensor (h : arr4) (fops : seq operator) : option operator :=
  if get_operator_index_map fops is Some _ then
    let f := nth [::] fops in let n := size fops in
    Some (foldl (fun H (q : (nat * nat) * (nat * nat)) =>
      op_add H (op_mul (op_mul (op_mul (op_scale (h q.1.1 q.1.2 q.2.1 q.2.2) (dagger (f q.1.1))) (dagger (f q.1.2)))
                               (f q.2.1)) (f q.2.2)))
      [::] [seq (p, r) | p <- [seq (i, j) | i <- iota 0 n, j <- iota 0 n], r <- [seq (k, l) | k <- iota 0 n, l <- iota 0 n]])
  else None.

(* lines 254-309; U is square with the extent of the list *)
Definition c_transf (U : nat -> nat -> C) (im : seq nat) (k : nat) : operator :=
  foldl (fun ret l => op_add ret (op_scale (U k l) (c (nth 0%N im l)))) [::] (iota 0 (size im)).
Definition transformed (U : nat -> nat -> C) (im : seq nat) (x : cop) : operator :=
  if x.2 \in im then
    let t := c_transf U im (index x.2 im) in if x.1 then dagger t else t
  else if x.1 then c_dag x.2 else c x.2.
Definition operator_single_particle_transform (A : operator) (U : nat -> nat -> C) (fops : seq operator) : option operator :=
  if get_operator_index_map fops is Some im then
    Some (foldl (fun acc t =>
      op_add acc (op_scale t.2 (foldl (fun f x => op_mul f (transformed U im x)) (op_const 1) t.1))) [::] A)
  else None.

(* lines 312-344 *)
Definition relabel_operators (A : operator) (from_list to_list : seq operator) : option operator :=
  if get_operator_index_map_dag from_list is Some im then
    Some (foldl (fun acc t =>
      op_add acc (op_scale t.2 (foldl (fun f (x : cop) =>
        op_mul f (if x \in im then nth [::] to_list (index x im) else if x.1 then c_dag x.2 else c x.2)) (op_const 1) t.1))) [::] A)
  else None.

(* lines 347-364: a constant term has no operators to split, zip raises ValueError (None) *)
Definition is_operator_composed_of_only_fundamental_operators (A : operator) (fops : seq operator) : option bool :=
  if has (fun t : mono * C => t.1 == [::]) A then None
  else Some (all (fun t : mono * C => all (fun x : cop => c x.2 \in fops) t.1) A).
End Operators.
