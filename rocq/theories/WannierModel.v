(* Model of python/triqs_tprf/wannier90.py: parsers of text files written by Wannier90.
   A file is the sequence of its lines (readlines). Numbers are exact decimals (Q of the standard library), so rounding to
   floating point is not modelled; inf, nan, digit separators and quoted text are not modelled either. None is an exception. *)
From Coq Require Import String Ascii ZArith QArith.
From mathcomp Require Import all_ssreflect.
From Verif Require Import ParamModel.
Set Implicit Arguments.
Unset Strict Implicit.
Unset Printing Implicit Defensive.
Local Open Scope nat_scope.
Local Open Scope string_scope.

Lemma Z_eqP : Equality.axiom Z.eqb.
Proof. by move=> a b; case: (Z.eqb_spec a b) => h; constructor. Qed.
Canonical Z_eqType := Eval hnf in EqType Z (EqMixin Z_eqP).

(* text *)
Definition newline : ascii := "010"%char.
Definition is_space (c : ascii) : bool :=
  let n := nat_of_ascii c in (n == 32) || ((9 <= n) && (n <= 13)).
(* str.split(): w is the word being read *)
Definition push (w : string) (l : seq string) : seq string := if w is EmptyString then l else w :: l.
Fixpoint split_ (w s : string) : seq string :=
  if s is String c s' then (if is_space c then push w (split_ "" s') else split_ (w ++ String c "") s') else push w [::].
Definition words (s : string) : seq string := split_ "" s.
(* str.strip(' ') *)
Fixpoint lstrip (s : string) : string := if s is String " "%char s' then lstrip s' else s.
Fixpoint rstrip (s : string) : string :=
  if s is String c s' then (if rstrip s' is EmptyString then if c is " "%char then "" else String c "" else String c (rstrip s')) else "".
Definition strip (s : string) : string := rstrip (lstrip s).
(* sub in line *)
Definition contains (sub line : string) : bool := if String.index 0 sub line is Some _ then true else false.
Fixpoint before_hash (s : string) : string := if s is String c s' then (if c is "#"%char then "" else String c (before_hash s')) else "".

(* numerals *)
Definition digit (c : ascii) : option Z :=
  let n := nat_of_ascii c in if (48 <= n) && (n <= 57) then Some (Z.of_nat (n - 48)) else None.
(* value and number of the leading digits, and the rest *)
Fixpoint span (s : string) (acc : Z) (k : nat) : Z * nat * string :=
  if s is String c s' then if digit c is Some d then span s' (acc * 10 + d)%Z k.+1 else (acc, k, s) else (acc, k, s).
Definition sign (s : string) : Z * string :=
  match s with String "-"%char s' => ((-1)%Z, s') | String "+"%char s' => (1%Z, s') | _ => (1%Z, s) end.
Definition read_int (w : string) : option Z :=
  let: (sg, s) := sign w in let: (a, k, r) := span s 0%Z 0 in
  if (0 < k) && (r == "") then Some (sg * a)%Z else None.
Definition read_exponent (s : string) : option Z :=
  match s with
  | "" => Some 0%Z
  | String "e"%char s' | String "E"%char s' => read_int s'
  | _ => None
  end.
Definition read_float (w : string) : option Q :=
  let: (sg, s) := sign w in let: (a, k1, r1) := span s 0%Z 0 in
  let: (b, k2, r2) := if r1 is String "."%char r then span r a 0 else (a, 0, r1) in
  if 0 < k1 + k2 then
    if read_exponent r2 is Some e then Some (Qmult (inject_Z (sg * b)) (Qpower (10 # 1) (e - Z.of_nat k2))) else None
  else None.
(* int(line) *)
Definition py_int (line : string) : option Z := if words line is [:: w] then read_int w else None.
(* np.array(x, dtype=np.int64) *)
Definition truncate (q : Q) : Z := Z.quot (Qnum q) (Zpos (Qden q)).

(* numpy *)
Fixpoint map_opt {A B : Type} (f : A -> option B) (l : seq A) : option (seq B) :=
  if l is a :: l' then if f a is Some b then if map_opt f l' is Some r then Some (b :: r) else None else None else Some [::].
(* the rows read by np.loadtxt: comments and blank lines are skipped, rows must have the same length *)
Definition rows_of (lines : seq string) : seq (seq string) := [seq ws <- [seq words (before_hash l) | l <- lines] | ws != [::]].
Definition rectangular {A : Type} (r : seq (seq A)) : bool := all (fun x => size x == size (head [::] r)) r.
Definition loadtxt {A : Type} (conv : string -> option A) (lines : seq string) : option (seq (seq A)) :=
  if map_opt (map_opt conv) (rows_of lines) is Some r then if rectangular r then Some r else None else None.
(* with columns selected, usecols=(1, 2, 3) *)
Definition columns123 {A : Type} (conv : string -> option A) (ws : seq string) : option (seq A) :=
  if ws is _ :: a :: b :: c :: _ then map_opt conv [:: a; b; c] else None.
Definition loadtxt123 {A : Type} (conv : string -> option A) (lines : seq string) : option (seq (seq A)) :=
  map_opt (columns123 conv) (rows_of lines).
(* the shape of the result, axes of length one are removed *)
Definition shape_of {A : Type} (r : seq (seq A)) : seq nat :=
  if r is x :: _ then [seq d <- [:: size r; size x] | d != 1] else [:: 0].

Definition vec := (Z * Z * Z)%type.
Definition amplitude := (Q * Q)%type.
Definition matrix := nat -> nat -> amplitude.
Definition hoppings := seq (vec * matrix).
Definition zero_matrix : matrix := fun _ _ => (0%Q, 0%Q).
(* Python index into an axis of length n *)
Definition wrap (n : nat) (i : Z) : option nat :=
  if (0 <=? i)%Z && (i <? Z.of_nat n)%Z then Some (Z.to_nat i)
  else if (- Z.of_nat n <=? i)%Z && (i <? 0)%Z then Some (Z.to_nat (i + Z.of_nat n)) else None.
Definition set_entry (m : matrix) (a b : nat) (t : amplitude) : matrix := fun i j => if (i == a) && (j == b) then t else m i j.
Fixpoint find_R (d : hoppings) (R : vec) : option matrix := if d is (k, m) :: d' then if k == R then Some m else find_R d' R else None.
Fixpoint put_R (d : hoppings) (R : vec) (m : matrix) : hoppings :=
  if d is (k, m') :: d' then if k == R then (k, m) :: d' else (k, m') :: put_R d' R m else [:: (R, m)].
Definition get_R (d : hoppings) (R : vec) : matrix := odflt zero_matrix (find_R d R).
(* the loop of lines 90-106 over the rows; the keys of r_dict and of hopp_dict are inserted in the same order *)
Fixpoint fill (n : nat) (d : hoppings) (rows : seq (seq Q)) : option hoppings :=
  if rows is row :: rows' then
    if row is [:: x; y; z; a; b; re; im] then
      let R := (truncate x, truncate y, truncate z) in
      if wrap n (truncate a - 1) is Some i then
        if wrap n (truncate b - 1) is Some j then fill n (put_R d R (set_entry (get_R d R) i j (re, im))) rows'
        else None
      else None
    else None
  else Some d.
Definition divided (m : matrix) (w : Z) : matrix := fun i j => (Qdiv (m i j).1 (inject_Z w), Qdiv (m i j).2 (inject_Z w)).
(* lines 110-111; division by zero is not modelled (Q has x / 0 = 0, numpy inf or nan) *)
Definition weigh (d : hoppings) (deg : seq Z) : hoppings :=
  ([seq (e.1.1, divided e.1.2 e.2) | e <- zip d deg] ++ drop (size deg) d)%SEQ.
(* lines 38-113; np.ceil(nrpts / 15.) is the exact ceiling *)
Definition parse_hopping (lines : seq string) : option (hoppings * nat) :=
  if lines is _ :: l1 :: l2 :: rest then
    if (py_int l1, py_int l2) is (Some num_wann, Some nrpts) then
      let nlines := (Z.to_nat nrpts + 14) %/ 15 in
      if map_opt (fun l => loadtxt read_int [:: l]) (take nlines rest) is Some deg_rows then
        let deg := flatten (flatten deg_rows) in
        if (Z.of_nat (size deg) =? nrpts)%Z then
          if loadtxt read_float (drop nlines rest) is Some hopp then
            if ([seq Z.of_nat d | d <- shape_of hopp] == [:: num_wann * num_wann * nrpts; 7]%Z) && (0 <? num_wann)%Z then
              if fill (Z.to_nat num_wann) [::] hopp is Some d then Some (weigh d deg, Z.to_nat num_wann) else None
            else None
          else None
        else None
      else None
    else None
  else None.

(* the three lines after a header; array *= unit and the list of tuples *)
Definition scaled (unit_ : Q) (r : seq (seq Q)) : seq (seq Q) := [seq [seq Qmult x unit_ | x <- row] | row <- r].
(* tuple(array[idx]) raises when the array is one-dimensional *)
Definition as_tuples (r : seq (seq Q)) : option (seq (seq Q)) := if size r == 1 then None else Some r.
(* lines 26-30 *)
Definition bohr : Q := (5291772105638411 # 10000000000000000).
(* lines 115-162 *)
Definition parse_lattice_vectors (lines : seq string) : option (seq (seq Q)) :=
  let idx := find (contains "Lattice Vectors") lines in
  if idx < size lines then
    let line := nth "" lines idx in
    let unit_ := if contains "(Ang)" line then Some (1%Q) else if contains "(Bohr)" line then Some bohr else None in
    if unit_ is Some u then
      if loadtxt123 read_float (take 3 (drop idx.+1 lines)) is Some r then as_tuples (scaled u r) else None
    else None
  else None.
(* lines 164-207: without a header idx is the position of the last line *)
Definition parse_reciprocal_vectors (lines : seq string) : option (seq (seq Q)) :=
  if lines is [::] then None
  else
    let idx := minn (find (contains "Reciprocal-Space Vectors (Ang^-1)") lines) (size lines).-1 in
    if loadtxt123 read_float (take 3 (drop idx.+1 lines)) is Some r then as_tuples r else None.

(* 3 x 3 linear algebra, np.linalg.inv in exact arithmetic *)
Definition vec3 := (Q * Q * Q)%type.
Definition dot3 (a b : vec3) : Q := let: (a1, a2, a3) := a in let: (b1, b2, b3) := b in (a1 * b1 + a2 * b2 + a3 * b3)%Q.
Definition cross (a b : vec3) : vec3 := let: (a1, a2, a3) := a in let: (b1, b2, b3) := b in
  ((a2 * b3 - a3 * b2)%Q, (a3 * b1 - a1 * b3)%Q, (a1 * b2 - a2 * b1)%Q).
Definition det3 (u1 u2 u3 : vec3) : Q := dot3 u1 (cross u2 u3).
(* np.dot(np.linalg.inv(units.T), r) with the rows u1, u2, u3 of units *)
Definition solve3 (u1 u2 u3 r : vec3) : option vec3 :=
  let D := det3 u1 u2 u3 in
  if Qeq_bool D 0 then None
  else Some ((dot3 (cross u2 u3) r / D)%Q, (dot3 (cross u3 u1) r / D)%Q, (dot3 (cross u1 u2) r / D)%Q).
(* dtype="|U8" keeps eight characters *)
Definition U8 (w : string) : string := String.substring 0 8 w.
Definition columns678 (ws : seq string) : option vec3 :=
  if ws is [:: _, _, _, _, _, _, a, b, c & _] then
    if (read_float (U8 a), read_float (U8 b), read_float (U8 c)) is (Some x, Some y, Some z) then Some (x, y, z) else None
  else None.
(* lines 209-258 *)
Definition parse_orbital_positions (u1 u2 u3 : vec3) (lines : seq string) : option (seq vec3) :=
  let s := find (contains "Final State") lines in
  let e := s + find (contains "Sum of centres") (drop s lines) in
  if e < size lines then
    let rows := rows_of (drop s.+1 (take e lines)) in
    if rectangular rows && (1 < size rows) then
      if map_opt columns678 rows is Some r then map_opt (solve3 u1 u2 u3) r else None
    else None
  else None.

(* lines 260-300 *)
Definition is_blank (line : string) : bool := strip line == String newline "".
Definition parse_band_structure (lines : seq string) : option (seq (seq Q) * seq (seq Q)) :=
  let num_wann := count is_blank lines in
  if loadtxt read_float lines is Some r then
    (* data.shape[-1] after the transposition, data.reshape(2, num_wann, n_pts // num_wann) *)
    if (shape_of r == [:: size r; 2]) && (0 < num_wann) && (num_wann %| size r) then
      let n := size r %/ num_wann in
      let chunk (c : nat) := [seq [seq nth 0%Q (nth [::] r (b * n + p)) c | p <- iota 0 n] | b <- iota 0 num_wann] in
      Some (chunk 1, chunk 0)
    else None
  else None.
