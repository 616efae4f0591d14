(* Model of python/triqs_tprf/numpy_compat.py. Arrays are a shape and a function of the indices; None is an exception.
   Data types are not modelled. The version is the string np.__version__, compared by StrictVersion of distutils (standard library of Python). *)
From Coq Require Import String Ascii ZArith.
From mathcomp Require Import all_ssreflect.
From Verif Require Import ParamModel WannierModel.
Set Implicit Arguments.
Unset Strict Implicit.
Unset Printing Implicit Defensive.
Local Open Scope nat_scope.
Local Open Scope string_scope.

(* distutils.version.StrictVersion: (\d+)\.(\d+)(\.(\d+))?([ab](\d+))? ; the letter is true for b *)
Definition version := (Z * Z * Z * option (bool * Z))%type.
Definition number (s : string) : option (Z * string) := let: (a, k, r) := span s 0%Z 0 in if 0 < k then Some (a, r) else None.
Definition parse_pre (s : string) : option (option (bool * Z)) :=
  match s with
  | "" => Some None
  | String "a"%char r => if number r is Some (p, "") then Some (Some (false, p)) else None
  | String "b"%char r => if number r is Some (p, "") then Some (Some (true, p)) else None
  | _ => None
  end.
Definition parse_version (s : string) : option version :=
  if number s is Some (a, String "."%char r) then
    if number r is Some (b, r2) then
      if r2 is String "."%char r3 then
        if number r3 is Some (c, r4) then omap (fun p => (a, b, c, p)) (parse_pre r4) else None
      else omap (fun p => (a, b, 0%Z, p)) (parse_pre r2)
    else None
  else None.
(* StrictVersion._cmp: v > w *)
Definition pre_gt (p q : option (bool * Z)) : bool :=
  match p, q with
  | None, Some _ => true
  | Some (x, i), Some (y, j) => (x && ~~ y) || ((x == y) && (j <? i)%Z)
  | _, None => false
  end.
Definition version_gt (v w : version) : bool :=
  let: (a, b, c, p) := v in let: (a', b', c', p') := w in
  if a != a' then (a' <? a)%Z else if b != b' then (b' <? b)%Z else if c != c' then (c' <? c)%Z else pre_gt p p'.
(* lines 18-19 *)
Definition is_numpy_newer_than (numpy v : string) : option bool :=
  if parse_version numpy is Some x then omap (version_gt x) (parse_version v) else None.

(* itertools.product of range(N) *)
Fixpoint product (s : seq nat) : seq (seq nat) := if s is N :: s' then flatten [seq [seq i :: l | l <- product s'] | i <- iota 0 N] else [:: [::]].
Record array (A : Type) := Array { shape : seq nat; at_ix : seq nat -> A }.
(* l is an index of the first axes *)
Fixpoint within (l s : seq nat) : bool := match l, s with [::], _ => true | i :: l', N :: s' => (i < N) && within l' s' | _, _ => false end.
Section Arrays.
Variable A : Type.
(* arr[idx] *)
Definition slice (a : array A) (l : seq nat) : array A := Array (drop (size l) (shape a)) (fun t => at_ix a (l ++ t)).
(* arr[idx] = v: equal shapes, or v with a single element; other shapes that numpy broadcasts do not occur below *)
Definition assign (a : array A) (l : seq nat) (v : array A) : option (array A) :=
  if within l (shape a) then
    if shape v == drop (size l) (shape a) then Some (Array (shape a) (fun t => if take (size l) t == l then at_ix v (drop (size l) t) else at_ix a t))
    else if all (pred1 1) (shape v) then Some (Array (shape a) (fun t => if take (size l) t == l then at_ix v (nseq (size (shape v)) 0) else at_ix a t))
    else None
  else None.
(* lines 28-30 and 62-64; out is the array of np.empty_like *)
Definition fill (func : array A -> option (array A)) (arr out : array A) (ix : seq (seq nat)) : option (array A) :=
  foldl (fun o l => if o is Some out then if func (slice arr l) is Some v then assign out l v else None else None) (Some out) ix.
Definition lead (s : seq nat) : seq nat := take (size s - 2) s.
Variable garbage : seq nat -> A.
(* lines 21-34; the function of numpy for stacked matrices is an argument *)
Definition np_linalg_func (numpy : string) (stacked func : array A -> option (array A)) (arr : array A) : option (array A) :=
  if is_numpy_newer_than numpy "1.8.0" is Some newer then
    if newer then stacked arr else fill func arr (Array (shape arr) garbage) (product (lead (shape arr)))
  else None.
(* lines 56-68: np.empty_like(np.squeeze(arr[..., 0])) *)
Definition squeeze (s : seq nat) : seq nat := filter (predC1 1) s.
Definition np_eigvalsh (numpy : string) (stacked func : array A -> option (array A)) (arr : array A) : option (array A) :=
  if is_numpy_newer_than numpy "1.8.0" is Some newer then
    if newer then stacked arr else fill func arr (Array (squeeze (take (size (shape arr)).-1 (shape arr))) garbage) (product (lead (shape arr)))
  else None.
(* lines 39-54: eigenvalues and eigenvectors, filled by one loop in the code *)
Definition np_eigh (numpy : string) (stacked func : array A -> option (array A * array A)) (arr : array A) : option (array A * array A) :=
  if is_numpy_newer_than numpy "1.8.0" is Some newer then
    if newer then stacked arr
    else if shape arr is [:: N; M; K] then
      if M == K then
        if fill (fun a => omap fst (func a)) arr (Array [:: N; M] garbage) (product [:: N]) is Some E then
          omap (pair E) (fill (fun a => omap snd (func a)) arr (Array [:: N; M; M] garbage) (product [:: N]))
        else None
      else None
    else None
  else None.
End Arrays.
