(* Parameter collections as values. *)
From Coq Require Import String.
From mathcomp Require Import all_ssreflect.
From Verif Require Import ParamModel.
Set Implicit Arguments.
Unset Strict Implicit.
Unset Printing Implicit Defensive.
Local Open Scope string_scope.

Section ParamSpec.
Variable V : Type.
Definition env := string -> option V.
Definition empty : env := fun _ => None.
Definition assign (e : env) (k : string) (v : V) : env := fun k' => if k' == k then Some v else e k'.
(* the parameters of kw replaced or added *)
Definition override (e : env) (kw : dict V) : env := foldl (fun e x => assign e x.1 x.2) e kw.
Definition change (w : seq env) (i : nat) (e : env) : seq env := set_nth empty w i e.
(* choices of one value per parameter, in lexicographic order with the last parameter fastest *)
Fixpoint choices (kw : seq (string * seq V)) : seq (dict V) :=
  if kw is (k, vs) :: kw' then flatten [seq [seq (k, v) :: c | c <- choices kw'] | v <- vs] else [:: [::]].
(* the same as positions: a choice of positions and its rank *)
Definition choice_ok (ns cs : seq nat) : bool := (size cs == size ns) && all (fun p => p.2 < p.1) (zip ns cs).
Definition rank (ns cs : seq nat) : nat := foldl (fun r p => r * p.1 + p.2) 0 (zip ns cs).
Definition chosen (kw : seq (string * seq V)) (v0 : V) (cs : seq nat) : dict V := [seq (p.1.1, nth v0 p.1.2 p.2) | p <- zip kw cs].
(* every object is a value of its own *)
Definition spec_step (w : seq env) (o : op V) : seq env :=
  match o with
  | New kw => rcons w (override empty kw)
  | Copy i => rcons w (nth empty w i)
  | Alter i kw => rcons w (override (nth empty w i) kw)
  | SetAttr i k v => change w i (assign (nth empty w i) k v)
  | Scan i kw => w ++ [seq override (nth empty w i) c | c <- choices kw]
  end.
(* names that are also used by the class *)
Definition reserved (k : string) : bool := [|| k == "self", k == "dict" | k == "copy"].
Definition op_ok (n : nat) (o : op V) : bool :=
  match o with
  | New kw => ~~ has reserved (names kw)
  | Copy i => i < n
  | Alter i kw => (i < n) && ~~ has reserved (names kw)
  | SetAttr i k v => (i < n) && ~~ reserved k
  | Scan i kw => [&& i < n, "p" \notin [seq e.1 | e <- kw] & ~~ has reserved [seq e.1 | e <- kw]]
  end.
Fixpoint history_ok (w : seq env) (ops : seq (op V)) : bool :=
  if ops is o :: ops' then op_ok (size w) o && history_ok (spec_step w o) ops' else true.
End ParamSpec.

(* lists of collections as values *)
Section ListsSpec.
Variable O : Type.
Definition spec_do (s : seq (seq O)) (c : call O) : seq (seq O) :=
  match c with
  | MakeDefault => rcons s [::]
  | MakeFrom l => rcons s l
  | Append i o => set_nth [::] s i (rcons (nth [::] s i) o)
  | SetOrder i f => set_nth [::] s i (f (nth [::] s i))
  end.
Definition is_default (c : call O) : bool := if c is MakeDefault then true else false.
Definition call_ok (n : nat) (c : call O) : bool :=
  match c with Append i _ => i < n | SetOrder i _ => i < n | _ => true end.
Fixpoint calls_ok (s : seq (seq O)) (cs : seq (call O)) : bool :=
  if cs is c :: cs' then call_ok (size s) c && calls_ok (spec_do s c) cs' else true.
End ListsSpec.
