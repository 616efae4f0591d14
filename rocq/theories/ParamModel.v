(* Model of python/triqs_tprf/ParameterCollection.py: ParameterCollection, ParameterCollections and parameter_scan.
   Objects live in a heap; an address is a position. Values are opaque references (the copies are shallow), a value that
   shadows a method of the class is taken not to be callable. Not modelled: the text output (__str__, get_my_name), the
   conversions for HDF5 files, the registration with h5. *)
From Coq Require Import String.
From mathcomp Require Import all_ssreflect.
Set Implicit Arguments.
Unset Strict Implicit.
Unset Printing Implicit Defensive.
Local Open Scope string_scope.

Lemma string_eqP : Equality.axiom String.eqb.
Proof. by move=> a b; case: (String.eqb_spec a b) => h; constructor. Qed.
Canonical string_eqType := Eval hnf in EqType string (EqMixin string_eqP).

Section Collection.
Variable V : Type.
(* dictionaries in insertion order *)
Definition dict := seq (string * V).
Definition names (d : dict) : seq string := [seq e.1 | e <- d].
Definition store (d : dict) (k : string) (v : V) : dict :=
  if k \in names d then [seq (if e.1 == k then (k, v) else e) | e <- d] else rcons d (k, v).
Definition update (d kwargs : dict) : dict := foldl (fun d e => store d e.1 e.2) d kwargs.
Fixpoint lookup (d : dict) (k : string) : option V := if d is e :: d' then if e.1 == k then Some e.2 else lookup d' k else None.
(* the __dict__ of every ParameterCollection made so far *)
Definition heap := seq dict.
Definition at_ (h : heap) (i : nat) : dict := nth [::] h i.
(* lines 72-73; a keyword "self" is a TypeError *)
Definition new (h : heap) (kwargs : dict) : option (heap * nat) :=
  if "self" \in names kwargs then None else Some (rcons h (update [::] kwargs), size h).
(* lines 81-82, 95-99: self.dict is the parameter when there is one of that name *)
Definition copy (h : heap) (i : nat) : option (heap * nat) :=
  if "dict" \in names (at_ h i) then None else new h (at_ h i).
(* lines 84-93 *)
Definition alter (h : heap) (i : nat) (kwargs : dict) : option (heap * nat) :=
  if "self" \in names kwargs then None
  else if "copy" \in names (at_ h i) then None
  else if copy h i is Some (h', p) then Some (set_nth [::] h' p (update (at_ h' p) kwargs), p) else None.
(* p.key = value *)
Definition setattr (h : heap) (i : nat) (k : string) (v : V) : heap := set_nth [::] h i (store (at_ h i) k v).
(* itertools.product *)
Fixpoint product {A : Type} (l : seq (seq A)) : seq (seq A) := if l is x :: l' then [seq a :: r | a <- x, r <- product l'] else [:: [::]].
(* lines 260-305: the first parameter of the function is called p *)
Fixpoint alter_each (h : heap) (i : nat) (combinations : seq dict) : option (heap * seq nat) :=
  if combinations is kw :: rest then
    if alter h i kw is Some (h', p) then if alter_each h' i rest is Some (h'', ps) then Some (h'', p :: ps) else None else None
  else Some (h, [::]).
Definition parameter_scan (h : heap) (i : nat) (kwargs : seq (string * seq V)) : option (heap * seq nat) :=
  if "p" \in [seq e.1 | e <- kwargs] then None
  else alter_each h i (product [seq [seq (e.1, v) | v <- e.2] | e <- kwargs]).
(* histories *)
Inductive op := New of dict | Copy of nat | Alter of nat & dict | SetAttr of nat & string & V | Scan of nat & seq (string * seq V).
Definition step (h : heap) (o : op) : option heap :=
  match o with
  | New kw => omap fst (new h kw)
  | Copy i => omap fst (copy h i)
  | Alter i kw => omap fst (alter h i kw)
  | SetAttr i k v => Some (setattr h i k v)
  | Scan i kw => omap fst (parameter_scan h i kw)
  end.
Fixpoint run (h : heap) (ops : seq op) : option heap :=
  if ops is o :: ops' then if step h o is Some h' then run h' ops' else None else Some h.
End Collection.

Section Collections.
Variable O : Type.
(* the lists in memory and, for every ParameterCollections object, the address of its list; list 0 is the default argument
   of __init__, line 205, made once *)
Record world := World { lists : seq (seq O); handles : seq nat }.
Definition initial : world := World [:: [::]] [::].
Definition objects (w : world) (i : nat) : seq O := nth [::] (lists w) (nth 0 (handles w) i).
Inductive call :=
  | MakeDefault                    (* ParameterCollections() *)
  | MakeFrom of seq O              (* ParameterCollections([...]) with a list of its own *)
  | Append of nat & O              (* lines 208-209 *)
  | SetOrder of nat & (seq O -> seq O). (* lines 216-218: a new list in the given order *)
Definition do (w : world) (c : call) : world :=
  match c with
  | MakeDefault => World (lists w) (rcons (handles w) 0)
  | MakeFrom l => World (rcons (lists w) l) (rcons (handles w) (size (lists w)))
  | Append i o => World (set_nth [::] (lists w) (nth 0 (handles w) i) (rcons (objects w i) o)) (handles w)
  | SetOrder i f => World (rcons (lists w) (f (objects w i))) (set_nth 0 (handles w) i (size (lists w)))
  end.
Definition do_all (cs : seq call) : world := foldl do initial cs.
End Collections.
