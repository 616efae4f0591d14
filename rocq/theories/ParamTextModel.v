(* Model of python/triqs_tprf/ParameterCollection.py: the text of a collection (__str__, lines 139-157), storing it in an archive (__reduce_to_dict__,
   _clean_bools, __factory_from_dict__, lines 104-114 and 132-137), and attribute vectors and sorting of ParameterCollections (lines 205-250).
   A text is the list of its lines; the text of a parameter is a first line and more lines (str is a parameter of the model, without a final newline).
   Not modelled: get_my_name, convert_keys_from_string_to_python, subclasses of ParameterCollection. *)
From Coq Require Import String.
From mathcomp Require Import all_ssreflect.
From Verif Require Import ParamModel.
Set Implicit Arguments.
Unset Strict Implicit.
Unset Printing Implicit Defensive.

Section Text.
Variable V : Type.
(* parameters: opaque values, booleans (numpy's or Python's), plain dictionaries and collections *)
Inductive value := Leaf of V | Bool (numpy : bool) of bool | Dict of seq (string * value) | Coll of seq (string * value).
(* str(value) of everything but a collection *)
Variable text : value -> string * seq string.
Definition max_lines := 10.
(* lines 147-155: splitlines of an empty string is empty *)
Definition cut (t : string * seq string) : string * seq string :=
  if max_lines < (size t.2).+1 then (t.1, rcons (take max_lines.-1 t.2) "..."%string) else t.
(* the rows of one key; rows is str(value).splitlines() when the value is a collection (lines 143-146) *)
Definition entry (key : string) (rows : option (seq string)) (v : value) : seq string :=
  if rows is Some pc_list then [seq (key ++ "." ++ row)%string | row <- pc_list]
  else let t := cut (text v) in (key ++ " = " ++ t.1)%string :: t.2.
(* lines 140-142: np.sort of the keys; each key is looked up, here the rows are made first and sorted by key *)
Definition by_key (a b : string * seq string) : bool := String.leb a.1 b.1.
Fixpoint show (v : value) : seq string :=
  match v with
  | Coll d => flatten [seq e.2 | e <- sort by_key [seq (e.1, entry e.1 (if e.2 is Coll _ then Some (show e.2) else None) e.2) | e <- d]]
  | _ => (text v).1 :: (text v).2
  end.

(* lines 107-114: only the parameters themselves are looked at *)
Definition clean_bool (v : value) : value := if v is Bool true b then Bool false b else v.
Definition factory_from_dict (d : seq (string * value)) : value := Coll [seq (e.1, clean_bool e.2) | e <- update [::] d].
(* what an archive gives back: booleans come back as numpy's, a collection goes through __reduce_to_dict__ and __factory_from_dict__, a dictionary does not *)
Fixpoint archived (v : value) : value :=
  match v with
  | Leaf x => Leaf x
  | Bool _ b => Bool true b
  | Dict d => Dict [seq (e.1, archived e.2) | e <- d]
  | Coll d => factory_from_dict [seq (e.1, archived e.2) | e <- d]
  end.
End Text.

Section Collections.
Variables (T : Type).
(* the attributes of the class ParameterCollections (lines 205-258) and of object *)
Definition class_names : seq string :=
  [:: "append"; "sort_on"; "set_sorted_order"; "getattr_from_objects"; "__init__"; "__getattr__"; "__reduce_to_dict__"; "__factory_from_dict__"; "__iter__";
      "__next__"; "__getitem__"; "__str__"; "__repr__"; "__dict__"; "__class__"]%string.
Inductive attribute := Method of string | Objects of seq (dict T) | Vector of seq (option T).
(* getattr(self, attr) with the fuel of the recursion limit; obj is self.objects if it was set. Lines 220-224: a name that is neither in the instance
   nor in the class is collected from the objects, which reads self.objects the same way *)
Fixpoint getattr (limit : nat) (obj : option (seq (dict T))) (attr : string) : option attribute :=
  if limit is n.+1 then
    if attr \in class_names then Some (Method attr) else
    if (attr == "objects"%string, obj) is (true, Some l) then Some (Objects l)
    else if getattr n obj "objects"%string is Some (Objects l) then Some (Vector [seq lookup o attr | o <- l]) else None
  else None.
(* lines 211-218: argsort compares values, None cannot be compared *)
Variable argsort : seq T -> seq nat.
Definition set_sorted_order (objects : seq (dict T)) (sidx : seq nat) : option (seq (dict T)) :=
  if all (fun i => i < size objects) sidx then Some [seq nth [::] objects i | i <- sidx] else None.
Definition sort_on (objects : seq (dict T)) (attr : string) : option (seq (dict T)) :=
  let val := [seq lookup o attr | o <- objects] in
  if all isSome val then set_sorted_order objects (argsort (pmap id val))
  else if size val <= 1 then set_sorted_order objects (iota 0 (size val)) else None.
End Collections.
