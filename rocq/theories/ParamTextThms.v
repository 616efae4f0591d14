(* Property C99: text, storage and vectors of parameter collections. *)
From Coq Require Import String Ascii NArith.
From mathcomp Require Import all_ssreflect.
From Verif Require Import ParamModel ParamTextModel.
Set Implicit Arguments.
Unset Strict Implicit.
Unset Printing Implicit Defensive.

Section StringOrder.
Lemma leb_refl s : String.leb s s.
Proof. by case: (String.leb_total s s). Qed.
Lemma ascii_cmp a b c : Ascii.compare a b <> Gt -> Ascii.compare b c <> Gt ->
  Ascii.compare a c <> Gt /\ (Ascii.compare a c = Eq -> Ascii.compare a b = Eq /\ Ascii.compare b c = Eq).
Proof.
rewrite /Ascii.compare => h1 h2; have h3 := N.le_trans _ _ _ h1 h2; split=> // /N.compare_eq_iff e.
by rewrite e in h1 *; have := N.le_antisymm _ _ h1 h2 => ->; rewrite !N.compare_refl.
Qed.
Lemma leb_trans : transitive String.leb.
Proof.
move=> b a c; elim: a b c => [|x a IH] [|y b] [|z c] //=; rewrite /String.leb /=.
have := @ascii_cmp x y z.
case e1: (Ascii.compare x y); case e2: (Ascii.compare y z) => //; case e3: (Ascii.compare x z) => // H h1 h2; try by case: H => // _ /(_ erefl) [].
- exact: (IH b c h1 h2).
all: by case: H.
Qed.
Lemma leb_total' : total String.leb.
Proof. by move=> a b; case: (String.leb_total a b) => ->; rewrite ?orbT. Qed.
Lemma leb_anti : antisymmetric String.leb.
Proof. by move=> a b /andP[h1 h2]; apply: String.leb_antisym. Qed.
End StringOrder.

Section Text.
Variables (V : Type) (text : value V -> string * seq string).
Notation value := (value V).
Notation show := (show text).
Definition is_coll (v : value) : bool := if v is Coll _ then true else false.
(* Specification. p.a.b: attribute access along a path *)
Fixpoint walk (v : value) (path : seq string) : option value :=
  if path is k :: r then if v is Coll d then if lookup d k is Some v' then walk v' r else None else None else Some v.
(* the line of a parameter: its dotted path and its text *)
Fixpoint dotted (path : seq string) : string :=
  match path with [::] => "" | [:: k] => k | k :: r => (k ++ "." ++ dotted r)%string end.
Definition line (pv : seq string * value) : string := (dotted pv.1 ++ " = " ++ (text pv.2).1)%string.
(* all parameters that are not collections, with their paths *)
Fixpoint leaves (v : value) : seq (seq string * value) :=
  if v is Coll d then flatten [seq [seq (e.1 :: pv.1, pv.2) | pv <- leaves e.2] | e <- d] else [:: ([::], v)].
(* a collection whose names differ, at every level, and whose values take one line *)
Fixpoint tidy (v : value) : bool :=
  if v is Coll d then uniq (names d) && all id [seq tidy e.2 | e <- d] else (text v).2 == [::].

(* induction over nested collections *)
Fixpoint value_nested_ind (Q : value -> Prop) (h1 : forall x, Q (Leaf x)) (h2 : forall n b, Q (Bool V n b))
    (h3 : forall d, (forall k v, List.In (k, v) d -> Q v) -> Q (Dict d)) (h4 : forall d, (forall k v, List.In (k, v) d -> Q v) -> Q (Coll d)) (v : value) : Q v :=
  let rec := value_nested_ind h1 h2 h3 h4 in
  let all_ind := fix all_ind (d : seq (string * value)) : forall k v, List.In (k, v) d -> Q v :=
    match d return forall k v, List.In (k, v) d -> Q v with
    | [::] => fun k v h => match h with end
    | e :: d' => fun k v h => match h with
        | or_introl he => eq_ind e.2 Q (rec e.2) v (congr1 snd he)
        | or_intror hd => all_ind d' k v hd
        end
    end in
  match v with
  | Leaf x => h1 x
  | Bool n b => h2 n b
  | Dict d => h3 d (all_ind d)
  | Coll d => h4 d (all_ind d)
  end.

Lemma lookup_In (d : dict value) k v : uniq (names d) -> (lookup d k = Some v <-> List.In (k, v) d).
Proof.
elim: d => [|[k' v'] d IH] //= /andP[hk /IH h]; case: eqP => [e|n]; last first.
  by rewrite h; split=> [|[[]|]]; [right | move=> e; case: n |].
split=> [[<-]|[[_ ->]//|hi]]; first by left; rewrite e.
case/negP: hk; rewrite e; elim: d hi {h IH} => //= x d IH [->|/IH]; rewrite inE ?eqxx //= => ->.
by rewrite orbT.
Qed.

(* C99: the parameters are those found by attribute access *)
Theorem C99_leaves v path w : tidy v -> List.In (path, w) (leaves v) <-> walk v path = Some w /\ ~~ is_coll w.
Proof.
elim/value_nested_ind: v path w => [x|n b|d _|d IH] path w ht /=.
- by split=> [[[<- <-]|]//|[]]; case: path => [[<-] _|] //; left.
- by split=> [[[<- <-]|]//|[]]; case: path => [[<-] _|] //; left.
- by split=> [[[<- <-]|]//|[]]; case: path => [[<-] _|] //; left.
move: ht => /= /andP[hu ha].
have ht k u : List.In (k, u) d -> tidy u by elim: (d) ha => //= e d' IHd /andP[h0 /IHd h] [e1|/h//]; rewrite e1 in h0.
have hin : List.In (path, w) (flatten [seq [seq (e.1 :: pv.1, pv.2) | pv <- leaves e.2] | e <- d]) <->
    exists k u r, [/\ List.In (k, u) d, path = k :: r & List.In (r, w) (leaves u)].
  elim: (d) => [|[k u] d' IHd] /=; first by split=> // -[k [u [r []]]].
  rewrite List.in_app_iff IHd List.in_map_iff; split=> [[[[r w'] [[<- <-] h]]|[k' [u' [r [h1 h2 h3]]]]]|[k' [u' [r [[[<- <-]|h1] h2 h3]]]]].
  - by exists k, u, r; split=> //; left.
  - by exists k', u', r; split=> //; right.
  - by left; exists (r, w); rewrite h2.
  - by right; exists k', u', r.
rewrite hin; split=> [[k [u [r [h1 -> h3]]]]|[]].
  have /proj2/(_ h1) e := lookup_In k u hu; rewrite /= e.
  by have /proj1/(_ h3) := IH _ _ h1 r w (ht _ _ h1).
case: path {hin} => [[<-]//|k r] /=; case e: (lookup d k) => [u|] // h1 h2.
have /proj1/(_ e) h3 := lookup_In k u hu; exists k, u, r; split=> //.
by have /proj2 := IH _ _ h3 r w (ht _ _ h3); apply.
Qed.

Lemma append_assoc (a b c : string) : ((a ++ b) ++ c)%string = (a ++ b ++ c)%string.
Proof. by elim: a => //= x a ->. Qed.
Lemma show_sorted_rows d : perm_eq (show (Coll d)) (flatten [seq entry text e.1 (if e.2 is Coll _ then Some (show e.2) else None) e.2 | e <- d]).
Proof.
rewrite /=; set L := map _ d.
have -> : flatten [seq entry text e.1 (if e.2 is Coll _ then Some (show e.2) else None) e.2 | e <- d] = flatten [seq e.2 | e <- L].
  by rewrite /L -map_comp.
by apply/perm_flatten/perm_map; rewrite perm_sort.
Qed.
Lemma leaves_coll d pv : List.In pv (leaves (Coll d)) -> pv.1 <> [::].
Proof.
elim: d => //= e d IH; rewrite List.in_app_iff List.in_map_iff => -[[q [<- _]]//|]; exact: IH.
Qed.

(* C99: a printed collection has one line for every parameter, with its dotted path and value, and no other line *)
Theorem C99_lines d : tidy (Coll d) -> perm_eq (show (Coll d)) [seq line pv | pv <- leaves (Coll d)].
Proof.
suff H v : tidy v -> is_coll v -> perm_eq (show v) [seq line pv | pv <- leaves v] by move=> ht; apply: H.
elim/value_nested_ind: v => // {}d IH /= /andP[_ ha] _; apply: (perm_trans (show_sorted_rows d)).
elim: d IH ha => //= [[k u] d] IHd IH /andP[hu ha]; rewrite map_cat perm_cat //; last first.
  by apply: IHd => // k' v' h; apply: (IH k'); right.
have {}IH := IH k u (or_introl erefl) hu; move: IH hu; rewrite /=.
case: u => [x|n b|d'|d'] IH hu /=.
1-3: by rewrite /line /= /cut (eqP hu) /= (eqP hu) ?perm_refl.
have {}IH := IH isT; apply: (perm_trans (perm_map _ IH)); rewrite -/(show (Coll d')).
rewrite -!map_comp.
have -> : [seq (fun row => (k ++ "." ++ row)%string) (line pv) | pv <- leaves (Coll d')] = [seq line (k :: pv.1, pv.2) | pv <- leaves (Coll d')].
  have := @leaves_coll d'; elim: (leaves (Coll d')) => //= pv r IHr h; rewrite IHr; last by move=> q hq; apply: h; right.
  congr (_ :: _); rewrite /line /=; case: pv.1 (h pv (or_introl erefl)) => // a l _.
  by rewrite !append_assoc.
by [].
Qed.

(* C99: the keys come in alphabetical order, each with its rows; the text does not depend on the order in which the parameters were set *)
Lemma dict_of_names (d : dict value) v0 : uniq (names d) -> d = [seq (k, odflt v0 (lookup d k)) | k <- names d].
Proof.
elim: d => [|[k v] d IH] //= /andP[hk hu]; rewrite eqxx /=; congr (_ :: _); rewrite {1}(IH hu).
by apply/eq_in_map => k' hk' /=; case: eqP => [e|//]; rewrite e hk' in hk.
Qed.
Definition rows d (k : string) : seq string :=
  if lookup d k is Some v then entry text k (if v is Coll _ then Some (show v) else None) v else [::].
Theorem C99_sorted d : uniq (names d) -> show (Coll d) = flatten [seq rows d k | k <- sort String.leb (names d)].
Proof.
move=> hu; rewrite /=; set f := fun e : string * value => (e.1, _).
pose v0 : value := Bool V false false; pose g k := (k, odflt v0 (lookup d k)).
have -> : [seq f e | e <- d] = [seq f (g k) | k <- names d] by rewrite {1}(dict_of_names v0 hu) -map_comp.
rewrite sort_map -map_comp; congr flatten.
have -> : sort (relpre (fun k => f (g k)) by_key) (names d) = sort String.leb (names d) by [].
apply/eq_in_map => k; rewrite mem_sort => hk /=; rewrite /rows.
have : isSome (lookup d k) by elim: (d) hk => //= e d' IH; rewrite inE eq_sym; case: eqP.
by case: (lookup d k).
Qed.
Theorem C99_order d d' : uniq (names d) -> uniq (names d') -> (forall k, lookup d k = lookup d' k) -> show (Coll d) = show (Coll d').
Proof.
move=> hu hu' h; rewrite !C99_sorted //; congr flatten.
have hm (e : dict value) k : (k \in names e) = isSome (lookup e k) by elim: e => //= x e IH; rewrite inE eq_sym; case: eqP.
have -> : sort String.leb (names d) = sort String.leb (names d').
  apply/perm_sortP; [exact: leb_total' | exact: leb_trans | exact: leb_anti |].
  by apply: uniq_perm => // k; rewrite !hm h.
by apply: eq_map => k; rewrite /rows h.
Qed.

(* C99 refuted as stated: the further lines of a value inside a nested collection look like parameters of that collection *)
Theorem C99_multiline_refuted k k' v l1 l2 : ~~ is_coll v -> text v = (l1, [:: l2]) ->
  show (Coll [:: (k, Coll [:: (k', v)])]) = [:: (k ++ "." ++ k' ++ " = " ++ l1)%string; (k ++ "." ++ l2)%string].
Proof. by case: v => [x|n b|d|d] //= _ ->. Qed.
(* C99: at most ten lines and an ellipsis are shown of a value *)
Theorem C99_cut k v : ~~ is_coll v -> let n := size (text v).2 in
  size (show (Coll [:: (k, v)])) = (if n <= 9 then n.+1 else 11)%N /\
  (n <= 9 -> show (Coll [:: (k, v)]) = (k ++ " = " ++ (text v).1)%string :: (text v).2).
Proof.
move=> hv n; have -> : show (Coll [:: (k, v)]) = entry text k None v by case: v hv @n => //= *; rewrite cats0.
rewrite /entry /cut /max_lines -/n ltnS ltnNge; case: leqP => h //=; split=> //.
by rewrite size_rcons size_take -/n; case: ltngtP h => // ->.
Qed.
End Text.

Section Archive.
Variable V : Type.
Notation value := (value V).
(* different names at every level; every boolean is Python's and sits directly in a collection *)
Fixpoint plain (in_dict : bool) (v : value) : bool :=
  match v with
  | Leaf _ => true
  | Bool numpy _ => ~~ numpy && ~~ in_dict
  | Dict d => all id [seq plain true e.2 | e <- d]
  | Coll d => uniq (names d) && all id [seq plain false e.2 | e <- d]
  end.
Lemma update_nil (d : dict value) : uniq (names d) -> update [::] d = d.
Proof.
move=> hu; rewrite /update -[RHS]cat0s; have : forall k, k \in names d -> k \notin names ([::] : dict value) by [].
elim: d [::] hu => [|[k v] d IH] a /=; first by rewrite cats0.
move=> /andP[hk hu] h; rewrite {2}/store (negPf (h _ _)) ?inE ?eqxx // IH ?cat_rcons // => k' hk'.
rewrite /names map_rcons mem_rcons inE negb_or h ?inE ?hk' ?orbT // andbT.
by apply: contraNneq hk => /= <-.
Qed.
(* C99: a collection is restored from an archive with the same parameters and Python booleans *)
Theorem C99_archive (d : dict value) : plain false (Coll d) -> archived (Coll d) = Coll d.
Proof.
suff H v in_dict : plain in_dict v -> (if in_dict then archived v else clean_bool (archived v)) = v.
  by move=> h; rewrite -[RHS](H (Coll d) false h).
elim/value_nested_ind: v in_dict => [x|n b|{}d IH|{}d IH] in_dict /=.
- by case: in_dict.
- by case: n; case: in_dict.
- move=> h; have -> : [seq (e.1, archived e.2) | e <- d] = d; last by case: in_dict.
  elim: d IH h => //= [[k u] d] IHd IH /andP[h0 h]; rewrite (IH k u (or_introl erefl) true h0) /= IHd // => k' v' h'.
  by apply: (IH k'); right.
move=> /andP[hu h]; have hn : names [seq (e.1, archived e.2) | e <- d] = names d by rewrite /names -map_comp.
suff -> : factory_from_dict [seq (e.1, archived e.2) | e <- d] = Coll d by case: in_dict.
rewrite /factory_from_dict update_nil ?hn //; congr Coll; rewrite -map_comp.
elim: d IH h {hu hn} => //= [[k u] d] IHd IH /andP[h0 h]; rewrite (IH k u (or_introl erefl) false h0) /= IHd // => k' v' h'.
by apply: (IH k'); right.
Qed.
(* C99 refuted as stated: a boolean in a dictionary comes back as a numpy one *)
Theorem C99_archive_refuted k k' b : archived (Coll [:: (k, Dict [:: (k', Bool V false b)])]) <> Coll [:: (k, Dict [:: (k', Bool V false b)])].
Proof. by []. Qed.
End Archive.

Section Vectors.
Variables (T : Type).
(* C99: ps.name is the vector of the parameter name of the objects, in order, with None where it is missing *)
Theorem C99_vector limit (l : seq (dict T)) attr : attr \notin class_names -> attr != "objects"%string ->
  getattr limit.+2 (Some l) attr = Some (Vector [seq lookup o attr | o <- l]).
Proof. by rewrite /= => /negPf-> /negPf->. Qed.
(* C99 refuted as stated: parameters with the name of a method, or named objects, are not found *)
Theorem C99_shadow_refuted limit (l : seq (dict T)) attr : attr \in class_names -> getattr limit.+1 (Some l) attr = Some (Method T attr).
Proof. by rewrite /= => ->. Qed.
Theorem C99_objects_refuted limit (l : seq (dict T)) : getattr limit.+1 (Some l) "objects" = Some (Objects l).
Proof. by []. Qed.
(* C99 refuted as stated: on an object whose __init__ has not run (copy.copy, copy.deepcopy and pickle make one and ask it for __setstate__) reading an
   attribute never ends, whatever the recursion limit *)
Theorem C99_copy_refuted limit attr : attr \notin class_names -> getattr limit (None : option (seq (dict T))) attr = None.
Proof. by elim: limit attr => //= n IH attr /negPf->; rewrite if_same IH // ; case: (_ == _). Qed.

(* C99: sort_on orders the same objects by the parameter *)
Variables (le : rel T) (argsort : seq T -> seq nat).
Hypothesis argsort_perm : forall s, perm_eq (argsort s) (iota 0 (size s)).
Hypothesis argsort_sorted : forall s x0, sorted le [seq nth x0 s i | i <- argsort s].
Theorem C99_sort (l : seq (dict T)) attr : (forall i, i < size l -> isSome (lookup (nth [::] l i) attr)) ->
  exists p l', [/\ sort_on argsort l attr = Some l', perm_eq p (iota 0 (size l)), l' = [seq nth [::] l i | i <- p] &
    exists vals, [seq lookup o attr | o <- l'] = [seq Some v | v <- vals] /\ sorted le vals].
Proof.
move=> h; set val := [seq lookup o attr | o <- l].
have ha : all isSome val.
  by apply/(all_nthP None) => i; rewrite size_map => hi; rewrite (nth_map [::]) // h.
pose s := pmap id val; have es : val = [seq Some v | v <- s].
  by rewrite /s; elim: (val) ha => //= -[v|] r IH //= /IH {1}->.
have ss : size s = size l by rewrite -(size_map Some) -es size_map.
have hp := argsort_perm s; rewrite ss in hp.
exists (argsort s), [seq nth [::] l i | i <- argsort s]; split=> //.
  rewrite /sort_on -/val ha -/s /set_sorted_order ifT //.
  by apply/allP => i; rewrite (perm_mem hp) mem_iota.
case el: l => [|o l0].
  by exists [::]; split=> //; have := perm_size hp; rewrite size_iota el /=; case: argsort.
have [x0 _] : exists x0 : T, true by case: (s) ss => [|x ?]; [rewrite el | exists x].
exists [seq nth x0 s i | i <- argsort s]; split=> //; rewrite -!map_comp -el; apply/eq_in_map => i; rewrite (perm_mem hp) mem_iota add0n => hi /=.
have : nth None val i = lookup (nth [::] l i) attr by rewrite (nth_map [::]).
by rewrite es (nth_map x0) ?ss // => <-.
Qed.
(* C99: without the parameter in one of two or more objects sorting fails *)
Theorem C99_sort_error (l : seq (dict T)) attr i : 1 < size l -> i < size l -> lookup (nth [::] l i) attr = None -> sort_on argsort l attr = None.
Proof.
move=> h1 hi h; rewrite /sort_on; case: ifP => [/(all_nthP None)/(_ i)|_]; last by rewrite size_map leqNgt h1.
by rewrite size_map (nth_map [::]) // h => /(_ hi).
Qed.
End Vectors.

(* Cases: a collection in a collection, and sorting two collections *)
Theorem C99_case : let text (v : value nat) := (match v with Leaf 1 => "1" | Leaf _ => "2" | _ => "True" end, [::])%string in
  let d := [:: ("t", Leaf 1); ("p", Coll [:: ("b", Bool nat false true); ("a", Leaf 2)])]%string in
  [/\ show text (Coll d) = [:: "p.a = 2"; "p.b = True"; "t = 1"]%string, tidy text (Coll d) & plain false (Coll d)].
Proof. by []. Qed.
Theorem C99_sort_case : let argsort (s : seq nat) := sort (fun i j => nth 0 s i <= nth 0 s j) (iota 0 (size s)) in
  sort_on argsort [:: [:: ("U", 3)]; [:: ("t", 1); ("U", 2)]]%string "U" = Some [:: [:: ("t", 1); ("U", 2)]; [:: ("U", 3)]]%string.
Proof. by []. Qed.
Print Assumptions C99_leaves.
Print Assumptions C99_lines.
Print Assumptions C99_sorted.
Print Assumptions C99_order.
Print Assumptions C99_multiline_refuted.
Print Assumptions C99_cut.
Print Assumptions C99_archive.
Print Assumptions C99_archive_refuted.
Print Assumptions C99_vector.
Print Assumptions C99_shadow_refuted.
Print Assumptions C99_objects_refuted.
Print Assumptions C99_copy_refuted.
Print Assumptions C99_sort.
Print Assumptions C99_sort_error.
Print Assumptions C99_case.
Print Assumptions C99_sort_case.
