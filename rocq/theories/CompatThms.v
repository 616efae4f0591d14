(* C121: linear algebra on stacks of matrices does not depend on the version of numpy, as far as that is true. *)
From Coq Require Import String Ascii ZArith.
From mathcomp Require Import all_ssreflect.
From mathcomp Require Import zify.
From Verif Require Import ParamModel WannierModel WannierTextThms CompatModel.
Set Implicit Arguments.
Unset Strict Implicit.
Unset Printing Implicit Defensive.
Local Open Scope nat_scope.
Local Open Scope string_scope.

(* specification: l is an index of an array of shape s; out holds the results of f for all matrices of the stack *)
Definition valid (l s : seq nat) : Prop := size l = size s /\ forall i, i < size s -> nth 0 l i < nth 0 s i.
Definition matrix_at (A : Type) (a : array A) (l s : seq nat) (m : array A) : Prop := shape a = (s ++ shape m)%SEQ /\ forall t, at_ix m t = at_ix a (l ++ t)%SEQ.
Definition applied (A : Type) (v : seq nat -> array A) (s tail : seq nat) (out : array A) : Prop :=
  shape out = (s ++ tail)%SEQ /\ forall l t, valid l s -> at_ix out (l ++ t)%SEQ = at_ix (v l) t.
Definition numpy_at (a b c : seq nat) : string := numeral a ++ "." ++ numeral b ++ "." ++ numeral c.
Definition number_ok (a : seq nat) : bool := digits a && (a != [::]).

Lemma validS i l N s : valid (i :: l) (N :: s) <-> i < N /\ valid l s.
Proof.
split=> [[[e] h]|[h [e h']]]; last by split=> /= [|[|j]] //; [rewrite e | exact: h'].
by split; [exact: (h 0) | split=> // j hj; exact: (h j.+1)].
Qed.
Lemma product_valid s l : reflect (valid l s) (l \in product s).
Proof.
apply: (iffP idP); elim: s l => [|N s ih] l.
- by rewrite inE => /eqP->.
- move=> /flattenP[x /mapP[i]]; rewrite mem_iota => hi -> /mapP[l' hl ->]; by apply/validS; split=> //; exact: ih.
- by case: l => [_|i l []] //; rewrite inE.
- case: l => [[]|i l /validS[hi hl]] //; apply/flattenP; exists [seq i :: l | l <- product s]; last by apply/mapP; exists l => //; apply: ih.
  by apply/mapP; exists i => //; rewrite mem_iota.
Qed.
Lemma valid_within l s tail : valid l s -> within l (s ++ tail)%SEQ.
Proof. by elim: s l => [|N s ih] [|i l] //; [case | move=> /validS[hi hl] /=; rewrite hi; exact: ih]. Qed.
Section Fill.
Variables (A : Type) (func : array A -> option (array A)) (arr : array A) (v : seq nat -> array A) (s tail : seq nat).
Lemma fill_none ix : foldl (fun o l => if o is Some out then if func (slice arr l) is Some v then assign out l v else None else None) None ix = None.
Proof. by elim: ix. Qed.
Lemma fill_cons out l ix : fill func arr out (l :: ix) = if func (slice arr l) is Some w then if assign out l w is Some o then fill func arr o ix else None else None.
Proof. by rewrite /fill /=; case: (func _) => [w|]; rewrite ?fill_none //; case: (assign _ _ _) => //; rewrite fill_none. Qed.
Lemma fill_ok ix out : (forall l, l \in ix -> [/\ valid l s, func (slice arr l) = Some (v l) & shape (v l) = tail]) -> shape out = (s ++ tail)%SEQ ->
  exists out', [/\ fill func arr out ix = Some out', shape out' = (s ++ tail)%SEQ &
    forall l t, size l = size s -> at_ix out' (l ++ t)%SEQ = if l \in ix then at_ix (v l) t else at_ix out (l ++ t)%SEQ].
Proof.
elim: ix out => [|l ix ih] out h so; first by exists out.
have [hl hf hv] := h l (mem_head _ _); have sl : size l = size s by case: hl.
rewrite fill_cons hf /assign so valid_within // sl drop_size_cat // hv eqxx.
have [|//|out' [-> so' h']] := ih (Array (s ++ tail)%SEQ (fun t => if take (size s) t == l then at_ix (v l) (drop (size s) t) else at_ix out t)).
  by move=> l' hl'; apply: h; rewrite inE hl' orbT.
exists out'; split=> // l' t sl'; rewrite h' // inE; case: ifP => _; first by rewrite orbT.
by rewrite orbF /= take_size_cat // drop_size_cat //; case: eqP => // ->.
Qed.
Lemma fill_raise ix out l : l \in ix -> func (slice arr l) = None -> fill func arr out ix = None.
Proof.
elim: ix out => [|l' ix ih] out //; rewrite inE fill_cons => /orP[/eqP <- ->|hl hn] //.
by case: (func _) => // w; case: (assign _ _ _) => // o; exact: ih.
Qed.
End Fill.
Lemma slice_matrix (A : Type) (a : array A) l s tail : shape a = (s ++ tail)%SEQ -> valid l s -> matrix_at a l s (slice a l).
Proof. by move=> e [sl _]; rewrite /matrix_at /slice /= e sl drop_size_cat. Qed.
Lemma lead_cat s (M M' : nat) : lead (s ++ [:: M; M'])%SEQ = s.
Proof. by rewrite /lead size_cat /= addnK take_size_cat. Qed.
Section Stack.
Variables (A : Type) (garbage : seq nat -> A) (numpy : string) (newer : bool).
Hypothesis hn : is_numpy_newer_than numpy "1.8.0" = Some newer.
Variables (arr : array A) (s : seq nat) (M : nat).
Hypothesis sa : shape arr = (s ++ [:: M; M])%SEQ.
(* C121: np_inv gives the inverse of every matrix, whatever the version *)
Theorem C121_inverse stacked func (v : seq nat -> array A) :
  (forall l m, valid l s -> matrix_at arr l s m -> func m = Some (v l)) -> (forall l, valid l s -> shape (v l) = [:: M; M]) ->
  (exists out, stacked arr = Some out /\ applied v s [:: M; M] out) ->
  exists out, np_linalg_func garbage numpy stacked func arr = Some out /\ applied v s [:: M; M] out.
Proof.
move=> hf hv hs; rewrite /np_linalg_func hn; case: (newer) => //; rewrite sa lead_cat.
have [l /product_valid hl||out [-> so h]] := @fill_ok A func arr v s [:: M; M] (product s) (Array (s ++ [:: M; M])%SEQ garbage); [|by []|].
  by split=> //; [apply: hf => //; exact: slice_matrix sa hl | exact: hv].
exists out; do 2! split=> //; move=> l t hl; rewrite h; last by case: hl.
by rewrite ifT //; apply/product_valid.
Qed.
(* C121: it raises if one of the matrices has no inverse *)
Theorem C121_singular stacked func l : valid l s -> (forall m, matrix_at arr l s m -> func m = None) -> stacked arr = None ->
  np_linalg_func garbage numpy stacked func arr = None.
Proof.
move=> hl hf hs; rewrite /np_linalg_func hn; case: (newer) => //; rewrite sa lead_cat; have hl' : l \in product s by apply/product_valid.
by apply: fill_raise hl' _; apply: hf; exact: slice_matrix sa hl.
Qed.
(* C121: np_eigvalsh as well when no axis has length one *)
Theorem C121_eigvalsh_partial stacked func (v : seq nat -> array A) : all (predC1 1) s -> M != 1 ->
  (forall l m, valid l s -> matrix_at arr l s m -> func m = Some (v l)) -> (forall l, valid l s -> shape (v l) = [:: M]) ->
  (exists out, stacked arr = Some out /\ applied v s [:: M] out) ->
  exists out, np_eigvalsh garbage numpy stacked func arr = Some out /\ applied v s [:: M] out.
Proof.
move=> s1 M1 hf hv hs; rewrite /np_eigvalsh hn; case: (newer) => //; rewrite sa lead_cat.
have -> : squeeze (take (size (s ++ [:: M; M])%SEQ).-1 (s ++ [:: M; M])%SEQ) = (s ++ [:: M])%SEQ.
  rewrite size_cat addn2 /= -[(s ++ _)%SEQ]/(s ++ [:: M] ++ [:: M])%SEQ catA take_size_cat ?size_cat ?addn1 //.
  by rewrite /squeeze; apply/all_filterP; rewrite all_cat s1 /= M1.
have [l /product_valid hl||out [-> so h]] := @fill_ok A func arr v s [:: M] (product s) (Array (s ++ [:: M])%SEQ garbage); [|by []|].
  by split=> //; [apply: hf => //; exact: slice_matrix sa hl | exact: hv].
exists out; do 2! split=> //; move=> l t hl; rewrite h; last by case: hl.
by rewrite ifT //; apply/product_valid.
Qed.
(* C121: np_eigh for an array of matrices *)
Theorem C121_eigh_partial N stacked func (v w : seq nat -> array A) : s = [:: N] ->
  (forall l m, valid l s -> matrix_at arr l s m -> func m = Some (v l, w l)) -> (forall l, valid l s -> shape (v l) = [:: M] /\ shape (w l) = [:: M; M]) ->
  (exists E U, stacked arr = Some (E, U) /\ applied v s [:: M] E /\ applied w s [:: M; M] U) ->
  exists E U, np_eigh garbage numpy stacked func arr = Some (E, U) /\ applied v s [:: M] E /\ applied w s [:: M; M] U.
Proof.
move=> es hf hv hs; rewrite /np_eigh hn; case: (newer) => //; rewrite sa es -[([:: N] ++ _)%SEQ]/[:: N; M; M]; cbv beta iota; rewrite eqxx -es.
have fs l : l \in product s -> func (slice arr l) = Some (v l, w l) by move=> /product_valid hl; apply: hf => //; exact: slice_matrix sa hl.
have [l hl||E [-> sE hE]] := @fill_ok A (fun a => omap fst (func a)) arr v s [:: M] (product s) (Array [:: N; M] garbage); [|by rewrite es|].
  by rewrite fs //=; split=> //; [exact/product_valid | case: (hv l) => //; exact/product_valid].
have [l hl||U [-> sU hU]] := @fill_ok A (fun a => omap snd (func a)) arr w s [:: M; M] (product s) (Array [:: N; M; M] garbage); [|by rewrite es|].
  by rewrite fs //=; split=> //; [exact/product_valid | case: (hv l) => //; exact/product_valid].
exists E, U; split=> //; split; split=> // l t hl; rewrite ?hE ?hU; try (by case: hl); by rewrite ifT //; apply/product_valid.
Qed.
End Stack.
Section Old.
Variables (A : Type) (garbage : seq nat -> A) (numpy : string).
Hypothesis hn : is_numpy_newer_than numpy "1.8.0" = Some false.
(* C121: one point and several orbitals: the fallback of np_eigvalsh raises *)
Theorem C121_one_point_refuted stacked func (arr : array A) M : 1 < M -> shape arr = [:: 1; M; M] ->
  (forall m, shape m = [:: M; M] -> exists v, func m = Some v /\ shape v = [:: M]) -> np_eigvalsh garbage numpy stacked func arr = None.
Proof.
move=> M1 sa hf; have Mn : M == 1 = false by lia.
rewrite /np_eigvalsh hn sa /= Mn /= fill_cons; have [|v [-> sv]] := hf (slice arr [:: 0]); first by rewrite /slice /= sa.
by rewrite /assign /= sv (ltnW M1) /= Mn.
Qed.
(* C121: one orbital: it loses the axis of the orbitals *)
Theorem C121_one_orbital_refuted stacked func (arr : array A) N : 1 < N -> shape arr = [:: N; 1; 1] ->
  (forall m, shape m = [:: 1; 1] -> exists v, func m = Some v /\ shape v = [:: 1]) ->
  exists out, np_eigvalsh garbage numpy stacked func arr = Some out /\ shape out = [:: N].
Proof.
move=> N1 sa hf; have Nn : N == 1 = false by lia.
have gen ix o : shape o = [:: N] -> (forall l, l \in ix -> valid l [:: N]) -> exists out, fill func arr o ix = Some out /\ shape out = [:: N].
  elim: ix o => [|l ix ih] o so h; first by exists o.
  have hl := h l (mem_head _ _); have [sl _] := hl; rewrite fill_cons.
  have [|w [-> sw]] := hf (slice arr l); first by rewrite /slice /= sa sl.
  rewrite /assign so -[[:: N]]cats0 valid_within // cats0 sl sw /=; apply: ih => // l' hl'; apply: h; by rewrite inE hl' orbT.
rewrite /np_eigvalsh hn; apply: gen; first by rewrite sa /squeeze /= Nn.
by rewrite sa => l /product_valid.
Qed.
(* C121: np_eigh raises for a single matrix, and for a stack with several axes *)
Theorem C121_eigh_refuted stacked func (arr : array A) : size (shape arr) != 3 -> np_eigh garbage numpy stacked func arr = None.
Proof. by rewrite /np_eigh hn; case: (shape arr) => [|? [|? [|? [|]]]]. Qed.
End Old.

(* versions *)
Lemma number_text a r : number_ok a -> not_digit r -> number (numeral a ++ r) = Some (value a, r).
Proof. by move=> /andP[ha h0] hr; rewrite /number span_numeral // span_stop // Z.mul_0_l Z.add_0_l addn0 lt0n size_eq0 h0. Qed.
Lemma parse_text a b c p x : number_ok a -> number_ok b -> number_ok c -> not_digit p -> parse_pre p = x ->
  parse_version (numeral a ++ "." ++ numeral b ++ "." ++ numeral c ++ p) = omap (fun p => (value a, value b, value c, p)) x.
Proof. by move=> ha hb hc hp <-; rewrite /parse_version number_text // [X in if number X is Some _ then _ else _]/= number_text // number_text. Qed.
(* C121: the numbers of the version are compared one after the other, as numbers *)
Theorem C121_version a b c : number_ok a -> number_ok b -> number_ok c ->
  exists newer, is_numpy_newer_than (numpy_at a b c) "1.8.0" = Some newer /\
    (newer <-> (1 < value a \/ value a = 1 /\ (8 < value b \/ value b = 8 /\ 0 < value c))%Z).
Proof.
move=> ha hb hc; rewrite /is_numpy_newer_than /numpy_at -[numeral c]app_nil_s (parse_text (x := Some None)) //.
eexists; split; first reflexivity.
rewrite /version_gt /=; do ! case: eqP => /= ?; split; lia.
Qed.
(* C121: the version 1.8.0 itself uses the fallback *)
Theorem C121_same_version : is_numpy_newer_than "1.8.0" "1.8.0" = Some false.
Proof. by []. Qed.
(* C121: release candidates raise *)
Theorem C121_candidate_refuted (A : Type) (garbage : seq nat -> A) a b c d stacked func arr : number_ok a -> number_ok b -> number_ok c ->
  np_linalg_func garbage (numpy_at a b c ++ "rc" ++ numeral d) stacked func arr = None.
Proof.
move=> ha hb hc; rewrite /np_linalg_func /is_numpy_newer_than /numpy_at !app_assoc_s /= -!/(numeral _).
by have -> := parse_text (p := "rc" ++ numeral d) (x := None) ha hb hc isT erefl.
Qed.
(* C121: two matrices, for old and new versions *)
Theorem C121_case : [/\ is_numpy_newer_than "1.10.4" "1.8.0" = Some true, is_numpy_newer_than "1.7.2" "1.8.0" = Some false &
  exists out, np_linalg_func (fun=> 0) "1.7.2" (fun=> None) (fun m => Some (Array (shape m) (fun t => (at_ix m t).+1))) (Array [:: 2; 2; 2] (fun t => sumn t)) = Some out /\
    shape out = [:: 2; 2; 2] /\ at_ix out [:: 1; 0; 1] = 3 /\ at_ix out [:: 0; 0; 0] = 1].
Proof. by split=> //; eexists; split; first reflexivity. Qed.
Print Assumptions C121_inverse.
Print Assumptions C121_singular.
Print Assumptions C121_eigvalsh_partial.
Print Assumptions C121_eigh_partial.
Print Assumptions C121_one_point_refuted.
Print Assumptions C121_one_orbital_refuted.
Print Assumptions C121_eigh_refuted.
Print Assumptions C121_version.
Print Assumptions C121_same_version.
Print Assumptions C121_candidate_refuted.
Print Assumptions C121_case.
