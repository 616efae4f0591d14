(* C64: relabelling of operators; C65: operators composed of the listed modes. *)
From mathcomp Require Import all_ssreflect all_algebra.
From mathcomp Require Import zify.
From Verif Require Import OperatorModel OperatorSpec OperatorProofs OperatorThms Fring.
Set Implicit Arguments.
Unset Strict Implicit.
Unset Printing Implicit Defensive.
Import GRing.Theory Num.Theory.
Local Open Scope ring_scope.

Section RelabelSpec.
Variable C : numClosedFieldType.
(* annihilation and creation operators of the given modes *)
Definition both (idx : seq nat) : seq (operator C) := [seq c C i | i <- idx] ++ [seq c_dag C i | i <- idx].
(* the mode which takes the place of mode i *)
Definition renamed (idx idy : seq nat) (i : nat) : nat := if i \in idx then nth 0%N idy (index i idx) else i.
(* the modes of an operator *)
Definition modes_in (A : operator C) (P : pred nat) : Prop := forall t x, t \in A -> x \in t.1 -> P x.2.
End RelabelSpec.

Section Relabel.
Variable C : numClosedFieldType.
Local Notation operator := (operator C).
Implicit Types (A B : operator) (F G : mono -> C) (m w : mono) (x y : cop) (idx idy : seq nat).
Definition cops idx : seq cop := [seq (false, i) | i <- idx] ++ [seq (true, i) | i <- idx].
Lemma both_map idx : get_operator_index_map_dag (both C idx) = Some (cops idx).
Proof.
rewrite /both /cops; elim: {1 3}idx => [|i r ih] /=; last by rewrite ih.
by elim: idx => [|i r ih] //=; rewrite ih.
Qed.
Definition ren idx idy x : cop := (x.1, renamed idx idy x.2).
Definition tr1 idx idy x : seq (C * cop) := [:: (1, ren idx idy x)].
Lemma tr1_type idx idy x p : p \in tr1 idx idy x -> p.2.1 = x.1. Proof. by rewrite inE => /eqP ->. Qed.
Lemma Lt_tr1 idx idy x F m : Lt (tr1 idx idy) x F m = L (ren idx idy x) F m. Proof. by rewrite /Lt big_seq1 mul1r. Qed.
Definition opx x : operator := if x.1 then c_dag C x.2 else c C x.2.
Lemma sem_opx x F m : sem (opx x) F m = L x F m. Proof. by case: x => [[] i]; rewrite /opx /= ?sem_cdag ?sem_c. Qed.
Lemma ok_opx x : okA (opx x). Proof. by case: x => [[] i]. Qed.
Definition fac1 idx idy x : operator := if x \in cops idx then nth [::] (both C idy) (index x (cops idx)) else if x.1 then c_dag C x.2 else c C x.2.
Lemma mem_cops idx x : (x \in cops idx) = (x.2 \in idx).
Proof.
case: x => b i; rewrite mem_cat; have e (b' : bool) : ((b, i) \in [seq (b', j) | j <- idx]) = (b == b') && (i \in idx).
  apply/mapP/andP => [[j hj [-> ->]]|[/eqP -> h]] //; by exists i.
by rewrite !e; case: (b); rewrite /= ?orbF.
Qed.
Lemma index_cops idx x : x.2 \in idx -> index x (cops idx) = if x.1 then (size idx + index x.2 idx)%N else index x.2 idx.
Proof.
case: x => b i /= h; rewrite index_cat size_map; have ij b' : injective (pair b' : nat -> cop) by move=> ? ? [].
case: b; last by rewrite map_f // index_map.
by rewrite index_map // ifF //; apply/mapP => -[].
Qed.
Lemma fac1E idx idy x : size idx = size idy -> fac1 idx idy x = opx (ren idx idy x).
Proof.
move=> e; rewrite /fac1 /opx /ren /renamed mem_cops /=; case: ifP => // h; rewrite index_cops // /both nth_cat size_map.
have hi : (index x.2 idx < size idy)%N by rewrite -e index_mem.
case: (x.1); first by rewrite e ltnNge leq_addr /= addKn (nth_map 0%N).
by rewrite hi (nth_map 0%N).
Qed.
Lemma W_ptw w F G m : (forall q, F q = G q) -> W w F m = W w G m.
Proof. by elim: w F G m => [|x w ih] F G m h //; rewrite !W_cons; apply: ih => q; rewrite /L; apply: spair_ext => p _; rewrite h. Qed.
Lemma WT_map (f : cop -> cop) w F m : WT (fun x => [:: (1, f x)]) w F m = W [seq f x | x <- w] F m.
Proof. by elim: w F m => [|x w ih] F m //; rewrite WT_cons ih /= W_cons; apply: W_ptw => q; rewrite /Lt big_seq1 mul1r. Qed.
Section Fixed.
Variables idx idy : seq nat.
Hypothesis e : size idx = size idy.
Lemma fac1_sem x F m : sem (fac1 idx idy x) F m = Lt (tr1 idx idy) x F m.
Proof. by rewrite fac1E // sem_opx Lt_tr1. Qed.
Lemma fac1_ok x : okA (fac1 idx idy x). Proof. by rewrite fac1E // ok_opx. Qed.
Lemma relabelE A : relabel_operators A (both C idx) (both C idy) = Some (subst (fac1 idx idy) A).
Proof. by rewrite /relabel_operators both_map. Qed.
Lemma relabel_pr A F : pr (subst (fac1 idx idy) A) F = \sum_(t <- A) t.2 * WT (tr1 idx idy) t.1 F [::].
Proof. by apply: subst_pr; [apply: fac1_sem | apply: fac1_ok]. Qed.
Lemma WT_tr1 w F m : WT (tr1 idx idy) w F m = W [seq ren idx idy x | x <- w] F m.
Proof. exact: WT_map. Qed.
(* linear, and the listed factors replaced in every word *)
Lemma relabel_words A F : pr (subst (fac1 idx idy) A) F = \sum_(t <- A) t.2 * W [seq ren idx idy x | x <- t.1] F [::].
Proof. by rewrite relabel_pr; apply: eq_bigr => t _; rewrite WT_tr1. Qed.
End Fixed.
Lemma plain1 idx idy A : size idx = size idy -> stored A -> (forall t x, t \in A -> x \in t.1 -> ren idx idy x = x) -> same_operator (subst (fac1 idx idy) A) A.
Proof.
move=> e sA h; apply: pr_same => F; rewrite relabel_words // /pr big_seq_cond [RHS]big_seq_cond; apply: eq_bigr => t; rewrite andbT => ht.
rewrite map_id_in ?W_one //; first by apply: (allP (stored_ok sA)).
by move=> x hx; apply: h hx.
Qed.
Lemma there_and_back_proof idx idy A B : uniq idx -> uniq idy -> size idx = size idy -> stored A ->
  modes_in A (fun i => (i \in idy) ==> (i \in idx)) ->
  relabel_operators A (both C idx) (both C idy) = Some B ->
  exists2 D, relabel_operators B (both C idy) (both C idx) = Some D & same_operator D A.
Proof.
move=> ux uy e sA hA; rewrite relabelE => -[<-]; rewrite relabelE; eexists; first by [].
have e' := esym e; apply: pr_same => F; rewrite relabel_pr // -/(pr _ (fun p => WT (tr1 idy idx) p F [::])) relabel_pr //.
rewrite /pr big_seq_cond [RHS]big_seq_cond; apply: eq_bigr => t; rewrite andbT => ht; congr (_ * _).
have st : sorted clt t.1 by apply: (allP (stored_ok sA)).
rewrite (@compose_W C (tr1 idx idy) (tr1 idy idx) (fun x => [:: (1, ren idy idx (ren idx idy x))])) //.
- rewrite -[RHS](W_one F st) WT_map map_id_in // => -[b i] hx.
  rewrite /ren /renamed /=; have := hA t _ ht hx => /=; case: (boolP (i \in idx)) => h.
    by rewrite implybT mem_nth -?e ?index_mem // index_uniq -?e ?index_mem // nth_index.
  by rewrite implybF => /negbTE ->.
- by move=> x p; apply: tr1_type.
- by move=> x p; apply: tr1_type.
by move=> x G q; rewrite big_seq1 mul1r /Lt !big_seq1 mul1r.
Qed.
Lemma renamed_inj idx idy : uniq idx -> perm_eq idx idy -> injective (renamed idx idy).
Proof.
move=> ux p; have uy : uniq idy by rewrite -(perm_uniq p). have e := perm_size p; move=> i j; rewrite /renamed.
case: (boolP (i \in idx)) => hi; case: (boolP (j \in idx)) => hj // h.
- have : index i idx == index j idx by rewrite -(nth_uniq 0%N _ _ uy) -?e ?index_mem // h.
  by move/eqP => h'; rewrite -(nth_index 0%N hi) h' nth_index.
- by move: hj; rewrite -h (perm_mem p) mem_nth // -e index_mem.
by move: hi; rewrite h (perm_mem p) mem_nth // -e index_mem.
Qed.
Lemma homomorphism_proof idx idy A B A' B' : uniq idx -> perm_eq idx idy -> stored B ->
  relabel_operators A (both C idx) (both C idy) = Some A' -> relabel_operators B (both C idx) (both C idy) = Some B' ->
  exists2 D, relabel_operators (op_mul A B) (both C idx) (both C idy) = Some D & same_operator D (op_mul A' B').
Proof.
move=> ux p sB; have e := perm_size p; have inj := renamed_inj ux p; rewrite !relabelE => -[<-] [<-]; eexists; first by [].
apply: (@subst_mul C (tr1 idx idy) (@tr1_type idx idy) _ (fac1_sem e) (fac1_ok e)); last exact: stored_ok.
move=> x y F m hm; rewrite Lt_car // /tr1 !big_seq1 !mul1r; congr (_%:R * _).
by case: x y => b i [b' j]; rewrite /ren /cbar !xpair_eqE /= (inj_eq inj).
Qed.
Lemma linear_proof idx idy A B (a : C) A' B' : size idx = size idy ->
  relabel_operators A (both C idx) (both C idy) = Some A' -> relabel_operators B (both C idx) (both C idy) = Some B' ->
  exists2 D, relabel_operators (op_add A (op_scale a B)) (both C idx) (both C idy) = Some D & same_operator D (op_add A' (op_scale a B')).
Proof.
move=> e; rewrite !relabelE => -[<-] [<-]; eexists; first by [].
apply: pr_same => F; rewrite relabel_pr // -/(pr _ (fun p => WT (tr1 idx idy) p F [::])) !pr_op_add !pr_scale !relabel_pr //.
Qed.
Lemma generator_proof idx idy x : size idx = size idy ->
  exists2 D, relabel_operators (opx x) (both C idx) (both C idy) = Some D & same_operator D (opx (ren idx idy x)).
Proof.
move=> e; rewrite relabelE; eexists; first by []; apply: pr_same => F; rewrite relabel_words //.
have ox y : opx y = [:: ([:: y], 1)] by case: y => [[] i].
by rewrite !ox /pr !big_seq1 /=; congr (_ * _); rewrite W_one.
Qed.
End Relabel.

(* C64: with both operators of every mode listed, an operator is replaced by the one of the new mode, *)
Theorem C64_generators (C : numClosedFieldType) (idx idy : seq nat) (i : nat) : size idx = size idy ->
  (exists2 D, relabel_operators (c C i) (both C idx) (both C idy) = Some D & same_operator D (c C (renamed idx idy i))) /\
  (exists2 D, relabel_operators (c_dag C i) (both C idx) (both C idy) = Some D & same_operator D (c_dag C (renamed idx idy i))).
Proof. by move=> e; split; [exact: (generator_proof C (false, i) e) | exact: (generator_proof C (true, i) e)]. Qed.
(* linearly, *)
Theorem C64_linear (C : numClosedFieldType) (idx idy : seq nat) (A B A' B' : operator C) (a : C) : size idx = size idy ->
  relabel_operators A (both C idx) (both C idy) = Some A' -> relabel_operators B (both C idx) (both C idy) = Some B' ->
  exists2 D, relabel_operators (op_add A (op_scale a B)) (both C idx) (both C idy) = Some D & same_operator D (op_add A' (op_scale a B')).
Proof. exact: linear_proof. Qed.
(* and for a permutation of modes products are kept. *)
Theorem C64_products (C : numClosedFieldType) (idx idy : seq nat) (A B A' B' : operator C) : uniq idx -> perm_eq idx idy -> stored B ->
  relabel_operators A (both C idx) (both C idy) = Some A' -> relabel_operators B (both C idx) (both C idy) = Some B' ->
  exists2 D, relabel_operators (op_mul A B) (both C idx) (both C idy) = Some D & same_operator D (op_mul A' B').
Proof. exact: homomorphism_proof. Qed.
(* Relabelling to modes the operator does not use and back again changes nothing. *)
Theorem C64_there_and_back (C : numClosedFieldType) (idx idy : seq nat) (A B : operator C) : uniq idx -> uniq idy -> size idx = size idy -> stored A ->
  modes_in A (fun i => (i \in idy) ==> (i \in idx)) ->
  relabel_operators A (both C idx) (both C idy) = Some B ->
  exists2 D, relabel_operators B (both C idy) (both C idx) = Some D & same_operator D A.
Proof. exact: there_and_back_proof. Qed.
Theorem C64_outside_untouched (C : numClosedFieldType) (idx idy : seq nat) (A : operator C) : size idx = size idy -> stored A ->
  modes_in A (fun i => i \notin idx) ->
  exists2 D, relabel_operators A (both C idx) (both C idy) = Some D & same_operator D A.
Proof.
move=> e sA h; rewrite relabelE; eexists; first by []. apply: plain1 => // t [b i] ht hx; rewrite /ren /renamed /= ifN //.
exact: (h t _ ht hx).
Qed.
(* With only annihilation operators listed the creation operators keep their modes: a density becomes a hopping. *)
Theorem C64_adjoint_not_renamed (C : numClosedFieldType) (i j : nat) : i != j ->
  exists2 D, relabel_operators (op_mul (c_dag C i) (c C i)) [:: c C i] [:: c C j] = Some D & same_operator D (op_mul (c_dag C i) (c C j)).
Proof.
have d k l : op_mul (c_dag C k) (c C l) = [:: ([:: (true, k); (false, l)], 1)].
  by rewrite /op_mul /= !mulr1 oner_eq0.
have o : op_mul (op_const 1) (c_dag C i) = c_dag C i by rewrite /op_const oner_eq0 /op_mul /= !mulr1 oner_eq0.
move=> ij; rewrite !d /relabel_operators /=; eexists; first by [].
rewrite mem_head /= eqxx /= o d /op_scale oner_eq0 /= !mulr1 oner_eq0; exact: pr_same.
Qed.
Example C64_case (C : numClosedFieldType) : let A := [:: ([:: (true, 1%N); (false, 2%N)], 3%:R : C)] in
  stored A /\ modes_in A (fun i => (i \in [:: 4%N; 2%N]) ==> (i \in [:: 1%N; 2%N])) /\ perm_eq [:: 1%N; 2%N] [:: 2%N; 1%N] /\
  renamed [:: 1%N; 2%N] [:: 4%N; 2%N] 1%N = 4%N.
Proof.
split; first by rewrite /stored /= pnatr_eq0.
by split => // t x; rewrite inE => /eqP -> /=; rewrite !inE => /orP[] /eqP ->.
Qed.

(* C65: the test is right for operators without a constant term, *)
Theorem C65_composed_partial (C : numClosedFieldType) (idx : seq nat) (A : operator C) : (forall t, t \in A -> t.1 <> [::]) ->
  exists2 b, is_operator_composed_of_only_fundamental_operators A (modes C idx) = Some b & (b <-> modes_in A (fun i => i \in idx)).
Proof.
move=> h; rewrite /is_operator_composed_of_only_fundamental_operators; case: ifP => [/hasP[t /h ht /eqP] //|_].
have m i : (c C i \in modes C idx) = (i \in idx) by rewrite mem_map // => a b [].
eexists; first by []; split => [/allP hA t x ht hx|hA]; first by have /allP /(_ x hx) := hA t ht; rewrite m.
by apply/allP => t ht; apply/allP => x hx; rewrite m; apply: hA ht hx.
Qed.
(* and raises for every operator with one. *)
Theorem C65_constant_term_refuted (C : numClosedFieldType) (idx : seq nat) (A : operator C) (a : C) : ([::], a) \in A ->
  is_operator_composed_of_only_fundamental_operators A (modes C idx) = None.
Proof.
by move=> h; rewrite /is_operator_composed_of_only_fundamental_operators; case: ifP => // /hasPn /(_ _ h); rewrite eqxx.
Qed.
Example C65_case (C : numClosedFieldType) : let A := [:: ([:: (true, 1%N); (false, 2%N)], 3%:R : C)] in
  is_operator_composed_of_only_fundamental_operators A (modes C [:: 1%N; 2%N]) = Some true /\
  is_operator_composed_of_only_fundamental_operators A (modes C [:: 1%N]) = Some false.
Proof.
have m i idx : (c C i \in modes C idx) = (i \in idx) by rewrite mem_map // => a b [].
have e (o1 : seq nat) : is_operator_composed_of_only_fundamental_operators [:: ([:: (true, 1%N); (false, 2%N)], 3%:R : C)] (modes C o1) =
    Some [&& 1%N \in o1, 2%N \in o1 & true] by rewrite -!m andbT /is_operator_composed_of_only_fundamental_operators [all _ _]/= !andbT.
by move=> A; rewrite /A !e.
Qed.
Print Assumptions C64_products.
Print Assumptions C64_there_and_back.
Print Assumptions C65_composed_partial.
