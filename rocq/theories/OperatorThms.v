(* C30: quadratic operators; C31, C32: quartic tensors; C33: single-particle transformations. *)
From mathcomp Require Import all_ssreflect all_algebra.
From mathcomp Require Import zify.
From Verif Require Import OperatorModel OperatorSpec OperatorProofs Fring.
Set Implicit Arguments.
Unset Strict Implicit.
Unset Printing Implicit Defensive.
Import GRing.Theory Num.Theory.
Local Open Scope ring_scope.

Section Common.
Variable C : numClosedFieldType.
Local Notation operator := (operator C).
Local Notation modes := (modes C).
Implicit Types (A B D : operator) (F G : mono -> C) (m w : mono).
Lemma dag_c i : dagger (c C i) = c_dag C i.
Proof. by rewrite /dagger /= conjC1. Qed.
Lemma modes_map idx : get_operator_index_map (modes idx) = Some idx.
Proof. by elim: idx => //= i r ->. Qed.
Lemma nth_modes idx i : (i < size idx)%N -> nth [::] (modes idx) i = c C (nth 0%N idx i).
Proof. by move=> h; rewrite (nth_map 0%N). Qed.
Lemma pr_foldl (T : eqType) (r : seq T) (f : operator -> T -> operator) (v : T -> C) A F :
  (forall A i, i \in r -> pr (f A i) F = pr A F + v i) -> pr (foldl f A r) F = pr A F + \sum_(i <- r) v i.
Proof.
elim: r A => [|i r ih] A h /=; rewrite ?big_nil ?addr0 // ih ?h ?big_cons ?addrA ?mem_head // => B j hj.
by apply: h; rewrite inE hj orbT.
Qed.
Lemma stored_foldl (T : eqType) (r : seq T) (f : operator -> T -> operator) A :
  (forall A i, i \in r -> stored A -> stored (f A i)) -> stored A -> stored (foldl f A r).
Proof.
elim: r A => [|i r ih] A h //= hA; apply: ih; last by apply: h => //; apply: mem_head.
by move=> B j hj; apply: h; rewrite inE hj orbT.
Qed.
Lemma nth_index_eq (idx : seq nat) x i : uniq idx -> x \in idx -> (i < size idx)%N -> (x == nth 0%N idx i) = (i == index x idx).
Proof. by move=> u hx hi; rewrite -{1}(nth_index 0%N hx) nth_uniq ?index_mem // eq_sym. Qed.
Lemma in_iota i n : (i \in iota 0 n) = (i < n)%N. Proof. by rewrite mem_iota. Qed.
Lemma sum_one (T : eqType) (r : seq T) (z : T) (v : T -> C) : uniq r -> z \in r -> \sum_(i <- r) (if i == z then v i else 0) = v z.
Proof.
move=> u h; rewrite (big_rem z) //= eqxx big_seq_cond big1 ?addr0 // => i; rewrite andbT mem_rem_uniq // !inE => /andP[/negbTE -> _].
by [].
Qed.
Lemma sem_c i F m : sem (c C i) F m = L (false, i) F m.
Proof. by rewrite /sem /pr big_seq1 mul1r. Qed.
Lemma sem_cdag i F m : sem (c_dag C i) F m = L (true, i) F m.
Proof. by rewrite /sem /pr big_seq1 mul1r. Qed.
Lemma sem_scale a A F m : sem (op_scale a A) F m = a * sem A F m.
Proof. exact: pr_scale. Qed.
Lemma ok_c i : okA (c C i). Proof. by []. Qed.
Lemma ok_cdag i : okA (c_dag C i). Proof. by []. Qed.
Lemma ok_nil : okA (nil : operator). Proof. by []. Qed.
End Common.

Arguments W {C} w F m : simpl never.

Section Quadratic.
Variable C : numClosedFieldType.
Local Notation operator := (operator C).
Local Notation modes := (modes C).
Variable almost_equal : C -> C -> bool.
Hypothesis almost_refl : forall x, almost_equal x x.
Implicit Types (A B : operator) (idx : seq nat).
Definition quad (idx : seq nat) i j : mono := [:: (true, nth 0%N idx i); (false, nth 0%N idx j)].
(* no anomalous terms *)
Definition number_conserving (t : mono * C) : bool := if t.1 is [:: x; y] then x.1 && ~~ y.1 else true.

Lemma get_quadratic_proof h idx A : get_quadratic_operator almost_equal h (modes idx) = Some A ->
  stored A /\ (forall F, pr A F = \sum_(i <- iota 0 (size idx)) \sum_(j <- iota 0 (size idx)) h i j * F (quad idx i j)).
Proof.
rewrite /get_quadratic_operator size_map; case: ifP => // _ [<-]; split.
  apply: stored_foldl => // B i _ hB; apply: stored_foldl => // D j; rewrite in_iota => hj hD.
  by apply: stored_op_add => //; apply/stored_ok/stored_mul; rewrite nth_modes.
move=> F; rewrite (pr_foldl (v := fun i => \sum_(j <- iota 0 (size idx)) h i j * F (quad idx i j))) ?pr_nil ?add0r // => B i.
rewrite in_iota => hi; apply: (pr_foldl (v := fun j => h i j * F (quad idx i j))) => D j; rewrite in_iota => hj.
by rewrite pr_op_add !nth_modes // dag_c pr_mul {2}/pr big_seq1 mul1r sem_scale sem_cdag L_lt.
Qed.
Lemma quad_eq idx i j k l : uniq idx -> (i < size idx)%N -> (j < size idx)%N -> (k < size idx)%N -> (l < size idx)%N ->
  (quad idx i j == quad idx k l) = (i == k) && (j == l).
Proof.
move=> u hi hj hk hl; apply/eqP/andP => [[/eqP e1 /eqP e2]|[/eqP -> /eqP ->]] //.
by rewrite !nth_uniq // in e1 e2.
Qed.
(* the coefficients of the operator are the matrix elements *)
Lemma quadratic_coef_proof h idx A : uniq idx -> get_quadratic_operator almost_equal h (modes idx) = Some A ->
  (forall i j, (i < size idx)%N -> (j < size idx)%N -> coef A (quad idx i j) = h i j) /\
  (forall m, coef A m != 0 -> exists i j, [/\ (i < size idx)%N, (j < size idx)%N & m = quad idx i j]).
Proof.
move=> u /get_quadratic_proof [_ hp]; split=> [i j hi hj|m].
  rewrite prE hp; transitivity (\sum_(k <- iota 0 (size idx)) (if k == i then h k j else 0)); last first.
    by rewrite sum_one ?iota_uniq ?in_iota.
  rewrite big_seq_cond [RHS]big_seq_cond; apply: eq_bigr => k; rewrite andbT in_iota => hk.
  transitivity (\sum_(l <- iota 0 (size idx)) (if l == j then (if k == i then h k l else 0) else 0)); last first.
    by rewrite sum_one ?iota_uniq ?in_iota.
  rewrite big_seq_cond [RHS]big_seq_cond; apply: eq_bigr => l; rewrite andbT in_iota => hl.
  by rewrite quad_eq //; case: eqP => _; case: eqP => _; rewrite ?mulr1 ?mulr0.
case: (boolP (m \in [seq quad idx i j | i <- iota 0 (size idx), j <- iota 0 (size idx)])) => [|hn].
  by case/allpairsP => -[i j] [/=]; rewrite !in_iota => hi hj -> _; exists i, j.
rewrite prE hp big_seq_cond big1 ?eqxx // => i; rewrite andbT => hi.
rewrite big_seq_cond big1 // => j; rewrite andbT => hj; case: eqP => e; rewrite ?mulr0 //.
by case/negP: hn; rewrite -e; apply/allpairsP; exists (i, j).
Qed.
Lemma quadratic_read_proof A idx : uniq idx -> stored A -> all number_conserving A ->
  exists2 h, quadratic_matrix_from_operator A (modes idx) = Some h &
    forall i j, (i < size idx)%N -> (j < size idx)%N -> h i j = coef A (quad idx i j).
Proof.
move=> u sA nc; rewrite /quadratic_matrix_from_operator modes_map.
have uA : uniq [seq t.1 | t <- A] by case/and3P: sA.
have cell i j : (i < size idx)%N -> (j < size idx)%N -> exists2 h,
    foldl (quadratic_step idx) (Some (fun _ _ => 0)) A = Some h & h i j = coef A (quad idx i j).
  move=> hi hj; have := @fold_cell C _ (fun h => h i j) (quadratic_step idx) number_conserving (quad idx i j) id A (fun _ _ => 0).
  case=> //; last first.
    by move=> h -> e; exists h => //; rewrite e /=; case: ifPn => // /coef_notin ->.
  move=> h [m a] /=; case: m => [|[d1 t1] [|[d2 t2] [|x m]]] //= ; rewrite /number_conserving /=; try by exists h => //; case: eqP.
    case: d1 d2 => [] [] // _; case: ifPn => [/andP[h1 h2]|hn].
      eexists; first by []. 
      by rewrite /set2 /quad eqseq_cons /= eqseq_cons /= !xpair_eqE /= andbT !nth_index_eq.
    exists h => //; case: eqP => // -[e1 e2]; move: hn; rewrite e1 e2 !mem_nth //.
case: (posnP (size idx)) => hp.
  have := @fold_cell C _ (fun h => 0) (quadratic_step idx) number_conserving [::] (fun=> 0) A (fun _ _ => 0).
  case=> // [h [m a] /=|h -> _].
    case: m => [|[d1 t1] [|[d2 t2] [|x m]]] //=; rewrite /number_conserving /=; try by exists h => //; case: ifP.
    by move=> /andP[-> ->]; case: ifPn => _; eexists=> //; case: ifP.
  by exists h => // i j; rewrite hp.
have [h e _] := cell 0%N 0%N hp hp; exists h => // i j hi hj; have [h' e' <-] := cell i j hi hj.
by move: e'; rewrite e => -[->].
Qed.
Lemma quadratic_hermitian h idx : hermitian (size idx) h -> exists A, get_quadratic_operator almost_equal h (modes idx) = Some A.
Proof.
move=> hh; rewrite /get_quadratic_operator size_map ifT; first by eexists.
by apply/allP => i; rewrite in_iota => hi; apply/allP => j; rewrite in_iota => hj; rewrite -hh.
Qed.
Lemma C30_round_trip_proof h idx : uniq idx -> hermitian (size idx) h ->
  exists A h', [/\ get_quadratic_operator almost_equal h (modes idx) = Some A,
                   quadratic_matrix_from_operator A (modes idx) = Some h' & eq2 (size idx) h' h].
Proof.
move=> u /quadratic_hermitian [A eA]; have [sA _] := get_quadratic_proof eA; have [hc hk] := quadratic_coef_proof u eA.
have nc : all number_conserving A.
  apply/allP => t ht; have [|i [j [_ _ e]]] := hk t.1; last by rewrite /number_conserving e.
  by rewrite -coef_keys // map_f.
have [h' e' hh] := quadratic_read_proof u sA nc; exists A, h'; split => // i j hi hj; by rewrite hh // hc.
Qed.
End Quadratic.

Section Quartic.
Variable C : numClosedFieldType.
Local Notation operator := (operator C).
Local Notation modes := (modes C).
Add Field Cfield : (fld_ft (Num.ClosedField.fieldType C)).
Implicit Types (A B : operator) (idx : seq nat) (F : mono -> C) (U : arr4 C).
Definition quart (idx : seq nat) i j k l : mono :=
  [:: (true, nth 0%N idx i); (true, nth 0%N idx j); (false, nth 0%N idx k); (false, nth 0%N idx l)].
Arguments quart : simpl never.
Definition s2 (a b : nat) : C := if (a < b)%N then 1 else if (b < a)%N then -1 else 0.
Definition nrm (a b c d : nat) : mono := [:: (true, minn a b); (true, maxn a b); (false, maxn c d); (false, minn c d)].

Lemma W4 a b c d F : W [:: (true, a); (true, b); (false, c); (false, d)] F [::] = s2 a b * s2 d c * F (nrm a b c d).
Proof.
rewrite /W /= L_nil /s2 /nrm.
have step x y G : L (true, b) (L (true, a) G) [:: (false, x); (false, y)] =
    s2 a b * G [:: (true, minn a b); (true, maxn a b); (false, x); (false, y)].
  rewrite L_lt // /s2; case: (ltngtP a b) => [h|h|->]; last by rewrite L_eq mul0r.
    by rewrite L_lt // mul1r.
  by rewrite L_gt // L_lt // mulN1r (_ : _ == _ = false) // mul0r addr0.
case: (ltngtP d c) => [h|h|->]; last by rewrite L_eq mulr0 mul0r.
  by rewrite L_lt // step mulr1.
rewrite L_gt // L_nil step (_ : (false, c) == _ = false) // mul0r addr0 -mulrN mulrN1 mulrN mulNr //.
Qed.
Lemma s2N a b : s2 a b = - s2 b a.
Proof. by rewrite /s2; case: ltngtP; rewrite ?opprK ?oppr0. Qed.
Lemma W4_swap1 idx i j k l F : W (quart idx j i k l) F [::] = - W (quart idx i j k l) F [::].
Proof. by rewrite !W4 /nrm s2N !mulNr minnC maxnC. Qed.
Lemma W4_swap2 idx i j k l F : W (quart idx i j l k) F [::] = - W (quart idx i j k l) F [::].
Proof. by rewrite !W4 /nrm [s2 _ (nth _ _ l)]s2N mulrN mulNr minnC maxnC ![minn (nth _ _ l) _]minnC ![maxn (nth _ _ l) _]maxnC [minn (nth _ _ j) _]minnC [maxn (nth _ _ j) _]maxnC. Qed.
Lemma quart_sorted idx a b c d : sorted clt (quart idx a b c d) = (nth 0 idx a < nth 0 idx b)%N && (nth 0 idx d < nth 0 idx c)%N.
Proof. by rewrite /= /clt /= andbT. Qed.
Lemma quart_eq idx i j k l a b c d : uniq idx -> (i < size idx)%N -> (j < size idx)%N -> (k < size idx)%N -> (l < size idx)%N ->
  (a < size idx)%N -> (b < size idx)%N -> (c < size idx)%N -> (d < size idx)%N ->
  (quart idx i j k l == quart idx a b c d) = [&& i == a, j == b, k == c & l == d].
Proof.
move=> u hi hj hk hl ha hb hc hd; rewrite /quart !eqseq_cons !xpair_eqE /= !nth_uniq // andbT //.
Qed.
(* number-conserving quartic terms *)
Definition quartic_ok (t : mono * C) : bool :=
  sorted clt t.1 && (if t.1 is [:: x; y; z; u] then [&& x.1, y.1, ~~ z.1 & ~~ u.1] else true).
Section Read.
Variables (idx : seq nat) (a b c d : nat).
Hypotheses (u : uniq idx) (ha : (a < size idx)%N) (hb : (b < size idx)%N) (hc : (c < size idx)%N) (hd : (d < size idx)%N).
Local Notation I := (nth 0%N idx).
Local Notation Q := (quart idx).
Lemma quartic_step_spec perm (y : arr4 C) t (m0 : mono) (v : C -> C) : quartic_ok t ->
  (forall t1 t2 t3 t4, t1 \in idx -> t2 \in idx -> t3 \in idx -> t4 \in idx -> t.1 = [:: (true, t1); (true, t2); (false, t3); (false, t4)] ->
    (if perm then (if [&& t1 == I a, t2 == I b, t4 == I c & t3 == I d] then - 4%:R^-1 * t.2 else
      if [&& t2 == I a, t1 == I b, t4 == I c & t3 == I d] then 4%:R^-1 * t.2 else
      if [&& t2 == I a, t1 == I b, t3 == I c & t4 == I d] then - 4%:R^-1 * t.2 else
      if [&& t1 == I a, t2 == I b, t3 == I c & t4 == I d] then 4%:R^-1 * t.2 else y a b c d)
     else if [&& t1 == I a, t2 == I b, t3 == I c & t4 == I d] then t.2 else y a b c d) =
    if t.1 == m0 then v t.2 else y a b c d) ->
  (exists i j k l, [/\ m0 = Q i j k l, i < size idx, j < size idx, k < size idx & l < size idx])%N ->
  exists2 y', quartic_step idx perm (Some y) t = Some y' & y' a b c d = if t.1 == m0 then v t.2 else y a b c d.
Proof.
case: t => m x /=; case/andP => sm ok h [i [j [k [l [e hi hj hk hl]]]]].
have n0 : size m != 4%N -> (m == m0) = false by move=> n; apply/eqP => e'; move: n; rewrite e' e.
case: m sm ok h n0 => [|[d1 t1] [|[d2 t2] [|[d3 t3] [|[d4 t4] [|[d5 t5] m]]]]] sm ok h n0; try by exists y => //; rewrite n0 //; case: (m).
case: d1 d2 d3 d4 ok h sm n0 => [] [] [] [] // _ h sm _ /=.
case: ifPn => [/and4P[h1 h2 h3 h4]|hn]; last first.
  by exists y => //; case: eqP => // e'; move: hn; rewrite e in e'; case: e' => -> -> -> ->; rewrite !mem_nth.
have := h t1 t2 t3 t4 h1 h2 h3 h4 erefl => <-; rewrite !nth_index_eq //.
by case: (perm); eexists.
Qed.
Lemma quartic_cell perm A (m0 : mono) (v : C -> C) : stored A -> all quartic_ok A ->
  (exists i j k l, [/\ m0 = Q i j k l, i < size idx, j < size idx, k < size idx & l < size idx])%N ->
  (forall (y0 x : C) t1 t2 t3 t4, (t1 < t2)%N -> (t4 < t3)%N ->
    (if perm then (if [&& t1 == I a, t2 == I b, t4 == I c & t3 == I d] then - 4%:R^-1 * x else
      if [&& t2 == I a, t1 == I b, t4 == I c & t3 == I d] then 4%:R^-1 * x else
      if [&& t2 == I a, t1 == I b, t3 == I c & t4 == I d] then - 4%:R^-1 * x else
      if [&& t1 == I a, t2 == I b, t3 == I c & t4 == I d] then 4%:R^-1 * x else y0)
     else if [&& t1 == I a, t2 == I b, t3 == I c & t4 == I d] then x else y0) =
    if [:: (true, t1); (true, t2); (false, t3); (false, t4)] == m0 then v x else y0) ->
  exists2 h, foldl (quartic_step idx perm) (Some (fun _ _ _ _ => 0)) A = Some h &
    h a b c d = if coef A m0 == 0 then 0 else v (coef A m0).
Proof.
move=> sA okA em hv; have uA : uniq [seq t.1 | t <- A] by case/and3P: sA.
have [|h e1 e2] := @fold_cell C _ (fun h : arr4 C => h a b c d) (quartic_step idx perm) quartic_ok m0 v A (fun _ _ _ _ => 0) _ uA okA.
  move=> y t ok; apply: quartic_step_spec => // t1 t2 t3 t4 _ _ _ _ e; rewrite e; apply: hv;
    by case/andP: ok; rewrite e /= /clt /= andbT => /andP[].
by exists h; rewrite // e2 coef_keys // if_neg.
Qed.
Local Notation K A := (fun i j k l => coef A (Q i j k l)).
Lemma read_plain A : stored A -> all quartic_ok A ->
  exists2 h, foldl (quartic_step idx false) (Some (fun _ _ _ _ => 0)) A = Some h & h a b c d = K A a b c d.
Proof.
move=> sA okA; have [||h e1 e2] := @quartic_cell false A (Q a b c d) id sA okA; [by exists a, b, c, d | | by exists h; rewrite // e2; case: eqP].
by move=> y0 x t1 t2 t3 t4 _ _; rewrite /quart !eqseq_cons !xpair_eqE /= andbT.
Qed.
Lemma read_perm A : stored A -> all quartic_ok A ->
  exists2 h, foldl (quartic_step idx true) (Some (fun _ _ _ _ => 0)) A = Some h &
    h a b c d = 4%:R^-1 * (K A a b c d - K A b a c d + K A b a d c - K A a b d c).
Proof.
move=> sA okA.
have ks i j k l : ~~ ((I i < I j)%N && (I l < I k)%N) -> K A i j k l = 0 by rewrite -quart_sorted; apply: coef_sorted.
have fin i j k l (s : C) : (i < size idx)%N -> (j < size idx)%N -> (k < size idx)%N -> (l < size idx)%N ->
    (forall (y0 x : C) t1 t2 t3 t4, (t1 < t2)%N -> (t4 < t3)%N ->
      (if [&& t1 == I a, t2 == I b, t4 == I c & t3 == I d] then - 4%:R^-1 * x else
       if [&& t2 == I a, t1 == I b, t4 == I c & t3 == I d] then 4%:R^-1 * x else
       if [&& t2 == I a, t1 == I b, t3 == I c & t4 == I d] then - 4%:R^-1 * x else
       if [&& t1 == I a, t2 == I b, t3 == I c & t4 == I d] then 4%:R^-1 * x else y0) =
      if [&& t1 == I i, t2 == I j, t3 == I k & t4 == I l] then 4%:R^-1 * (s * x) else y0) ->
    K A a b c d - K A b a c d + K A b a d c - K A a b d c = s * K A i j k l ->
    exists2 h, foldl (quartic_step idx true) (Some (fun _ _ _ _ => 0)) A = Some h &
      h a b c d = 4%:R^-1 * (K A a b c d - K A b a c d + K A b a d c - K A a b d c).
  move=> hi hj hk hl st ->; have [||h e1 e2] := @quartic_cell true A (Q i j k l) (fun x => 4%:R^-1 * (s * x)) sA okA.
  - by exists i, j, k, l.
  - by move=> y0 x t1 t2 t3 t4 h1 h2; rewrite /quart !eqseq_cons !xpair_eqE /= andbT; apply: st.
  by exists h; rewrite // e2; case: eqP => // ->; rewrite !mulr0.
have no (x y z w x' y' z' w' : nat) (T : Type) (p q : T) :
    ~ [/\ x = x', y = y', z = z' & w = w'] -> (if [&& x == x', y == y', z == z' & w == w'] then p else q) = q.
  by move=> n; rewrite ifN //; apply/and4P => -[/eqP ? /eqP ? /eqP ? /eqP ?]; apply: n.
have yes (x y z w x' y' z' w' : nat) : [&& x == y', y == x', z == w' & w == z'] = [&& y == x', x == y', w == z' & z == w'].
  by rewrite andbCA; do 2 congr (_ && _); rewrite andbC.
have yes1 (x y z w x' y' z' w' : nat) : [&& x == y', y == x', z == w' & w == z'] = [&& y == x', x == y', z == w' & w == z'].
  by rewrite andbCA.
have yes2 (x y z w x' y' z' w' : nat) : [&& x == y', y == x', z == w' & w == z'] = [&& x == y', y == x', w == z' & z == w'].
  by do 2 congr (_ && _); rewrite andbC.
have [hab|hab|hab] := ltngtP (I a) (I b); have [hdc|hdc|hdc] := ltngtP (I d) (I c).
- apply: (@fin a b c d 1) => // [y0 x t1 t2 t3 t4 h1 h2|].
    by rewrite mul1r; do 3 (rewrite no; last by case; lia).
  by rewrite (ks b a c d) ?(ks b a d c) ?(ks a b d c); try lia; fring C.
- apply: (@fin a b d c (-1)) => // [y0 x t1 t2 t3 t4 h1 h2|].
    by rewrite [in RHS]yes2 mulN1r mulrN -mulNr; case: ifP => // _; rewrite !no //; case; lia.
  by rewrite (ks b a c d) ?(ks b a d c) ?(ks a b c d); try lia; fring C.
- apply: (@fin a b c d 1) => // [y0 x t1 t2 t3 t4 h1 h2|]; first by rewrite mul1r !no //; case; lia.
  by rewrite (ks b a c d) ?(ks b a d c) ?(ks a b d c) ?(ks a b c d); try lia; fring C.
- apply: (@fin b a c d (-1)) => // [y0 x t1 t2 t3 t4 h1 h2|].
    rewrite [in RHS]yes1 mulN1r mulrN -mulNr no; last by case; lia.
    by rewrite no; last (by case; lia); case: ifP => // _; rewrite no //; case; lia.
  by rewrite (ks a b c d) ?(ks b a d c) ?(ks a b d c); try lia; fring C.
- apply: (@fin b a d c 1) => // [y0 x t1 t2 t3 t4 h1 h2|].
    by rewrite [in RHS]yes mul1r no; last (by case; lia); case: ifP => // _; rewrite !no //; case; lia.
  by rewrite (ks a b c d) ?(ks b a c d) ?(ks a b d c); try lia; fring C.
- apply: (@fin a b c d 1) => // [y0 x t1 t2 t3 t4 h1 h2|]; first by rewrite mul1r !no //; case; lia.
  by rewrite (ks b a c d) ?(ks b a d c) ?(ks a b d c) ?(ks a b c d); try lia; fring C.
all: apply: (@fin a b c d 1) => // [y0 x t1 t2 t3 t4 h1 h2|]; first by rewrite mul1r !no //; case; lia.
all: by rewrite (ks b a c d) ?(ks b a d c) ?(ks a b d c) ?(ks a b c d); try lia; fring C.
Qed.
End Read.
Local Notation S1 n f := (\sum_(i <- iota 0 n) f i).
Definition S4 (n : nat) (f : nat -> nat -> nat -> nat -> C) : C :=
  \sum_(i <- iota 0 n) \sum_(j <- iota 0 n) \sum_(k <- iota 0 n) \sum_(l <- iota 0 n) f i j k l.
Lemma eq_sum_iota n (f g : nat -> C) : (forall i, (i < n)%N -> f i = g i) -> \sum_(i <- iota 0 n) f i = \sum_(i <- iota 0 n) g i.
Proof. by move=> h; rewrite big_seq_cond [RHS]big_seq_cond; apply: eq_bigr => i; rewrite andbT in_iota => /h. Qed.
Lemma eq_S4 n f g : eq4 n f g -> S4 n f = S4 n g.
Proof. by move=> h; do 4 (apply: eq_sum_iota => ? ?); apply: h. Qed.
Lemma S4_swap1 n f : S4 n f = S4 n (fun i j k l => f j i k l). Proof. exact: exchange_big. Qed.
Lemma S4_swap2 n f : S4 n f = S4 n (fun i j k l => f i j l k).
Proof. by apply: eq_bigr => i _; apply: eq_bigr => j _; apply: exchange_big. Qed.
Lemma S4_add n f g (a b : C) : S4 n (fun i j k l => a * f i j k l + b * g i j k l) = a * S4 n f + b * S4 n g.
Proof.
rewrite /S4 !mulr_sumr -big_split; apply: eq_bigr => i _; rewrite !mulr_sumr -big_split; apply: eq_bigr => j _.
rewrite !mulr_sumr -big_split; apply: eq_bigr => k _; by rewrite !mulr_sumr -big_split.
Qed.
Lemma S4_one n f a b c d : (a < n)%N -> (b < n)%N -> (c < n)%N -> (d < n)%N ->
  S4 n (fun i j k l => f i j k l * ([&& i == a, j == b, k == c & l == d])%:R) = f a b c d.
Proof.
move=> ha hb hc hd; rewrite /S4.
have e z (g : nat -> C) : (z < n)%N -> \sum_(i <- iota 0 n) (if i == z then g i else 0) = g z.
  by move=> h; rewrite sum_one ?iota_uniq ?in_iota.
rewrite -[RHS](e a (fun i => f i b c d)) //; apply: eq_bigr => i _.
rewrite -[in RHS](e b (fun j => f i j c d)) //; case: eqP => _; last first.
  by apply: big1 => j _; apply: big1 => k _; apply: big1 => l _; rewrite /= mulr0.
apply: eq_bigr => j _; rewrite -[in RHS](e c (fun k => f i j k d)) //; case: eqP => _; last first.
  by apply: big1 => k _; apply: big1 => l _; rewrite /= mulr0.
apply: eq_bigr => k _; rewrite -[in RHS](e d (fun l => f i j k l)) //; case: eqP => _; last first.
  by apply: big1 => l _; rewrite /= mulr0.
by apply: eq_bigr => l _; case: eqP => _; rewrite ?mulr1 ?mulr0.
Qed.
Lemma mul4 h a b c' d F : pr (op_mul (op_mul (op_mul (op_scale h (c_dag C a)) (c_dag C b)) (c C c')) (c C d)) F =
  h * W [:: (true, a); (true, b); (false, c'); (false, d)] F [::].
Proof.
rewrite -sem_one; last exact/stored_ok/stored_mul.
rewrite sem_mul // sem_c; transitivity (L (false, d) (L (false, c') (L (true, b) (fun m => h * L (true, a) F m + 0 * F m))) [::]).
  apply: L_ext => // m hm; rewrite sem_mul // sem_c; apply: L_ext => // p hp; rewrite sem_mul // sem_cdag.
  by apply: L_ext => // q hq; rewrite sem_scale sem_cdag mul0r addr0.
rewrite -[L _ _ _]/(W [:: (true, b); (false, c'); (false, d)] (fun m => h * L (true, a) F m + 0 * F m) [::]) W_add //.
by rewrite mul0r addr0.
Qed.
Lemma from_quartic_proof U idx : exists A, [/\ operator_from_quartic_tensor U (modes idx) = Some A, stored A &
  forall F, pr A F = S4 (size idx) (fun i j k l => U i j k l * W (quart idx i j k l) F [::])].
Proof.
rewrite /operator_from_quartic_tensor modes_map size_map; eexists; split; first by [].
  apply: stored_foldl => // B [[i j] [k l]] /allpairsP[[[i1 j1] [k1 l1]] /= [_ h2 [-> -> -> ->]]] hB.
  move: h2 => /allpairsP[[? ?] /= [_ hl [_ ->]]]; rewrite in_iota in hl.
  by apply: stored_op_add => //; apply/stored_ok/stored_mul; rewrite nth_modes.
move=> F; rewrite (pr_foldl (v := fun q : (nat * nat) * (nat * nat) =>
  U q.1.1 q.1.2 q.2.1 q.2.2 * W (quart idx q.1.1 q.1.2 q.2.1 q.2.2) F [::])).
  rewrite pr_nil add0r big_allpairs_dep big_allpairs_dep /=; apply: eq_bigr => i _; apply: eq_bigr => j _.
  by rewrite big_allpairs_dep.
move=> B [[i j] [k l]] /allpairsP[[[i1 j1] [k1 l1]] /= [/allpairsP[[? ?] /= [hi hj [-> ->]]] /allpairsP[[? ?] /= [hk hl [-> ->]]] [-> -> -> ->]]].
by rewrite !in_iota in hi hj hk hl; rewrite pr_op_add !nth_modes // !dag_c mul4.
Qed.
Lemma pr_quartic idx H F : uniq idx -> stored H -> quartic idx H ->
  pr H F = S4 (size idx) (fun i j k l => coef H (quart idx i j k l) * W (quart idx i j k l) F [::]).
Proof.
move=> u sH qH; pose r := [seq quart idx p.1.1 p.1.2 p.2.1 p.2.2 | p <- [seq (p, q) |
  p <- [seq (i, j) | i <- iota 0 (size idx), j <- iota 0 (size idx)], q <- [seq (k, l) | k <- iota 0 (size idx), l <- iota 0 (size idx)]]].
have mr p : p \in [seq (p, q) | p <- [seq (i, j) | i <- iota 0 (size idx), j <- iota 0 (size idx)],
     q <- [seq (k, l) | k <- iota 0 (size idx), l <- iota 0 (size idx)]] ->
    [/\ p.1.1 < size idx, p.1.2 < size idx, p.2.1 < size idx & p.2.2 < size idx]%N.
  case/allpairsP=> [[[i1 j1] [k1 l1]] /= [/allpairsP[[? ?] /= [hi hj [-> ->]]] /allpairsP[[? ?] /= [hk hl [-> ->]]] ->]] /=.
  by rewrite !in_iota in hi hj hk hl.
rewrite (@pr_coef _ H F r).
- rewrite /r big_map big_allpairs_dep big_allpairs_dep /= /S4; apply: eq_bigr => i _; apply: eq_bigr => j _; rewrite big_allpairs_dep.
  apply: eq_bigr => k _; apply: eq_bigr => l _ /=; case: (boolP (sorted clt (quart idx i j k l))) => h; first by rewrite W_one.
  by rewrite coef_sorted ?mul0r.
- rewrite map_inj_in_uniq.
    apply: allpairs_uniq; try by apply: allpairs_uniq; try apply: iota_uniq; case=> ? ? [] ? ? _ _ [-> ->].
    by case=> [[? ?] [? ?]] [[? ?] [? ?]] _ _ [-> -> -> ->].
  move=> [[i j] [k l]] [[i' j'] [k' l']] /mr /= [? ? ? ?] /mr /= [? ? ? ?] /eqP; rewrite quart_eq // => /and4P[/eqP -> /eqP -> /eqP -> /eqP ->].
  by [].
move=> m /mapP[t ht ->]; have := qH t ht; case: (t.1) => [|[d1 t1] [|[d2 t2] [|[d3 t3] [|[d4 t4] [|x m']]]]] //=;
  rewrite /quartic_in //; case: d1 => //; try (case: d2 => //); try (case: d3 => //); try (case: d4 => //).
move=> /and4P[h1 h2 h3 h4]; apply/mapP; exists ((index t1 idx, index t2 idx), (index t3 idx, index t4 idx)).
  apply/allpairsP; exists ((index t1 idx, index t2 idx), (index t3 idx, index t4 idx)); split => //=; apply/allpairsP.
    by exists (index t1 idx, index t2 idx); split; rewrite ?in_iota ?index_mem.
  by exists (index t3 idx, index t4 idx); split; rewrite ?in_iota ?index_mem.
by rewrite /quart /= !nth_index.
Qed.
Lemma quartic_is_ok idx H : stored H -> quartic idx H -> all quartic_ok H.
Proof.
move=> sH qH; apply/allP => t ht; rewrite /quartic_ok (allP (stored_ok sH)) //=; have := qH t ht.
case: (t.1) => [|[d1 t1] [|[d2 t2] [|[d3 t3] [|[d4 t4] [|x m']]]]] //=;
  rewrite /quartic_in //; case: d1 => //; try (case: d2 => //); try (case: d3 => //); try (case: d4 => //).
Qed.
Definition K A idx := (fun i j k l => coef A (quart idx i j k l)).
Lemma quartic_read_proof perm A idx : uniq idx -> stored A -> all quartic_ok A ->
  exists2 h, quartic_tensor_from_operator A (modes idx) perm = Some h &
    eq4 (size idx) h (if perm then fun a b c d => 4%:R^-1 * (K A idx a b c d - K A idx b a c d + K A idx b a d c - K A idx a b d c) else K A idx).
Proof.
move=> u sA okA; rewrite /quartic_tensor_from_operator modes_map.
have [h e] : exists h, foldl (quartic_step idx perm) (Some (fun _ _ _ _ => 0)) A = Some h.
  case: (posnP (size idx)) => hp; last first.
    by case: perm; [have [h e _] := read_perm u hp hp hp hp sA okA | have [h e _] := read_plain u hp hp hp hp sA okA]; exists h.
  have uA : uniq [seq t.1 | t <- A] by case/and3P: sA.
  have [|h e _] := @fold_cell C _ (fun _ : arr4 C => 0) (quartic_step idx perm) quartic_ok [::] (fun=> 0) A (fun _ _ _ _ => 0) _ uA okA; last by exists h.
  move=> y [m x] /andP[_ /=]; case: m => [|[d1 t1] [|[d2 t2] [|[d3 t3] [|[d4 t4] [|x5 m']]]]] //=; try by exists y => //; case: ifP.
  by case: d1 d2 d3 d4 => [] [] [] [] // _; case: ifP => // _; case: perm; eexists => //; case: ifP.
exists h => // a b c d ha hb hc hd; case: perm e => e.
  by have [h' e' <-] := read_perm u ha hb hc hd sA okA; move: e'; rewrite e => -[->].
by have [h' e' eh] := read_plain u ha hb hc hd sA okA; move: e'; rewrite e => -[->].
Qed.
Lemma K_zero A idx a b c d : stored A -> nth 0%N idx a = nth 0%N idx b \/ nth 0%N idx c = nth 0%N idx d -> K A idx a b c d = 0.
Proof. by move=> sA h; apply: coef_sorted => //; rewrite quart_sorted; case: h => ->; rewrite ltnn ?andbF. Qed.
Lemma C31_round_trip_proof H idx perm : uniq idx -> stored H -> quartic idx H ->
  exists T A, [/\ quartic_tensor_from_operator H (modes idx) perm = Some T,
                  operator_from_quartic_tensor T (modes idx) = Some A, stored A & same_operator A H].
Proof.
move=> u sH qH; have [T eT hT] := quartic_read_proof perm u sH (quartic_is_ok sH qH).
have [A [eA sA hA]] := from_quartic_proof T idx; exists T, A; split => //; apply: pr_same => F.
rewrite (pr_quartic F u sH qH) hA.
case: perm eT hT => eT hT; last by apply: eq_S4 => a b c d ha hb hc hd; rewrite hT.
pose f i j k l := K H idx i j k l * W (quart idx i j k l) F [::].
have e1 : S4 (size idx) (fun i j k l => K H idx j i k l * W (quart idx i j k l) F [::]) = - S4 (size idx) f.
  rewrite S4_swap1 -mulN1r -[RHS]addr0 -[X in _ = _ + X](mul0r (S4 (size idx) f)) -S4_add; apply: eq_S4 => i j k l _ _ _ _.
  by rewrite W4_swap1 /f mul0r addr0 mulN1r mulrN.
have e2 : S4 (size idx) (fun i j k l => K H idx i j l k * W (quart idx i j k l) F [::]) = - S4 (size idx) f.
  rewrite S4_swap2 -mulN1r -[RHS]addr0 -[X in _ = _ + X](mul0r (S4 (size idx) f)) -S4_add; apply: eq_S4 => i j k l _ _ _ _.
  by rewrite W4_swap2 /f mul0r addr0 mulN1r mulrN.
have e3 : S4 (size idx) (fun i j k l => K H idx j i l k * W (quart idx i j k l) F [::]) = S4 (size idx) f.
  rewrite S4_swap1 S4_swap2; apply: eq_S4 => i j k l _ _ _ _.
  by rewrite W4_swap2 W4_swap1 opprK.
transitivity (4%:R^-1 * S4 (size idx) (fun i j k l => 1 * (1 * f i j k l + (-1) * (K H idx j i k l * W (quart idx i j k l) F [::])) +
   1 * (1 * (K H idx j i l k * W (quart idx i j k l) F [::]) + (-1) * (K H idx i j l k * W (quart idx i j k l) F [::]))) + 0 * S4 (size idx) f).
  rewrite -S4_add; apply: eq_S4 => a b c d ha hb hc hd; rewrite hT // /f; fring C.
rewrite !S4_add e1 e2 e3 mul0r addr0 !mul1r !mulN1r !opprK -/f.
have n4 : (4%:R : C) != 0 by rewrite pnatr_eq0.
apply: (mulfI n4); rewrite mulrA divff // mul1r; nring C.
Qed.
(* the other way *)
Lemma nrm_pair (x y A B : nat) : (A < B)%N -> s2 x y * ((minn x y == A) && (maxn x y == B))%:R = ((x == A) && (y == B))%:R - ((x == B) && (y == A))%:R.
Proof.
move=> h; rewrite /s2; case: (ltngtP x y) => h' /=; do 6?[case: eqP => ? /=]; first [by exfalso; lia | nring C].
Qed.
Lemma from_quartic_coef U idx A a b c d : uniq idx -> operator_from_quartic_tensor U (modes idx) = Some A ->
  (a < size idx)%N -> (b < size idx)%N -> (c < size idx)%N -> (d < size idx)%N -> (nth 0 idx a < nth 0 idx b)%N -> (nth 0 idx d < nth 0 idx c)%N ->
  coef A (quart idx a b c d) = U a b c d - U b a c d + U b a d c - U a b d c.
Proof.
move=> u eA ha hb hc hd ab dc; have [A' [eA' sA hA]] := from_quartic_proof U idx; move: eA; rewrite eA' => -[<-].
rewrite prE hA.
have e i j k l : (i < size idx)%N -> (j < size idx)%N -> (k < size idx)%N -> (l < size idx)%N ->
    W (quart idx i j k l) (fun p => (p == quart idx a b c d)%:R : C) [::] =
    1 * (1 * ([&& i == a, j == b, k == c & l == d])%:R + (-1) * ([&& i == b, j == a, k == c & l == d])%:R) +
    1 * (1 * ([&& i == b, j == a, k == d & l == c])%:R + (-1) * ([&& i == a, j == b, k == d & l == c])%:R).
  move=> hi hj hk hl; rewrite W4 /nrm /quart !eqseq_cons !xpair_eqE /= andbT.
  set x := nth 0%N idx i; set y := nth 0%N idx j; set z := nth 0%N idx k; set w := nth 0%N idx l.
  transitivity ((s2 x y * ((minn x y == nth 0%N idx a) && (maxn x y == nth 0%N idx b))%:R) *
                (s2 w z * ((minn w z == nth 0%N idx d) && (maxn w z == nth 0%N idx c))%:R)).
    rewrite [minn w z]minnC [maxn w z]maxnC; do 4 case: eqP => _; rewrite /= ?mulr1 ?mulr0 ?mul0r //.
  rewrite !nrm_pair // /x /y /z /w !nth_uniq // ![(l == _) && _]andbC.
  have bm (p q : bool) : (p && q)%:R = p%:R * q%:R :> C by rewrite -natrM mulnb.
  by rewrite !bm; fring C.
transitivity (1 * S4 (size idx) (fun i j k l => 1 * (U i j k l * ([&& i == a, j == b, k == c & l == d])%:R) +
                                         (-1) * (U i j k l * ([&& i == b, j == a, k == c & l == d])%:R)) +
   1 * S4 (size idx) (fun i j k l => 1 * (U i j k l * ([&& i == b, j == a, k == d & l == c])%:R) +
                                         (-1) * (U i j k l * ([&& i == a, j == b, k == d & l == c])%:R))).
  by rewrite -S4_add; apply: eq_S4 => i j k l hi hj hk hl; rewrite e //; fring C.
by rewrite !S4_add !S4_one // !mul1r !mulN1r addrA.
Qed.
Lemma from_quartic_ok U idx A : operator_from_quartic_tensor U (modes idx) = Some A -> all quartic_ok A.
Proof.
move=> eA; have [A' [eA' sA hA]] := from_quartic_proof U idx; move: eA; rewrite eA' => -[<-] {A}.
apply/allP => t ht; rewrite /quartic_ok (allP (stored_ok sA)) //=.
have : coef A' t.1 != 0 by rewrite -coef_keys // map_f.
apply: contraNT => hn; rewrite prE hA /S4; do 4 (apply/eqP; rewrite big1 // => ? _; apply/eqP).
rewrite W4; case: (nrm _ _ _ _ =P t.1) => [e|_]; last by rewrite !mulr0 eqxx.
by move: hn; rewrite -e.
Qed.
Lemma C31_tensor_proof U idx : uniq idx -> exists A T, [/\ operator_from_quartic_tensor U (modes idx) = Some A,
  quartic_tensor_from_operator A (modes idx) true = Some T & eq4 (size idx) T (quartic_permutation_symmetrize U)].
Proof.
move=> u; have [A [eA sA _]] := from_quartic_proof U idx; have okA := from_quartic_ok eA.
have [T eT hT] := quartic_read_proof true u sA okA; exists A, T; split => // a b c d ha hb hc hd; rewrite hT // {T eT hT}.
have kv i j k l : (i < size idx)%N -> (j < size idx)%N -> (k < size idx)%N -> (l < size idx)%N -> K A idx i j k l =
    if (nth 0 idx i < nth 0 idx j)%N && (nth 0 idx l < nth 0 idx k)%N then U i j k l - U j i k l + U j i l k - U i j l k else 0.
  move=> hi hj hk hl; case: ifPn; last by rewrite -quart_sorted; apply: coef_sorted.
  by case/andP=> h1 h2; apply: from_quartic_coef.
transitivity (4%:R^-1 * (U a b c d - U b a c d + U b a d c - U a b d c)); last first.
  rewrite /quartic_permutation_symmetrize (_ : 4%:R = 2%:R * 2%:R); last by rewrite -natrM.
  by rewrite invfM -mulrA; congr (_ * _); fring C.
congr (_ * _); have inj i j : (i < size idx)%N -> (j < size idx)%N -> nth 0%N idx i = nth 0%N idx j -> i = j.
  by move=> hi hj /eqP; rewrite nth_uniq // => /eqP.
rewrite !kv //; case: (ltngtP (nth 0%N idx a) (nth 0%N idx b)) => hab /=; last by rewrite (inj _ _ ha hb hab); fring C.
  case: (ltngtP (nth 0%N idx d) (nth 0%N idx c)) => hdc /=; last by rewrite (inj _ _ hd hc hdc); fring C.
    by fring C.
  by fring C.
case: (ltngtP (nth 0%N idx d) (nth 0%N idx c)) => hdc /=; last by rewrite (inj _ _ hd hc hdc); fring C.
  by fring C.
by fring C.
Qed.
Lemma C31_antisymmetric_proof H idx T : uniq idx -> stored H -> all quartic_ok H ->
  quartic_tensor_from_operator H (modes idx) true = Some T -> antisymmetric (size idx) T.
Proof.
move=> u sH okH eT; have [T' eT' hT] := quartic_read_proof true u sH okH; move: eT' hT; rewrite eT => -[<-] hT.
by split=> a b c d ha hb hc hd; rewrite !hT //; fring C.
Qed.
(* C32 *)
Lemma half2 : 2%:R^-1 + 2%:R^-1 = 1 :> C.
Proof. by rewrite -mulr2n -(mulr_natl 2%:R^-1 2) mulfV // pnatr_eq0. Qed.
Lemma perm_sym_antisym n U : antisymmetric n (quartic_permutation_symmetrize U).
Proof. by split=> a b c d _ _ _ _; rewrite /quartic_permutation_symmetrize; fring C. Qed.
Lemma perm_sym_fix n U : antisymmetric n U -> eq4 n (quartic_permutation_symmetrize U) U.
Proof.
case=> h1 h2 a b c d ha hb hc hd; rewrite /quartic_permutation_symmetrize.
rewrite -(h1 b a d c) // -(h1 b a c d) // -(h2 a b d c) //.
transitivity ((2%:R^-1 + 2%:R^-1) * ((2%:R^-1 + 2%:R^-1) * U a b c d)); last by rewrite half2 !mul1r.
fring C.
Qed.
Lemma conj_half : (2%:R^-1 : C)^* = 2%:R^-1. Proof. by rewrite fmorphV /= conjC_nat. Qed.
Lemma conj_sym n U : conjugation_symmetric n (quartic_conjugation_symmetrize U).
Proof.
move=> a b c d _ _ _ _; rewrite /quartic_conjugation_symmetrize rmorphM rmorphD /= conjCK conj_half addrC //.
Qed.
Lemma conj_fix n U : conjugation_symmetric n U -> eq4 n (quartic_conjugation_symmetrize U) U.
Proof. by move=> h a b c d ha hb hc hd; rewrite /quartic_conjugation_symmetrize h // mulrDr -mulrDl half2 mul1r. Qed.
Lemma pauli_cells ns U a b c d : foldl (@pauli_step C) U ns a b c d =
  if ((a == b) && (a \in ns)) || ((c == d) && (c \in ns)) then 0 else U a b c d.
Proof.
elim: ns U => [|n r ih] U /=; first by rewrite !in_nil !andbF.
rewrite ih /pauli_step !inE; case: (a =P b) => [<-|hab]; case: (c =P d) => [<-|hcd] /=; rewrite ?andbb ?andbF ?orbF //.
- by case: (a == n) => /=; case: (c == n) => /=; rewrite ?orbT ?if_same //; case: ifP.
- rewrite (_ : (c == n) && (d == n) = false) ?andbb; last by apply/andP => -[/eqP e1 /eqP e2]; case: hcd; rewrite e1 e2.
  by case: (a == n) => /=; rewrite ?if_same.
- rewrite (_ : (a == n) && (b == n) = false) ?andbb; last by apply/andP => -[/eqP e1 /eqP e2]; case: hab; rewrite e1 e2.
  by case: (c == n) => /=; rewrite ?if_same.
rewrite (_ : (c == n) && (d == n) = false); last by apply/andP => -[/eqP e1 /eqP e2]; case: hcd; rewrite e1 e2.
by rewrite (_ : (a == n) && (b == n) = false) //; apply/andP => -[/eqP e1 /eqP e2]; case: hab; rewrite e1 e2.
Qed.
Lemma pauli_val n U a b c d : (a < n)%N -> (c < n)%N ->
  (quartic_pauli_symmetrize n U).2 a b c d = if (a == b) || (c == d) then 0 else U a b c d.
Proof. by move=> ha hc; rewrite /quartic_pauli_symmetrize /= pauli_cells !in_iota ha hc !andbT. Qed.
Lemma pauli_sym n U : pauli_symmetric n (quartic_pauli_symmetrize n U).2.
Proof. by move=> a b c d ha hb hc hd h; rewrite pauli_val // h. Qed.
Lemma pauli_fix n U : pauli_symmetric n U -> eq4 n (quartic_pauli_symmetrize n U).2 U.
Proof. by move=> h a b c d ha hb hc hd; rewrite pauli_val //; case: ifP => // e; rewrite h. Qed.
Lemma antisym_pauli n U : antisymmetric n U -> pauli_symmetric n U.
Proof.
case=> h1 h2 a b c d ha hb hc hd /orP[/eqP e|/eqP e]; subst.
  by have /eqP := h1 b b c d hb hb hc hd; rewrite eq_sym -addr_eq0 -mulr2n mulrn_eq0 => /eqP.
by have /eqP := h2 a b d d ha hb hd hd; rewrite eq_sym -addr_eq0 -mulr2n mulrn_eq0 => /eqP.
Qed.
Lemma antisym_ext n U V : eq4 n U V -> antisymmetric n U -> antisymmetric n V.
Proof. by move=> e [h1 h2]; split=> a b c d ha hb hc hd; rewrite -!e //; [apply: h1 | apply: h2]. Qed.
Lemma conj_ext n U V : eq4 n U V -> conjugation_symmetric n U -> conjugation_symmetric n V.
Proof. by move=> e h a b c d ha hb hc hd; rewrite -!e //; apply: h. Qed.
Lemma conj_antisym n U : antisymmetric n U -> antisymmetric n (quartic_conjugation_symmetrize U).
Proof.
case=> h1 h2; split=> a b c d ha hb hc hd; rewrite /quartic_conjugation_symmetrize.
  by rewrite -(h1 a b c d) // -(h2 d c b a) // rmorphN /= -mulrN opprD.
by rewrite -(h2 a b c d) // -(h1 d c b a) // rmorphN /= -mulrN opprD.
Qed.
Lemma eq4_trans n U V X : eq4 n U V -> eq4 n V X -> eq4 n U X.
Proof. by move=> h1 h2 a b c d ha hb hc hd; rewrite h1 // h2. Qed.
Lemma eq4_sym n U V : eq4 n U V -> eq4 n V U.
Proof. by move=> h a b c d ha hb hc hd; rewrite h. Qed.
Lemma symmetrize_val n U conj : let V := (symmetrize_quartic_tensor n U conj).2 in
  eq4 n V (if conj then quartic_conjugation_symmetrize (quartic_permutation_symmetrize U) else quartic_permutation_symmetrize U).
Proof.
apply: pauli_fix; apply: antisym_pauli; case: conj; last exact: perm_sym_antisym.
by apply: conj_antisym; apply: perm_sym_antisym.
Qed.
Lemma C32_full_proof n U conj : let V := (symmetrize_quartic_tensor n U conj).2 in
  [/\ antisymmetric n V, pauli_symmetric n V, conj -> conjugation_symmetric n V &
      eq4 n (symmetrize_quartic_tensor n V conj).2 V].
Proof.
move=> V; have e := @symmetrize_val n U conj; have e' := eq4_sym e.
have a : antisymmetric n V.
  by apply: (antisym_ext e'); case: (conj); [apply: conj_antisym|]; apply: perm_sym_antisym.
have cs : conj -> conjugation_symmetric n V.
  by move=> h; apply: (conj_ext e'); rewrite h; apply: conj_sym.
split => //; first exact: antisym_pauli.
apply: eq4_trans (@symmetrize_val n V conj) _; have pf := perm_sym_fix a.
case: (conj) cs => // cs; apply: eq4_trans (conj_fix (conj_ext (eq4_sym pf) (cs isT))) pf.
Qed.
Lemma C32_fixes_proof n U (conj : bool) : antisymmetric n U -> (conj -> conjugation_symmetric n U) ->
  eq4 n (symmetrize_quartic_tensor n U conj).2 U.
Proof.
move=> a cs; apply: eq4_trans (@symmetrize_val n U conj) _; have pf := perm_sym_fix a.
case: (conj) cs => // cs; apply: eq4_trans (conj_fix (conj_ext (eq4_sym pf) (cs isT))) pf.
Qed.
End Quartic.

Section Substitution.
Variable C : numClosedFieldType.
Local Notation operator := (operator C).
Implicit Types (A B : operator) (F G : mono -> C) (m w : mono) (x y : cop).
Add Ring Cring3 : (fld_rt (Num.ClosedField.fieldType C)).
(* a linear substitution which keeps creation and annihilation operators apart *)
Variable tr : cop -> seq (C * cop).
Hypothesis tr_type : forall x p, p \in tr x -> p.2.1 = x.1.
Definition Lt x F : mono -> C := fun m => \sum_(p <- tr x) p.1 * L p.2 F m.
Definition WT w F : mono -> C := foldl (fun G x => Lt x G) F w.
Lemma WT_cons x w F : WT (x :: w) F = WT w (Lt x F). Proof. by []. Qed.
Lemma Lt_ext x F G : eqF F G -> eqF (Lt x F) (Lt x G).
Proof. by move=> h m hm; apply: eq_bigr => p _; rewrite (L_ext _ h). Qed.
Lemma WT_ext w F G : eqF F G -> eqF (WT w F) (WT w G).
Proof. by elim: w F G => [|x w ih] F G h //=; apply/ih/Lt_ext. Qed.
Lemma Lt_lin x (T : Type) (r : seq T) (a : T -> C) (F : T -> mono -> C) m :
  Lt x (fun m => \sum_(t <- r) a t * F t m) m = \sum_(t <- r) a t * Lt x (F t) m.
Proof.
rewrite /Lt; under eq_bigr do rewrite L_lin mulr_sumr; rewrite exchange_big; apply: eq_bigr => t _.
by rewrite mulr_sumr; apply: eq_bigr => p _; rewrite mulrCA.
Qed.
Lemma Lt_add x a b F G m : Lt x (fun m => a * F m + b * G m) m = a * Lt x F m + b * Lt x G m.
Proof. by rewrite /Lt !mulr_sumr -big_split; apply: eq_bigr => p _; rewrite L_add /=; fring C. Qed.
Lemma WT_lin w (T : Type) (r : seq T) (a : T -> C) (F : T -> mono -> C) m :
  sorted clt m -> WT w (fun m => \sum_(t <- r) a t * F t m) m = \sum_(t <- r) a t * WT w (F t) m.
Proof. by elim: w F m => [|x w ih] F m hm //=; rewrite -ih //; apply: WT_ext => // q _; apply: Lt_lin. Qed.
Lemma WT_add w a b F G m : sorted clt m -> WT w (fun m => a * F m + b * G m) m = a * WT w F m + b * WT w G m.
Proof. by elim: w F G m => [|x w ih] F G m hm //=; rewrite -ih //; apply: WT_ext => // q _; apply: Lt_add. Qed.
(* the substituted operators satisfy the anticommutation relation of x and y *)
Definition car_ok x y := forall F m, sorted clt m -> Lt y (Lt x F) m + Lt x (Lt y F) m = (x == cbar y)%:R * F m.
Lemma Lt_car x y F m : sorted clt m -> Lt y (Lt x F) m + Lt x (Lt y F) m =
  \sum_(p <- tr x) \sum_(q <- tr y) p.1 * q.1 * (p.2 == cbar q.2)%:R * F m.
Proof.
move=> hm; have e u v : Lt u (Lt v F) m = \sum_(p <- tr v) \sum_(q <- tr u) p.1 * q.1 * L q.2 (L p.2 F) m.
  rewrite exchange_big /Lt; apply: eq_bigr => q _; rewrite /= L_lin mulr_sumr; apply: eq_bigr => p _; fring C.
rewrite !e [X in _ + X]exchange_big -big_split; apply: eq_bigr => p _; rewrite -big_split; apply: eq_bigr => q _ /=.
rewrite -[RHS]mulrA -car //; fring C.
Qed.
Lemma car_same x y : x.1 = y.1 -> car_ok x y.
Proof.
move=> e F m hm; rewrite Lt_car // big_seq_cond big1 => [|p].
  by rewrite (_ : x == cbar y = false) ?mul0r //; apply/eqP => /(congr1 fst) /=; rewrite e; case: (y.1).
rewrite andbT => hp; rewrite big_seq_cond big1 // => q; rewrite andbT => hq.
rewrite (_ : p.2 == cbar q.2 = false) ?mulr0 ?mul0r //; apply/eqP => /(congr1 fst) /=.
by rewrite (tr_type hp) (tr_type hq) e; case: (y.1).
Qed.
Lemma Lt_sq x F m : sorted clt m -> Lt x (Lt x F) m = 0.
Proof.
move=> hm; have := @car_same x x erefl F m hm; rewrite cbar_irr mul0r => /eqP; rewrite -mulr2n mulrn_eq0 => /eqP //.
Qed.
Lemma spair_WT x p F m : sorted clt p -> sorted clt m -> (forall y, y \in p -> clt y x -> car_ok x y) ->
  spair (lmul C x p) (fun q => WT q F m) = WT (x :: p) F m.
Proof.
move=> hp hm; move: p hp F; apply: sorted_ind2 => [|y p hb hs ih] F hc.
  by rewrite /spair /= big_seq1 mul1r.
rewrite -/(L x (fun q => WT q F m) (y :: p)); case: (boolP (clt x y)) => xy; first by rewrite L_lt.
case: (x =P y) => [->|/clt_total /(_ xy) yx].
  rewrite L_eq !WT_cons; transitivity (WT p (fun m => 0 * F m + 0 * F m) m); first by rewrite WT_add // !mul0r addr0.
  by apply: WT_ext => // q hq; rewrite Lt_sq // !mul0r addr0.
rewrite L_gt // /L (_ : spair _ _ = WT (x :: p) (Lt y F) m); last first.
  by rewrite -ih; [apply: spair_ext | move=> z hz; apply: hc; rewrite inE hz orbT].
rewrite !WT_cons (_ : WT p (Lt y (Lt x F)) m = WT p (fun q => -1 * Lt x (Lt y F) q + (x == cbar y)%:R * F q) m).
  by rewrite WT_add // mulN1r.
by apply: WT_ext => // q hq; rewrite -(hc y (mem_head _ _) yx) // mulN1r addrC addrK.
Qed.
(* operators which are normal ordered already *)
Definition compat x p := x.1 || all (fun y : cop => ~~ y.1) p.
Lemma spair_WT_compat x p F m : sorted clt p -> sorted clt m -> compat x p ->
  spair (lmul C x p) (fun q => WT q F m) = WT (x :: p) F m.
Proof.
move=> hp hm hc; apply: spair_WT => // y hy yx; apply: car_same; move: yx; rewrite /clt.
case/orP: hc => [->|/allP /(_ y hy) /negbTE ->]; case: (_.1) => //.
Qed.
(* the product of the substituted factors *)
Variable fac : cop -> operator.
Hypothesis fac_sem : forall x F m, sem (fac x) F m = Lt x F m.
Hypothesis fac_ok : forall x, okA (fac x).
Lemma prod_sem w A F m : okA A -> sorted clt m -> sem (foldl (fun f x => op_mul f (fac x)) A w) F m = WT w (sem A F) m.
Proof.
elim: w A => [|x w ih] A hA hm //=; rewrite ih //; last exact/stored_ok/stored_mul.
by apply: WT_ext => // q hq; rewrite sem_mul // fac_sem.
Qed.
Lemma prod_ok w A : okA A -> okA (foldl (fun f x => op_mul f (fac x)) A w).
Proof. by elim: w A => [|x w ih] A hA //=; apply/ih/stored_ok/stored_mul. Qed.
Definition subst A : operator :=
  foldl (fun acc t => op_add acc (op_scale t.2 (foldl (fun f x => op_mul f (fac x)) (op_const 1) t.1))) [::] A.
Lemma subst_pr A F : pr (subst A) F = \sum_(t <- A) t.2 * WT t.1 F [::].
Proof.
rewrite /subst (pr_foldl (v := fun t => t.2 * WT t.1 F [::])) ?pr_nil ?add0r // => B t _.
have o1 : okA (op_const (1 : C)) by rewrite /op_const oner_eq0.
rewrite pr_op_add pr_scale -(sem_one F (prod_ok t.1 o1)).
rewrite prod_sem //; congr (_ + _ * _); apply: WT_ext => // q _.
by rewrite /sem /op_const oner_eq0 /pr big_seq1 mul1r.
Qed.
Lemma subst_sem A F m : sorted clt m -> sem (subst A) F m = \sum_(t <- A) t.2 * WT t.1 F m.
Proof.
move=> hm; rewrite /sem.
have o1 : okA (op_const (1 : C)) by rewrite /op_const oner_eq0.
rewrite /subst (pr_foldl (v := fun t => t.2 * WT t.1 F m)) ?pr_nil ?add0r // => B t _.
rewrite pr_op_add pr_scale; congr (_ + _ * _); apply: etrans (prod_sem t.1 F o1 hm) _; apply: WT_ext => // q _.
by rewrite /sem /op_const oner_eq0 /pr big_seq1 mul1r.
Qed.
Lemma subst_stored A : stored (subst A).
Proof.
apply: stored_foldl => // B t _ hB; apply: stored_op_add => //; apply: ok_scale; apply: prod_ok.
by rewrite /op_const oner_eq0.
Qed.
(* if every anticommutation relation is kept, products are *)
Lemma subst_mul A B : (forall x y, car_ok x y) -> okA B -> same_operator (subst (op_mul A B)) (op_mul (subst A) (subst B)).
Proof.
move=> hc hB; apply: pr_same => F; rewrite subst_pr -/(pr _ (fun p => WT p F [::])) pr_mul pr_mul.
rewrite -[RHS]sem_one ?subst_sem //; last exact/stored_ok/subst_stored.
apply: (@pr_ext _ B _ (fun q => WT q (sem (subst A) F) [::])) => // q hq.
transitivity (WT q (fun m => \sum_(t <- A) t.2 * WT t.1 F m) [::]); last first.
  by apply: WT_ext => // p hp; rewrite subst_sem.
rewrite WT_lin // /sem /pr; apply: eq_bigr => t _; congr (_ * _).
elim: (t.1) F q hq => [|x w ih] F q hq //; rewrite WT_cons W_cons -ih //.
by apply: W_ext => // p hp; rewrite /L spair_WT.
Qed.
End Substitution.

Section Compose.
Variable C : numClosedFieldType.
Local Notation operator := (operator C).
Implicit Types (A B : operator) (F G : mono -> C) (m w : mono) (x y : cop).
Variables (trU trV trUV : cop -> seq (C * cop)).
Hypothesis typeU : forall x p, p \in trU x -> p.2.1 = x.1.
Hypothesis typeV : forall x p, p \in trV x -> p.2.1 = x.1.
Hypothesis comp : forall x F m, \sum_(p <- trU x) p.1 * Lt trV p.2 F m = Lt trUV x F m.
(* monomials without creation operators *)
Definition lower (b : bool) (m : mono) := sorted clt m && (b || all (fun y : cop => ~~ y.1) m).
Lemma lmul_lower b x m p : lower b m -> (x.1 -> b) -> p \in lmul C x m -> lower b p.2.
Proof.
case/andP=> hm hl hx hp; rewrite /lower (lmul_sorted hm hp); case: b hx hl => //= hx hl.
elim: m p hl hp {hm} => [|y m ih] p /=; first by move=> _; rewrite inE => /eqP -> /=; rewrite andbT; apply/negP => /hx.
move=> /andP[hy hl]; case: ifP => _; first by rewrite inE => /eqP -> /=; rewrite hy hl andbT andbT; apply/negP => /hx.
case: ifP => _ //; rewrite mem_cat => /orP[/mapP[q hq ->] /=|]; first by rewrite hy ih.
by case: ifP => // _; rewrite inE => /eqP ->.
Qed.
Lemma WT_lower b w F G m : all (fun y : cop => y.1 ==> b) w -> lower b m -> (forall q, lower b q -> F q = G q) -> WT trU w F m = WT trU w G m.
Proof.
elim: w F G m => [|x w ih] F G m /=; first by move=> _ hm; apply.
move=> /andP[hx hw] hm h; apply: ih => // q hq; rewrite /Lt big_seq_cond [RHS]big_seq_cond; apply: eq_bigr => p; rewrite andbT => hp.
congr (_ * _); apply: spair_ext => r hr; apply: h; apply: lmul_lower hr => //; rewrite (typeU hp); exact/implyP.
Qed.
Lemma compose_W w F m : sorted clt w -> sorted clt m -> WT trU w (fun q => WT trV q F m) [::] = WT trUV w F m.
Proof.
move=> hw hm; move: w hw F; apply: sorted_ind2 => [|x w hb hs ih] F //; rewrite !WT_cons -ih.
have hl : all (fun y : cop => y.1 ==> x.1) w.
  by apply: sub_all hb => y; rewrite /clt; case: (x.1); case: (y.1).
apply: (WT_lower hl); first by rewrite /lower orbT.
move=> q /andP[hq lq]; rewrite -[RHS](_ : WT trV q (fun m => \sum_(p <- trU x) p.1 * Lt trV p.2 F m) m = _); last first.
  by apply: WT_ext => // r _; rewrite comp.
rewrite WT_lin // /Lt big_seq_cond [RHS]big_seq_cond; apply: eq_bigr => p; rewrite andbT => hp; congr (_ * _).
by apply: spair_WT_compat => //; rewrite /compat (typeU hp).
Qed.
End Compose.

Section Transform.
Variable C : numClosedFieldType.
Local Notation operator := (operator C).
Local Notation modes := (modes C).
Implicit Types (A B : operator) (F G : mono -> C) (m w : mono) (x y : cop) (U V : nat -> nat -> C).
Variable idx : seq nat.
Hypothesis uidx : uniq idx.
Local Notation n := (size idx).
Local Notation I := (nth 0%N idx).
Definition el (U : nat -> nat -> C) (b : bool) k l : C := if b then (U k l)^* else U k l.
Definition tr U x : seq (C * cop) :=
  if x.2 \in idx then [seq (el U x.1 (index x.2 idx) l, (x.1, I l)) | l <- iota 0 n] else [:: (1, x)].
Lemma tr_type U x p : p \in tr U x -> p.2.1 = x.1.
Proof. by rewrite /tr; case: ifP => _; [case/mapP=> l _ -> | rewrite inE => /eqP ->]. Qed.
Lemma clt_cbar x y : clt (cbar x) (cbar y) = clt y x.
Proof. by case: x y => [[] i] [[] j]. Qed.
Lemma pr_dagger A F : pr (dagger A) F = (pr A (fun p => (F (rev [seq cbar x | x <- p]))^*))^*.
Proof. by rewrite /pr /dagger big_map rmorph_sum; apply: eq_bigr => t _ /=; rewrite rmorphM /= conjCK. Qed.
Lemma ok_dagger A : okA A -> okA (dagger A).
Proof.
move=> /allP h; apply/allP => _ /mapP[t ht ->] /=; rewrite rev_sorted sorted_map.
by move: (h t ht); congr is_true; apply: eq_sorted => x y; rewrite /= clt_cbar.
Qed.
Lemma stored_c_transf U k : stored (c_transf U idx k).
Proof. by apply: stored_foldl => // B l _ hB; apply: stored_op_add => //; apply: ok_scale. Qed.
Lemma pr_c_transf U k F : pr (c_transf U idx k) F = \sum_(l <- iota 0 n) U k l * F [:: (false, I l)].
Proof.
rewrite /c_transf (pr_foldl (v := fun l => U k l * F [:: (false, I l)])) ?pr_nil ?add0r // => B l _.
by rewrite pr_op_add pr_scale {2}/pr big_seq1 mul1r.
Qed.
Lemma fac_ok U x : okA (transformed U idx x).
Proof.
rewrite /transformed; case: ifP => _; last by case: (x.1).
by case: (x.1); [apply: ok_dagger|]; apply/stored_ok/stored_c_transf.
Qed.
Lemma fac_sem U x F m : sem (transformed U idx x) F m = Lt (tr U) x F m.
Proof.
rewrite /transformed /Lt /tr; case: ifP => _; last first.
  by rewrite big_seq1 mul1r; case: x => [[] i]; rewrite ?sem_c ?sem_cdag.
rewrite big_map /el /=; case: (x.1); rewrite /sem ?pr_dagger pr_c_transf // rmorph_sum; apply: eq_bigr => l _ /=.
by rewrite rmorphM /= conjCK.
Qed.
Lemma transformE A U : operator_single_particle_transform A U (modes idx) = Some (subst (transformed U idx) A).
Proof. by rewrite /operator_single_particle_transform modes_map. Qed.
Lemma transform_pr U A F : pr (subst (transformed U idx) A) F = \sum_(t <- A) t.2 * WT (tr U) t.1 F [::].
Proof. by apply: subst_pr; [apply: fac_sem | apply: fac_ok]. Qed.

Lemma tr_out U x F m : x.2 \notin idx -> Lt (tr U) x F m = L x F m.
Proof. by move=> /negbTE h; rewrite /Lt /tr h big_seq1 mul1r. Qed.
Lemma tr_unit x F m : Lt (tr (unit_matrix C)) x F m = L x F m.
Proof.
case: (boolP (x.2 \in idx)) => h; last exact: tr_out.
rewrite /Lt /tr h big_map; transitivity (\sum_(l <- iota 0 n) (if l == index x.2 idx then L (x.1, I l) F m else 0)); last first.
  by rewrite sum_one ?iota_uniq ?in_iota ?index_mem // nth_index //; case: (x).
apply: eq_bigr => l _; rewrite /el /unit_matrix [index _ _ == _]eq_sym; case: eqP => _; case: (x.1) => /=;
  by rewrite ?conjC1 ?conjC0 ?mul1r ?mul0r.
Qed.
Lemma WT_plain U w F m : (forall x, x \in w -> forall F m, Lt (tr U) x F m = L x F m) -> sorted clt m -> WT (tr U) w F m = W w F m.
Proof.
elim: w F m => [|x w ih] F m h hm //; rewrite WT_cons W_cons -ih //; last by move=> y hy; apply: h; rewrite inE hy orbT.
by apply: WT_ext => // q _; rewrite h ?mem_head.
Qed.
Lemma plain_proof U A : stored A -> (forall t x, t \in A -> x \in t.1 -> forall F m, Lt (tr U) x F m = L x F m) ->
  same_operator (subst (transformed U idx) A) A.
Proof.
move=> sA h; apply: pr_same => F; rewrite transform_pr /pr big_seq_cond [RHS]big_seq_cond; apply: eq_bigr => t; rewrite andbT => ht.
congr (_ * _); rewrite WT_plain ?W_one //; first by apply: (allP (stored_ok sA)).
by move=> x hx; apply: h hx.
Qed.
Lemma product_tr U V x F m : \sum_(p <- tr U x) p.1 * Lt (tr V) p.2 F m = Lt (tr (product n U V)) x F m.
Proof.
case: (boolP (x.2 \in idx)) => h; last by rewrite tr_out // /tr (negbTE h) big_seq1 mul1r tr_out.
rewrite /Lt /tr h !big_map.
transitivity (\sum_(l <- iota 0 n) \sum_(k <- iota 0 n) el U x.1 (index x.2 idx) l * (el V x.1 l k * L (x.1, I k) F m)).
  rewrite big_seq_cond [RHS]big_seq_cond; apply: eq_bigr => l; rewrite andbT in_iota => hl /=.
  by rewrite mem_nth // index_uniq // big_map mulr_sumr.
rewrite exchange_big; apply: eq_bigr => k _ /=; rewrite /el /product /index_iota subn0.
by case: (x.1); rewrite ?rmorph_sum mulr_suml; apply: eq_bigr => l _; rewrite ?rmorphM mulrA.
Qed.
Lemma compose_proof U V A B : stored A -> operator_single_particle_transform A U (modes idx) = Some B ->
  exists2 D, operator_single_particle_transform B V (modes idx) = Some D &
  exists2 E, operator_single_particle_transform A (product n U V) (modes idx) = Some E & same_operator D E.
Proof.
move=> sA; rewrite transformE => -[<-]; rewrite !transformE; eexists; first by []. eexists; first by [].
apply: pr_same => F; rewrite [LHS]transform_pr -/(pr _ (fun p => WT (tr V) p F [::])) !transform_pr.
rewrite big_seq_cond [RHS]big_seq_cond; apply: eq_bigr => t; rewrite andbT => ht; congr (_ * _).
apply: compose_W => //; [exact: tr_type | exact: tr_type | exact: product_tr | exact: (allP (stored_ok sA))].
Qed.
Lemma unitary_car U : unitary n U -> forall x y, car_ok (tr U) x y.
Proof.
move=> hU x y; case: (x.1 =P y.1) => [e|ne]; first by apply: car_same => //; apply: tr_type.
have {ne} e : x.1 = ~~ y.1 by move: ne; case: (x.1); case: (y.1).
have exy : (x == cbar y) = (x.2 == y.2) by case: (x) (y) e => [a i] [b j] /= ->; rewrite xpair_eqE eqxx.
have ebar b i j : (((b, i) : cop) == cbar (~~ b, j)) = (i == j) by rewrite xpair_eqE /= negbK eqxx.
move=> F m hm; rewrite Lt_car // exy; have ey : y.1 = ~~ x.1 by rewrite e negbK.
case: (boolP (x.2 \in idx)) => hx; case: (boolP (y.2 \in idx)) => hy; rewrite /tr ?hx ?hy ?(negbTE hx) ?(negbTE hy).
- rewrite big_map; set i := index x.2 idx; set j := index y.2 idx.
  transitivity ((\sum_(l <- iota 0 n) el U x.1 i l * el U y.1 j l) * F m).
    rewrite mulr_suml big_seq_cond [RHS]big_seq_cond; apply: eq_bigr => l; rewrite andbT in_iota => hl; rewrite big_map.
    transitivity (\sum_(k <- iota 0 n) (if k == l then el U x.1 i l * el U y.1 j k * F m else 0)); last first.
      by rewrite sum_one ?iota_uniq ?in_iota.
    rewrite big_seq_cond [RHS]big_seq_cond; apply: eq_bigr => k; rewrite andbT in_iota => hk /=.
    by rewrite ey ebar nth_uniq // eq_sym; case: eqP => _; rewrite ?mulr1 ?mulr0 ?mul0r.
  congr (_ * _); have hi : (i < n)%N by rewrite index_mem.
  have hj : (j < n)%N by rewrite index_mem.
  rewrite (_ : (x.2 == y.2) = (i == j)); last by rewrite -(nth_index 0%N hx) -(nth_index 0%N hy) nth_uniq.
  rewrite ey /el; case: (x.1) => /=; last by have := hU i j hi hj; rewrite /index_iota subn0.
  have := hU j i hj hi; rewrite /index_iota subn0 /unit_matrix eq_sym => <-; by apply: eq_bigr => l _; rewrite mulrC.
- rewrite big_map big_seq_cond big1 => [|l]; last first.
    rewrite andbT in_iota => hl; rewrite big_seq1 /= mulr1 [y]surjective_pairing ey ebar; case: eqP => [E|_]; last by rewrite mulr0 mul0r.
    by rewrite -E mem_nth in hy.
  by case: eqP => [E|_]; rewrite ?mul0r //; rewrite -E hx in hy.
- rewrite big_seq1 big_map big_seq_cond big1 => [|l]; last first.
    rewrite andbT in_iota => hl; rewrite mul1r [x]surjective_pairing ey ebar; case: eqP => [E|_]; last by rewrite mulr0 mul0r.
    by rewrite E mem_nth in hx.
  by case: eqP => [E|_]; rewrite ?mul0r //; rewrite E hy in hx.
by rewrite !big_seq1 /= !mul1r exy.
Qed.
Lemma unitary_proof U A B A' B' : unitary n U -> stored B ->
  operator_single_particle_transform A U (modes idx) = Some A' -> operator_single_particle_transform B U (modes idx) = Some B' ->
  exists2 D, operator_single_particle_transform (op_mul A B) U (modes idx) = Some D & same_operator D (op_mul A' B').
Proof.
move=> hU sB; rewrite !transformE => -[<-] [<-]; eexists; first by [].
apply: (@subst_mul _ (tr U)); [exact: tr_type | exact: fac_sem | exact: fac_ok | exact: unitary_car | exact: stored_ok].
Qed.
(* the matrix of a quadratic operator *)
Lemma quadratic_transform_proof ae h U A B : get_quadratic_operator ae h (modes idx) = Some A ->
  operator_single_particle_transform A U (modes idx) = Some B -> forall i j, (i < n)%N -> (j < n)%N ->
  coef B (quad idx i j) = \sum_(0 <= k < n) \sum_(0 <= l < n) (U k i)^* * h k l * U l j.
Proof.
move=> /get_quadratic_proof [sA hA]; rewrite transformE => -[<-] i j hi hj.
rewrite prE transform_pr -/(pr A (fun p => WT (tr U) p _ [::])) hA /index_iota !subn0.
rewrite big_seq_cond [RHS]big_seq_cond; apply: eq_bigr => k; rewrite andbT in_iota => hk.
rewrite big_seq_cond [RHS]big_seq_cond; apply: eq_bigr => l; rewrite andbT in_iota => hl.
rewrite [RHS]mulrAC [RHS]mulrC; congr (_ * _); rewrite -[LHS]/(Lt (tr U) (false, I l) (Lt (tr U) (true, I k) (fun p => (p == quad idx i j)%:R)) [::]) /Lt {1}/tr /= mem_nth // index_uniq // big_map.
transitivity (\sum_(b <- iota 0 n) (if b == j then (U k i)^* * U l b else 0)); last by rewrite sum_one ?iota_uniq ?in_iota // mulrC.
rewrite big_seq_cond [RHS]big_seq_cond; apply: eq_bigr => b; rewrite andbT in_iota => hb /=.
rewrite L_nil /tr /= mem_nth // index_uniq // big_map.
transitivity (U l b * \sum_(a <- iota 0 n) (if a == i then (if b == j then (U k a)^* else 0) else 0)); last first.
  by rewrite sum_one ?iota_uniq ?in_iota //; case: eqP => _; rewrite ?mulr0 // mulrC.
congr (_ * _); rewrite big_seq_cond [RHS]big_seq_cond; apply: eq_bigr => a; rewrite andbT in_iota => ha /=.
rewrite L_lt // -/(quad idx a b) quad_eq //; case: eqP => _; case: eqP => _; rewrite ?mulr1 ?mulr0 //.
Qed.
End Transform.

(* C30: a Hermitian matrix survives the round trip through an operator, for any tolerance and any list of distinct modes. *)
Theorem C30_quadratic_round_trip (C : numClosedFieldType) (almost_equal : C -> C -> bool) (h : nat -> nat -> C) (idx : seq nat) :
  (forall x, almost_equal x x) -> uniq idx -> hermitian (size idx) h ->
  exists A h', [/\ get_quadratic_operator almost_equal h (modes C idx) = Some A,
                   quadratic_matrix_from_operator A (modes C idx) = Some h' & eq2 (size idx) h' h].
Proof. move=> r u hh; exact: C30_round_trip_proof. Qed.
(* the operator built has exactly the terms h_ij c+_i c_j and is Hermitian *)
Lemma C30_operator_proof (C : numClosedFieldType) almost_equal (h : nat -> nat -> C) idx A : uniq idx -> hermitian (size idx) h ->
  get_quadratic_operator almost_equal h (modes C idx) = Some A -> same_operator (dagger A) A.
Proof.
move=> u hh eA; have [_ hA] := get_quadratic_proof eA; apply: pr_same => F; rewrite pr_dagger !hA rmorph_sum [RHS]exchange_big.
rewrite big_seq_cond [RHS]big_seq_cond; apply: eq_bigr => i; rewrite andbT in_iota => hi.
rewrite rmorph_sum big_seq_cond [RHS]big_seq_cond; apply: eq_bigr => j; rewrite andbT in_iota => hj.
by rewrite rmorphM /= conjCK -hh.
Qed.
Theorem C30_operator_terms (C : numClosedFieldType) (almost_equal : C -> C -> bool) (h : nat -> nat -> C) (idx : seq nat) A :
  uniq idx -> get_quadratic_operator almost_equal h (modes C idx) = Some A ->
  (forall i j, (i < size idx)%N -> (j < size idx)%N -> coef A [:: (true, nth 0%N idx i); (false, nth 0%N idx j)] = h i j) /\
  (forall m, coef A m != 0 ->
     exists i j, [/\ (i < size idx)%N, (j < size idx)%N & m = [:: (true, nth 0%N idx i); (false, nth 0%N idx j)]]).
Proof. exact: quadratic_coef_proof. Qed.
Theorem C30_operator_hermitian (C : numClosedFieldType) almost_equal (h : nat -> nat -> C) (idx : seq nat) A :
  uniq idx -> hermitian (size idx) h -> get_quadratic_operator almost_equal h (modes C idx) = Some A -> same_operator (dagger A) A.
Proof. exact: C30_operator_proof. Qed.
(* reading ignores every other term *)
Theorem C30_reads_coefficients (C : numClosedFieldType) (A : operator C) (idx : seq nat) : uniq idx -> stored A ->
  (forall t x y, t \in A -> t.1 = [:: x; y] -> x.1 && ~~ y.1) ->
  exists2 h, quadratic_matrix_from_operator A (modes C idx) = Some h &
    forall i j, (i < size idx)%N -> (j < size idx)%N -> h i j = coef A [:: (true, nth 0%N idx i); (false, nth 0%N idx j)].
Proof.
move=> u sA h; apply: quadratic_read_proof => //; apply/allP => t ht; rewrite /number_conserving; have := h t.
by case: (t.1) ht => [|x [|y [|]]] // ht; apply.
Qed.
Example C30_case (C : numClosedFieldType) : uniq [:: 3; 1]%N /\
  hermitian 2 (fun i j => if (i < j)%N then 'i else if (j < i)%N then - 'i else i%:R : C).
Proof.
split=> // -[|[|i]] [|[|j]] // _ _ /=; rewrite ?conjC0 ?conjC1 //; first by rewrite rmorphN conjCi opprK.
by rewrite conjCi.
Qed.

(* C31: a number-conserving quartic operator survives the round trip through its tensor, in both conventions. *)
Theorem C31_operator_round_trip (C : numClosedFieldType) (H : operator C) (idx : seq nat) (perm_sym : bool) :
  uniq idx -> stored H -> quartic idx H ->
  exists T A, [/\ quartic_tensor_from_operator H (modes C idx) perm_sym = Some T,
                  operator_from_quartic_tensor T (modes C idx) = Some A, stored A & same_operator A H].
Proof. exact: C31_round_trip_proof. Qed.
(* the other round trip antisymmetrizes an arbitrary tensor *)
Theorem C31_tensor_round_trip (C : numClosedFieldType) (U : arr4 C) (idx : seq nat) : uniq idx ->
  exists A T, [/\ operator_from_quartic_tensor U (modes C idx) = Some A,
    quartic_tensor_from_operator A (modes C idx) true = Some T & eq4 (size idx) T (quartic_permutation_symmetrize U)].
Proof. exact: C31_tensor_proof. Qed.
Theorem C31_symmetrized_tensor_antisymmetric (C : numClosedFieldType) (H : operator C) (idx : seq nat) T :
  uniq idx -> stored H -> quartic idx H -> quartic_tensor_from_operator H (modes C idx) true = Some T -> antisymmetric (size idx) T.
Proof. move=> u sH qH; apply: C31_antisymmetric_proof => //; exact: quartic_is_ok qH. Qed.
(* the value a user reads off *)
Theorem C31_tensor_elements (C : numClosedFieldType) (H : operator C) (idx : seq nat) : uniq idx -> stored H -> quartic idx H ->
  exists2 T, quartic_tensor_from_operator H (modes C idx) false = Some T &
    forall i j k l, (i < size idx)%N -> (j < size idx)%N -> (k < size idx)%N -> (l < size idx)%N ->
    T i j k l = coef H [:: (true, nth 0%N idx i); (true, nth 0%N idx j); (false, nth 0%N idx k); (false, nth 0%N idx l)].
Proof.
move=> u sH qH; have [T -> hT] := quartic_read_proof false u sH (quartic_is_ok sH qH); exists T => // i j k l; exact: hT.
Qed.
Example C31_case (C : numClosedFieldType) : let H := [:: ([:: (true, 1%N); (true, 2%N); (false, 2%N); (false, 1%N)], 1 : C);
    ([:: (true, 1%N); (true, 4%N); (false, 2%N); (false, 1%N)], 'i)] in stored H /\ quartic [:: 4; 2; 1]%N H.
Proof.
split; first by rewrite /stored /= oner_eq0 neq0Ci.
by move=> t; rewrite !inE => /orP[/eqP ->|/eqP ->].
Qed.

(* C32: symmetrizations of the interaction tensor. *)
Theorem C32_permutation (C : numClosedFieldType) (n : nat) (U : arr4 C) :
  [/\ antisymmetric n (quartic_permutation_symmetrize U),
      eq4 n (quartic_permutation_symmetrize (quartic_permutation_symmetrize U)) (quartic_permutation_symmetrize U) &
      antisymmetric n U -> eq4 n (quartic_permutation_symmetrize U) U].
Proof. by split; [exact: perm_sym_antisym | apply/perm_sym_fix/perm_sym_antisym | exact: perm_sym_fix]. Qed.
Theorem C32_conjugation (C : numClosedFieldType) (n : nat) (U : arr4 C) :
  [/\ conjugation_symmetric n (quartic_conjugation_symmetrize U),
      eq4 n (quartic_conjugation_symmetrize (quartic_conjugation_symmetrize U)) (quartic_conjugation_symmetrize U) &
      conjugation_symmetric n U -> eq4 n (quartic_conjugation_symmetrize U) U].
Proof. by split; [exact: conj_sym | apply/conj_fix/conj_sym | exact: conj_fix]. Qed.
Theorem C32_pauli_partial (C : numClosedFieldType) (n : nat) (U : arr4 C) : let V := (quartic_pauli_symmetrize n U).2 in
  [/\ pauli_symmetric n V, eq4 n (quartic_pauli_symmetrize n V).2 V, pauli_symmetric n U -> eq4 n V U &
      forall a b c d, (a < n)%N -> (b < n)%N -> (c < n)%N -> (d < n)%N -> a != b -> c != d -> V a b c d = U a b c d].
Proof.
split; [exact: pauli_sym | apply/pauli_fix/pauli_sym | exact: pauli_fix |].
by move=> a b c d ha hb hc hd /negbTE h1 /negbTE h2; rewrite pauli_val // h1 h2.
Qed.
(* the claim that the argument is left alone is false: the array passed in is zeroed too *)
Theorem C32_pauli_changes_argument_refuted (C : numClosedFieldType) :
  exists (n : nat) (U : arr4 C), ~ eq4 n (quartic_pauli_symmetrize n U).1 U.
Proof.
exists 1%N, (fun _ _ _ _ => 1) => /(_ 0 0 0 0 isT isT isT isT)%N /eqP.
by rewrite /quartic_pauli_symmetrize /= /pauli_step /= eq_sym oner_eq0.
Qed.
Theorem C32_combined (C : numClosedFieldType) (n : nat) (U : arr4 C) (conj : bool) : let V := (symmetrize_quartic_tensor n U conj).2 in
  [/\ antisymmetric n V, pauli_symmetric n V, conj -> conjugation_symmetric n V &
      eq4 n (symmetrize_quartic_tensor n V conj).2 V].
Proof. exact: C32_full_proof. Qed.
Theorem C32_combined_fixes (C : numClosedFieldType) (n : nat) (U : arr4 C) (conj : bool) :
  antisymmetric n U -> (conj -> conjugation_symmetric n U) -> eq4 n (symmetrize_quartic_tensor n U conj).2 U.
Proof. exact: C32_fixes_proof. Qed.
(* an antisymmetric tensor which is symmetric under conjugation: the density-density interaction of two modes *)
Example C32_case (C : numClosedFieldType) :
  let U : arr4 C := fun a b c d => ((a != b) && (a == d) && (b == c))%:R - ((a != b) && (a == c) && (b == d))%:R in
  [/\ antisymmetric 2 U, conjugation_symmetric 2 U & U 0%N 1%N 1%N 0%N = 1].
Proof.
split; last by rewrite /= subr0.
- by split=> a b c d; case: a => [|[|a]] //; case: b => [|[|b]] //; case: c => [|[|c]] //; case: d => [|[|d]] // _ _ _ _ /=;
    rewrite ?subr0 ?sub0r ?oppr0 ?opprK.
by move=> a b c d; case: a => [|[|a]] //; case: b => [|[|b]] //; case: c => [|[|c]] //; case: d => [|[|d]] // _ _ _ _ /=;
  rewrite ?subr0 ?sub0r ?rmorphN ?conjC1 ?conjC0.
Qed.

(* C33: transformations of the single-particle basis, for arbitrary matrices. *)
Theorem C33_identity (C : numClosedFieldType) (idx : seq nat) (A : operator C) : uniq idx -> stored A ->
  exists2 B, operator_single_particle_transform A (unit_matrix C) (modes C idx) = Some B & same_operator B A.
Proof. move=> u sA; rewrite transformE; eexists; first by []. by apply: plain_proof => // t x _ _ F m; apply: tr_unit. Qed.
Theorem C33_outside_untouched (C : numClosedFieldType) (idx : seq nat) (U : nat -> nat -> C) (A : operator C) : stored A -> avoids idx A ->
  exists2 B, operator_single_particle_transform A U (modes C idx) = Some B & same_operator B A.
Proof.
move=> sA av; rewrite transformE; eexists; first by [].
by apply: plain_proof => // t x ht hx F m; apply: tr_out; apply: av ht hx.
Qed.
Theorem C33_composition (C : numClosedFieldType) (idx : seq nat) (U V : nat -> nat -> C) (A B : operator C) : uniq idx -> stored A ->
  operator_single_particle_transform A U (modes C idx) = Some B ->
  exists2 D, operator_single_particle_transform B V (modes C idx) = Some D &
  exists2 E, operator_single_particle_transform A (product (size idx) U V) (modes C idx) = Some E & same_operator D E.
Proof. move=> u; exact: compose_proof. Qed.
(* a unitary transformation keeps products *)
Theorem C33_unitary_homomorphism (C : numClosedFieldType) (idx : seq nat) (U : nat -> nat -> C) (A B A' B' : operator C) :
  uniq idx -> unitary (size idx) U -> stored B ->
  operator_single_particle_transform A U (modes C idx) = Some A' -> operator_single_particle_transform B U (modes C idx) = Some B' ->
  exists2 D, operator_single_particle_transform (op_mul A B) U (modes C idx) = Some D & same_operator D (op_mul A' B').
Proof. move=> u; exact: unitary_proof. Qed.
(* the matrix of a quadratic operator h becomes U^+ h U *)
Theorem C33_quadratic (C : numClosedFieldType) almost_equal (idx : seq nat) (h U : nat -> nat -> C) (A B : operator C) : uniq idx ->
  get_quadratic_operator almost_equal h (modes C idx) = Some A -> operator_single_particle_transform A U (modes C idx) = Some B ->
  forall i j, (i < size idx)%N -> (j < size idx)%N ->
  coef B [:: (true, nth 0%N idx i); (false, nth 0%N idx j)] = \sum_(0 <= k < size idx) \sum_(0 <= l < size idx) (U k i)^* * h k l * U l j.
Proof. move=> u; exact: quadratic_transform_proof. Qed.
Example C33_case (C : numClosedFieldType) : unitary 2 (fun i j => if i == j then 0 else 'i : C).
Proof.
by move=> [|[|i]] [|[|j]] // _ _; rewrite !big_nat_recl // big_geq //= ?mul0r ?add0r ?addr0 ?conjC0 ?mulr0 ?conjCi ?mulrN -?expr2 ?sqrCi ?opprK ?addr0.
Qed.
Print Assumptions C30_quadratic_round_trip.
Print Assumptions C31_operator_round_trip.
Print Assumptions C31_tensor_round_trip.
Print Assumptions C32_combined.
Print Assumptions C33_composition.
Print Assumptions C33_unitary_homomorphism.
