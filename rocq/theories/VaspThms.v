(* C96 (interactions from VASP cRPA files). *)
From mathcomp Require Import all_ssreflect all_algebra.
From mathcomp Require Import zify.
From Verif Require Import SymmetryModel KgridModel KgridThms VaspModel.
Set Implicit Arguments.
Unset Strict Implicit.
Unset Printing Implicit Defensive.
Import Order.TTheory GRing.Theory Num.Theory.
Local Open Scope ring_scope.

Section Thms.
Variables (R : realFieldType) (V : zmodType).
Local Notation momentum := (momentum R).
Local Notation row := (row R V).
Local Notation tensor := (tensor V).
Definition row0 : row := Row (0, 0, 0) (0, 0, 0, 0)%N 0.
(* the interaction as VASP orders it, for orbitals counted from zero *)
Definition table : Type := momentum -> tensor.
(* a block of rows for one momentum: the complete table in any order *)
Definition block_of (norb : nat) (T : table) (q : momentum) (b : seq row) : Prop :=
  [/\ size b = (norb ^ 4)%N,
      forall n, (n < size b)%N -> exists i j k l, [/\ (i < norb)%N && (j < norb)%N && (k < norb)%N && (l < norb)%N & nth row0 b n = Row q (i.+1, j.+1, k.+1, l.+1) (T q i j k l)] &
      forall i j k l, (i < norb)%N -> (j < norb)%N -> (k < norb)%N -> (l < norb)%N -> exists2 n, (n < size b)%N & r_idx (nth row0 b n) = (i.+1, j.+1, k.+1, l.+1)].
(* files with one block after the other, for the momenta qs *)
Definition describes (norb : nat) (T : table) (qs : seq momentum) (files : seq (seq row)) : Prop := exists blocks : seq (seq row),
  [/\ flatten files = flatten blocks, size blocks = size qs & forall n, (n < size qs)%N -> block_of norb T (nth (0, 0, 0) qs n) (nth [::] blocks n)].
Definition orbitals (norb : nat) (orbsub : seq nat) : seq nat := if orbsub is [::] then iota 0 norb else orbsub.
Lemma fill_block norb T q b i j k l : block_of norb T q b -> (i < norb)%N -> (j < norb)%N -> (k < norb)%N -> (l < norb)%N -> fill norb b i j k l = T q i j k l.
Proof.
move=> [sb hr hc] hi hj hk hl; have [n hn en] := hc i j k l hi hj hk hl.
rewrite /fill; set f := fun _ _ => _.
have gen s (u : tensor) : (forall n, (n < size s)%N -> exists i j k l, [/\ (i < norb)%N && (j < norb)%N && (k < norb)%N && (l < norb)%N & nth row0 s n = Row q (i.+1, j.+1, k.+1, l.+1) (T q i j k l)]) ->
    (u i j k l = T q i j k l \/ exists2 n, (n < size s)%N & r_idx (nth row0 s n) = (i.+1, j.+1, k.+1, l.+1)) -> foldl f u s i j k l = T q i j k l.
  elim: s u => [|r s ih] u ha hu /=; first by case: hu => // -[n'].
  apply: ih => [m hm|]; first exact: ha m.+1 hm.
  have [a [b' [c [d [_ er]]]]] := ha 0%N isT; rewrite /= in er; rewrite /f er /=.
  case: eqP => [[-> -> -> ->]|ne]; first by left.
  case: hu => [hu|[[|m] hm em]]; [by left | | by right; exists m].
  by move: em; rewrite /= er /= => -[e1 e2 e3 e4]; case: ne; rewrite e1 e2 e3 e4.
by apply: gen; [exact: hr | right; exists n].
Qed.
Lemma flatten_block (blocks : seq (seq row)) m n : (forall i, (i < size blocks)%N -> size (nth [::] blocks i) = m) -> (n < size blocks)%N ->
  take m (drop (n * m) (flatten blocks)) = nth [::] blocks n.
Proof.
elim: blocks n => // b bs ih [|n] h hn /=; have sb : size b = m := h 0%N isT.
  by rewrite mul0n drop0 take_size_cat.
by rewrite mulSnr -drop_drop drop_size_cat // ih // => i hi; apply: (h i.+1).
Qed.
Lemma flatten_size (blocks : seq (seq row)) m : (forall i, (i < size blocks)%N -> size (nth [::] blocks i) = m) -> size (flatten blocks) = (size blocks * m)%N.
Proof. elim: blocks => // b bs ih h /=; rewrite size_cat ih => [|i hi]; [by rewrite (h 0%N isT) mulSn | exact: (h i.+1)]. Qed.
Local Notation mx b := (foldr maxn 0%N [seq max4 (r_idx r) | r <- b]).
Lemma max_cat (x y : seq nat) : foldr maxn 0%N (x ++ y) = maxn (foldr maxn 0%N x) (foldr maxn 0%N y).
Proof. by elim: x => [|a x ih] /=; rewrite ?max0n // ih maxnA. Qed.
Lemma max_le (b : seq row) m : (forall n, (n < size b)%N -> (max4 (r_idx (nth row0 b n)) <= m)%N) -> (mx b <= m)%N.
Proof. by elim: b => //= r b ih h; rewrite geq_max (h 0%N isT) ih // => n hn; apply: (h n.+1). Qed.
Lemma max_ge (b : seq row) n : (n < size b)%N -> (max4 (r_idx (nth row0 b n)) <= mx b)%N.
Proof. by elim: b n => // r b ih [|n] /= h; rewrite leq_max ?leqnn // (ih n h) orbT. Qed.
Lemma max_block norb T q b : (0 < norb)%N -> block_of norb T q b -> mx b = norb.
Proof.
move=> n0 [sb hr hc]; apply/eqP; rewrite eqn_leq max_le /= => [|n /hr[i [j [k [l [h ->]]]]]]; last by rewrite /= !geq_max; move: h; rewrite -!andbA => /and4P[-> -> -> ->].
have l0 : (norb.-1 < norb)%N by rewrite prednK.
have [n hn en] := hc _ _ _ _ l0 l0 l0 l0; apply: leq_trans (max_ge hn); by rewrite en /= prednK // !maxnn.
Qed.
Lemma max_blocks norb T qs blocks : (0 < norb)%N -> (0 < size qs)%N -> size blocks = size qs -> (forall n, (n < size qs)%N -> block_of norb T (nth (0, 0, 0) qs n) (nth [::] blocks n)) ->
  mx (flatten blocks) = norb.
Proof.
move=> n0; elim: blocks qs => [|b bs ih] [|q qs] //= _ [sb] hb; rewrite map_cat max_cat (max_block n0 (hb 0%N isT)).
case: qs sb hb => [|q' qs] sb hb; first by case: bs sb {ih hb} => //=; rewrite maxn0.
by rewrite (ih (q' :: qs)) ?maxnn // => n hn; apply: (hb n.+1).
Qed.
(* C96: every momentum once, in increasing order, with the orbitals in the order of this library *)
Theorem C96_read eps files norb T qs orbsub : 0 < eps -> (0 < norb)%N -> qs != [::] -> all (fun d => size d != 1%N) files -> describes norb T qs files -> all (fun x => x < norb)%N orbsub ->
  exists res, [/\ read_to_ndarray true eps files orbsub = Some (res, size (orbitals norb orbsub)), [seq p.2 | p <- res] = sort (@lexle R) (undup qs) &
    forall n a b c d, (n < size res)%N -> (a < size (orbitals norb orbsub))%N -> (b < size (orbitals norb orbsub))%N -> (c < size (orbitals norb orbsub))%N -> (d < size (orbitals norb orbsub))%N ->
    let p := nth ((fun _ _ _ _ => 0), (0, 0, 0)) res n in
    let o x := nth 0%N (orbitals norb orbsub) x in p.1 a b c d = T p.2 (o b) (o a) (o d) (o c)].
Proof.
move=> e0 n0 q0 hf [blocks [ef sb hb]] ho; rewrite /read_to_ndarray.
have ed : flatten [seq d <- files | (1 < size d)%N] = flatten blocks.
  rewrite -ef; elim: files hf {ef} => //= d fs ih /andP[h1 /ih e]; case: ltnP => h2 /=; rewrite e //.
  by case: d h1 h2 => [|r [|r' d]].
have hs i : (i < size blocks)%N -> size (nth [::] blocks i) = (norb ^ 4)%N by rewrite sb => /hb[].
have sz := flatten_size hs.
have p4 : (0 < norb ^ 4)%N by rewrite expn_gt0 n0.
have q1 : (0 < size qs)%N by case: (qs) q0.
rewrite ed; case ef2 : (flatten blocks) sz => [|r0 rs] sz; first by move: (muln_gt0 (size qs) (norb ^ 4)); rewrite q1 p4 -sb -sz.
rewrite -ef2 in sz *.
have -> : foldr maxn 0%N [seq max4 (r_idx r) | r <- flatten blocks] = norb.
  exact: (@max_blocks norb T qs).
rewrite eqn0Ngt n0 /= sz sb mulnK //.
have -> : (if orbsub is [::] then iota 0 norb else orbsub) = orbitals norb orbsub by [].
have -> /= : all (fun x => x < norb)%N (orbitals norb orbsub).
  by rewrite /orbitals; case: (orbsub) ho => // _; apply/allP => x; rewrite mem_iota.
rewrite -/row0; have bl n : (n < size qs)%N -> take (norb ^ 4) (drop (n * norb ^ 4) (flatten blocks)) = nth [::] blocks n.
  by move=> hn; rewrite flatten_block // sb.
have fq n : (n < size qs)%N -> r_q (nth row0 (flatten blocks) (n * norb ^ 4)) = nth (0, 0, 0) qs n.
  move=> hn; rewrite -[(_ * _)%N]addn0 -nth_drop -(nth_take _ p4) bl //; have [sb2 hr _] := hb _ hn.
  by have := hr 0%N; rewrite sb2 => /(_ p4) [a [b [c [d [_ ->]]]]].
rewrite ifT; last first.
  apply/allP => n; rewrite mem_iota add0n => /andP[_ hn]; rewrite bl // fq //; have [sb2 hr _] := hb _ hn.
  apply/(all_nthP row0) => m hm; have [a [b [c [d [_ ->]]]]] := hr m hm; rewrite /=.
  by case: (nth _ qs n) => -[x y] z; rewrite /= !subrr !normr0 e0.
have -> : [seq r_q (nth row0 (flatten blocks) (qidx * norb ^ 4)) | qidx <- iota 0 (size qs)] = qs.
  by apply: (@eq_from_nth _ (0, 0, 0)) => [|n]; rewrite size_map size_iota // => hn; rewrite (nth_map 0%N) ?size_iota // nth_iota // fq.
eexists; split; first by [].
  by rewrite /unique -!map_comp (eq_map (f2 := id)) ?map_id.
move=> n a b c d; rewrite size_map => hn ha hb2 hc hd; rewrite (nth_map ((0, 0, 0), 0%N)) //=; rewrite size_map in hn; rewrite /unique (nth_map (0, 0, 0)) //=.
set q := nth _ _ n; have hq : q \in qs by rewrite -mem_undup -(mem_sort (@lexle R)) mem_nth.
have oo x : (x < size (orbitals norb orbsub))%N -> (nth 0%N (orbitals norb orbsub) x < norb)%N.
  by move=> hx; rewrite /orbitals; move: hx; rewrite /orbitals; case: (orbsub) ho => [_|y o]; [rewrite size_iota => h; rewrite nth_iota | move=> /(all_nthP 0%N) h /h].
have hi : (index q qs < size qs)%N by rewrite index_mem.
by rewrite bl // (fill_block (hb _ hi)) ?nth_index //; apply: oo.
Qed.
(* C96: files with a single row are dropped, so one orbital with one momentum in every file cannot be read *)
Theorem C96_one_row_refuted aliases eps (files : seq (seq row)) orbsub : all (fun d => size d == 1%N) files -> read_to_ndarray aliases eps files orbsub = None.
Proof. by move=> h; rewrite /read_to_ndarray; have -> : [seq d <- files | (1 < size d)%N] = [::] by elim: files h => //= d fs ih /andP[/eqP -> /ih ->]. Qed.
(* C96: with a numpy without np.float nothing can be read *)
Theorem C96_numpy_refuted eps (files : seq (seq row)) orbsub : read_to_ndarray false eps files orbsub = None.
Proof. by rewrite /read_to_ndarray; case: (flatten _) => // r l; case: ifP. Qed.
Variables (units : 'M[R]_3) (kpts : seq nat) (rint : R -> int).
Hypotheses (u0 : units \in unitmx) (n3 : size kpts = 3%N) (npos : all (ltn 0%N) kpts) (rd : rounds rint).
(* the momentum in units of the mesh spacing is close to an integer between -n and n that differs from the index by a multiple of n *)
Definition at_index (q : momentum) (i : seq nat) : Prop := exists m : nat -> int, forall a, (a < 3)%N ->
  [/\ `|nth 0 (comp q) a * (nth 0%N kpts a)%:R - (m a)%:~R| < 2%:R^-1, - (nth 0%N kpts a)%:Z <= m a < (nth 0%N kpts a)%:Z & (m a = (nth 0%N i a)%:Z %[mod (nth 0%N kpts a)%:Z])%Z].
Definition target (q : momentum) : seq int := wrap_index kpts [seq rint (x.1 * x.2%:R) | x <- zip (comp q) kpts].
Lemma wrapE (m : int) (i n : nat) : (i < n)%N -> - n%:Z <= m < n%:Z -> (m = i%:Z %[mod n%:Z])%Z <-> (if m < 0 then m + n%:Z else m) = i%:Z.
Proof.
move=> hi /andP[h1 h2]; rewrite [(i%:Z %% _)%Z]modz_small; last by rewrite /= ltz_nat.
have e : (m %% n%:Z)%Z = if m < 0 then m + n%:Z else m; last by rewrite e.
case: ltP => h; last by rewrite modz_small // h.
rewrite -(modzDr m) modz_small //; lia.
Qed.
Lemma target_at q i : inside kpts i -> at_index q i -> target q = map Posz i.
Proof.
move=> hi [m hm]; case: q hm => -[x y] z hm.
have nz := n3; have si := inside_size hi; rewrite n3 in si; move: hm hi npos; rewrite /target /at_index.
case: kpts nz => [|k1 [|k2 [|k3 []]]] // _ hm; case: i si hm => [|i1 [|i2 [|i3 []]]] // _ hm /= /and4P[h1 h2 h3 _] _.
have [a1 a2 a3] := hm 0%N isT; have [b1 b2 b3] := hm 1%N isT; have [c1 c2 c3] := hm 2%N isT.
rewrite /= in a1 a2 a3 b1 b2 b3 c1 c2 c3.
by rewrite /wrap_index /= (rd a1) (rd b1) (rd c1) (proj1 (wrapE h1 a2) a3) (proj1 (wrapE h2 b2) b3) (proj1 (wrapE h3 c2) c3).
Qed.
Lemma convertE (U_Q : seq (tensor * momentum)) : exists u, convert_to_triqs rint U_Q units kpts = Some u /\
  forall i, inside kpts i -> u (ravel kpts i) = foldl (fun (u : tensor) p => if target p.2 == map Posz i then p.1 else u) (fun _ _ _ _ => 0) U_Q.
Proof.
rewrite /convert_to_triqs; have [kr [-> _ hk]] := C95_relative kpts u0 (mesh_values units kpts); eexists; split; first by [].
move=> i hi /=.
have -> : [seq rint ((nth 0%N kpts a)%:R * kr (ravel kpts i) ord0 a) | a : 'I_3 <- enum 'I_3] = map Posz i; last by [].
have si := inside_size hi; apply: (@eq_from_nth _ 0) => [|a]; rewrite !size_map -enumT size_enum_ord ?si ?n3 // => ha.
rewrite (nth_map (Ordinal ha)) ?size_enum_ord // (nth_map 0%N) ?si ?n3 //.
have -> : nth (Ordinal ha) (enum 'I_3) a = Ordinal ha by apply: val_inj; rewrite /= nth_enum_ord.
rewrite (hk _ i) // ?/mesh_values ?ravelK // mxE /= mulrC mulfVK; last by rewrite pnatr_eq0 -lt0n; apply: (all_nthP 0%N npos); rewrite n3.
by apply: rd; rewrite subrr normr0 invr_gt0 ltr0n.
Qed.
Local Notation t0 := ((fun _ _ _ _ => 0 : V), (0, 0, 0) : momentum).
Lemma no_match (A B : Type) (P : pred A) (f : A -> B) b0 s : ~~ has P s -> foldl (fun u p => if P p then f p else u) b0 s = b0.
Proof. by elim: s b0 => //= x s ih b0; rewrite negb_or => /andP[/negbTE -> /ih ->]. Qed.
Lemma last_match (A B : Type) (d : A) (P : pred A) (f : A -> B) b0 s v : (forall m, (m < size s)%N -> P (nth d s m) -> f (nth d s m) = v) -> has P s ->
  foldl (fun u p => if P p then f p else u) b0 s = v.
Proof.
elim: s b0 => //= x s ih b0 h; case hs: (has P s); first by move=> _; apply: ih => // m hm; apply: (h m.+1).
by rewrite orbF => px; rewrite px no_match ?hs //; apply: (h 0%N).
Qed.
(* C96: the tensor of a momentum is found at its mesh point *)
Theorem C96_mesh (U_Q : seq (tensor * momentum)) i n : inside kpts i -> (n < size U_Q)%N -> at_index (nth t0 U_Q n).2 i ->
  (forall m, (m < size U_Q)%N -> at_index (nth t0 U_Q m).2 i -> m = n) -> (forall m, (m < size U_Q)%N -> exists2 j, inside kpts j & at_index (nth t0 U_Q m).2 j) ->
  exists u, convert_to_triqs rint U_Q units kpts = Some u /\ u (ravel kpts i) = (nth t0 U_Q n).1.
Proof.
move=> hi hn an un on; have [u [-> hu]] := convertE U_Q; exists u; split=> //; rewrite hu //.
have tn m : (m < size U_Q)%N -> (target (nth t0 U_Q m).2 == map Posz i) = (m == n).
  move=> hm; apply/eqP/eqP => [e|->]; last exact: target_at.
  have [j hj aj] := on m hm; apply: un => //; suff -> : i = j by [].
  by move: e; rewrite (target_at hj aj) => /(inj_map (fun x y (e : Posz x = Posz y) => let: erefl := e in erefl)).
apply: (last_match (d := t0)) => [m hm|]; first by rewrite tn // => /eqP ->.
by apply/(has_nthP t0); exists n; rewrite // tn.
Qed.
(* C96: a mesh point whose momentum is not in the files gets a zero interaction, without an error *)
Theorem C96_missing_refuted (U_Q : seq (tensor * momentum)) i : inside kpts i -> (forall m, (m < size U_Q)%N -> exists j, [/\ inside kpts j, at_index (nth t0 U_Q m).2 j & j <> i]) ->
  exists u, convert_to_triqs rint U_Q units kpts = Some u /\ forall a b c d, u (ravel kpts i) a b c d = 0.
Proof.
move=> hi on; have [u [-> hu]] := convertE U_Q; exists u; split=> // a b c d; rewrite hu // no_match //.
apply/(has_nthP t0) => -[m hm /eqP e]; have [j [hj aj nj]] := on m hm; apply: nj.
by move: e; rewrite (target_at hj aj) => /(inj_map (fun x y (e : Posz x = Posz y) => let: erefl := e in erefl)).
Qed.
(* C96: a momentum on the far face of the zone is not folded back *)
Theorem C96_far_face_refuted (T : tensor) y z i : inside kpts i -> exists u, convert_to_triqs rint [:: (T, (1, y, z))] units kpts = Some u /\ forall a b c d, u (ravel kpts i) a b c d = 0.
Proof.
move=> hi; have [u [-> hu]] := convertE [:: (T, (1, y, z) : momentum)]; exists u; split=> // a b c d; rewrite hu //=; case: eqP => // e.
have := congr1 (nth 0 ^~ 0%N) e; rewrite (nth_map 0%N) ?(inside_size hi) ?n3 //; have := inside_nth hi (a := 0%N); rewrite n3 => /(_ isT).
rewrite /target; case: (kpts) => [|k ks] //= hk; rewrite mul1r (_ : rint k%:R = k%:Z); last by apply: rd; rewrite subrr normr0 invr_gt0 ltr0n.
by rewrite /= => -[e0]; rewrite e0 ltnn in hk.
Qed.
(* the order of the momenta does not depend on the order in the files *)
Lemma lexle_total : total (@lexle R).
Proof.
move=> [[x y] z] [[x' y'] z'] /=; case: (ltgtP x x') => //= _; case: (ltgtP y y') => //= _; exact: le_total.
Qed.
Lemma lexle_trans : transitive (@lexle R).
Proof.
move=> [[x y] z] [[x1 y1] z1] [[x2 y2] z2] /=.
case: (ltgtP x1 x) => //= [h _|<-].
  case: (ltgtP x x2) => //= [h2 _|<- _]; last by rewrite h.
  by rewrite (lt_trans h h2).
case: (ltgtP x1 x2) => //= _; case: (ltgtP y1 y) => //= [h _|<-].
  case: (ltgtP y y2) => //= [h2 _|<- _]; last by rewrite h.
  by rewrite (lt_trans h h2).
case: (ltgtP y1 y2) => //= _; exact: le_trans.
Qed.
Lemma lexle_anti : antisymmetric (@lexle R).
Proof.
move=> [[x y] z] [[x1 y1] z1] /=; case: (ltgtP x x1) => //= ->; case: (ltgtP y y1) => //= -> /le_anti -> //.
Qed.
(* C96: both interactions on the mesh *)
Theorem C96_interaction eps norb (TU TV TR : table) qs qs' qs2 u_full v_full v_redu orbsub : 0 < eps -> (0 < norb)%N -> qs != [::] -> qs =i qs' -> qs =i qs2 ->
  [/\ all (fun d => size d != 1%N) u_full, all (fun d => size d != 1%N) v_full & all (fun d => size d != 1%N) v_redu] ->
  [/\ describes norb TU qs u_full, describes norb TV qs' v_full & describes norb TR qs2 v_redu] -> all (fun x => x < norb)%N orbsub ->
  (forall q, q \in qs -> exists2 i, inside kpts i & at_index q i) -> (forall q q' i, q \in qs -> q' \in qs -> inside kpts i -> at_index q i -> at_index q' i -> q = q') ->
  exists v u, read_to_triqs true eps rint u_full v_full v_redu units kpts orbsub = Some (v, u) /\
  forall q i a b c d, q \in qs -> inside kpts i -> at_index q i ->
    let o x := nth 0%N (orbitals norb orbsub) x in
    (a < size (orbitals norb orbsub))%N -> (b < size (orbitals norb orbsub))%N -> (c < size (orbitals norb orbsub))%N -> (d < size (orbitals norb orbsub))%N ->
    v (ravel kpts i) a b c d = TV q (o b) (o a) (o d) (o c) /\
    u (ravel kpts i) a b c d = TU q (o b) (o a) (o d) (o c) + (TV q (o b) (o a) (o d) (o c) - TR q (o b) (o a) (o d) (o c)).
Proof.
move=> e0 n0 q0 m1 m2 [f1 f2 f3] [d1 d2 d3] ho on un.
have q1 : qs' != [::] by apply: contraNneq q0 => e; rewrite e in m1; case: (qs) m1 => // x s /(_ x); rewrite inE eqxx.
have q2 : qs2 != [::] by apply: contraNneq q0 => e; rewrite e in m2; case: (qs) m2 => // x s /(_ x); rewrite inE eqxx.
have [r1 [g1 h1 t1]] := C96_read e0 n0 q0 f1 d1 ho; have [r2 [g2 h2 t2]] := C96_read e0 n0 q1 f2 d2 ho; have [r3 [g3 h3 t3]] := C96_read e0 n0 q2 f3 d3 ho.
have srt s s' : s =i s' -> sort (@lexle R) (undup s) = sort (@lexle R) (undup s').
  by move=> e; apply/perm_sortP; [exact: lexle_total | exact: lexle_trans | exact: lexle_anti | apply: uniq_perm; rewrite ?undup_uniq // => x; rewrite !mem_undup].
rewrite -(srt _ _ m1) in h2; rewrite -(srt _ _ m2) in h3; set Q := sort _ _ in h1 h2 h3.
have uQ : uniq Q by rewrite sort_uniq undup_uniq.
have mQ q : (q \in Q) = (q \in qs) by rewrite mem_sort mem_undup.
have s1 : size r1 = size Q by rewrite -h1 size_map. have s2 : size r2 = size Q by rewrite -h2 size_map. have s3 : size r3 = size Q by rewrite -h3 size_map.
rewrite /read_to_triqs g1 g2 g3 !eqxx /= /broadcast !size_map s2 s3 eqxx !size_map size_zip !size_map s1 s2 s3 minnn eqxx size_map size_zip !size_map size_zip !size_map.
rewrite s1 s2 s3 !minnn leqnn /=.
have mesh (W : seq (tensor * momentum)) : size W = size Q -> (forall m, (m < size Q)%N -> (nth t0 W m).2 = nth (0, 0, 0) Q m) ->
    exists u, convert_to_triqs rint W units kpts = Some u /\ forall q i, q \in qs -> inside kpts i -> at_index q i -> u (ravel kpts i) = (nth t0 W (index q Q)).1.
  move=> sW eW; have [u [eu _]] := convertE W; exists u; split=> // q i hq hi ai.
  have hn : (index q Q < size Q)%N by rewrite index_mem mQ.
  have [] := @C96_mesh W i (index q Q) hi.
  - by rewrite sW.
  - by rewrite eW // nth_index ?mQ.
  - move=> m; rewrite sW => hm; rewrite eW // => am; rewrite -(index_uniq (0, 0, 0) hm uQ); congr index.
    by apply: un am ai => //; rewrite -mQ mem_nth.
  - by move=> m; rewrite sW => hm; rewrite eW //; apply: on; rewrite -mQ mem_nth.
  by move=> u' []; rewrite eu => -[<-].
set W1 := zip [seq p.1 | p <- r2] _; set W2 := zip [seq _ | p <- zip _ _] _.
have n2 m : (m < size Q)%N -> nth (0, 0, 0) [seq p.2 | p <- r3] m = nth (0, 0, 0) Q m by rewrite h3.
have e1 m : (m < size Q)%N -> nth t0 W1 m = ((nth t0 r2 m).1, nth (0, 0, 0) Q m).
  by move=> hm; rewrite /W1 nth_zip ?size_map ?s2 ?s3 // n2 // (nth_map t0) ?s2.
have e2 m : (m < size Q)%N -> nth t0 W2 m = ((fun a b c d => (nth t0 r1 m).1 a b c d + ((nth t0 r2 m).1 a b c d - (nth t0 r3 m).1 a b c d)), nth (0, 0, 0) Q m).
  move=> hm; rewrite /W2 nth_zip ?size_map ?size_zip ?size_map ?size_zip ?size_map ?s1 ?s2 ?s3 ?minnn //; congr (_, _); last by rewrite n2.
  rewrite (nth_map (t0.1, t0.1)) ?size_zip ?size_map ?size_zip ?size_map ?s1 ?s2 ?s3 ?minnn // nth_zip ?size_map ?size_zip ?size_map ?s1 ?s2 ?s3 ?minnn //=.
  rewrite (nth_map t0) ?s1 // (nth_map (t0.1, t0.1)) ?size_zip ?size_map ?s2 ?s3 ?minnn // nth_zip ?size_map ?s2 ?s3 //= !(nth_map t0) ?s2 ?s3 //.
have [||v [-> hv]] := mesh W1; first by rewrite size_zip !size_map s2 s3 minnn.
  by move=> m hm; rewrite e1.
have [||u [-> hu]] := mesh W2; first by rewrite !(size_zip, size_map) s1 s2 s3 !minnn.
  by move=> m hm; rewrite e2.
exists v, u; split=> // q i a b c d hq hi ai ha hb hc hd; rewrite (hv q) // (hu q) //.
have hn : (index q Q < size Q)%N by rewrite index_mem mQ.
have nq (r : seq (tensor * momentum)) : [seq p.2 | p <- r] = Q -> (nth t0 r (index q Q)).2 = q.
  by move=> er; rewrite -(nth_map _ (0, 0, 0) snd) ?er ?nth_index ?mQ // -(size_map snd) er.
rewrite e1 // e2 //=; split; first by rewrite t2 ?s2 //= nq.
by rewrite t1 ?s1 // t2 ?s2 // t3 ?s3 //= !nq.
Qed.
End Thms.

(* files that meet the hypotheses, for every number of orbitals and table *)
Section Case.
Variables (R : realFieldType) (V : zmodType).
Local Notation quad := ((nat * nat) * (nat * nat))%type.
Definition quads (norb : nat) : seq quad := [seq (x, y) | x <- all_pairs norb, y <- all_pairs norb].
Definition row_of (T : table R V) (q : momentum R) (x : quad) : row R V := Row q (x.1.1.+1, x.1.2.+1, x.2.1.+1, x.2.2.+1) (T q x.1.1 x.1.2 x.2.1 x.2.2).
Definition file_of (norb : nat) (T : table R V) (qs : seq (momentum R)) : seq (row R V) := flatten [seq [seq row_of T q x | x <- quads norb] | q <- qs].
Lemma quads_mem norb x : (x \in quads norb) = [&& x.1.1 < norb, x.1.2 < norb, x.2.1 < norb & x.2.2 < norb]%N.
Proof.
have pm n (p : nat * nat) : (p \in all_pairs n) = (p.1 < n)%N && (p.2 < n)%N.
  case: p => a b; apply/allpairsP/andP => [[[i j] [/= hi hj [-> ->]]]|[/= ha hb]]; first by move: hi hj; rewrite !mem_iota.
  by exists (a, b); rewrite !mem_iota /= ha hb.
case: x => x y; apply/allpairsP/and4P => [[[i j] [/= hi hj [-> ->]]]|[/= h1 h2 h3 h4]].
  by move: hi hj; rewrite !pm => /andP[-> ->] /andP[-> ->].
by exists (x, y); rewrite !pm h1 h2 h3 h4.
Qed.
Lemma describes_file norb T qs : describes norb T qs [:: file_of norb T qs].
Proof.
exists [seq [seq row_of T q x | x <- quads norb] | q <- qs]; split; rewrite ?size_map //=; first by rewrite cats0.
move=> n hn; rewrite (nth_map (0, 0, 0)) //; set q := nth _ _ n; split.
- by rewrite size_map !size_allpairs !size_iota /= !expnS expn0 muln1 -mulnA.
- move=> m; rewrite size_map => hm; set x := nth ((0, 0), (0, 0))%N (quads norb) m.
  have : x \in quads norb by rewrite mem_nth.
  rewrite quads_mem => /and4P[h1 h2 h3 h4]; exists x.1.1, x.1.2, x.2.1, x.2.2; split; first by rewrite h1 h2 h3 h4.
  by rewrite (nth_map ((0, 0), (0, 0))%N).
move=> i j k l hi hj hk hl; have hx : ((i, j), (k, l)) \in quads norb by rewrite quads_mem /= hi hj hk hl.
exists (index ((i, j), (k, l)) (quads norb)); first by rewrite size_map index_mem.
by rewrite (nth_map ((0, 0), (0, 0))%N) ?index_mem // nth_index.
Qed.
Definition qs_case : seq (momentum R) := [:: (0, 0, 0); (- 2%:R^-1, 0, 0)].
Definition kpts_case : seq nat := [:: 2; 1; 1]%N.
Theorem C96_case norb (T : table R V) : (1 < norb)%N ->
  [/\ describes norb T qs_case [:: file_of norb T qs_case], size (file_of norb T qs_case) != 1%N, qs_case != [::] & uniq qs_case] /\
  [/\ size kpts_case = 3%N, all (ltn 0%N) kpts_case, at_index kpts_case (0, 0, 0 : R) [:: 0; 0; 0]%N & at_index kpts_case (- 2%:R^-1, 0, 0 : R) [:: 1; 0; 0]%N] /\
  forall q q' i, q \in qs_case -> q' \in qs_case -> inside kpts_case i -> at_index kpts_case q i -> at_index kpts_case q' i -> q = q'.
Proof.
move=> n2; have h2 : - 2%:R^-1 * 2%:R = (- 1)%:~R :> R by rewrite mulNr mulVf ?pnatr_eq0 // rmorphN1.
have near (m m' : int) : `|m%:~R - m'%:~R| < 2%:R^-1 :> R -> m' = m.
  rewrite -rmorphB -intr_norm => h; have : `|m - m'|%:~R < 1%:~R :> R.
    by apply: lt_trans h _; rewrite invf_lt1 ?ltr1n ?ltr0n.
  by rewrite ltr_int => h1; apply/eqP; rewrite eq_sym -subr_eq0 -normr_eq0; lia.
have half (x : R) m : x = m%:~R -> `|x - m%:~R| < 2%:R^-1 by move=> ->; rewrite subrr normr0 invr_gt0 ltr0n.
have i0 (q : momentum R) i (m : int) : nth 0 (comp q) 0%N * 2%:R = m%:~R -> at_index kpts_case q i -> (m = (nth 0%N i 0%N)%:Z %[mod 2])%Z.
  by move=> e [f /(_ 0%N isT)[/= h _ hm]]; move: h; rewrite e => /near em; rewrite -em.
have d : (0, 0, 0) != (- 2%:R^-1, 0, 0) :> momentum R.
  by rewrite /eq_op /= !eqxx !andbT /eq_op /= eqxx andbT eq_sym oppr_eq0 invr_eq0 pnatr_eq0.
split; first split=> //.
- exact: describes_file.
- rewrite /file_of /= cats0 size_cat !size_map !size_allpairs !size_iota; move: n2; case: norb => [|[|n]] // _; lia.
- by rewrite /qs_case /= inE d.
split; first split=> //.
- exists (fun=> 0) => a ha; split; first by apply: half; case: a ha => [|[|[|a]]] //= _; rewrite mul0r.
    by case: a ha => [|[|[|a]]].
  by case: a ha => [|[|[|a]]].
- exists (fun a => if a is 0%N then - 1 else 0) => a ha; split; first by apply: half; case: a ha => [|[|[|a]]] //= _; rewrite ?h2 ?mul0r.
    by case: a ha => [|[|[|a]]].
  by case: a ha => [|[|[|a]]].
have no i : at_index kpts_case (0, 0, 0 : R) i -> at_index kpts_case (- 2%:R^-1, 0, 0 : R) i -> False.
  by move=> /(i0 _ _ 0) h1 /(i0 _ _ (- 1)) h3; move: (h1 (mul0r _)) (h3 h2) => <-.
by move=> q q' i; rewrite !inE => /orP[/eqP ->|/eqP ->] /orP[/eqP ->|/eqP ->] // _ a1 a2; case: (no i).
Qed.
End Case.
Print Assumptions C96_read.
Print Assumptions C96_one_row_refuted.
Print Assumptions C96_numpy_refuted.
Print Assumptions C96_mesh.
Print Assumptions C96_missing_refuted.
Print Assumptions C96_far_face_refuted.
Print Assumptions C96_interaction.
Print Assumptions C96_case.
