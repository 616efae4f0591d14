(* C48: parameter packing of the DLR fit. *)
From mathcomp Require Import all_ssreflect all_algebra.
From mathcomp Require Import zify.
From Verif Require Import SymmetryModel SymmetryProofs ParamThms DlrFitModel.
Set Implicit Arguments.
Unset Strict Implicit.
Unset Printing Implicit Defensive.
Import GRing.Theory Num.Theory.
Local Open Scope ring_scope.

(* the number of pairs *)
Lemma size_triu n : size (triu n) = pairs_number n.
Proof.
have e : (size (triu n) + size (tril n) + n = n * n)%N.
  have <- : size (all_pairs n) = (n * n)%N by rewrite size_allpairs !size_iota.
  rewrite /triu /tril !size_filter -{3}(size_iota 0 n).
  have -> : size (iota 0 n) = count (fun p : nat * nat => p.1 == p.2) (all_pairs n).
    rewrite -size_filter -(size_map (fun i => (i, i))); apply/perm_size/uniq_perm.
    - by rewrite map_inj_uniq ?iota_uniq // => i j [].
    - exact/filter_uniq/uniq_all_pairs.
    move=> [a b]; rewrite mem_filter mem_all_pairs /=; apply/mapP/andP => [[i] + [-> ->]|[/eqP-> /andP[h _]]].
      by rewrite mem_iota => h; rewrite eqxx; lia.
    by exists b; rewrite // mem_iota.
  elim: (all_pairs n) => [|[a b] r /= <-] //=; case: (ltngtP a b) => _ /=; lia.
rewrite -size_triangles in e; rewrite /pairs_number mulnBr muln1 -e; lia.
Qed.
Section Packing.
Variable C : numClosedFieldType.
Implicit Types (g : data C) (v : seq C) (pos : seq (nat * nat)).
Lemma size_get nx pos g : size (get_at nx pos g) = (nx * size pos)%N.
Proof. by rewrite size_allpairs size_iota. Qed.
Lemma nth_get nx pos g x k : (x < nx)%N -> (k < size pos)%N ->
  nth 0 (get_at nx pos g) (x * size pos + k)%N = g x (nth (0, 0)%N pos k).1 (nth (0, 0)%N pos k).2.
Proof.
move=> hx hk; rewrite /get_at (@nth_block nat C 0 _ _ 0%N) ?size_iota // => [|a]; last by rewrite size_map.
by rewrite (nth_map (0, 0)%N) // nth_iota.
Qed.
(* reading what was written *)
Lemma get_set nx pos g v : size v = (nx * size pos)%N ->
  (forall x k, (x < nx)%N -> (k < size pos)%N -> g x (nth (0, 0)%N pos k).1 (nth (0, 0)%N pos k).2 = nth 0 v (x * size pos + k)%N) ->
  get_at nx pos g = v.
Proof.
move=> sv h; apply: (@eq_from_nth _ 0) => [|j]; rewrite size_get // => hj.
have hs : (0 < size pos)%N by case: (size pos) hj; rewrite ?muln0.
rewrite (divn_eq j (size pos)) nth_get ?h ?ltn_mod // ltn_divLR //.
Qed.
Lemma set_atE pos (val : nat -> nat -> C) g x k : uniq pos -> (k < size pos)%N ->
  set_at pos val g x (nth (0, 0)%N pos k).1 (nth (0, 0)%N pos k).2 = val x k.
Proof. by move=> u hk; rewrite /set_at -surjective_pairing mem_nth // index_uniq. Qed.
Lemma set_at_out pos (val : nat -> nat -> C) g x a b : (a, b) \notin pos -> set_at pos val g x a b = g x a b.
Proof. by rewrite /set_at => /negbTE->. Qed.
Lemma uniq_diag s : uniq s -> uniq (diagonal s).
Proof. by rewrite map_inj_uniq // => i j []. Qed.
Lemma mem_diag s a b : ((a, b) \in diagonal s) = (a == b) && (a \in s).
Proof.
apply/mapP/andP => [[i hi [-> ->]]|[/eqP<- h]]; first by rewrite eqxx.
by exists a.
Qed.
(* real and imaginary parts *)
Definition real_vector v : bool := all (fun z => z \is Num.real) v.
Lemma map_Re v : real_vector v -> [seq 'Re z | z <- v] = v.
Proof. by elim: v => //= z v ih /andP[/Creal_ReP-> /ih->]. Qed.
Lemma Re_merge v w : real_vector v -> real_vector w -> size v = size w -> [seq 'Re z | z <- [seq p.1 + 'i * p.2 | p <- zip v w]] = v.
Proof.
elim: v w => [|a v ih] [|b w] //= /andP[ra rv] /andP[rb rw] [e]; rewrite ih //; congr (_ :: _).
exact: Re_rect.
Qed.
Lemma Im_merge v w : real_vector v -> real_vector w -> size v = size w -> [seq 'Im z | z <- [seq p.1 + 'i * p.2 | p <- zip v w]] = w.
Proof.
elim: v w => [|a v ih] [|b w] //= /andP[ra rv] /andP[rb rw] [e]; rewrite ih //; congr (_ :: _).
exact: Im_rect.
Qed.
(* the number of parameters: nx (nd + nu) real or nx (nd + 2 nu) *)
Definition number (rv : bool) (nx nd nu : nat) : nat := (nx * (nd + (if rv then nu else nu + nu)))%N.
Lemma merge_ok rv nx no nu x : size x = number rv nx no nu -> real_vector x ->
  exists x_d x_u, [/\ merge_re_im rv nx no x = Some (x_d, x_u), size x_d = (nx * no)%N, size x_u = (nx * nu)%N, real_vector x_d &
    split_re_im rv x_d x_u = x].
Proof.
move=> sx rx; have sd : size (take (nx * no) x) = (nx * no)%N by rewrite size_takel // sx /number leq_mul2l leq_addr orbT.
have rd : real_vector (take (nx * no) x) by apply/allP => z /mem_take; apply/allP.
have ru : real_vector (drop (nx * no) x) by apply/allP => z /mem_drop; apply/allP.
rewrite /merge_re_im /split_re_im /number in sx *; case: rv sx => sx.
  exists (take (nx * no) x), (drop (nx * no) x); split=> //; first by rewrite size_drop sx mulnDr addKn.
  by rewrite !map_Re // cat_take_drop.
have su : size (drop (nx * no) x) = (nx * nu + nx * nu)%N by rewrite size_drop sx !mulnDr addKn.
set u := drop _ x in su ru *; have h : (size u)./2 = (nx * nu)%N by rewrite su addnn doubleK.
have -> : odd (size u) = false by rewrite su addnn odd_double.
have r1 : real_vector (take (size u)./2 u) by apply/allP => z /mem_take; apply/allP.
have r2 : real_vector (drop (size u)./2 u) by apply/allP => z /mem_drop; apply/allP.
have s1 : size (take (size u)./2 u) = (nx * nu)%N by rewrite size_takel h // su leq_addr.
have s2 : size (drop (size u)./2 u) = (nx * nu)%N by rewrite size_drop h su addKn.
eexists; eexists; split; first by []; rewrite ?sd //; first by rewrite size_map size_zip s1 s2 minnn.
by rewrite map_Re // Re_merge ?s1 ?s2 // Im_merge ?s1 ?s2 // cat_take_drop cat_take_drop.
Qed.
Lemma merge_split (rv : bool) nx no x_d x_u : size x_d = (nx * no)%N -> real_vector x_d -> (rv -> real_vector x_u) ->
  merge_re_im rv nx no (split_re_im rv x_d x_u) = Some (x_d, x_u).
Proof.
move=> sd rd ru; rewrite /merge_re_im /split_re_im; case: rv ru => [/(_ isT) ru|_].
  by rewrite !map_Re // -sd take_size_cat // drop_size_cat.
rewrite map_Re // -sd take_size_cat // drop_size_cat // size_cat !size_map addnn odd_double doubleK.
rewrite take_size_cat ?size_map // drop_size_cat ?size_map //; congr (Some (_, _)).
by elim: (x_u) => //= z r ->; rewrite -Crect.
Qed.

(* specification *)
Definition hermitian (nx no : nat) g : Prop := forall x a b, (x < nx)%N -> (a < no)%N -> (b < no)%N -> g x a b = (g x b a)^*.
Section Plain.
Variables (nx no : nat).
Let N := pairs_number no.
Lemma plain_set x_d x_u : size x_d = (nx * no)%N -> size x_u = (nx * N)%N ->
  exists g0 g, [/\ set_x_u (Symmetrizer C nx no) (fun _ _ _ => 0) x_u = Some g0, set_x_d (Symmetrizer C nx no) g0 x_d = Some g &
   forall x a b, (a < no)%N -> (b < no)%N -> g x a b =
     if a == b then nth 0 x_d (x * no + a)%N
     else if (a < b)%N then nth 0 x_u (x * N + index (a, b) (triu no))%N
     else (nth 0 x_u (x * N + index (a, b) (tril no))%N)^* ].
Proof.
move=> sd su; rewrite /= /reshape sd su !eqxx; eexists; eexists; split; [by []|by []|].
move=> x a b ha hb; rewrite {1}/set_at mem_diag mem_iota /= add0n ha andbT; case: (a =P b) => [<-|/eqP n].
  have -> : index (a, a) (diagonal (iota 0 no)) = a; last by [].
  have -> : (a, a) = nth (0, 0)%N (diagonal (iota 0 no)) a by rewrite (nth_map 0%N) ?size_iota // nth_iota.
  by rewrite index_uniq ?size_map ?size_iota ?uniq_diag ?iota_uniq.
rewrite {1}/set_at mem_tril /= ha andbT; case: (ltngtP a b) n => // h _.
  by rewrite {1}/set_at mem_triu /= h hb.
have ht : (index (a, b) (tril no) < size (triu no))%N by rewrite size_triangles index_mem mem_tril /= h ha.
by congr (_^* ); rewrite set_atE ?uniq_triu.
Qed.
(* C48: every real parameter vector is accepted, and unpacking the packed vector gives it back *)
Theorem C48_roundtrip rv x : size x = number rv nx no N -> real_vector x ->
  exists g, g_from_x (Symmetrizer C nx no) rv nx no x = Some g /\ x_from_g (Symmetrizer C nx no) rv g = x.
Proof.
move=> sx rx; have [x_d [x_u [e sd su rd es]]] := merge_ok sx rx.
have [g0 [g [e0 e1 hg]]] := plain_set sd su.
exists g; rewrite /g_from_x e e0 e1; split=> //; rewrite -{}es; congr (split_re_im rv _ _).
  apply: get_set; rewrite ?uniq_diag ?iota_uniq ?size_map ?size_iota // => x' k hx hk.
  by rewrite (nth_map 0%N) ?size_iota //= nth_iota // add0n hg // eqxx.
apply: get_set; rewrite ?uniq_triu ?size_triu // => x' k hx hk.
have := mem_nth (0, 0)%N (s := triu no) (n := k); rewrite size_triu => /(_ hk).
rewrite mem_triu => /andP[h1 h2]; rewrite hg ?(ltn_trans h1 h2) // -surjective_pairing (ltn_eqF h1) h1.
by rewrite index_uniq ?uniq_triu ?size_triu.
Qed.
Lemma tril_index a' b' : (no <= 3)%N -> (a' < b')%N -> (b' < no)%N -> index (b', a') (tril no) = index (a', b') (triu no).
Proof.
move=> h3 h hb'; have hm : (a', b') \in triu no by rewrite mem_triu /= h.
rewrite -[(b', a')]/(swap (a', b')) -(mate_small h3 hm) /mate index_uniq ?uniq_tril //.
by rewrite -size_triangles index_mem.
Qed.
Theorem C48_hermitian_partial (rv : bool) x : (no <= 3)%N -> size x = number rv nx no N -> real_vector x ->
  exists g, g_from_x (Symmetrizer C nx no) rv nx no x = Some g /\ hermitian nx no g.
Proof.
move=> h3 sx rx; have [x_d [x_u [e sd su rd es]]] := merge_ok sx rx.
have [g0 [g [e0 e1 hg]]] := plain_set sd su.
exists g; rewrite /g_from_x e e0 e1; split=> // x' a b hx ha hb; rewrite !hg // (eq_sym b a).
case: (ltngtP a b) => h; rewrite ?(tril_index h3) ?conjCK //.
rewrite -h; apply/esym/CrealP.
have := allP rd (nth 0 x_d (x' * no + a)%N); apply; apply: mem_nth.
by rewrite sd; apply: (@leq_trans (x'.+1 * no)); [rewrite mulSn addnC ltn_add2r | rewrite leq_mul2r hx orbT].
Qed.
(* packing undoes unpacking *)
Theorem C48_unpack_partial (rv : bool) g : (no <= 3)%N -> hermitian nx no g -> (rv -> forall x a b, g x a b \is Num.real) ->
  exists g', g_from_x (Symmetrizer C nx no) rv nx no (x_from_g (Symmetrizer C nx no) rv g) = Some g' /\
    forall x a b, (x < nx)%N -> (a < no)%N -> (b < no)%N -> g' x a b = g x a b.
Proof.
move=> h3 hg hr; rewrite /g_from_x /x_from_g.
have sd : size (get_x_d (Symmetrizer C nx no) g) = (nx * no)%N by rewrite size_get size_map size_iota.
have su : size (get_x_u (Symmetrizer C nx no) g) = (nx * N)%N by rewrite size_get size_triu.
rewrite (merge_split sd) //; last 2 first.
- apply/allP => z /allpairsP[[x p] /= [hx /mapP[a ha ->] ->]]; apply/CrealP/esym; move: hx ha; rewrite !mem_iota => /= hx ha.
  exact: hg.
- by move=> r; apply/allP => z /allpairsP[[x p] /= [_ _ ->]]; apply: hr.
have [g0 [g' [-> -> hg']]] := plain_set sd su; exists g'; split=> // x a b hx ha hb; rewrite hg' //.
have hd c : (c < no)%N -> nth 0 (get_x_d (Symmetrizer C nx no) g) (x * no + c)%N = g x c c.
  move=> hc; have := @nth_get nx (diagonal (iota 0 no)) g x c hx; rewrite size_map size_iota => /(_ hc)->.
  by rewrite (nth_map 0%N) ?size_iota //= nth_iota.
have hu p : p \in triu no -> nth 0 (get_x_u (Symmetrizer C nx no) g) (x * N + index p (triu no))%N = g x p.1 p.2.
  move=> hp; have := @nth_get nx (triu no) g x (index p (triu no)) hx; rewrite index_mem nth_index // size_triu => -> //.
case: (ltngtP a b) => h; last by rewrite hd // h.
  by rewrite hu ?mem_triu /= ?h ?hb.
by rewrite (tril_index h3) // hu ?mem_triu /= ?h ?ha // [RHS]hg.
Qed.
(* ... but from four orbitals on, the packing does not produce Hermitian matrices. *)
Theorem C48_hermitian_refuted rv : (4 <= no)%N -> (0 < nx)%N ->
  exists x g, [/\ size x = number rv nx no N, real_vector x, g_from_x (Symmetrizer C nx no) rv nx no x = Some g & ~ hermitian nx no g].
Proof.
move=> h4 h0.
pose k := index (0, 3)%N (triu no).
pose x := mkseq (fun i => (i == nx * no + k)%N%:R : C) (number rv nx no N).
have rx : real_vector x by apply/allP => z /mapP[i _ ->]; rewrite realn.
have sx : size x = number rv nx no N by rewrite size_mkseq.
have [x_d [x_u [e sd su rd es]]] := merge_ok sx rx.
have [g0 [g [e0 e1 hg]]] := plain_set sd su.
exists x, g; rewrite /g_from_x e e0 e1; split=> // h.
have hk : (k < N)%N by rewrite /N -size_triu index_mem mem_triu /=.
have hre j : (j < nx * N)%N -> 'Re (nth 0 x_u j) = (j == k)%:R.
  move=> hj; have hx : nth 0 x (nx * no + j)%N = (j == k)%:R.
    rewrite nth_mkseq ?eqn_add2l // /number mulnDr ltn_add2l; case: (rv) => //.
    by rewrite mulnDr ltn_addr.
  rewrite -{}hx -es /split_re_im; case: (rv); rewrite nth_cat size_map sd ltnNge leq_addr /= addKn ?nth_cat ?size_map ?su ?hj (nth_map 0) ?su //.
have := h 0%N 0%N 3%N h0 (leq_trans _ h4) h4; rewrite !hg //= ?(leq_trans _ h4) // conjCK mul0n !add0n => /(_ isT).
move=> /(congr1 (fun z => 'Re z)); rewrite -/k.
have hm : (index (3, 0)%N (tril no) < N)%N by rewrite /N -size_triu size_triangles index_mem mem_tril /= h4.
have hN : (N <= nx * N)%N by rewrite leq_pmull.
rewrite !hre ?(leq_trans hk) ?(leq_trans hm) // eqxx; case: eqP => [ei|_ /eqP]; last by rewrite oner_eq0.
have := mate_big h4; rewrite /mate -/k -ei nth_index // mem_tril /= h4 //.
Qed.
End Plain.

Section Block.
Variables (nx no : nat) (mat : nat -> nat -> int).
Let N := pairs_number no.
Local Notation D := (diag_terms no mat).
Local Notation U := (triu_terms no mat).
Local Notation sym := (BlockSymmetrizer C nx no mat).
Lemma uniq_terms s : uniq (unique_non_zero s).
Proof. by apply: filter_uniq; rewrite sort_uniq undup_uniq. Qed.
Lemma size_terms s : (size (unique_non_zero s) <= size s)%N.
Proof.
apply: leq_trans (size_undup s); rewrite -(size_sort <=%R (undup s)); exact/size_subseq/filter_subseq.
Qed.
Lemma mem_terms s t : (t \in unique_non_zero s) = (t != 0) && (t \in s).
Proof. by rewrite mem_filter mem_sort mem_undup. Qed.
Lemma size_U : (size U <= N)%N.
Proof. by apply: leq_trans (size_terms _) _; rewrite size_map size_triu. Qed.
Lemma size_D : (size D <= no)%N.
Proof. by apply: leq_trans (size_terms _) _; rewrite size_map size_iota. Qed.
(* writing the terms of a list T of labels on the positions P *)
Lemma set_terms_ok m v t0 (P : seq (nat * nat)) (T : seq int) (g : data C) : uniq T -> size v = (nx * m)%N -> (t0 + size T <= m)%N ->
  exists g', set_terms nx m v t0 [seq [seq p <- P | mat p.1 p.2 == t] | t <- T] g = Some g' /\
    forall x a b, g' x a b = if ((a, b) \in P) && (mat a b \in T) then nth 0 v (x * m + t0 + index (mat a b) T)%N else g x a b.
Proof.
elim: T t0 g => [|t T ih] t0 g /=; first by move=> _ _ _; exists g; split=> // x a b; rewrite andbF.
move=> /andP[nt uT] sv ht; rewrite /column /reshape sv eqxx ifT; last by lia.
have [|g' [-> hg']] := ih t0.+1 (set_at [seq p <- P | mat p.1 p.2 == t] (fun x _ => nth 0 v (x * m + t0)%N) g) uT sv; first by lia.
exists g'; split=> // x a b; rewrite hg' inE; case: (boolP ((a, b) \in P)) => //= hp; last by rewrite set_at_out // mem_filter (negbTE hp) andbF.
rewrite /set_at mem_filter hp andbT /= (eq_sym t); case: (mat a b =P t) => [->|_] /=; first by rewrite (negbTE nt) addn0.
by case: ifP => // _; congr (nth 0 v _); lia.
Qed.
Lemma set_terms_bad m v t0 (idxs : seq (seq (nat * nat))) (g : data C) : idxs != [::] -> size v != (nx * m)%N -> set_terms nx m v t0 idxs g = None.
Proof. by case: idxs => //= pos r _ /negbTE h; rewrite /column /reshape h. Qed.
Lemma diag_idxsE : map diagonal (diag_term_idxs no mat) = [seq [seq p <- diagonal (iota 0 no) | mat p.1 p.2 == t] | t <- D].
Proof. by rewrite /diag_term_idxs -map_comp; apply: eq_map => t /=; rewrite /diagonal filter_map. Qed.
(* the first position of a label *)
Lemma head_term (T : eqType) (x0 : T) (P : seq T) (L : T -> int) t : t \in unique_non_zero (map L P) ->
  let p := head x0 [seq p <- P | L p == t] in p \in P /\ L p = t.
Proof.
rewrite mem_terms => /andP[_ /mapP[q hq e]]; have : q \in [seq p <- P | L p == t] by rewrite mem_filter hq e eqxx.
case e' : [seq p <- P | L p == t] => [|p r] // _ /=.
have : p \in [seq p <- P | L p == t] by rewrite e' inE eqxx.
by rewrite mem_filter => /andP[/eqP-> ->].
Qed.
Lemma nth_diag_idx k : (k < size D)%N -> let i := nth 0%N (diag_term_idx no mat) k in (i < no)%N /\ mat i i = nth 0 D k.
Proof.
move=> hk; rewrite /diag_term_idx /diag_term_idxs -map_comp (nth_map 0) //=.
by have [h ->] := @head_term _ 0%N (iota 0 no) (fun i => mat i i) _ (mem_nth 0 hk); move: h; rewrite mem_iota.
Qed.
Lemma nth_triu_idx k : (k < size U)%N -> let p := nth (0, 0)%N (triu_term_idx no mat) k in p \in triu no /\ mat p.1 p.2 = nth 0 U k.
Proof.
move=> hk; rewrite /triu_term_idx /triu_term_idxs -map_comp (nth_map 0) //=.
exact: (@head_term _ (0, 0)%N (triu no) (fun p => mat p.1 p.2) _ (mem_nth 0 hk)).
Qed.
(* specification: entries with equal labels are equal, entries without label vanish *)
Definition follows_labels (g : data C) : Prop := forall x a b, (x < nx)%N -> (a < no)%N -> (b < no)%N ->
  (a <= b)%N -> (mat a b = 0 -> g x a b = 0) /\
  forall a' b', (a' < no)%N -> (b' < no)%N -> (a == b) = (a' == b') -> (a' <= b')%N -> mat a b = mat a' b' -> g x a b = g x a' b'.
Lemma index_label (g : data C) x_d x_u md mu : (forall x a b, (a < no)%N -> (b < no)%N -> g x a b =
     if a == b then (if mat a a \in D then nth 0 x_d (x * md + index (mat a a) D)%N else 0)
     else if (a < b)%N then (if mat a b \in U then nth 0 x_u (x * mu + index (mat a b) U)%N else 0)
     else (if mat b a \in U then nth 0 x_u (x * mu + index (mat b a) U)%N else 0)^* ) -> follows_labels g.
Proof.
move=> hg x a b hx ha hb hab; rewrite (hg x a b) //; split=> [e|a' b' ha' hb' e hab' em].
  case: eqP => [e'|n]; last by rewrite ifT ?e ?mem_terms ?eqxx //; lia.
  have -> : mat a a = 0 by rewrite {2}e'.
  by rewrite mem_terms eqxx.
rewrite (hg x a' b') // -e; case: (a =P b) e => [ab e|ab e].
  by have /eqP e2 := esym e; move: em; rewrite -ab -e2 => ->.
have -> : (a < b)%N by lia.
have -> : (a' < b')%N by lia.
by rewrite em.
Qed.
(* BlockSymmetrizer without labels above the diagonal: any number of labels *)
Theorem C48_block_diagonal (rv : bool) x : (0 < nx)%N -> U = [::] -> size x = number rv nx (size D) 0 -> real_vector x ->
  exists g, [/\ g_from_x sym rv nx no x = Some g, hermitian nx no g, follows_labels g & x_from_g sym rv g = x].
Proof.
move=> h0 eU; have -> : number rv nx (size D) 0 = (nx * size D)%N by rewrite /number; case: (rv); rewrite !addn0.
move=> sx rx; have hle : (nx * size D <= nx * no)%N by rewrite leq_mul2l size_D orbT.
have em : merge_re_im rv nx no x = Some (x, [::]).
  by rewrite /merge_re_im take_oversize ?drop_oversize ?sx //=; case: (rv).
have [|g' [e' hg']] := @set_terms_ok (size D) x 0 (diagonal (iota 0 no)) D (fun _ _ _ => 0 + 0^* ) (uniq_terms _) sx; first by [].
exists g'; rewrite /g_from_x em /= /block_set_x_u /triu_term_idxs eU /= /block_set_x_d (gtn_eqF h0) sx mulKn // diag_idxsE e'.
have {}hg' y a b : (a < no)%N -> (b < no)%N -> g' y a b = if (a == b) && (mat a a \in D) then nth 0 x (y * size D + index (mat a a) D)%N else 0.
  move=> ha hb; rewrite hg' mem_diag mem_iota ha /= andbT; case: eqP => [<-|_] /=; last by rewrite conjC0 addr0.
  by rewrite addn0; case: ifP; rewrite ?conjC0 ?addr0.
have rn k : (nth 0 x k)^* = nth 0 x k.
  apply/CrealP; case: (ltnP k (size x)) => hk; first by apply: (allP rx); apply: mem_nth.
  by rewrite nth_default // real0.
split=> //.
- move=> y a b _ ha hb; rewrite !hg' // (eq_sym b a); case: (a =P b) => [<-|_] /=; last by rewrite conjC0.
  by case: ifP; rewrite ?rn ?conjC0.
- apply: (@index_label g' x [::] (size D) 0) => y a b ha hb; rewrite hg' // eU /=.
  by case: (a =P b) => //= _; rewrite ?if_same ?conjC0 ?if_same.
rewrite /x_from_g /= /triu_term_idx /triu_term_idxs eU /=.
have -> : get_at nx [::] g' = [::] by apply/size0nil; rewrite size_get muln0.
have ex : get_at nx (diagonal (diag_term_idx no mat)) g' = x.
  have sD : size (diagonal (diag_term_idx no mat)) = size D by rewrite !size_map.
  apply: get_set; rewrite ?sD // => y k hy hk; rewrite (nth_map 0%N) ?size_map //=; have [hi hm] := nth_diag_idx hk.
  by rewrite hg' // eqxx hm mem_nth //= index_uniq ?uniq_terms.
by rewrite ex /split_re_im /=; case: (rv); rewrite cats0 map_Re.
Qed.
(* BlockSymmetrizer with all labels different: any number of orbitals *)
Theorem C48_block_full (rv : bool) x : (0 < nx)%N -> size D = no -> size U = N -> size x = number rv nx no N -> real_vector x ->
  exists g, [/\ g_from_x sym rv nx no x = Some g, hermitian nx no g, follows_labels g & x_from_g sym rv g = x].
Proof.
move=> h0 eD eU sx rx; have [x_d [x_u [em sd su rd es]]] := merge_ok sx rx.
have [|g1 [e1 hg1]] := @set_terms_ok N x_u 0 (triu no) U (fun _ _ _ => 0) (uniq_terms _) su; first by rewrite eU.
have [|g [e hg]] := @set_terms_ok no x_d 0 (diagonal (iota 0 no)) D (fun x a b => g1 x a b + (g1 x b a)^* ) (uniq_terms _) sd; first by rewrite eD.
have ei : (size x_d %/ nx)%N = no by rewrite sd mulKn.
exists g; rewrite /g_from_x em /= /block_set_x_u -/N e1 /block_set_x_d (gtn_eqF h0) ei diag_idxsE e.
have {}hg y a b : (a < no)%N -> (b < no)%N -> g y a b =
     if a == b then (if mat a a \in D then nth 0 x_d (y * no + index (mat a a) D)%N else 0)
     else if (a < b)%N then (if mat a b \in U then nth 0 x_u (y * N + index (mat a b) U)%N else 0)
     else (if mat b a \in U then nth 0 x_u (y * N + index (mat b a) U)%N else 0)^*.
  move=> ha hb; rewrite hg !hg1 mem_diag mem_iota ha /= andbT !mem_triu /= ha hb !andbT !addn0.
  case: (ltngtP a b) => h /=; rewrite ?conjC0 ?add0r ?addr0 //.
  by rewrite -h; case: ifP.
have rn k : (nth 0 x_d k)^* = nth 0 x_d k.
  apply/CrealP; case: (ltnP k (size x_d)) => hk; first by apply: (allP rd); apply: mem_nth.
  by rewrite nth_default // real0.
split=> //.
- move=> y a b _ ha hb; rewrite !hg // (eq_sym b a); case: (ltngtP a b) => h /=; rewrite ?conjCK //.
  by rewrite -h; case: ifP; rewrite ?rn ?conjC0.
- exact: index_label hg.
rewrite -es /x_from_g; congr (split_re_im rv _ _) => /=.
  have sD : size (diagonal (diag_term_idx no mat)) = no by rewrite !size_map.
  apply: get_set; rewrite ?sD // => y k hy hk; rewrite (nth_map 0%N) ?size_map -/D ?eD //=; have [|hi hm] := @nth_diag_idx k; first by rewrite eD.
  by rewrite hg // eqxx hm mem_nth ?eD //= index_uniq ?uniq_terms ?eD.
have sU : size (triu_term_idx no mat) = N by rewrite !size_map.
apply: get_set; rewrite ?sU // => y k hy hk; have [|hi hm] := @nth_triu_idx k; first by rewrite eU.
move: hi; rewrite mem_triu => /andP[h1 h2]; rewrite hg ?(ltn_trans h1 h2) // (ltn_eqF h1) h1 hm mem_nth ?eU //=.
by rewrite index_uniq ?uniq_terms ?eU.
Qed.
(* ... all other label matrices raise an exception, for every vector of the size of an unpacked one. *)
Lemma size_unpack (rv : bool) (g : data C) : size (x_from_g sym rv g) = number rv nx (size D) (size U).
Proof.
by rewrite /x_from_g /split_re_im /number /=; case: rv; rewrite !size_cat !size_map !size_get !size_map !mulnDr.
Qed.
Theorem C48_block_refuted (rv : bool) x : (0 < nx)%N -> U != [::] -> ~ (size D = no /\ size U = N) -> size x = number rv nx (size D) (size U) ->
  g_from_x sym rv nx no x = None.
Proof.
move=> h0 nU nn sx; have hD := size_D; have hU := size_U; have pU : (0 < size U)%N by case: (U) nU.
rewrite /g_from_x; have su : size (drop (nx * no) x) = (nx * (size D + (if rv then size U else size U + size U) - no))%N.
  by rewrite size_drop sx /number mulnBr.
have nI : triu_term_idxs no mat != [::] by rewrite -size_eq0 size_map -lt0n.
rewrite /merge_re_im; case: rv {sx} su => su.
  rewrite /= /block_set_x_u set_terms_bad // su eqn_pmul2l // -/N; apply/eqP => e; apply: nn.
  by split; lia.
case: ifP => // /negbT ho; rewrite /= /block_set_x_u set_terms_bad //.
set u := drop _ x in su ho *; have eu : size u = ((size u)./2 + (size u)./2)%N by rewrite -[LHS]odd_double_half (negbTE ho) addnn.
rewrite size_map size_zip size_takel; last by rewrite {2}eu leq_addr.
rewrite size_drop {2}eu addKn minnn; apply/eqP => e.
have es : size u = (nx * (N + N))%N by rewrite eu e -/N mulnDr.
move/eqP: su; rewrite es eqn_pmul2l // => /eqP e'; apply: nn; split; lia.
Qed.
(* a vector with fewer parameters than labels is refused *)
Lemma set_terms_short m v t0 (idxs : seq (seq (nat * nat))) (g : data C) : (m < t0 + size idxs)%N -> (t0 <= m)%N -> set_terms nx m v t0 idxs g = None.
Proof.
elim: idxs t0 g => [|pos r ih] t0 g /=; first by lia.
rewrite /column; case: reshape => // X h1 h2; case: ifP => // h3; apply: ih; lia.
Qed.
Theorem C48_block_short (rv : bool) x : U = [::] -> (size x < nx * size D)%N -> g_from_x sym rv nx no x = None.
Proof.
move=> eU sx; have h0 : (0 < nx)%N by case: (nx) sx.
have hle : (size x <= nx * no)%N by apply: leq_trans (ltnW sx) _; rewrite leq_mul2l size_D orbT.
have em : merge_re_im rv nx no x = Some (x, [::]).
  by rewrite /merge_re_im take_oversize ?drop_oversize //=; case: (rv).
rewrite /g_from_x em /= /block_set_x_u /triu_term_idxs eU /= /block_set_x_d (gtn_eqF h0) set_terms_short // add0n !size_map.
by rewrite ltn_divLR // mulnC.
Qed.
End Block.
(* two orbitals, one DLR coefficient: diagonal 1, 2 and off-diagonal 3 + 4 i *)
Example C48_case : exists g, g_from_x (Symmetrizer C 1 2) false 1 2 [:: 1; 2%:R; 3%:R; 4%:R] = Some g /\
  g 0%N 0%N 1%N = 3%:R + 'i * 4%:R /\ g 0%N 1%N 0%N = (3%:R + 'i * 4%:R)^* /\ g 0%N 1%N 1%N = 2%:R.
Proof. by eexists; split. Qed.
(* equal diagonal entries: accepted without off-diagonal entries, an exception with them *)
Example C48_block_case : let m := fun i j : nat => if i == j then 1 else 0 : int in
  [/\ diag_terms 2 m = [:: 1], triu_terms 2 m = [::] & exists g, g_from_x (BlockSymmetrizer C 1 2 m) false 1 2 [:: 5%:R] = Some g /\ g 0%N 1%N 1%N = 5%:R].
Proof. by split=> //; eexists; split. Qed.
Example C48_block_refuted_case : let m := fun i j : nat => if i == j then 1 else 2%:R : int in
  g_from_x (BlockSymmetrizer C 1 2 m) true 1 2 [:: 5%:R; 6%:R] = None.
Proof. by []. Qed.
End Packing.
Print Assumptions C48_roundtrip.
Print Assumptions C48_hermitian_refuted.
Print Assumptions C48_unpack_partial.
Print Assumptions C48_block_full.
Print Assumptions C48_block_diagonal.
Print Assumptions C48_block_refuted.
Print Assumptions C48_block_short.
