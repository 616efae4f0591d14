From Coq Require Import String Ascii ZArith QArith Field.
From mathcomp Require Import all_ssreflect.
From mathcomp Require Import zify.
From Verif Require Import ParamModel ParamThms WannierModel WannierSpec.
Set Implicit Arguments.
Unset Strict Implicit.
Unset Printing Implicit Defensive.
Local Open Scope nat_scope.

(* reading lines *)
Lemma map_opt_nth (A B : Type) (f : A -> option B) (l : seq A) (r : seq B) (a0 : A) (b0 : B) :
  size l = size r -> (forall t, t < size l -> f (nth a0 l t) = Some (nth b0 r t)) -> map_opt f l = Some r.
Proof.
elim: l r => [|a l ih] [|b r] //= [e] h; have -> := h 0 isT; rewrite (ih r) // => t ht; exact: (h t.+1).
Qed.
Lemma map_opt_size (A B : Type) (f : A -> option B) (l : seq A) (r : seq B) : map_opt f l = Some r -> size l = size r.
Proof. by elim: l r => [|a l ih] r /=; [case=> <- | case: (f a) => // b; case: (map_opt f l) ih => // r' ih [<-] /=; rewrite (ih r')]. Qed.
Lemma rows_of_nonempty ls : (forall t, t < size ls -> words (before_hash (nth ""%string ls t)) <> [::]) -> rows_of ls = [seq words (before_hash l) | l <- ls].
Proof.
move=> h; rewrite /rows_of; apply/all_filterP/(all_nthP [::]) => t; rewrite size_map => ht.
by rewrite (nth_map ""%string) //; apply/eqP/h.
Qed.
Lemma loadtxt_rows (A : Type) (conv : string -> option A) ls (r : seq (seq A)) n : size ls = size r -> 0 < n ->
  (forall t, t < size ls -> map_opt conv (words (before_hash (nth ""%string ls t))) = Some (nth [::] r t) /\ size (nth [::] r t) = n) ->
  loadtxt conv ls = Some r.
Proof.
move=> e n0 h; rewrite /loadtxt rows_of_nonempty; last first.
  by move=> t /h[h1 h2] hw; move: h1 h2; rewrite hw => -[<-] /= en; move: n0; rewrite -en.
rewrite (map_opt_nth (a0 := [::]) (b0 := [::]) (r := r)) ?size_map //; last first.
  by move=> t ht; rewrite (nth_map ""%string) //; case: (h t ht).
have hn t : t < size r -> size (nth [::] r t) = n by rewrite -e => /h[].
have -> // : rectangular r; apply/(all_nthP [::]) => t ht.
by rewrite hn // -nth0 hn // (leq_ltn_trans _ ht).
Qed.
Lemma int_of_Q x z : Qeq x (inject_Z z) -> truncate x = z.
Proof. by case: x => a b; rewrite /Qeq /truncate /= Z.mul_1_r => ->; rewrite Z.quot_mul. Qed.
Lemma wrap_ok n i : i < n -> wrap n (Z.of_nat i.+1 - 1) = Some i.
Proof. move=> h; rewrite /wrap; have -> : (Z.of_nat i.+1 - 1 = Z.of_nat i)%Z by lia.
have -> : (0 <=? Z.of_nat i)%Z by lia. have -> : (Z.of_nat i <? Z.of_nat n)%Z by lia. by rewrite /= Nat2Z.id.
Qed.
(* dictionaries of hoppings *)
Definition keys (d : hoppings) : seq vec := [seq e.1 | e <- d].
Lemma keys_put d R m : keys (put_R d R m) = if R \in keys d then keys d else rcons (keys d) R.
Proof.
elim: d => [|[k m'] d ih] //=; rewrite inE eq_sym; case: eqP => [_|_] //=; rewrite ih; by case: ifP.
Qed.
Lemma find_put d R m R' : find_R (put_R d R m) R' = if R' == R then Some m else find_R d R'.
Proof.
elim: d => [|[k m'] d ih] /=; first by rewrite eq_sym.
case: (eqVneq k R) => [->|kR] /=; first by rewrite eq_sym; case: eqP.
by rewrite ih; case: (eqVneq k R') => // <-; rewrite (negbTE kR).
Qed.
Lemma get_put d R m R' : get_R (put_R d R m) R' = if R' == R then m else get_R d R'.
Proof. by rewrite /get_R find_put; case: ifP. Qed.
Definition entry := (vec * (nat * nat) * amplitude)%type.
Definition put_entry (d : hoppings) (e : entry) : hoppings := put_R d e.1.1 (set_entry (get_R d e.1.1) e.1.2.1 e.1.2.2 e.2).
Definition row_is (row : seq Q) (e : entry) : Prop :=
  exists x y z a b, row = [:: x; y; z; a; b; e.2.1; e.2.2] /\
    Qeq x (inject_Z e.1.1.1.1) /\ Qeq y (inject_Z e.1.1.1.2) /\ Qeq z (inject_Z e.1.1.2) /\
    Qeq a (inject_Z (Z.of_nat e.1.2.1.+1)) /\ Qeq b (inject_Z (Z.of_nat e.1.2.2.+1)).
Lemma fill_entries n d rows (es : seq entry) e0 : size rows = size es -> (forall t, t < size es -> row_is (nth [::] rows t) (nth e0 es t)) ->
  all (fun e => (e.1.2.1 < n) && (e.1.2.2 < n)) es -> fill n d rows = Some (foldl put_entry d es).
Proof.
elim: es rows d => [|e es ih] [|row rows] d //= [sz] h /andP[/andP[h1 h2] hes].
case: (h 0 isT) => /= x [y] [z] [a] [b] [-> [hx [hy [hz [ha hb]]]]].
rewrite (int_of_Q hx) (int_of_Q hy) (int_of_Q hz) (int_of_Q ha) (int_of_Q hb) !wrap_ok //.
rewrite (ih rows) // => [|t ht]; last exact: (h t.+1).
by case: e {h h1 h2 hx hy hz ha hb} => -[[[? ?] ?] [? ?]] [? ?].
Qed.
Definition slot (e : entry) := e.1.
Lemma value_entries d (es : seq entry) e0 t : uniq [seq slot e | e <- es] -> t < size es ->
  get_R (foldl put_entry d es) (nth e0 es t).1.1 (nth e0 es t).1.2.1 (nth e0 es t).1.2.2 = (nth e0 es t).2.
Proof.
elim/last_ind: es => [|es e ih] //; rewrite map_rcons rcons_uniq size_rcons ltnS foldl_rcons => /andP[ne u] ht.
rewrite nth_rcons; case: (ltngtP t (size es)) ht => // [ht _|ht _]; last by rewrite get_put eqxx /set_entry !eqxx.
rewrite get_put; case: eqP => [eR|_]; last exact: ih.
rewrite /set_entry; case: ifP => [/andP[/eqP ei /eqP ej]|_]; last by rewrite -eR; apply: ih.
have : slot (nth e0 es t) \in [seq slot e | e <- es] by rewrite -(nth_map e0 (slot e0)) // mem_nth // size_map.
suff -> : slot (nth e0 es t) = slot e by rewrite (negbTE ne).
by move: eR ei ej; rewrite /slot; case: (nth e0 es t) => -[? [? ?]] ? /=; case: (e) => -[? [? ?]] ? /= -> -> ->.
Qed.
Definition firsts (ks l : seq vec) : seq vec := foldl (fun ks R => if R \in ks then ks else rcons ks R) ks l.
Lemma keys_entries d (es : seq entry) : keys (foldl put_entry d es) = firsts (keys d) [seq x.1.1 | x <- es].
Proof. by elim: es d => [|e es ih] d //=; rewrite ih keys_put. Qed.
Lemma firsts_cat ks a b : firsts ks (a ++ b) = firsts (firsts ks a) b.
Proof. exact: foldl_cat. Qed.
Lemma firsts_nseq ks R c : firsts ks (nseq c.+1 R) = if R \in ks then ks else rcons ks R.
Proof.
elim: c => [|c ih] //; rewrite -addn1 nseqD firsts_cat ih /=; case h : (R \in ks); first by rewrite h.
by rewrite mem_rcons inE eqxx.
Qed.
Lemma firsts_blocks ks (Rs : seq vec) (c : vec -> nat) : (forall R, R \in Rs -> 0 < c R) -> uniq (ks ++ Rs) ->
  firsts ks (flatten [seq nseq (c R) R | R <- Rs]) = ks ++ Rs.
Proof.
elim: Rs ks => [|R Rs ih] ks h u /=; first by rewrite cats0.
have kd : R \notin ks by move: u; rewrite cat_uniq /= => /and3P[_]; rewrite negb_or => /andP[].
rewrite firsts_cat; case e : (c R) => [|k]; first by have := h R (mem_head _ _); rewrite e.
rewrite firsts_nseq (negbTE kd) ih ?cat_rcons // => R' hR; apply: h; by rewrite inE hR orbT.
Qed.
Lemma lines15 (rows : seq (seq Z)) : (forall i, i < size rows -> 0 < size (nth [::] rows i) <= 15 /\ (i.+1 < size rows -> size (nth [::] rows i) = 15)) ->
  (size (flatten rows) + 14) %/ 15 = size rows.
Proof.
elim: rows => [|r rows ih] //= h; rewrite size_cat.
have {}ih := ih (fun i hi => h i.+1 hi).
case: (h 0 isT) => /= h1 h2; case: rows ih h2 {h} => [|r' rows] /= ih h2; first by rewrite addn0; lia.
by rewrite h2 // -addnA divnDl // ih.
Qed.
Lemma find_weigh d deg k e0 : size deg = size d -> k < size d ->
  nth e0 (weigh d deg) k = ((nth e0 d k).1, divided (nth e0 d k).2 (nth 0%Z deg k)).
Proof.
move=> e hk; rewrite /weigh drop_oversize ?e // cats0 (nth_map (e0, 0%Z)) ?size_zip ?e ?minnn //.
by rewrite nth_zip.
Qed.
Lemma weigh_keys d deg : size deg = size d -> keys (weigh d deg) = keys d.
Proof.
move=> e; rewrite /weigh drop_oversize ?e // cats0 /keys -map_comp.
by elim: d deg e => [|x d ih] [|w deg] //= [e]; rewrite ih.
Qed.
Lemma get_nth d k e0 : uniq (keys d) -> k < size d -> get_R d (nth e0 d k).1 = (nth e0 d k).2.
Proof.
rewrite /get_R; elim: d k => [|[R m] d ih] [|k] //=; first by rewrite eqxx.
case/andP=> nR u hk; case: eqP => [eR|_]; last exact: ih.
by move: nR; rewrite eR /keys -(nth_map e0 e0.1) // mem_nth // size_map.
Qed.
Lemma size_pairs n : size (all_pairs n) = n * n.
Proof. by rewrite size_allpairs !size_iota. Qed.
Lemma mem_pairs n ij : (ij \in all_pairs n) = (ij.1 < n) && (ij.2 < n).
Proof.
apply/allpairsP/andP => [[p] [h1 h2 ->] /=|[h1 h2]]; first by move: h1 h2; rewrite !mem_iota !add0n.
by exists ij; rewrite !mem_iota !add0n /= h1 h2; case: ij {h1 h2}.
Qed.
Lemma uniq_pairs n : uniq (all_pairs n).
Proof. by apply: allpairs_uniq; rewrite ?iota_uniq //; move=> [a b] [c d]. Qed.

Definition z0 : vec * (nat * nat) := (0%Z, 0%Z, 0%Z, (0, 0)).
Definition e0 : entry := (z0, (0%Q, 0%Q)).
Lemma hopping_rows (H : vec -> matrix) (hl : seq string) (es : seq (vec * (nat * nat))) : size hl = size es ->
  (forall t, t < size es -> hopping_line (nth ""%string hl t) (nth z0 es t).1 (nth z0 es t).2 (H (nth z0 es t).1 (nth z0 es t).2.1 (nth z0 es t).2.2)) ->
  exists rows ents, [/\ loadtxt read_float hl = Some rows, size rows = size es, (forall t, t < size es -> size (nth [::] rows t) = 7),
    [seq slot e | e <- ents] = es &
    (forall t, t < size es -> row_is (nth [::] rows t) (nth e0 ents t) /\
      same_amplitude (nth e0 ents t).2 (H (nth z0 es t).1 (nth z0 es t).2.1 (nth z0 es t).2.2))].
Proof.
move=> sz h; set rows := [seq odflt [::] (numbers l) | l <- hl].
have srows : size rows = size es by rewrite size_map.
have hr t : t < size es -> nth [::] rows t = odflt [::] (numbers (nth ""%string hl t)) by move=> ht; rewrite (nth_map ""%string) // sz.
pose ents := [seq (p.1, (nth 0%Q p.2 5, nth 0%Q p.2 6)) | p <- zip es rows] : seq entry.
have he t : t < size es -> nth e0 ents t = (nth z0 es t, (nth 0%Q (nth [::] rows t) 5, nth 0%Q (nth [::] rows t) 6)).
  by move=> ht; rewrite (nth_map (z0, [::])) ?size_zip ?srows ?minnn // nth_zip.
have s7 t : t < size es -> size (nth [::] rows t) = 7 by move=> ht; rewrite hr //; case: (h t ht) => x [y] [z] [a] [b] [re] [im] [-> _].
exists rows, ents; split=> //.
- apply: (loadtxt_rows (n := 7)) => //; rewrite sz ?srows // => t ht; split; last exact: s7.
  by rewrite hr // -/(numbers _); case: (h t ht) => x [y] [z] [a] [b] [re] [im] [-> _].
- rewrite /ents -map_comp -/(unzip1 (zip es rows)) -[RHS](unzip1_zip (t := rows)) ?srows //.
move=> t ht; rewrite he //; case: (h t ht) => x [y] [z] [a] [b] [re] [im] [er [hx [hy [hz [ha [hb [hre him]]]]]]].
by rewrite hr // er /=; split; first by exists x, y, z, a, b.
Qed.
Lemma deg_rows (dl : seq string) rows : [seq integers l | l <- dl] = [seq Some r | r <- rows] -> (forall i, i < size rows -> 0 < size (nth [::] rows i)) ->
  map_opt (fun l => loadtxt read_int [:: l]) dl = Some [seq [:: r] | r <- rows].
Proof.
elim: dl rows => [|l dl ih] [|r rows] //= [el er] h.
have -> : loadtxt read_int [:: l] = Some [:: r].
  apply: (@loadtxt_rows _ read_int [:: l] [:: r] (size r)) => //; first exact: (h 0 isT).
  by case=> //= _; rewrite -/(integers l) el.
by rewrite (ih rows) // => i hi; apply: (h i.+1).
Qed.
(* C41: the stored elements divided by the degeneracies, for more than one line of data. *)
Theorem C41_hopping_partial lines n Rs deg H : hr_file lines n Rs deg H -> uniq Rs -> size deg = size Rs -> all (fun w => 0 <? w)%Z deg ->
  1 < n * n * size Rs ->
  exists d, parse_hopping lines = Some (d, n) /\ [seq e.1 | e <- d] = Rs /\
    forall k, k < size Rs -> exists m, nth (0%Z, 0%Z, 0%Z, zero_matrix) d k = (nth (0%Z, 0%Z, 0%Z) Rs k, m) /\
      forall i j, i < n -> j < n -> same_amplitude (m i j) (over (H (nth (0%Z, 0%Z, 0%Z) Rs k) i j) (nth 0%Z deg k)).
Proof.
case=> h [l1] [l2] [dl] [hl] [order] [-> [e1 [e2 [[drows [ed [fd hd]]] [ho [sz hhl]]]]]] uR sdeg pos big.
set es := [seq (R, ij) | R <- Rs, ij <- order R] in sz hhl.
have ses : size es = n * n * size Rs.
  rewrite /es size_allpairs_dep; have : {in Rs, forall R, size (order R) = n * n} by move=> R /ho /perm_size ->; rewrite size_pairs.
  by elim: (Rs) => [|R r ih] hs; rewrite ?muln0 //= mulnS hs ?inE ?eqxx // ih // => R' hR; apply: hs; rewrite inE hR orbT.
have [rows [ents [er srows s7 sents hents]]] := hopping_rows sz hhl.
have sent : size ents = size es by rewrite -sents size_map.
have n0 : 0 < n by case: (n) big.
have sdl : size dl = size drows by have := congr1 size ed; rewrite !size_map.
have d15 : (size Rs + 14) %/ 15 = size dl by rewrite sdl -sdeg -fd lines15.
rewrite /parse_hopping e1 e2 Nat2Z.id d15 take_size_cat // drop_size_cat // (deg_rows ed); last by move=> i /hd[/andP[]].
have -> : flatten (flatten [seq [:: r] | r <- drows]) = deg by rewrite -fd flatten_map1 map_id.
rewrite sdeg Z.eqb_refl er.
have -> : shape_of rows = [:: n * n * size Rs; 7].
  case: rows srows s7 {er hents} => [|r rows] srows s7; first by move: big; rewrite -ses -srows.
  rewrite /shape_of (_ : size r = 7); last by apply: (s7 0); rewrite -srows.
  by rewrite srows ses /= (gtn_eqF big).
have -> : ([seq Z.of_nat d | d <- [:: n * n * size Rs; 7]] == [:: Z.of_nat n * Z.of_nat n * Z.of_nat (size Rs); 7]%Z) && (0 <? Z.of_nat n)%Z.
  by apply/andP; split; [apply/eqP => /=; congr (_ :: _); lia | lia].
rewrite Nat2Z.id.
have mem_es R ij : (R, ij) \in es = (R \in Rs) && (ij.1 < n) && (ij.2 < n).
  rewrite -andbA -mem_pairs; apply/allpairsPdep/andP => [[R'] [ij'] [hR hij [-> ->]]|[hR hij]].
    by rewrite hR -(perm_mem (ho _ hR)).
  by exists R, ij; rewrite hR (perm_mem (ho _ hR)).
have ues : uniq es.
  apply: allpairs_uniq_dep => //; first by move=> R /ho /perm_uniq ->; exact: uniq_pairs.
  by move=> [R ij] [R' ij'] _ _ /= [-> ->].
rewrite (@fill_entries _ _ _ ents e0); first last.
- have : all (fun s => (s.2.1 < n) && (s.2.2 < n)) [seq slot e | e <- ents].
    by rewrite sents; apply/allP => -[R ij]; rewrite mem_es => /andP[/andP[_ ->] ->].
  by rewrite all_map.
- by move=> t; rewrite sent => /hents[].
- by rewrite srows sent.
set d := foldl _ _ _.
have kd : keys d = Rs.
  rewrite /d keys_entries /= (_ : [seq x.1.1 | x <- ents] = flatten [seq nseq (size (order R)) R | R <- Rs]).
    by rewrite firsts_blocks // => R /ho /perm_size ->; rewrite size_pairs muln_gt0 n0.
  have -> : [seq x.1.1 | x <- ents] = [seq s.1 | s <- es] by rewrite -sents -map_comp.
  rewrite map_flatten -map_comp; congr flatten; apply: eq_map => R /=.
  by rewrite -map_comp; elim: (order R) => [|ij r ih] //=; rewrite ih.
have sd : size d = size Rs by rewrite -kd size_map.
exists (weigh d deg); split; first by []; split; first by rewrite -/(keys _) weigh_keys ?kd // sd sdeg.
move=> k hk; rewrite find_weigh ?sd // ?sdeg //; set E := nth _ d k.
have eR : E.1 = nth (0%Z, 0%Z, 0%Z) Rs k by rewrite -kd (nth_map (0%Z, 0%Z, 0%Z, zero_matrix)) // sd.
exists (divided E.2 (nth 0%Z deg k)); rewrite eR; split; first by [].
move=> i j hi hj; rewrite -eR.
have -> : E.2 = get_R d E.1 by rewrite /E get_nth // ?kd // sd.
have hm : (E.1, (i, j)) \in es by rewrite mem_es eR mem_nth //= hi hj.
have ht : index (E.1, (i, j)) es < size es by rewrite index_mem.
have := hents _ ht; have := @value_entries [::] ents e0 (index (E.1, (i, j)) es); rewrite sents => /(_ ues); rewrite sent => /(_ ht).
have -> : (nth e0 ents (index (E.1, (i, j)) es)).1 = (E.1, (i, j)).
  by rewrite -/(slot _) -(nth_map e0 z0 slot) ?sent // sents nth_index.
rewrite -/d nth_index //= => <- [_] [h1 h2].
by split; rewrite /= /Qdiv; apply: Qmult_comp => //; apply: Qeq_refl.
Qed.
(* ... a file with a single line of data raises. *)
Theorem C41_single_line_refuted lines n Rs deg H : hr_file lines n Rs deg H -> n = 1 -> size Rs = 1 -> parse_hopping lines = None.
Proof.
case=> h [l1] [l2] [dl] [hl] [order] [-> [e1 [e2 [[drows [ed [fd hd]]] [ho [sz hhl]]]]]] n1 s1; rewrite /parse_hopping e1 e2.
case: (map_opt _ _) => // r; case: ifP => // _; case e : (loadtxt _ _) => [rows|] //; case: ifP => // /andP[/eqP].
rewrite n1 s1 /shape_of; case: rows e => [|x rows] e //=; case: ifP => //= h1; last by case: ifP.
by case: ifP => //= _ [] h2; lia.
Qed.

(* header lines *)
Lemma find_header (P : pred string) pre hdr post : all (fun l => ~~ P l) pre -> P hdr -> find P (pre ++ hdr :: post) = size pre.
Proof.
move=> h hp; rewrite find_cat has_find /= hp addn0; case: ifP => //; rewrite -has_find => /hasP[l hl pl].
by have := allP h l hl; rewrite pl.
Qed.
Lemma nth_header (pre : seq string) hdr post : nth ""%string (pre ++ hdr :: post) (size pre) = hdr.
Proof. by rewrite nth_cat ltnn subnn. Qed.
Lemma drop_header (A : Type) (pre : seq A) hdr post : drop (size pre).+1 (pre ++ hdr :: post) = post.
Proof. by rewrite -cat_rcons -(size_rcons pre hdr) drop_size_cat. Qed.
Lemma vector_rows v1 v2 v3 x1 x2 x3 : vector_line v1 x1 -> vector_line v2 x2 -> vector_line v3 x3 ->
  loadtxt123 read_float [:: v1; v2; v3] = Some [:: [:: x1.1.1; x1.1.2; x1.2]; [:: x2.1.1; x2.1.2; x2.2]; [:: x3.1.1; x3.1.2; x3.2]].
Proof.
case=> ? [?] [?] [?] [?] [e1 [a1 [b1 c1]]]; case=> ? [?] [?] [?] [?] [e2 [a2 [b2 c2]]]; case=> ? [?] [?] [?] [?] [e3 [a3 [b3 c3]]].
by rewrite /loadtxt123 /rows_of /= e1 e2 e3 /= a1 b1 c1 a2 b2 c2 a3 b3 c3.
Qed.
Lemma same_times x (u : Q) : same_vector [:: x.1.1 * u; x.1.2 * u; x.2 * u]%Q (times u x).
Proof. by do 3 eexists; split; first by []; split; [|split]; apply: Qmult_comm. Qed.
(* C69: the three vectors after the first header, in Angstrom. *)
Theorem C69_lattice_vectors pre hdr v1 v2 v3 post x1 x2 x3 (u : Q) :
  all (fun l => ~~ contains "Lattice Vectors" l) pre -> contains "Lattice Vectors" hdr ->
  contains "(Ang)" hdr /\ u = 1%Q \/ ~~ contains "(Ang)" hdr /\ contains "(Bohr)" hdr /\ u = bohr ->
  vector_line v1 x1 -> vector_line v2 x2 -> vector_line v3 x3 ->
  exists r1 r2 r3, parse_lattice_vectors (pre ++ [:: hdr, v1, v2, v3 & post]) = Some [:: r1; r2; r3] /\
    same_vector r1 (times u x1) /\ same_vector r2 (times u x2) /\ same_vector r3 (times u x3).
Proof.
move=> hp hh hu h1 h2 h3; rewrite /parse_lattice_vectors (find_header _ hp hh) nth_header drop_header /=.
have -> : size pre < size (pre ++ [:: hdr, v1, v2, v3 & post]) by rewrite size_cat /=; lia.
have -> : (if contains "(Ang)" hdr then Some 1%Q else if contains "(Bohr)" hdr then Some bohr else None) = Some u.
  by case: hu => [[-> ->]|[/negbTE -> [-> ->]]].
rewrite take0 (vector_rows h1 h2 h3) /=; do 3 eexists; split; first by [].
by split; [|split]; apply: same_times.
Qed.
Theorem C69_reciprocal_vectors_partial pre hdr v1 v2 v3 post x1 x2 x3 :
  all (fun l => ~~ contains "Reciprocal-Space Vectors (Ang^-1)" l) pre -> contains "Reciprocal-Space Vectors (Ang^-1)" hdr ->
  vector_line v1 x1 -> vector_line v2 x2 -> vector_line v3 x3 ->
  exists r1 r2 r3, parse_reciprocal_vectors (pre ++ [:: hdr, v1, v2, v3 & post]) = Some [:: r1; r2; r3] /\
    same_vector r1 x1 /\ same_vector r2 x2 /\ same_vector r3 x3.
Proof.
move=> hp hh h1 h2 h3; rewrite /parse_reciprocal_vectors (find_header _ hp hh).
have -> : minn (size pre) (size (pre ++ [:: hdr, v1, v2, v3 & post])).-1 = size pre by apply/minn_idPl; rewrite size_cat /=; lia.
rewrite drop_header /= take0 (vector_rows h1 h2 h3) /=.
case e : (pre ++ _) => [|l ls]; first by have := congr1 size e; rewrite size_cat /=; lia.
do 3 eexists; split; first by [].
by split; [|split]; do 3 eexists.
Qed.
(* ... a file without the header raises; *)
Theorem C69_missing_section lines : all (fun l => ~~ contains "Lattice Vectors" l) lines -> parse_lattice_vectors lines = None.
Proof.
move=> h; rewrite /parse_lattice_vectors; case: ifP => //; rewrite -has_find => /hasP[l hl pl].
by have := allP h l hl; rewrite pl.
Qed.
(* ... with the reciprocal vectors it does not, the result is empty. *)
Theorem C69_missing_section_refuted lines : 0 < size lines -> all (fun l => ~~ contains "Reciprocal-Space Vectors (Ang^-1)" l) lines ->
  parse_reciprocal_vectors lines = Some [::].
Proof.
move=> s0 h; rewrite /parse_reciprocal_vectors.
have -> : minn (find (contains "Reciprocal-Space Vectors (Ang^-1)") lines) (size lines).-1 = (size lines).-1.
  apply/minn_idPr; have -> : find (contains "Reciprocal-Space Vectors (Ang^-1)") lines = size lines; last exact: leq_pred.
  by apply/eqP; rewrite eqn_leq find_size leqNgt -has_find -all_predC.
by rewrite prednK // drop_size; case: lines s0 {h}.
Qed.

(* eight characters *)
Lemma substring_full v k : String.length v <= k -> String.substring 0 k v = v.
Proof. by elim: v k => [|c v ih] [|k] //= h; rewrite ih. Qed.
Lemma substring_app v w : String.substring 0 (String.length v) (v ++ w)%string = v.
Proof. by elim: v => [|c v ih] /=; [case: w | rewrite ih]. Qed.
Lemma coordinate_read w x : coordinate w x -> read_float (U8 w) = Some x.
Proof. by case=> v [hv [[h ->]|[h ->]]]; rewrite /U8; [rewrite substring_full | rewrite -h substring_app]. Qed.
Lemma solve_ok u1 u2 u3 x : ~ Qeq (det3 u1 u2 u3) 0 -> exists2 f, solve3 u1 u2 u3 x = Some f & combination u1 u2 u3 f x.
Proof.
move=> hd; rewrite /solve3; case e : (Qeq_bool _ _); first by case: hd; apply: Qeq_bool_eq.
eexists; first by []; move: hd {e}; move: u1 u2 u3 x => [[a1 a2] a3] [[b1 b2] b3] [[c1 c2] c3] [[x1 x2] x3]; rewrite /combination /det3 /= => hd.
by split; [|split]; field.
Qed.
Lemma map_opt_rel (A B : Type) (f : A -> option B) (P : nat -> B -> Prop) (l : seq A) (a0 : A) (b0 : B) :
  (forall t, t < size l -> exists2 b, f (nth a0 l t) = Some b & P t b) ->
  exists r, map_opt f l = Some r /\ size r = size l /\ forall t, t < size l -> P t (nth b0 r t).
Proof.
elim: l P => [|a l ih] P h; first by exists [::].
have [b eb pb] := h 0 isT; have [r [er [sr hr]]] := ih (fun t => P t.+1) (fun t ht => h t.+1 ht).
by exists (b :: r); rewrite /= eb er sr; split; first by []; split=> // -[|t] //; apply: hr.
Qed.
(* C70: coordinates with respect to the lattice vectors, as long as the numbers have eight characters and there is more than one orbital. *)
Theorem C70_positions_partial u1 u2 u3 pre hdr body foot post (xs : seq vec3) (x0 : vec3) : ~ Qeq (det3 u1 u2 u3) 0 ->
  all (fun l => ~~ contains "Final State" l) pre -> contains "Final State" hdr ->
  all (fun l => ~~ contains "Sum of centres" l) (hdr :: body) -> contains "Sum of centres" foot ->
  size xs = size body -> (forall t, t < size body -> centre_line (nth ""%string body t) (nth x0 xs t)) -> 1 < size body ->
  exists fs, parse_orbital_positions u1 u2 u3 (pre ++ hdr :: body ++ foot :: post) = Some fs /\ size fs = size body /\
    forall t, t < size body -> combination u1 u2 u3 (nth x0 fs t) (nth x0 xs t).
Proof.
move=> hd hp hh hb hf sz hx s1; rewrite /parse_orbital_positions (find_header _ hp hh) drop_size_cat //.
have -> : find (contains "Sum of centres") (hdr :: body ++ foot :: post) = (size body).+1 by apply: (find_header (pre := hdr :: body)).
set e := size pre + _; have -> : e < size (pre ++ hdr :: body ++ foot :: post) by rewrite /e !size_cat /= size_cat /=; lia.
have -> : drop (size pre).+1 (take e (pre ++ hdr :: body ++ foot :: post)) = body.
  have -> : pre ++ hdr :: body ++ foot :: post = (pre ++ hdr :: body) ++ foot :: post by rewrite -catA.
  by rewrite take_size_cat ?drop_header // /e size_cat.
have ne : forall t, t < size body -> words (before_hash (nth ""%string body t)) <> [::].
  by move=> t /hx[a] [b] [c] [sp] [?] [?] [?] [?] [?] [?] [-> _].
rewrite rows_of_nonempty //.
have -> : rectangular [seq words (before_hash l) | l <- body].
  have h11 t : t < size body -> size (words (before_hash (nth ""%string body t))) = 11.
    by move=> /hx[a] [b] [c] [sp] [?] [?] [?] [?] [?] [?] [-> [ssp _]] /=; rewrite ssp.
  apply/(all_nthP [::]) => t; rewrite size_map => ht; rewrite -nth0 !(nth_map ""%string) ?h11 ?(ltnW s1) //.
rewrite size_map s1 /=.
have -> : map_opt columns678 [seq words (before_hash l) | l <- body] = Some xs.
  apply: (map_opt_nth (a0 := [::]) (b0 := x0)); rewrite size_map // => t ht; rewrite (nth_map ""%string) //.
  case: (hx t ht) => a [b] [c] [sp] [?] [?] [?] [?] [?] [?] [-> [_ [ha [hb' hc]]]] /=.
  by rewrite (coordinate_read ha) (coordinate_read hb') (coordinate_read hc); case: (nth x0 xs t) => -[].
have [|fs [efs [sfs hfs]]] := @map_opt_rel _ _ (solve3 u1 u2 u3) (fun t f => combination u1 u2 u3 f (nth x0 xs t)) xs x0 x0.
  by move=> t ht; apply: solve_ok.
by exists fs; rewrite efs sfs sz; split; first by []; split=> // t ht; apply: hfs; rewrite sz.
Qed.
(* ... one orbital raises. *)
Theorem C70_one_orbital_refuted u1 u2 u3 pre hdr l foot post :
  all (fun l => ~~ contains "Final State" l) pre -> contains "Final State" hdr ->
  all (fun l => ~~ contains "Sum of centres" l) [:: hdr; l] -> contains "Sum of centres" foot ->
  parse_orbital_positions u1 u2 u3 (pre ++ [:: hdr, l, foot & post]) = None.
Proof.
move=> hp hh hb hf; rewrite /parse_orbital_positions (find_header _ hp hh) drop_size_cat //.
have -> : find (contains "Sum of centres") [:: hdr, l, foot & post] = 2 by apply: (find_header (pre := [:: hdr; l])).
case: ifP => // _; rewrite (_ : pre ++ [:: hdr, l, foot & post] = (pre ++ [:: hdr; l]) ++ foot :: post); last by rewrite -catA.
rewrite take_size_cat ?size_cat // drop_header.
suff -> : (1 < size (rows_of [:: l])) = false by rewrite andbF.
by apply/negbTE; rewrite -leqNgt /rows_of size_filter /=; case: (_ != _).
Qed.

(* empty lines *)
Fixpoint all_space (s : string) : bool := if s is String c s' then is_space c && all_space s' else true.
Lemma words_space s : all_space s -> words s = [::].
Proof. by rewrite /words; elim: s => [|c s ih] //= /andP[-> /ih]. Qed.
Lemma hash_space s : all_space s -> all_space (before_hash s).
Proof. elim: s => [|c s ih] //= /andP[hc hs]; case: c hc => -[] [] [] [] [] [] [] [] //= _; rewrite ?ih //. Qed.
Lemma lstrip_space s : all_space (lstrip s) -> all_space s.
Proof. elim: s => [|c s ih] //; case: c => -[] [] [] [] [] [] [] [] //=. Qed.
Lemma rstrip_space s : all_space (rstrip s) -> all_space s.
Proof.
elim: s => [|c s ih] //=; case e : (rstrip s) ih => [|c' s'] ih.
  by rewrite ih // andbT; case: c => -[] [] [] [] [] [] [] [].
by rewrite -e /= => /andP[-> h]; apply: ih; rewrite -e.
Qed.
Lemma blank_words l : is_blank l -> words (before_hash l) = [::].
Proof. by move/eqP=> h; apply/words_space/hash_space/lstrip_space/rstrip_space; rewrite -/(strip l) h. Qed.
Lemma empty_blank l : empty_line l -> is_blank l.
Proof. by case=> n ->; rewrite /is_blank /strip; elim: n => [|n ih]. Qed.
Lemma rows_of_cat a b : rows_of (a ++ b) = rows_of a ++ rows_of b.
Proof. by rewrite /rows_of map_cat filter_cat. Qed.
Lemma map_opt_cat (A B : Type) (f : A -> option B) a b ra rb : map_opt f a = Some ra -> map_opt f b = Some rb -> map_opt f (a ++ b) = Some (ra ++ rb).
Proof.
by elim: a ra => [|x a ih] ra /=; [case=> <- // | case: (f x) => // y; case: (map_opt f a) ih => // r /(_ r erefl) ih [<-] /ih ->].
Qed.
Definition b0 : seq string * string := ([::], ""%string).
Definition band_block (n : nat) (b : seq string * string) (k e : nat -> Q) : Prop :=
  size b.1 = n /\ empty_line b.2 /\ forall p, p < n -> band_line (nth ""%string b.1 p) (k p) (e p).
Lemma band_nonempty n b k e t : band_block n b k e -> t < size b.1 -> words (before_hash (nth ""%string b.1 t)) <> [::].
Proof. by case=> -> [_ h] /h; rewrite /band_line /numbers; case: (words _). Qed.
Lemma band_rows n b k e : band_block n b k e ->
  count is_blank (rcons b.1 b.2) = 1 /\ map_opt (map_opt read_float) (rows_of (rcons b.1 b.2)) = Some [seq [:: k p; e p] | p <- iota 0 n].
Proof.
move=> hb; have [s1 [hs hp]] := hb; split.
  rewrite -cats1 count_cat /= (empty_blank hs) addn0; suff -> : count is_blank b.1 = 0 by [].
  apply/eqP; rewrite -leqn0 leqNgt -has_count; apply/(has_nthP ""%string) => -[t ht /blank_words]; exact: band_nonempty hb ht.
rewrite -cats1 rows_of_cat {2}/rows_of /= (blank_words (empty_blank hs)) /= cats0 rows_of_nonempty; last by move=> t; apply: band_nonempty hb.
apply: (map_opt_nth (a0 := [::]) (b0 := [::])); rewrite !size_map ?size_iota // => t ht.
rewrite (nth_map ""%string) // (nth_map 0) ?size_iota -?s1 // nth_iota ?add0n -?s1 //.
by apply: hp; rewrite -s1.
Qed.
Lemma bands_rows n blocks (k e : nat -> nat -> Q) : (forall b, b < size blocks -> band_block n (nth b0 blocks b) (k b) (e b)) ->
  count is_blank (flatten [seq rcons b.1 b.2 | b <- blocks]) = size blocks /\
  map_opt (map_opt read_float) (rows_of (flatten [seq rcons b.1 b.2 | b <- blocks])) =
    Some (flatten [seq [seq [:: k b p; e b p] | p <- iota 0 n] | b <- iota 0 (size blocks)]).
Proof.
elim: blocks k e => [|b blocks ih] k e h //=; have [c1 r1] := band_rows (h 0 isT).
have [c2 r2] := ih (fun i => k i.+1) (fun i => e i.+1) (fun i hi => h i.+1 hi).
rewrite count_cat c1 c2; split; first by [].
rewrite rows_of_cat; apply: map_opt_cat r1 _; rewrite r2; congr (Some (flatten _)).
by rewrite (iotaDl 1 0) -map_comp.
Qed.
(* C71: the energies and path points of every band in order, for more than one line of data *)
Theorem C71_bands_partial n blocks (k e : nat -> nat -> Q) : (forall b, b < size blocks -> band_block n (nth b0 blocks b) (k b) (e b)) ->
  1 < size blocks * n ->
  parse_band_structure (flatten [seq rcons b.1 b.2 | b <- blocks]) =
    Some ([seq [seq e b p | p <- iota 0 n] | b <- iota 0 (size blocks)], [seq [seq k b p | p <- iota 0 n] | b <- iota 0 (size blocks)]).
Proof.
move=> h s1; have [c r] := bands_rows h; rewrite /parse_band_structure c /loadtxt r.
set rows := flatten _; have sr : size rows = size blocks * n.
  by rewrite /rows -[in RHS](size_iota 0 (size blocks)); elim: (iota 0 (size blocks)) => [|i l ih] //=; rewrite size_cat size_map size_iota ih mulSn.
have nb : 0 < size blocks by case: (size blocks) s1.
have n0 : 0 < n by case: (n) s1 => //; rewrite muln0.
have hrow b p : b < size blocks -> p < n -> nth [::] rows (b * n + p) = [:: k b p; e b p].
  move=> hb hp; rewrite /rows (@nth_block _ _ [::] _ (iota 0 (size blocks)) 0 n) ?size_iota //; last by move=> i; rewrite size_map size_iota.
  by rewrite nth_iota // (nth_map 0) ?size_iota // nth_iota.
have h2 : all (fun x => size x == 2) rows by rewrite /rows; elim: (iota 0 (size blocks)) => [|i l ih] //=; rewrite all_cat ih andbT all_map; apply/allP.
have -> : rectangular rows.
  move: h2; rewrite /rectangular; case: (rows) => [|x l] //= /andP[/eqP -> hl]; rewrite eqxx; exact: hl.
have -> : (shape_of rows == [:: size rows; 2]) && (0 < size blocks) && (size blocks %| size rows).
  rewrite nb sr dvdn_mulr // !andbT; case: (rows) sr h2 => [|x l]; first by move=> e0; move: s1; rewrite -e0.
  by rewrite /shape_of => -> /= /andP[/eqP -> _]; rewrite (gtn_eqF s1).
rewrite sr mulKn //; congr (Some (_, _)); apply/eq_in_map => b; rewrite mem_iota add0n => hb; apply/eq_in_map => p; rewrite mem_iota add0n => hp; by rewrite hrow.
Qed.

(* cases *)
Local Open Scope string_scope.
Definition nl (s : string) : string := (s ++ String newline "")%string.
Definition file1 : seq string := [seq nl l | l <- [:: " written on 1Jan2020"; "    1 "; "     2"; "    1    2"; "    0    0    0    1    1    0.500000    0.000000";
  "    0   -1    0    1    1   -0.250000    0.125000"]].
Definition H1 (R : vec) : matrix := fun _ _ => if R == (0, 0, 0)%Z then (1 # 2, 0 # 1)%Q else (-1 # 4, 1 # 8)%Q.
Example C41_case : hr_file file1 1 [:: (0, 0, 0)%Z; (0, -1, 0)%Z] [:: 1; 2]%Z H1 /\
  omap (fun d => [seq (Qred (e.2 0 0).1, Qred (e.2 0 0).2) | e <- d.1]) (parse_hopping file1) = Some [:: (1 # 2, 0 # 1); (-1 # 8, 1 # 16)]%Q.
Proof.
split; last by vm_compute.
exists (nl " written on 1Jan2020"), (nl "    1 "), (nl "     2"), [:: nl "    1    2"], (drop 4 file1), (fun _ => [:: (0, 0)]).
split; first by []; split; first by []; split; first by []; split.
  by exists [:: [:: 1; 2]%Z]; split; first by []; split=> // -[].
split=> //; split=> //; case=> [|[|t]] // _; by do 7 eexists; split; first by [].
Qed.
Example C41_single_case : parse_hopping (take 3 file1 ++ [:: nl "    1"; nl "    0    0    0    1    1    0.500000    0.000000"])%SEQ = None /\
  hr_file [:: nl "h"; nl "1"; nl "1"; nl "1"; nl "    0    0    0    1    1    0.500000    0.000000"] 1 [:: (0, 0, 0)%Z] [:: 1]%Z H1.
Proof.
split; first by vm_compute.
exists (nl "h"), (nl "1"), (nl "1"), [:: nl "1"], [:: nl "    0    0    0    1    1    0.500000    0.000000"], (fun _ => [:: (0, 0)]).
split; first by []; split; first by []; split; first by []; split.
  by exists [:: [:: 1]%Z]; split; first by []; split=> // -[].
split=> //; split=> //; case=> // _; by do 7 eexists; split; first by [].
Qed.
Definition wout1 : seq string := [seq nl l | l <- [:: " -----"; "              Lattice Vectors (Ang)"; "    a_1     2.500000   0.000000   0.000000";
  "    a_2     0.000000   4.000000   0.000000"; "    a_3     0.000000   0.000000   1.000000"; ""; " Final State"; 
  "  WF centre and spread    1  (  0.500000,  2.000000,  0.000000 )     1.00000000"; "  WF centre and spread    2  (  1.250000, -1.000001,  0.000000 )     1.00000000";
  "  Sum of centres and spreads (  1.750000,  1.000000,  0.000000 )     2.00000000"]].
Example C69_case : omap (map (map Qred)) (parse_lattice_vectors wout1) = Some [:: [:: 5 # 2; 0; 0]; [:: 0; 4 # 1; 0]; [:: 0; 0; 1]]%Q /\
  parse_reciprocal_vectors wout1 = Some [::] /\
  exists x1 x2 x3, vector_line (nth "" wout1 2) x1 /\ vector_line (nth "" wout1 3) x2 /\ vector_line (nth "" wout1 4) x3.
Proof.
split; first by vm_compute. split; first by vm_compute.
pose v (w : string) := odflt 0%Q (read_float w).
exists (v "2.500000", v "0.000000", v "0.000000"), (v "0.000000", v "4.000000", v "0.000000"), (v "0.000000", v "0.000000", v "1.000000").
by split; [|split]; do 5 eexists; split.
Qed.
(* the second coordinate of the second orbital is written as -1.000001; eight characters are -1.00000 *)
Theorem C70_truncation_refuted :
  omap (map (fun f : vec3 => (Qred f.1.1, Qred f.1.2, Qred f.2))) (parse_orbital_positions (1, 0, 0)%Q (0, 1, 0)%Q (0, 0, 1)%Q wout1)
    = Some [:: (1 # 2, 2, 0); (5 # 4, -1, 0)]%Q /\ omap Qred (read_float "-1.000001") = Some (-1000001 # 1000000)%Q.
Proof. by vm_compute. Qed.
Example C70_case : exists x, centre_line (nl "  WF centre and spread    1  (  0.500000,  2.000000,  0.000000 )     1.00000000") x.
Proof.
exists (odflt 0%Q (read_float "0.500000"), odflt 0%Q (read_float "2.000000"), odflt 0%Q (read_float "0.000000")).
exists "0.500000,", "2.000000,", "0.000000", [:: ")"; "1.00000000"], "WF", "centre", "and", "spread", "1", "(".
split; first by []; split; first by []; split; [|split].
- by exists "0.500000"; split; [|right].
- by exists "2.000000"; split; [|right].
by exists "0.000000"; split; [|left].
Qed.
Definition bands1 : seq (seq string * string) := [:: ([:: nl "  0.0   -1.5"; nl "  0.5   -1.0"], nl "  "); ([:: nl "  0.0    1.5"; nl "  0.5    1.0"], nl "  ")].
Example C71_case : exists k e, (forall b, b < size bands1 -> band_block 2 (nth b0 bands1 b) (k b) (e b)) /\ (1 < size bands1 * 2) /\
  omap (fun r => [seq [seq Qred x | x <- row] | row <- r.1]) (parse_band_structure (flatten [seq rcons b.1 b.2 | b <- bands1]))
    = Some [:: [:: -3 # 2; -1]; [:: 3 # 2; 1]]%Q.
Proof.
pose v (w : string) := odflt 0%Q (read_float w).
exists (fun _ p => nth 0%Q [:: v "0.0"; v "0.5"] p), (fun b p => nth 0%Q (nth [::] [:: [:: v "-1.5"; v "-1.0"]; [:: v "1.5"; v "1.0"]] b) p).
split; last by vm_compute.
by case=> [|[|b]] // _; split=> //; (split; first by exists 2); case=> [|[|p]].
Qed.
Theorem C71_single_line_refuted : parse_band_structure [:: nl "  0.0   -1.5"; nl ""] = None.
Proof. by vm_compute. Qed.

Print Assumptions C41_hopping_partial.
Print Assumptions C41_single_line_refuted.
Print Assumptions C69_lattice_vectors.
Print Assumptions C69_missing_section_refuted.
Print Assumptions C70_positions_partial.
Print Assumptions C71_bands_partial.
