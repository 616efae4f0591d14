(* C114: archives, data of block Green functions, temperatures. *)
From mathcomp Require Import all_ssreflect all_algebra.
From Verif Require Import UtilitiesModel.
Set Implicit Arguments.
Unset Strict Implicit.
Unset Printing Implicit Defensive.
Import GRing.Theory Num.Theory.
Local Open Scope ring_scope.

Section Files.
Variable V : eqType.
Local Notation fs := (fs V).
Local Notation write := (@write_TarGZ_HDFArchive V).
Local Notation read := (@read_TarGZ_HDFArchive V).
(* what a caller expects to find in an archive written with keyword arguments *)
Definition holds_exactly (d : dict V) (kw : seq (str * V)) : Prop := forall k v, d k = Some v <-> (k, v) \in kw.
Lemma storeE (kw : seq (str * V)) : uniq (unzip1 kw) -> holds_exactly (store kw) kw.
Proof.
move=> hu k v; rewrite /store.
have gen d : uniq (unzip1 kw) -> (foldl (fun d p => fun k => if k == p.1 then Some p.2 else d k) d kw k = Some v) <-> ((k, v) \in kw \/ k \notin unzip1 kw /\ d k = Some v).
  elim: kw d {hu} => [|[k' v'] s IH] d /=; first by split=> [h|[]//[] //]; right.
  move=> /andP[hk' hs]; rewrite IH // !in_cons negb_or /=; split.
    case=> [h|[h1]]; first by left; rewrite h orbT.
    by case: eqP => [-> [->]|_ h]; [left; rewrite eqxx | right].
  case=> [/orP[/eqP[-> ->]|h]|[/andP[/negbTE-> h1] h2]]; first by right; rewrite eqxx.
    by left.
  by right.
rewrite gen //; by split=> [[//|[]//]|]; left.
Qed.
Lemma stem_dot s : dot \notin stem s.
Proof.
rewrite /stem; elim: s => [|x s IH] //=; case: ifP => [_|ne] //=.
by rewrite in_cons negb_or IH eq_sym ne.
Qed.
Lemma stem_app s t : dot \notin s -> stem (s ++ dot :: t) = s.
Proof. by move=> h; rewrite /stem index_cat (negbTE h) /= addn0 take_size_cat. Qed.
Lemma stem_nodot s : dot \notin s -> stem s = s.
Proof. by move=> h; rewrite /stem memNindex // take_size. Qed.
Lemma ext_inj (s t : str) : dot \notin s -> dot \notin t -> s ++ ext_targz = t ++ ext_h5 -> False.
Proof.
move=> hs ht e; have : stem (s ++ ext_targz) = stem (t ++ ext_h5) by rewrite e.
by rewrite !stem_app // => est; move: e; rewrite est => /(congr1 size)/eqP; rewrite !size_cat eqn_add2l.
Qed.
(* C114: the archive is at the part of the name before the first dot followed by .tar.gz, and holds what was written *)
Theorem C114_round_trip (f : fs) name kw : uniq (unzip1 kw) -> exists2 d, read (write f name kw) (stem name ++ ext_targz) = Some d & holds_exactly d kw.
Proof.
move=> hu; exists (store kw); last exact: storeE.
rewrite /read_TarGZ_HDFArchive /write_TarGZ_HDFArchive /put !eqxx.
by case: eqP => // e; case: (ext_inj (stem_dot name) (stem_dot name) e).
Qed.
(* C114: with any earlier files, a name is read back as written exactly if it is a part without dots followed by .tar.gz *)
Theorem C114_same_name name : (forall (f : fs) kw, uniq (unzip1 kw) -> exists2 d, read (write f name kw) name = Some d & holds_exactly d kw) <->
  exists2 s, dot \notin s & name = s ++ ext_targz.
Proof.
split=> [h|[s hs ->]]; last first.
  by move=> f kw hu; have := C114_round_trip f (s ++ ext_targz) hu; rewrite stem_app.
exists (stem name); first exact: stem_dot.
have [d + _] := h (fun _ => None) [::] isT; rewrite /read_TarGZ_HDFArchive /write_TarGZ_HDFArchive /put.
by case: eqP => // _; case: eqP => // ->; rewrite stem_app // stem_dot.
Qed.
(* C114: other files are left alone; a file with the extension .h5 is lost *)
Theorem C114_other_files (f : fs) name kw m : m != stem name ++ ext_targz -> m != stem name ++ ext_h5 -> write f name kw m = f m.
Proof. by rewrite /write_TarGZ_HDFArchive /put => /negbTE-> /negbTE->. Qed.
Theorem C114_h5_refuted (f : fs) name kw : write f name kw (stem name ++ ext_h5) = None.
Proof. by rewrite /write_TarGZ_HDFArchive /put eqxx. Qed.
(* C114: archives with names that differ after the first dot overwrite each other *)
Theorem C114_names_refuted (f : fs) s t t' kw kw' : dot \notin s ->
  forall m, write (write f (s ++ dot :: t) kw) (s ++ dot :: t') kw' m = write f (s ++ dot :: t') kw' m.
Proof. by move=> hs m; rewrite /write_TarGZ_HDFArchive !stem_app // /put !eqxx; case: eqP => // _; case: eqP. Qed.
End Files.

Section Blocks.
Variable F : zmodType.
Local Notation arr := (arr F).
Lemma fits_refl s : fits s s. Proof. by elim: s => //= n s ->; rewrite eqxx. Qed.
(* indices inside a shape *)
Definition inside (s i : seq nat) : bool := (size i == size s) && all (fun p => p.1 < p.2)%N (zip i s).
Lemma source_id s i : inside s i -> source s i = i.
Proof.
elim: s i => [|n s IH] [|j i] //; rewrite /inside /= eqSS => /andP[hs /andP[hj ha]]; rewrite IH /inside ?hs //.
by case: eqP hj => // ->; case: (j).
Qed.
Lemma inside_rev s i : inside s i -> inside (rev s) (rev i).
Proof. by move=> /andP[/eqP hs ha]; rewrite /inside !size_rev hs eqxx /= -rev_zip // all_rev. Qed.
(* C114: blocks of one shape are stacked in the order of the blocks *)
Theorem C114_blocks (G : seq (str * arr)) sh : (0 < size G)%N -> (forall p, p \in map (fun q => shape q.2) G -> p = sh) ->
  exists2 out, BlockGf_data G = Some out & shape out = size G :: sh /\
    forall b i d, (b < size G)%N -> inside sh i -> entry out (b :: i) = entry (nth d G b).2 i.
Proof.
case: G => [//|[n0 g0] G] _ h; have e0 : shape g0 = sh by apply: h; rewrite in_cons eqxx.
have hn b d : (b < size ((n0, g0) :: G))%N -> shape (nth d ((n0, g0) :: G) b).2 = sh.
  by move=> hb; apply: h; rewrite -(nth_map d [::] (fun q : str * arr => shape q.2) hb) mem_nth // size_map.
have hall : all (fun p : str * arr => fits (rev (shape g0)) (rev (shape p.2))) ((n0, g0) :: G).
  by rewrite -(all_map (fun q : str * arr => shape q.2) (fun s => fits (rev (shape g0)) (rev s))); apply/allP=> s /h ->; rewrite e0 fits_refl.
rewrite /BlockGf_data; case: ifP => [_|]; last by move: hall => /= ->.
eexists; first by []; split=> [|b i d hb hi]; first by rewrite /= e0.
by rewrite /= (set_nth_default d) // (hn _ d hb) source_id ?revK //; exact: inside_rev.
Qed.
(* C114: blocks of different sizes do not raise an error: the only entry of a 1 x 1 block is repeated over the block of the array, also off the diagonal *)
Theorem C114_blocks_refuted (a b c d x : F) n0 n1 : exists2 out, BlockGf_data [:: (n0, Arr [:: 1; 2; 2]%N (fun i => if i == [:: 0; 0; 0]%N then a else if i == [:: 0; 0; 1]%N then b else
    if i == [:: 0; 1; 0]%N then c else d)); (n1, Arr [:: 1; 1; 1]%N (fun _ => x))] = Some out &
  shape out = [:: 2; 1; 2; 2]%N /\ forall i j, entry out [:: 1; 0; i; j]%N = x.
Proof. by eexists. Qed.
(* the case of one shape *)
Theorem C114_case (x y : F) n0 n1 : exists2 out, BlockGf_data [:: (n0, Arr [:: 1; 1; 1]%N (fun _ => x)); (n1, Arr [:: 1; 1; 1]%N (fun _ => y))] = Some out &
  entry out [:: 0; 0; 0; 0]%N = x /\ entry out [:: 1; 0; 0; 0]%N = y.
Proof.
have [//|p|out eo [_ h]] := @C114_blocks [:: (n0, Arr [:: 1; 1; 1]%N (fun _ => x)); (n1, Arr [:: 1; 1; 1]%N (fun _ => y))] [:: 1; 1; 1]%N.
  by rewrite !inE => /orP[]/eqP.
by exists out => //; split; rewrite (h _ _ (n0, Arr [::] (fun _ => x))).
Qed.
End Blocks.

Section Temperature.
Variable F : numFieldType.
Lemma kelvin_neq0 : kelvin F != 0. Proof. by rewrite /kelvin mulf_neq0 ?invr_eq0 ?expf_neq0 // pnatr_eq0. Qed.
(* C114: the two conversions are inverse to each other, and fail at zero only *)
Theorem C114_temperature (x : F) : [/\ x != 0 -> obind (@temperature_to_beta F) (beta_to_temperature x) = Some x, x != 0 -> obind (@beta_to_temperature F) (temperature_to_beta x) = Some x,
  beta_to_temperature x = None <-> x = 0 & temperature_to_beta x = None <-> x = 0].
Proof.
have kN := kelvin_neq0; rewrite /beta_to_temperature /temperature_to_beta !div1r.
have e0 : (x / kelvin F == 0) = (x == 0) by rewrite mulf_eq0 invr_eq0 (negbTE kN) orbF.
rewrite e0; split=> [xN|xN||]; try by case: eqP.
  by rewrite (negbTE xN) /= ![kelvin F * _]mulrC !mulfK // invr_eq0 (negbTE xN) ?div1r invrK.
by rewrite (negbTE xN) /= invr_eq0 e0 (negbTE xN) ?div1r invrK mulrC mulfVK.
Qed.
End Temperature.
Print Assumptions C114_round_trip.
Print Assumptions C114_same_name.
Print Assumptions C114_other_files.
Print Assumptions C114_h5_refuted.
Print Assumptions C114_names_refuted.
Print Assumptions C114_blocks.
Print Assumptions C114_blocks_refuted.
Print Assumptions C114_case.
Print Assumptions C114_temperature.
