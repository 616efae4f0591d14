(* C37, C38, C69: parameter collections. *)
From Coq Require Import String.
From mathcomp Require Import all_ssreflect.
From mathcomp Require Import zify.
From Verif Require Import ParamModel ParamSpec.
Set Implicit Arguments.
Unset Strict Implicit.
Unset Printing Implicit Defensive.
Local Open Scope string_scope.

Section Proofs.
Variable V : Type.
Implicit Types (d kw : dict V) (h : heap V) (k : string) (e : env V).
Lemma names_store d k (v : V) : names (store d k v) = if k \in names d then names d else rcons (names d) k.
Proof.
rewrite /store; case: ifP => h; last by rewrite /names map_rcons.
by rewrite /names -map_comp; apply: eq_map => x /=; case: eqP => [<-|].
Qed.
Lemma lookup_store d k (v : V) : lookup (store d k v) =1 assign (lookup d) k v.
Proof.
move=> k'; rewrite /store /assign; case: ifP => h.
  elim: d h => [|[a b] d ih] //=; rewrite inE => /orP[/eqP e|h].
    rewrite -e eqxx /= [k == k']eq_sym; case: eqP => // kk.
    elim: d {ih} => [|[a' b'] d ih] //=; case: (a' =P k) => [ea|_] /=; last by rewrite ih.
    by rewrite ea [k == k']eq_sym; move/eqP/negbTE: kk => ->.
  rewrite (ih h); case: (a =P k) => [->|ap] /=; first by rewrite [k == k']eq_sym; case: eqP.
  by case: (a =P k') => [<-|_] //; case: (a =P k).
elim: d h => [|[a b] d ih] //=; first by move=> _; rewrite [k == k']eq_sym.
rewrite inE => /negbT; rewrite negb_or => /andP[pa /negbTE/ih ->].
by case: (a =P k') => [<-|//]; rewrite eq_sym (negbTE pa).
Qed.
Lemma assign_ext e e' k (v : V) : e =1 e' -> assign e k v =1 assign e' k v.
Proof. by move=> h k'; rewrite /assign h. Qed.
Lemma override_ext e e' kw : e =1 e' -> override e kw =1 override e' kw.
Proof. by elim: kw e e' => [|x kw ih] e e' h //=; apply/ih/assign_ext. Qed.
Lemma lookup_update d kw : lookup (update d kw) =1 override (lookup d) kw.
Proof.
elim: kw d => [|x kw ih] d //= k; rewrite /update /= -/(update _ kw) ih; apply: override_ext => k'; exact: lookup_store.
Qed.
Lemma mem_update d kw k : (k \in names (update d kw)) = (k \in names d) || (k \in names kw).
Proof.
elim: kw d => [|x kw ih] d /=; first by rewrite orbF.
rewrite /update /= -/(update _ kw) ih names_store inE orbA; congr (_ || _).
by case: ifP => h; rewrite ?mem_rcons ?inE; [case: eqP => [->|]; rewrite ?h ?orbF | rewrite orbC].
Qed.
Lemma uniq_update d kw : uniq (names d) -> uniq (names (update d kw)).
Proof.
elim: kw d => [|x kw ih] d //= u; rewrite /update /= -/(update _ kw); apply: ih; rewrite names_store; case: ifP => // h.
by rewrite rcons_uniq h.
Qed.
Lemma override_out e kw k : k \notin names kw -> override e kw k = e k.
Proof.
elim: kw e => [|x kw ih] e //=; rewrite inE negb_or => /andP[kx hk]; rewrite ih //.
by rewrite /assign (negbTE kx).
Qed.
Lemma override_in e d k : uniq (names d) -> k \in names d -> override e d k = lookup d k.
Proof.
elim: d e => [|[a b] d ih] e //= /andP[ad ud]; rewrite inE; case: (k =P a) => [->|/eqP ka] /= => [_|hk].
  by rewrite eqxx override_out // /assign eqxx.
by rewrite eq_sym (negbTE ka) ih.
Qed.
Lemma lookup_out d k : k \notin names d -> lookup d k = None.
Proof. by elim: d => [|[a b] d ih] //=; rewrite inE negb_or eq_sym => /andP[/negbTE -> /ih]. Qed.
Lemma update_self d : uniq (names d) -> lookup (update [::] d) =1 lookup d.
Proof.
move=> u k; rewrite lookup_update; case h : (k \in names d); first by rewrite override_in.
by rewrite override_out ?h // [RHS]lookup_out ?h.
Qed.
(* a dictionary that the methods can handle *)
Definition clean d : bool := uniq (names d) && ~~ has reserved (names d).
Lemma clean_out d k : clean d -> reserved k -> k \notin names d.
Proof. by case/andP=> _ /hasPn hh hk; apply/negP => /hh; rewrite hk. Qed.
Lemma clean_update d kw : clean d -> ~~ has reserved (names kw) -> clean (update d kw).
Proof.
case/andP=> u hd hk; rewrite /clean uniq_update //; apply/hasPn => k; rewrite mem_update => /orP[kd|kk]; [exact: (hasPn hd) | exact: (hasPn hk)].
Qed.
Lemma no_reserved kw k : ~~ has reserved (names kw) -> reserved k -> k \notin names kw.
Proof. by move=> /hasPn hh hk; apply/negP => /hh; rewrite hk. Qed.
Lemma alter_proof h i kw : clean (at_ h i) -> ~~ has reserved (names kw) ->
  exists2 d, alter h i kw = Some (rcons h d, size h) & clean d /\ lookup d =1 override (lookup (at_ h i)) kw.
Proof.
move=> c hk; exists (update (update [::] (at_ h i)) kw); last first.
  split; last by move=> k; rewrite lookup_update; apply/override_ext/update_self; case/andP: c.
  by apply: clean_update => //; apply: clean_update => //; case/andP: c.
rewrite /alter /copy /new (negbTE (no_reserved hk _)) // !(negbTE (clean_out c _)) //; congr (Some (_, _)).
by rewrite /at_ nth_rcons ltnn eqxx set_nthE size_rcons ltnSn drop_oversize ?size_rcons // -[rcons h (update [::] _)]cats1 take_size_cat // cats1.
Qed.
Lemma alter_each_proof h i l : i < size h -> clean (at_ h i) -> all (fun kw => ~~ has reserved (names kw)) l ->
  exists2 ds, alter_each h i l = Some ((h ++ ds)%SEQ, iota (size h) (size l)) & size ds = size l /\
    (all clean ds /\ forall t, t < size l -> lookup (nth [::] ds t) =1 override (lookup (at_ h i)) (nth [::] l t)).
Proof.
elim: l h => [|kw l ih] h ih' c /=; first by exists [::] => //; rewrite cats0.
case/andP=> hk hl; have [d e [cd hd]] := alter_proof c hk; rewrite e.
have ei : at_ (rcons h d) i = at_ h i by rewrite /at_ nth_rcons ih'.
have [||ds e2 [sd [cds hds]]] := ih (rcons h d) _ _ hl; rewrite ?ei ?size_rcons ?ltnS ?(ltnW ih') //.
rewrite e2; exists (d :: ds); first by rewrite cat_rcons size_rcons.
split; first by rewrite /= sd.
split; first by rewrite /= cd.
by case=> [|t] //= ht k; rewrite hds // ei.
Qed.
(* positions *)
Lemma rank_shift l r : foldl (fun r p => r * p.1 + p.2) r l = r * \prod_(p <- l) p.1 + foldl (fun r p => r * p.1 + p.2) 0 l.
Proof.
elim: l r => [|p l ih] r /=; first by rewrite big_nil muln1 addn0.
by rewrite ih [in RHS]ih big_cons mul0n add0n mulnDl mulnA addnA.
Qed.
Lemma choices_size (kw : seq (string * seq V)) : size (choices kw) = \prod_(x <- kw) size x.2.
Proof.
elim: kw => [|[k vs] kw ih] /=; first by rewrite big_nil.
by rewrite big_cons -ih /=; elim: vs => [|v vs ih2] //=; rewrite size_cat size_map ih2 mulSn.
Qed.
Lemma nth_block (A B : Type) (x0 : B) (f : A -> seq B) (l : seq A) (a0 : A) n i j : (forall a, size (f a) = n) -> i < size l -> j < n ->
  nth x0 (flatten [seq f a | a <- l]) (i * n + j) = nth x0 (f (nth a0 l i)) j.
Proof.
move=> sf; elim: l i => [|a l ih] [|i] //= hi hj; first by rewrite nth_cat sf mul0n add0n hj.
by rewrite nth_cat sf mulSn -addnA ltnNge leq_addr /= addKn ih.
Qed.
Lemma zip_sizes (kw : seq (string * seq V)) (cs : seq nat) : size cs = size kw -> \prod_(p <- zip [seq size x.2 | x <- kw] cs) p.1 = \prod_(x <- kw) size x.2.
Proof. by elim: kw cs => [|x kw ih] [|c cs] //=; rewrite ?big_nil // !big_cons => -[e]; rewrite ih. Qed.
Lemma zip_prod (ns cs : seq nat) : size cs = size ns -> \prod_(p <- zip ns cs) p.1 = \prod_(n <- ns) n.
Proof. by elim: ns cs => [|n ns ih] [|c cs] //=; rewrite ?big_nil // !big_cons => -[e]; rewrite ih. Qed.
Lemma rank_lt ns cs : choice_ok ns cs -> rank ns cs < \prod_(n <- ns) n.
Proof.
rewrite /choice_ok /rank => /andP[/eqP e]; elim: ns cs e => [|n ns ih] [|c cs] //=; first by rewrite big_nil.
case=> e /andP[cn hc].
rewrite rank_shift big_cons mul0n add0n; have := ih _ e hc.
rewrite (zip_prod e) => hr; apply: (leq_trans (n := c.+1 * \prod_(j <- ns) j)); last by rewrite leq_mul2r cn orbT.
by rewrite mulSn addnC ltn_add2r.
Qed.
Lemma nth_choices (kw : seq (string * seq V)) (v0 : V) cs : choice_ok [seq size x.2 | x <- kw] cs ->
  nth [::] (choices kw) (rank [seq size x.2 | x <- kw] cs) = chosen kw v0 cs.
Proof.
rewrite /rank; elim: kw cs => [|[k vs] kw ih] [|c cs] //= /andP[/eqP[e] /= /andP[cn hc]].
have ok : choice_ok [seq size x.2 | x <- kw] cs by rewrite /choice_ok e eqxx.
rewrite mul0n add0n rank_shift zip_sizes; last by rewrite e size_map.
have lt := rank_lt ok; rewrite big_map in lt.
rewrite (@nth_block V _ [::] _ vs v0 (\prod_(x <- kw) size x.2)) //; last by move=> v; rewrite size_map choices_size.
by rewrite (nth_map [::]) ?choices_size // ih.
Qed.
Fixpoint digits ns t : seq nat := if ns is n :: ns' then t %/ \prod_(m <- ns') m :: digits ns' (t %% \prod_(m <- ns') m) else [::].
Lemma digits_ok ns t : t < \prod_(n <- ns) n -> choice_ok ns (digits ns t) /\ rank ns (digits ns t) = t.
Proof.
rewrite /choice_ok /rank; elim: ns t => [|n ns ih] t /=; first by rewrite big_nil; case: t.
rewrite big_cons => ht; have p0 : 0 < \prod_(m <- ns) m by case: (\prod_(m <- ns) m) ht => //; rewrite muln0.
have [/andP[/eqP e1 e2] e3] := ih _ (ltn_pmod t p0); split; first by rewrite e1 eqxx e2 andbT /= ltn_divLR.
rewrite mul0n add0n rank_shift e3.
by rewrite (zip_prod e1) -divn_eq.
Qed.
Lemma rank_inj ns cs cs' : choice_ok ns cs -> choice_ok ns cs' -> rank ns cs = rank ns cs' -> cs = cs'.
Proof.
rewrite /rank; elim: ns cs cs' => [|n ns ih] [|c cs] [|c' cs'] //= /andP[/eqP[e] /= /andP[cn hc]] /andP[/eqP[e'] /= /andP[cn' hc']].
have ok : choice_ok ns cs by rewrite /choice_ok e eqxx.
have ok' : choice_ok ns cs' by rewrite /choice_ok e' eqxx.
rewrite !mul0n !add0n rank_shift [in RHS]rank_shift !zip_prod // => h.
have r := rank_lt ok; have r' := rank_lt ok'; rewrite /rank in r r'.
set P := \prod_(j <- ns) j in h r r'; have p0 : 0 < P by apply: leq_ltn_trans r.
have ec : c = c' by move/(congr1 (divn^~ P)): h; rewrite !divnMDl // !divn_small // !addn0.
by rewrite ec (ih cs cs') //; move: h; rewrite ec => /addnI.
Qed.
Lemma product_choices (kw : seq (string * seq V)) : product [seq [seq (e.1, v) | v <- e.2] | e <- kw] = choices kw.
Proof. by elim: kw => [|[k vs] kw ih] //=; rewrite -ih; elim: vs => [|v vs ih2] //=; rewrite ih2. Qed.
Lemma names_choices (kw : seq (string * seq V)) (P : pred (seq string)) : P [seq e.1 | e <- kw] -> all (fun c => P (names c)) (choices kw).
Proof.
elim: kw P => [|[k vs] kw ih] P /= hP; first by rewrite andbT.
elim: vs => [|v vs ih2] //=; rewrite all_cat ih2 andbT all_map; apply: (ih (fun l => P (k :: l))) => //.
Qed.
(* histories *)
Lemma uniq_store d k (v : V) : uniq (names d) -> uniq (names (store d k v)).
Proof. by move=> u; rewrite names_store; case: ifP => // hk; rewrite rcons_uniq hk. Qed.
Lemma clean_store d k (v : V) : clean d -> ~~ reserved k -> clean (store d k v).
Proof.
case/andP=> u hd hk; rewrite /clean uniq_store //; apply/hasPn => k'; rewrite names_store; case: ifP => _; first exact: (hasPn hd).
by rewrite mem_rcons inE => /orP[/eqP ->|/(hasPn hd)].
Qed.
Definition sees h (w : seq (env V)) : Prop := [/\ size h = size w, all clean h & forall i, lookup (at_ h i) =1 nth (@empty V) w i].
Lemma sees_rcons h w d e : sees h w -> clean d -> lookup d =1 e -> sees (rcons h d) (rcons w e).
Proof.
case=> s c v cd de; split; rewrite ?size_rcons ?s //; first by rewrite all_rcons cd.
by move=> i k; rewrite /at_ !nth_rcons s; case: ltngtP => // _; rewrite ?de // v.
Qed.
Lemma sees_clean h w i : sees h w -> i < size w -> clean (at_ h i).
Proof. by case=> s /(all_nthP [::]) c _ hi; apply: c; rewrite s. Qed.
Lemma sees_step h w o : sees h w -> op_ok (size w) o -> exists2 h', step h o = Some h' & sees h' (spec_step w o).
Proof.
move=> sw; case: o => [kw|i|i kw|i k v|i kw] /=.
- move=> hk; rewrite /new (negbTE (no_reserved hk _)) //; eexists; first by []; apply: sees_rcons => //; last exact: lookup_update.
  exact: clean_update.
- move=> hi; have c := sees_clean sw hi; rewrite /copy /new !(negbTE (clean_out c _)) //; eexists; first by [].
  apply: sees_rcons => //; first by apply: clean_update => //; case/andP: c.
  by move=> k; rewrite update_self; [case: sw => _ _; apply | case/andP: c].
- case/andP=> hi hk; have [d -> [cd hd]] := alter_proof (sees_clean sw hi) hk; eexists; first by []; apply: sees_rcons => //.
  by move=> k; rewrite hd; apply: override_ext; case: sw => _ _; apply.
- case/andP=> hi hk; eexists; first by []; have c := sees_clean sw hi; case: sw => s ch vv; split.
  + by rewrite /setattr /change !size_set_nth s.
  + rewrite /setattr; apply/(all_nthP [::]) => j; rewrite size_set_nth nth_set_nth /=.
    have -> : maxn i.+1 (size h) = size h by apply/maxn_idPr; rewrite s.
    by case: eqP => [_ _|_ hj]; [apply: clean_store | apply: (all_nthP [::] ch)].
  by move=> j k'; rewrite /at_ /change !nth_set_nth /=; case: eqP => [_|_]; [rewrite lookup_store; apply/assign_ext/vv | exact: vv].
case/and3P=> hi hp hk; rewrite /parameter_scan (negbTE hp) product_choices.
have hs : i < size h by case: sw => ->.
have [ds -> [sd [cd hd]]] := alter_each_proof hs (sees_clean sw hi) (names_choices (P := fun l => ~~ has reserved l) hk).
eexists; first by []; case: sw => s ch vv; split.
- by rewrite !size_cat size_map s sd.
- by rewrite all_cat ch.
move=> j k; rewrite /at_ !nth_cat s; case: ltnP => hj; first exact: vv.
case: (ltnP (j - size w) (size (choices kw))) => hj2.
  by rewrite hd // (nth_map [::]) //; apply: override_ext; apply: vv.
by rewrite [in RHS]nth_default ?size_map // nth_default ?sd.
Qed.
Lemma sees_run h w ops : sees h w -> history_ok w ops -> exists2 h', run h ops = Some h' & sees h' (foldl (@spec_step V) w ops).
Proof.
elim: ops h w => [|o ops ih] h w sw /=; first by exists h.
by case/andP=> ho /ih hops; have [h' -> s'] := sees_step sw ho; apply: hops.
Qed.
(* names are unique in every reachable state *)
Lemma uniq_alter h i kw h' p : all (fun d => uniq (names d)) h -> alter h i kw = Some (h', p) -> all (fun d => uniq (names d)) h'.
Proof.
move=> u; rewrite /alter /copy /new; do 4 (case: ifP => // _); case=> <- _; apply/(all_nthP [::]) => j.
rewrite size_set_nth size_rcons maxnn nth_set_nth /= => hj; case: eqP => [_|nj].
  by rewrite /at_ nth_rcons ltnn eqxx; apply/uniq_update/uniq_update.
rewrite nth_rcons; have lj : j < size h by lia.
by rewrite lj; apply: (all_nthP [::] u).
Qed.
Lemma uniq_run h ops h' : all (fun d => uniq (names d)) h -> run h ops = Some h' -> all (fun d => uniq (names d)) h'.
Proof.
elim: ops h => [|o ops ih] h u /=; first by case=> <-.
case e : (step h o) => [h1|] //; apply: ih; case: o e => [kw|i|i kw|i k v|i kw] /=.
- by rewrite /new; case: ifP => // _ [<-]; rewrite all_rcons u andbT; apply: uniq_update.
- by rewrite /copy /new; do 2 (case: ifP => // _); case=> <-; rewrite all_rcons u andbT; apply: uniq_update.
- by case e : (alter h i kw) => [[h2 p]|] // [<-]; apply: uniq_alter e.
- case=> <-; apply/(all_nthP [::]) => j _; have un t : uniq (names (at_ h t)).
    by rewrite /at_; case: (ltnP t (size h)) => ht; [apply: (all_nthP [::] u) | rewrite nth_default].
  by rewrite nth_set_nth /=; case: eqP => _; [apply: uniq_store | apply: un].
rewrite /parameter_scan; case: ifP => // _; move: (product _) => l.
elim: l h u h1 => [|c l ihl] h u h1 /=; first by case=> <-.
case e : (alter h i c) => [[h2 p]|] //; case e2 : (alter_each h2 i l) => [[h3 ps]|] // [<-].
by apply: (ihl h2); [apply: uniq_alter e | rewrite e2].
Qed.
End Proofs.

Section Statements.
Variable V : Type.
Implicit Types (h : heap V) (kw : dict V).
(* a state reached by some history of operations *)
Definition reachable h : Prop := exists ops, run [::] ops = Some h.
Lemma reachable_uniq h i : reachable h -> uniq (names (at_ h i)).
Proof.
case=> ops /(uniq_run (h := [::]) isT) u; rewrite /at_; case: (ltnP i (size h)) => hi; last by rewrite nth_default.
exact: (all_nthP [::] u).
Qed.
(* C37: alter makes a new collection with the given parameters replaced and leaves all others alone, as long as no parameter is called
   self, dict or copy; *)
Theorem C37_alter_partial h i kw : reachable h -> ~~ has reserved (names (at_ h i)) -> ~~ has reserved (names kw) ->
  exists h', alter h i kw = Some (h', size h) /\ size h' = (size h).+1 /\ (forall j, j < size h -> at_ h' j = at_ h j) /\
    lookup (at_ h' (size h)) =1 override (lookup (at_ h i)) kw.
Proof.
move=> r hr hk; have [|d e [_ hd]] := alter_proof (h := h) (i := i) _ hk; first by rewrite /clean reachable_uniq.
exists (rcons h d); split; first by []; rewrite size_rcons; split; first by []; split=> [j hj|]; rewrite /at_ nth_rcons ?hj // ltnn eqxx //.
Qed.
(* ... and it raises exactly when there is such a parameter. *)
Theorem C37_alter_raises_refuted h i kw : alter h i kw = None <-> has reserved (names (at_ h i)) \/ "self" \in names kw.
Proof.
have hn (d : dict V) : has reserved (names d) = [|| "self" \in names d, "dict" \in names d | "copy" \in names d].
  apply/hasP/or3P => [[k hk /or3P[/eqP e|/eqP e|/eqP e]]|[hk|hk|hk]]; rewrite -?e.
  - by constructor 1.
  - by constructor 2.
  - by constructor 3.
  - by exists "self".
  - by exists "dict".
  by exists "copy".
rewrite /alter /copy /new hn; case: ifP => // _; first by split=> // _; right.
case c : ("copy" \in _); first by split=> // _; left; rewrite !orbT.
case d : ("dict" \in _); first by split=> // _; left; rewrite !orbT.
by case s : ("self" \in _); split=> //; [left | case].
Qed.
(* C37: collections behave as values of their own under every history that avoids these names. *)
Theorem C37_history_partial (ops : seq (op V)) : history_ok [::] ops -> exists h, run [::] ops = Some h /\
  size h = size (foldl (@spec_step V) [::] ops) /\ forall i, lookup (at_ h i) =1 nth (@empty V) (foldl (@spec_step V) [::] ops) i.
Proof.
have s0 : @sees V [::] [::] by split=> // i; rewrite /at_ !nth_nil.
by case/(sees_run s0) => h e [s _ v]; exists h.
Qed.
(* C37: parameter_scan makes one collection per choice of values; the collection of a choice is found at the rank of the choice. *)
Theorem C37_scan_partial h i (kw : seq (string * seq V)) (v0 : V) : reachable h -> i < size h -> ~~ has reserved (names (at_ h i)) ->
  "p" \notin [seq e.1 | e <- kw] -> ~~ has reserved [seq e.1 | e <- kw] ->
  exists h' ps, parameter_scan h i kw = Some (h', ps) /\ uniq ps /\ size ps = \prod_(x <- kw) size x.2 /\
    (forall j, j < size h -> at_ h' j = at_ h j) /\
    (forall cs, choice_ok [seq size x.2 | x <- kw] cs -> size h <= nth 0 ps (rank [seq size x.2 | x <- kw] cs) /\
      lookup (at_ h' (nth 0 ps (rank [seq size x.2 | x <- kw] cs))) =1 override (lookup (at_ h i)) (chosen kw v0 cs)).
Proof.
move=> r hi hr hp hk; have c : clean (at_ h i) by rewrite /clean reachable_uniq.
have [ds e [sd [_ hd]]] := alter_each_proof hi c (names_choices (P := fun l => ~~ has reserved l) hk).
exists (h ++ ds)%SEQ, (iota (size h) (size (choices kw))); rewrite /parameter_scan (negbTE hp) product_choices e; split; first by [].
split; first exact: iota_uniq; split; first by rewrite size_iota choices_size.
split=> [j hj|cs ok]; first by rewrite /at_ nth_cat hj.
have lt := rank_lt ok; rewrite big_map -choices_size in lt; rewrite nth_iota //; split; first exact: leq_addr.
by rewrite /at_ nth_cat ltnNge leq_addr /= addKn => k; rewrite hd // (nth_choices v0 ok).
Qed.
(* ... every position is the rank of exactly one choice, *)
Theorem C37_rank_bijective (ns : seq nat) t : t < \prod_(n <- ns) n -> exists cs, choice_ok ns cs /\ rank ns cs = t /\ forall cs', choice_ok ns cs' -> rank ns cs' = t -> cs' = cs.
Proof.
by move=> /digits_ok[ok e]; exists (digits ns t); split; first by []; split=> // cs' ok' e'; apply: (rank_inj ok' ok); rewrite e' e.
Qed.
(* ... and the last parameter changes fastest. *)
Theorem C37_last_fastest (ns : seq nat) n cs c : choice_ok (rcons ns n) (rcons cs c) -> c.+1 < n -> rank (rcons ns n) (rcons cs c.+1) = (rank (rcons ns n) (rcons cs c)).+1.
Proof. by case/andP=> /eqP; rewrite !size_rcons => -[e] _ _; rewrite /rank !zip_rcons // !foldl_rcons /= addnS. Qed.
(* C37: the combinations of values of a scan do not exist when a parameter is called p, or when alter raises. *)
Theorem C37_scan_raises_refuted h i (kw : seq (string * seq V)) : i < size h ->
  parameter_scan h i kw = None <-> "p" \in [seq e.1 | e <- kw] \/
    0 < \prod_(x <- kw) size x.2 /\ (has reserved (names (at_ h i)) \/ "self" \in [seq e.1 | e <- kw]).
Proof.
move=> hi; rewrite /parameter_scan; case: ifP => hp; first by split=> // _; left.
rewrite product_choices -choices_size.
have := names_choices (kw := kw) (P := fun l => l == [seq e.1 | e <- kw]) (eqxx _); move: (choices kw) => l hl.
suff -> : alter_each h i l = None <-> 0 < size l /\ (has reserved (names (at_ h i)) \/ "self" \in [seq e.1 | e <- kw]) by split=> [|[]] //; right.
elim: l h hi hl => [|c l ih] h hi /=; first by split=> // -[].
case/andP=> /eqP ec hl; case ea : (alter h i c) => [[h' p]|]; last by split=> // _; split=> //; rewrite -ec; apply/C37_alter_raises_refuted.
have na : ~ (has reserved (names (at_ h i)) \/ "self" \in [seq e.1 | e <- kw]) by rewrite -ec => /C37_alter_raises_refuted; rewrite ea.
have [e1 e2] : i < size h' /\ at_ h' i = at_ h i.
  move: ea; rewrite /alter /copy /new; do 4 (case: ifP => // _); case=> <- _.
  by rewrite /at_ size_set_nth size_rcons maxnn ltnS (ltnW hi) nth_set_nth /= (ltn_eqF hi) nth_rcons hi.
have := ih _ e1 hl; rewrite e2; case: (alter_each h' i l) => [[h'' ps]|] hh; first by split=> // -[_ /na].
by split=> // _; case: (iffLR hh erefl) => _ /na.
Qed.
End Statements.

(* cases *)
Definition history1 : seq (op nat) :=
  [:: New [:: ("beta", 10); ("U", 1)]; Alter 0 [:: ("U", 2)]; SetAttr 0 "t" 7; Scan 1 [:: ("beta", [:: 1; 2]); ("U", [:: 3; 4; 5])]].
Example C37_case : history_ok [::] history1 /\ omap size (run [::] history1) = Some 8 /\
  omap (fun h => [:: lookup (at_ h 0) "U"; lookup (at_ h 1) "U"; lookup (at_ h 1) "t"; lookup (at_ h 7) "U"; lookup (at_ h 6) "beta"]) (run [::] history1)
    = Some [:: Some 1; Some 2; None; Some 5; Some 2].
Proof. by []. Qed.
Example C37_scan_case : parameter_scan [:: [:: ("beta", 10); ("U", 1)]] 0 [:: ("U", [:: 3; 4])]
  = Some ([:: [:: ("beta", 10); ("U", 1)]; [:: ("beta", 10); ("U", 3)]; [:: ("beta", 10); ("U", 4)]], [:: 1; 2]).
Proof. by []. Qed.
Example C37_raises_case : alter [:: [:: ("copy", 1)]] 0 [:: ("U", 2)] = None /\ parameter_scan [:: [:: ("p", 1)]] 0 [:: ("p", [:: 1; 2])] = None.
Proof. by []. Qed.
Example C37_rank_case : choice_ok [:: 2; 3] [:: 1; 2] /\ rank [:: 2; 3] [:: 1; 2] = 5.
Proof. by []. Qed.

Section Lists.
Variable O : Type.
Implicit Types (w : world O) (c : call O) (s : seq (seq O)).
Definition aliasless (free : bool) w s : Prop :=
  [/\ size (handles w) = size s, uniq (handles w), all (fun a => a < size (lists w)) (handles w),
      forall i, i < size s -> objects w i = nth [::] s i & (0 < size (lists w)) /\ (free -> 0 \notin handles w /\ nth [::] (lists w) 0 = [::])].
Lemma aliasless_do free w s c : aliasless free w s -> call_ok (size s) c -> (is_default c -> free) ->
  aliasless (free && ~~ is_default c) (do w c) (spec_do s c).
Proof.
case=> e u al v [z f]; case: c => [|l|i o|i g] /=; rewrite ?andbT ?andbF.
- move=> _ /(_ isT) fr; case: (f fr) => n0 l0; split; rewrite ?size_rcons ?e ?rcons_uniq ?n0 //.
  + by rewrite /= all_rcons z.
  by move=> i; rewrite /objects /= !nth_rcons e ltnS leq_eqVlt; case: (ltngtP i (size s)) => //= hi _; exact: v.
- move=> _ _; have nl : size (lists w) \notin handles w by apply/negP => /(allP al); rewrite ltnn.
  split; rewrite /= ?size_rcons ?e ?rcons_uniq ?nl //.
  + by rewrite all_rcons ltnSn; apply/allP => a /(allP al) /ltnW.
  + move=> i; rewrite /objects /= !nth_rcons e ltnS leq_eqVlt; case: (ltngtP i (size s)) => //= hi _; last by rewrite ltnn eqxx.
    by rewrite (all_nthP 0 al) ?e //; apply: v.
  by split=> // fr; case: (f fr) => n0 l0; rewrite nth_rcons z mem_rcons inE negb_or n0 andbT; split=> //; apply: contraTneq z => <-.
- move=> hi _; have ha := all_nthP 0 al i; rewrite e in ha; have {}ha := ha hi.
  split=> /=; rewrite ?size_set_nth ?e //; first by rewrite (maxn_idPr hi).
  + by rewrite (maxn_idPr ha).
  + move=> j; rewrite (maxn_idPr hi) => hj; rewrite /objects /= !nth_set_nth /= nth_uniq ?e //.
    by case: eqP => [_|_]; [congr rcons; apply: v | apply: v].
  rewrite (maxn_idPr ha); split=> // fr; case: (f fr) => n0 l0; split=> //; rewrite nth_set_nth /=; case: eqP => // a0.
  by move: n0; rewrite a0 mem_nth // e.
move=> hi _; have nl : size (lists w) \notin handles w by apply/negP => /(allP al); rewrite ltnn.
have hs : size (set_nth 0 (handles w) i (size (lists w))) = size s by rewrite size_set_nth e (maxn_idPr hi).
split=> /=; rewrite ?size_rcons ?hs ?size_set_nth ?(maxn_idPr hi) //.
- apply/(uniqP 0) => a b; rewrite !inE hs => ha hb; rewrite !nth_set_nth /=; case: eqP => [->|na]; case: eqP => [->|nb] // E.
  + by move: nl; rewrite E mem_nth // e.
  + by move: nl; rewrite -E mem_nth // e.
  by apply: (uniqP 0 u _ _ _ _ E); rewrite inE e.
- apply/(all_nthP 0) => a; rewrite hs nth_set_nth /= => ha; case: eqP => // _; apply: ltnW; rewrite ltnS; apply: (all_nthP 0 al); rewrite e //.
- move=> j hj; rewrite /objects /= !nth_set_nth /=; case: eqP => [_|_]; first by rewrite nth_rcons ltnn eqxx; congr g; apply: v.
  by rewrite nth_rcons (all_nthP 0 al) ?e //; apply: v.
split=> // fr; case: (f fr) => n0 l0; rewrite nth_rcons z; split=> //; apply/negP => /(nthP 0)[a]; rewrite hs nth_set_nth /= => ha.
by case: eqP => [_ E|_ E]; [move: z; rewrite E | move: n0; rewrite -E mem_nth // e].
Qed.
Lemma aliasless_run (free : bool) w s cs : aliasless free w s -> calls_ok s cs -> count (@is_default O) cs <= free ->
  exists f, aliasless f (foldl (@do O) w cs) (foldl (@spec_do O) s cs).
Proof.
elim: cs free w s => [|c cs ih] free w s al /=; first by exists free.
case/andP=> hc hcs hn; have h : is_default c -> free by case: (is_default c) hn => // ; case: (free).
by apply: (ih _ _ _ (aliasless_do al hc h) hcs); case: (is_default c) hn h => //=; case: (free) => //= _ /(_ isT).
Qed.
(* C38: with at most one object made from the default argument, every object has contents of its own; *)
Theorem C38_history_partial (cs : seq (call O)) : calls_ok [::] cs -> count (@is_default O) cs <= 1 ->
  size (handles (do_all cs)) = size (foldl (@spec_do O) [::] cs) /\
  forall i, i < size (foldl (@spec_do O) [::] cs) -> objects (do_all cs) i = nth [::] (foldl (@spec_do O) [::] cs) i.
Proof.
move=> ok n1; have a0 : aliasless true (initial O) [::] by split.
by case: (aliasless_run a0 ok n1) => f [].
Qed.
(* ... two objects made from it share them, however many operations come between. *)
Theorem C38_shared_default_refuted w (cs : seq (call O)) (o : O) :
  let i := size (handles w) in let w1 := foldl (@do O) (do w (MakeDefault O)) cs in let j := size (handles w1) in let w2 := do w1 (MakeDefault O) in
  all (fun c => if c is SetOrder _ _ then false else true) cs -> i != j /\ objects (do w2 (Append i o)) j = rcons (objects w2 j) o.
Proof.
move=> i w1 j w2 hc.
have [hi hs] : nth 0 (handles w1) i = 0 /\ i < size (handles w1).
  rewrite /w1; clear w2 j w1; have : nth 0 (handles (do w (MakeDefault O))) i = 0 /\ i < size (handles (do w (MakeDefault O))).
    by rewrite /= nth_rcons ltnn eqxx size_rcons.
  move: (do w _) => v; clearbody i; elim: cs v hc => [|c cs ih] v //= /andP[hc hcs] [a b]; apply: ih => //.
  by case: c hc => [|l|k x|k g] //= _; rewrite nth_rcons b size_rcons ltnS ltnW.
split; first by rewrite (ltn_eqF hs).
have ej : nth 0 (handles w2) j = 0 by rewrite /= nth_rcons ltnn eqxx.
have ei : nth 0 (handles w2) i = 0 by rewrite /= nth_rcons hs.
clearbody w2; rewrite /objects /= ej ei nth_set_nth /=.
by rewrite /objects ei.
Qed.
End Lists.
Example C38_case : let cs := [:: MakeFrom [:: 1; 2]; MakeDefault nat; MakeFrom [::]; Append 1 5; Append 2 6; SetOrder 0 rev; Append 0 9] in
  calls_ok [::] cs /\ count (@is_default nat) cs <= 1 /\ [seq objects (do_all cs) i | i <- iota 0 3] = [:: [:: 2; 1; 9]; [:: 5]; [:: 6]].
Proof. by []. Qed.
Example C38_shared_case : objects (do_all [:: MakeDefault nat; MakeDefault nat; Append 0 5]) 1 = [:: 5].
Proof. by []. Qed.

Print Assumptions C37_history_partial.
Print Assumptions C37_scan_partial.
Print Assumptions C38_history_partial.
Print Assumptions C38_shared_default_refuted.
