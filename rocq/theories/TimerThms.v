(* C39, C40, C68: the timer. *)
From mathcomp Require Import all_ssreflect all_algebra.
From mathcomp Require Import zify.
From Verif Require Import TimerModel TimerSpec.
Set Implicit Arguments.
Unset Strict Implicit.
Unset Printing Implicit Defensive.
Import GRing.Theory Num.Theory Order.Theory.
Local Open Scope ring_scope.

Section Tables.
Variables (R : realDomainType) (d : unit) (N : orderType d).
Local Notation path := (seq N).
Implicit Types (m : seq (path * R)) (p q : path) (v : R).
Lemma keys_set m p v : keys (set m p v) = if p \in keys m then keys m else rcons (keys m) p.
Proof.
rewrite /set; case: ifP => h; last by rewrite /keys map_rcons.
by rewrite /keys -map_comp; apply: eq_map => e /=; case: eqP => [<-|].
Qed.
Lemma get_cons e m p : get (e :: m) p = if e.1 == p then e.2 else get m p.
Proof. by rewrite /get /= ; case: eqP. Qed.
Lemma get_out m p : p \notin keys m -> get m p = 0.
Proof. by move=> h; rewrite /get nth_default // size_map -[size m](size_map fst) leqNgt index_mem. Qed.
Lemma get_set m p v q : get (set m p v) q = if q == p then v else get m q.
Proof.
rewrite /set; case: ifP => h.
  elim: m h => [|[a b] m ih] //=; rewrite inE !get_cons /= => /orP[/eqP e|h].
    rewrite -e eqxx /= [p == q]eq_sym; case: eqP => // qp.
    elim: m {ih} => [|[a' b'] m ih] //=; rewrite !get_cons /=; case: (a' =P p) => [ea|_] /=; last by rewrite ih.
    by rewrite ea [p == q]eq_sym; move/eqP/negbTE: qp => ->.
  rewrite (ih h); case: (a =P p) => [->|ap] /=; first by rewrite [p == q]eq_sym; case: eqP.
  by case: (a =P q) => [<-|_] //; case: (a =P p).
elim: m h => [|[a b] m ih] //=; first by move=> _; rewrite get_cons [p == q]eq_sym; case: eqP.
rewrite inE !get_cons /= => /negbT; rewrite negb_or => /andP[pa /negbTE/ih ->].
by case: (a =P q) => [<-|//]; rewrite eq_sym (negbTE pa).
Qed.
Lemma uniq_set m p v : uniq (keys m) -> uniq (keys (set m p v)).
Proof. by rewrite keys_set; case: ifP => // h; rewrite rcons_uniq h. Qed.
Lemma tle_total : total (@tle _ N).
Proof. elim=> [|x a ih] [|y b] //=; rewrite [y == x]eq_sym; case: (x =P y) => // /eqP h; case: ltgtP h => //; by rewrite eqxx. Qed.
Lemma tle_trans : transitive (@tle _ N).
Proof.
move=> b a c; elim: a b c => [|x a ih] [|y b] [|z c] //=; case: (x =P y) => [->|/eqP xy]; first by case: (y =P z) => // _; apply: ih.
case: (y =P z) => [<-|/eqP yz]; first by rewrite (negbTE xy).
case: (x =P z) => [->|_]; last by apply: lt_trans.
by move=> h1 h2; have := lt_trans h1 h2; rewrite ltxx.
Qed.
Lemma tle_parent p x : tle (rcons p x) p = false.
Proof. by elim: p => //= y p; rewrite eqxx. Qed.
Lemma parent_rcons p x : parent (rcons p x) = p.
Proof. by rewrite /parent size_rcons /= -cats1 take_size_cat. Qed.
Lemma prefix_rcons p s x : prefix p (rcons s x) = prefix p s || (p == rcons s x).
Proof.
elim: p s => [|y p ih] [|z s] //=.
by rewrite eqseq_cons ih; case: (y == z).
Qed.
Lemma prefix_size p s : prefix p s -> (size p <= size s)%N.
Proof. by rewrite prefixE => /eqP <-; rewrite size_take_min geq_minr. Qed.
Lemma prefix_full p s : prefix p s -> size p = size s -> p = s.
Proof. by rewrite prefixE => /eqP e h; rewrite -e h take_size. Qed.

(* the loop over the sorted keys *)
Definition child (L : nat) p q : bool := [&& (1 < size q)%N, (size q < L + 1)%N & parent q == p].
Lemma subtract_proof L (l : seq path) m (r : R) : sorted (@tle _ N) l -> uniq l ->
  let st := foldl (subtract L) (m, r) l in
  (forall p, get st.1 p = get m p - \sum_(q <- l | child L p q) get m q) /\ st.2 = r - \sum_(q <- l | (size q <= 1)%N) get m q.
Proof.
move=> hs hu; have {hs} : pairwise (@tle _ N) l by rewrite -sorted_pairwise //; exact: tle_trans.
elim: l m r hu => [|q l ih] m r; first by move=> _ _; split=> [p|]; rewrite big_nil subr0.
move=> /= /andP[ql ul] /andP[/allP hq hl].
have np : (1 < size q)%N -> parent q \notin l.
  move=> s1; apply/negP => /hq; case/lastP: q s1 {ql hq} => // p x _; rewrite parent_rcons tle_parent //.
rewrite [subtract L _ _]/subtract /=; case: (leqP (size q) 1) => s1.
  have [h1 h2] := ih m (r - get m q) ul hl; split.
    by move=> p; rewrite h1 big_cons /child ltnNge s1.
  by rewrite h2 big_cons s1 opprD addrA.
case: ifP => s2; last first.
  have [h1 h2] := ih m r ul hl; split; last by rewrite h2 big_cons leqNgt s1.
  by move=> p; rewrite h1 big_cons /child s2 andbF.
set m' := set _ _ _; have [h1 h2] := ih m' r ul hl; have gl (x : path) : x \in l -> get m' x = get m x.
  by move=> hx; rewrite /m' get_set; case: eqP => // e; case/negP: (np s1); rewrite -e.
split; last by rewrite h2 big_cons leqNgt s1 /=; congr (_ - _); rewrite big_seq_cond [RHS]big_seq_cond; apply: eq_bigr => x /andP[/gl].
move=> p; rewrite h1 big_cons /child s1 s2 /=.
have -> : \sum_(j <- l | child L p j) get m' j = \sum_(j <- l | child L p j) get m j by rewrite big_seq_cond [RHS]big_seq_cond; apply: eq_bigr => x /andP[/gl].
by rewrite /m' get_set [p == _]eq_sym; case: (parent q =P p) => [<-|] //; rewrite opprD addrA.
Qed.
End Tables.

Section History.
Variables (R : realDomainType) (d : unit) (N : orderType d) (clock : nat -> R) (other : N) (L : nat).
Local Notation path := (seq N).
Implicit Types (h : seq path) (p q s : path) (tm : timer R N).
Local Notation tw := (time_where clock).
Lemma tw_rcons P h s : (0 < size h)%N -> tw P (rcons h s) = tw P h + if P (last [::] h) then clock (size h) - clock (size h).-1 else 0.
Proof.
case: h => // x h _; rewrite /time_where size_rcons /= big_ord_recr /=; congr (_ + _).
  by apply: eq_bigr => k _; rewrite -rcons_cons nth_rcons /= ltnS ltnW.
by rewrite -rcons_cons nth_rcons /= ltnSn -(last_nth [::] x h) /=.
Qed.
Lemma shift (a b c : R) : a - b = a + (c - b) - c. Proof. by rewrite [c - b]addrC addrA addrK. Qed.
(* what the state of the timer means *)
Record inv tm h : Prop := Inv {
  inv_ticks : ticks tm = size h; inv_pos : (0 < size h)%N; inv_running : running tm = last [::] h; inv_t0 : t0 tm = clock 0;
  inv_levels : print_levels tm = L; inv_uniq : uniq (keys (timers tm));
  inv_keys : forall p, (p \in keys (timers tm)) = (p != [::]) && has (prefix p) h;
  inv_get : forall p, p != [::] -> get (timers tm) p = tw (prefix p) h - if prefix p (last [::] h) then clock (size h).-1 else 0 }.
Lemma inv_make : inv (make N clock L 0) [:: [::]].
Proof.
split => //= p; first by case: p.
by case: p => // x p _; rewrite /time_where big_ord0 /= subr0.
Qed.
Lemma inv_start tm h x : inv tm h -> inv (start clock tm x) (after_start h x).
Proof.
case=> et e0 er e1 e2 u kk gg; rewrite /start /after_start -er.
have nr : rcons (running tm) x != [::] by case: (running tm).
split => //=; rewrite ?size_rcons ?last_rcons ?et //.
- exact: uniq_set.
- move=> p; rewrite keys_set has_rcons.
  have hp : (if rcons (running tm) x \in keys (timers tm) then keys (timers tm) else rcons (keys (timers tm)) (rcons (running tm) x)) =i
      predU1 (rcons (running tm) x) (mem (keys (timers tm))).
    move=> z; case: ifP => hz; rewrite !inE; last by rewrite mem_rcons inE.
    by case: eqP => // ->; rewrite hz.
  rewrite hp !inE kk prefix_rcons; case: (p =P _) => [->|_] /=; first by rewrite nr orbT.
  case: (p != [::]) => //=; rewrite orbF; case hr : (prefix p (running tm)) => //=.
  by apply/hasP; exists (running tm) => //; rewrite er; case: (h) e0 => //= *; rewrite mem_last.
move=> p p0; rewrite get_set tw_rcons // -er prefix_rcons /=.
case: (p =P _) => [->|_]; last first.
  rewrite orbF gg // -er; case: ifP => _; last by rewrite addr0.
  exact: shift.
rewrite gg // -er orbT; have -> : prefix (rcons (running tm) x) (running tm) = false; last by rewrite addr0 subr0.
by apply/negP => /prefix_size; rewrite size_rcons ltnn.
Qed.
Lemma inv_stop tm h : inv tm h -> running tm != [::] -> exists2 tm', stop clock tm None = (tm', None) & inv tm' (after_stop h).
Proof.
case=> et e0 er e1 e2 u kk gg nr; have hl : running tm \in h by rewrite er; case: (h) e0 => //= *; rewrite mem_last.
have hin : running tm \in keys (timers tm) by rewrite kk nr; apply/hasP; exists (running tm) => //; apply: prefix_refl.
have er' := er; case/lastP e : (running tm) (nr) => [|s x] // _; rewrite e in nr hin hl er.
rewrite /after_stop -er parent_rcons /stop e; case es : (rcons s x) => [|y z]; first by case: (s) es.
have [elast ebel] : last y z = x /\ belast y z = s.
  by move/(congr1 (rcons^~ x)): (erefl (y :: z)) => _; have := es; rewrite lastI => /rcons_inj[].
rewrite /= eqxx -es hin ebel; eexists; first by [].
split => //=; rewrite ?size_rcons ?last_rcons ?et //.
- exact: uniq_set.
- move=> p; rewrite keys_set hin kk has_rcons; case: (p != [::]) => //=; case hp : (prefix p s) => //=.
  by apply/hasP; exists (rcons s x) => //; rewrite prefix_rcons hp.
move=> p p0; rewrite get_set tw_rcons // -er prefix_rcons /=; case: (p =P _) => [->|/eqP/negbTE np].
  rewrite gg // -er prefix_refl orbT; have -> : prefix (rcons s x) s = false by apply/negP => /prefix_size; rewrite size_rcons ltnn.
  by rewrite subr0 -addrA [- _ + _]addrC.
rewrite orbF gg // -er prefix_rcons np orbF; case: ifP => _; last by rewrite addr0.
exact: shift.
Qed.
Lemma stop_all_proof k tm h : inv tm h -> size (running tm) = k ->
  exists2 tm', stop_all clock k tm = (tm', None) & inv tm' (iter k (@after_stop _ N) h) /\ running tm' = [::].
Proof.
elim: k tm h => [|k ih] tm h hi sk; first by exists tm => //; split => //; apply/eqP; rewrite -size_eq0 sk.
have nr : running tm != [::] by rewrite -size_eq0 sk.
have [tm1 e1 i1] := inv_stop hi nr; have s1 : size (running tm1) = k.
  rewrite (inv_running i1) /after_stop last_rcons -(inv_running hi) /parent size_take_min sk /=; exact/minn_idPl/leqnSn.
have [tm2 e2 i2] := ih tm1 _ i1 s1; exists tm2; last by rewrite iterSr.
by rewrite /= e1; case: (running tm) nr.
Qed.
Lemma inv_rcons tm h : inv tm h -> running tm = [::] ->
  inv (Timer (timers tm) (t0 tm) (running tm) (print_levels tm) (ticks tm).+1) (rcons h [::]).
Proof.
case=> et e0 er e1 e2 u kk gg r0; split => //=; rewrite ?size_rcons ?last_rcons ?et //.
  by move=> p; rewrite kk has_rcons; case: p.
move=> p p0; rewrite gg // tw_rcons // -er r0; case: p p0 => // x p _ /=; by rewrite !subr0 addr0.
Qed.
Lemma inv_restart tm h l : inv tm h -> inv (foldl (start clock) tm l) (foldl (@after_start _ N) h l).
Proof. by elim: l tm h => //= x l ih tm h hi; apply/ih/inv_start. Qed.
Lemma last_in h : (0 < size h)%N -> last [::] h \in h.
Proof. by case: h => //= a b _; apply: mem_last. Qed.
Lemma ran_before k h : (0 < size h)%N -> size (last [::] h) = k -> some_timer_ran (iter k (@after_stop _ N) h) = some_timer_ran h.
Proof.
elim: k h => [|k ih] h h0 e //; rewrite iterSr ih /after_stop ?size_rcons ?last_rcons /parent ?e ?size_takel ?e //.
rewrite /some_timer_ran has_rcons orbC; case hh : (has _ h) => //=; apply/negbTE; move/negbT/hasPn: hh => hh.
by have := hh _ (last_in h0); rewrite -size_eq0 e.
Qed.
Lemma no_keys tm h : inv tm h -> (timers tm == [::]) = ~~ some_timer_ran h.
Proof.
move=> hi; apply/eqP/hasPn => [e p hp|hh].
  apply/negP => p0; have := inv_keys hi p; rewrite e p0 /= => /esym/negbT/hasPn/(_ _ hp); rewrite prefix_refl //.
case e : (timers tm) => [|[p v] m] //; have := inv_keys hi p; rewrite e inE eqxx => /esym/andP[p0 /hasP[q hq pq]].
by have /negP := hh q hq; case: q pq {hq} => //; case: (p) p0.
Qed.
Lemma write_proof tm h : inv tm h ->
  if some_timer_ran h then exists tm2, inv tm2 (rcons (before_report h) [::]) /\ running tm2 = [::] /\
    match make_report other (timers tm2) L (clock (size (before_report h)) - clock 0) with
    | inr x => (write clock other tm).2 = Some (inr x)
    | inl r => exists2 tm', write clock other tm = (tm', Some (inl r)) & inv tm' (after_report h)
    end
  else exists2 tm', write clock other tm = (tm', None) & inv tm' (before_report h).
Proof.
move=> hi; have [tm1 e1 [i1 r1]] := stop_all_proof hi erefl; have er := inv_running hi.
rewrite /write e1; have := no_keys i1; rewrite er ran_before -?er //; last exact: inv_pos hi.
case: ifP => hr; last first.
  by case: (timers tm1) => // _; exists tm1 => //; rewrite /before_report -er.
move=> tn; exists (Timer (timers tm1) (t0 tm1) (running tm1) (print_levels tm1) (ticks tm1).+1).
have i2 := inv_rcons i1 r1; split; first by rewrite /before_report -er.
split; first by []; rewrite /= (inv_levels i1) (inv_t0 i1) (inv_ticks i1) /before_report -er.
case: (timers tm1) tn (i2) => // e m _ {}i2; case: (make_report _ _ _ _) => // r; eexists; first by [].
by rewrite /after_report -er /before_report -er; apply: inv_restart; rewrite (inv_levels i1) (inv_t0 i1) (inv_ticks i1) in i2 *.
Qed.
Lemma step_inv tm h o tm' r : inv tm h -> step clock other tm o = (tm', r) -> (if r is Failed _ then False else True) -> inv tm' (history_step h o).
Proof.
move=> hi; case: o => [x|x|] /=.
- by case=> <- _ _; apply: inv_start.
- case e : (stop clock tm x) => [tm1 [x'|]] [<- <-] // _; have nr : running tm != [::] by move: e; rewrite /stop; case: (running tm).
  have [tm2 e2 i2] := inv_stop hi nr; suff -> : tm1 = tm2 by [].
  move: e e2; rewrite /stop; case: (running tm) nr => // a b _ /=; rewrite eqxx; case: ifP => // _; case: ifP => // _ [<-] [<-] //.
have := write_proof hi; case: ifP => hr.
  case=> tm2 [i2 [r2]]; case: (make_report _ _ _ _) => [rp|x]; last by move=> e; case: (write _ _ _) e => tm3 z /= -> [<- <-].
  by case=> tm3 -> i3 [<- <-].
case=> tm3 -> i3 [<- _] _; move: i3; suff -> : before_report h = h by [].
rewrite /before_report; case e : (last [::] h) => [|x s] //; move/hasPn: (negbT hr) => hh; have := inv_pos hi; case: (h) e hh => // a b /= e hh.
by have := hh (last a b) (mem_last _ _); rewrite e.
Qed.
Lemma run_inv ops tm h tm' rs : inv tm h -> run clock other tm ops = Some (tm', rs) -> inv tm' (foldl (@history_step _ N) h ops).
Proof.
elim: ops tm h rs => [|o ops ih] tm h rs hi /=; first by case=> <- _.
case e : (step clock other tm o) => [tm1 [|x|r]] //.
  by apply: ih; apply: step_inv e _.
case e2 : (run _ _ _ _) => [[tm2 rs2]|] // [e3 _]; subst tm2; exact: (ih _ _ _ (step_inv hi e I) e2).
Qed.
(* the report *)
Lemma eq_tw P Q h : {in h, P =1 Q} -> tw P h = tw Q h.
Proof. by move=> e; apply: eq_bigr => k _; rewrite e // mem_nth //; case: (h) k => [[]|x l k] //=; rewrite ltnS ltnW. Qed.
Lemma tw_sum (I : eqType) (l : seq I) (C : pred I) (P : I -> pred path) (Q : pred path) h :
  (forall s g, s \in h -> \sum_(q <- l | C q) (if P q s then g else 0) = if Q s then g else 0 :> R) ->
  \sum_(q <- l | C q) tw (P q) h = tw Q h.
Proof.
move=> e; rewrite /time_where exchange_big; apply: eq_bigr => k _; apply: e.
by rewrite mem_nth //; case: (h) k => [[]|x s k] //=; rewrite ltnS ltnW.
Qed.
Lemma one_term (I : eqType) (l : seq I) (C P : pred I) (i : I) (g : R) : uniq l -> i \in l -> C i -> P i ->
  (forall q : I, q \in l -> C q -> P q -> q = i) -> \sum_(q <- l | C q) (if P q then g else 0) = g.
Proof.
move=> u il ci pi h; rewrite (big_rem i) //= ci pi big_seq_cond big1 ?addr0 // => q /andP[].
by rewrite mem_rem_uniq // inE => /andP[/eqP qi ql] cq; case: ifP => // pq; case: qi; apply: h.
Qed.
Lemma sum_in (I : eqType) (l : seq I) (C : pred I) (F G : I -> R) : (forall q : I, q \in l -> F q = G q) -> \sum_(q <- l | C q) F q = \sum_(q <- l | C q) G q.
Proof. by move=> h; rewrite big_seq_cond [RHS]big_seq_cond; apply: eq_bigr => q /andP[/h]. Qed.
Lemma no_term (I : eqType) (l : seq I) (C P : pred I) (g : R) :
  (forall q : I, q \in l -> C q -> P q -> False) -> \sum_(q <- l | C q) (if P q then g else 0) = 0.
Proof. by move=> h; rewrite big_seq_cond big1 // => q /andP[ql cq]; case: ifP => // /(h q ql cq). Qed.
Lemma tw_all h : tw xpredT h = clock (size h).-1 - clock 0.
Proof. by rewrite /time_where -(big_mkord xpredT (fun k => clock k.+1 - clock k)) telescope_sumr. Qed.
Lemma prefix_parent p s : prefix p s -> prefix (parent p) s.
Proof. by move=> h; apply: prefix_trans h; rewrite /parent prefix_take. Qed.
Lemma prefix_takeE p s : prefix p s -> p = take (size p) s.
Proof. by rewrite prefixE => /eqP. Qed.
Section Rep.
Variables (m : seq (path * R)) (H : seq path).
Hypotheses (um : uniq (keys m)) (km : forall p, (p \in keys m) = (p != [::]) && has (prefix p) H).
Hypothesis gm : forall p, p != [::] -> get m p = tw (prefix p) H.
Local Notation ks := (sort (@tle _ N) (keys m)).
Lemma mem_ks p : (p \in ks) = (p != [::]) && has (prefix p) H. Proof. by rewrite mem_sort km. Qed.
Lemma in_ks p s : s \in H -> p != [::] -> prefix p s -> p \in ks.
Proof. by move=> hs p0 ps; rewrite mem_ks p0; apply/hasP; exists s. Qed.
Lemma uks : uniq ks. Proof. by rewrite sort_uniq. Qed.
Lemma parents_ok : has_parents ks.
Proof.
apply/allP => p pk; have := mem_ks p; rewrite pk => /esym/andP[p0 /hasP[s hs ps]]; case: leqP => //= s1; apply: (in_ks hs); last exact: prefix_parent.
rewrite -size_eq0 /parent size_takel ?leq_pred // -lt0n; lia.
Qed.
Lemma kids p s g (C : pred path) : s \in H -> (forall q, q \in ks -> C q = (size q == (size p).+1) && prefix p q) ->
  \sum_(q <- ks | C q) (if prefix q s then g else 0) = if prefix p s && (s != p) then g else 0 :> R.
Proof.
move=> hs hC; case: ifP => [/andP[ps sp]|/negbT nps].
  have lt : (size p < size s)%N by rewrite ltn_neqAle prefix_size // andbT; apply: contra sp => /eqP e; rewrite (prefix_full ps e).
  have i0 : take (size p).+1 s \in ks by apply: (in_ks hs); rewrite ?prefix_take // -size_eq0 size_takel.
  apply: (one_term (i := take (size p).+1 s)) => //; first exact: uks.
  - rewrite hC // size_takel // eqxx /= prefixE take_take //; move: ps; rewrite prefixE //.
  - exact: prefix_take.
  by move=> q qk; rewrite hC // => /andP[/eqP <- _] /prefix_takeE.
apply: no_term => q qk; rewrite hC // => /andP[/eqP sq pq] qs; case/negP: nps; rewrite (prefix_trans pq qs) /=.
by apply/eqP => e; move: (prefix_size qs); rewrite sq e ltnn.
Qed.
Lemma exclusive_proof p st : p \in ks -> st = foldl (subtract L) (m, clock (size H).-1 - clock 0) ks ->
  get st.1 p = tw (counted_in L p) H.
Proof.
move=> pk ->; have [-> _] := subtract_proof L m (clock (size H).-1 - clock 0) (sort_sorted (@tle_total _ N) _) uks.
have p0 : p != [::] by move: pk; rewrite mem_ks => /andP[].
rewrite gm // /counted_in; case: ltnP => sL; last first.
  rewrite big1_seq ?subr0 // => q /andP[/and3P[s1 s2 /eqP e] _]; move: s2 sL; rewrite -e /parent size_takel ?leq_pred //; lia.
have -> : \sum_(q <- ks | child L p q) get m q = tw (fun s => prefix p s && (s != p)) H.
  rewrite -(tw_sum (C := child L p) (l := ks) (P := fun q => prefix q)); last first.
    move=> s g hs; apply: kids => // q; rewrite mem_ks => /andP[q0 _]; case/lastP: q q0 => // q x _; rewrite /child parent_rcons size_rcons prefix_rcons.
    apply/and3P/andP => [[_ _ /eqP ->]|[/eqP[e]]]; first by rewrite eqxx prefix_refl.
    have np : (p == rcons q x) = false by apply/negP => /eqP e'; move: e; rewrite e' size_rcons; lia.
    rewrite np orbF => pq; have pe : p = q by apply: prefix_full.
    by rewrite -pe; split => //; [rewrite ltnS lt0n size_eq0 | rewrite addn1 ltnS].
  by apply: sum_in => q; rewrite mem_ks => /andP[q0 _]; rewrite gm.
rewrite /time_where -sumrB; apply: eq_bigr => k _ /=; case: (nth _ _ _ =P p) => [->|_]; first by rewrite prefix_refl subr0.
by rewrite andbT subrr.
Qed.
Lemma other_proof st : st = foldl (subtract L) (m, clock (size H).-1 - clock 0) ks -> st.2 = tw (pred1 [::]) H.
Proof.
move=> ->; have [_ ->] := subtract_proof L m (clock (size H).-1 - clock 0) (sort_sorted (@tle_total _ N) _) uks.
have -> : \sum_(q <- ks | (size q <= 1)%N) get m q = tw (fun s => prefix [::] s && (s != [::])) H.
  rewrite -(tw_sum (C := fun q : path => (size q <= 1)%N) (l := ks) (P := fun q => prefix q)); last first.
    by move=> s g hs; apply: kids => // -[|x [|y q]]; rewrite mem_ks.
  by apply: sum_in => q; rewrite mem_ks => /andP[q0 _]; rewrite gm.
rewrite -tw_all /time_where -sumrB; apply: eq_bigr => k _ /=; case: (nth _ _ _ =P [::]) => [->|_]; first by rewrite subr0.
by rewrite prefix0s subrr.
Qed.
Lemma report_proof r : make_report other m L (clock (size H).-1 - clock 0) = inl r ->
  [/\ report_total r = clock (size H).-1 - clock 0,
    (forall p i e, (p, i, e) \in rows r -> p != [:: other] -> [/\ p \in ks, i = tw (prefix p) H & e = tw (counted_in L p) H]),
    (forall p s, s \in H -> p != [::] -> p != [:: other] -> prefix p s -> (size p <= L)%N -> exists i e, (p, i, e) \in rows r),
    [seq x.1.1 | x <- rows r] = [seq p <- rcons ks [:: other] | (size p <= L)%N] &
    (forall i e, ([:: other], i, e) \in rows r -> i = tw (pred1 [::]) H /\ e = tw (pred1 [::]) H)].
Proof.
rewrite /make_report parents_ok /=; case: ifP => // _ [<-] /=; set st := foldl _ _ _; have eo := other_proof (erefl st).
split => //.
- move=> p i e /mapP[q]; rewrite mem_filter mem_rcons inE => /andP[qL /orP[/eqP ->|qk]] [-> -> ->]; first by rewrite eqxx.
  move=> np; rewrite !get_set (negbTE np); split => //; last exact: exclusive_proof.
  by apply: gm; move: qk; rewrite mem_ks => /andP[].
- move=> p s hs p0 po ps pL; do 2 eexists; apply/mapP; exists p => //.
  by rewrite mem_filter pL mem_rcons inE (in_ks hs) ?orbT.
- by rewrite -map_comp /= map_id.
by move=> i e /mapP[q _ [<- -> ->]]; rewrite !get_set eqxx.
Qed.
Lemma sum_proof r : (0 < L)%N -> [:: other] \notin ks -> make_report other m L (clock (size H).-1 - clock 0) = inl r ->
  \sum_(x <- rows r) x.2 = report_total r.
Proof.
move=> L0 no; rewrite /make_report parents_ok /=; case: ifP => // _ [<-] /=; set st := foldl _ _ _; have eo := other_proof (erefl st).
rewrite big_map filter_rcons /= L0 -cats1 big_cat big_seq1 /= get_set eqxx eo big_filter.
have -> : \sum_(p <- ks | (size p <= L)%N) get (set st.1 [:: other] (tw (pred1 [::]) H)) p = tw (fun s => s != [::]) H.
  transitivity (\sum_(p <- ks | (size p <= L)%N) tw (counted_in L p) H).
    rewrite big_seq_cond [RHS]big_seq_cond; apply: eq_bigr => p /andP[pk _]; rewrite get_set; case: eqP => [e|_]; first by rewrite -e pk in no.
    exact: exclusive_proof.
  apply: tw_sum => s g hs; rewrite /counted_in; case: ifP => s0; last first.
    apply: no_term => q; rewrite mem_ks => /andP[q0 _] _; move/negbFE/eqP: s0 => ->; case: ifP => _ /=; first by rewrite eq_sym (negbTE q0).
    by case: (q) q0.
  have t0 : take L s != [::] by rewrite -size_eq0 size_take_min -lt0n leq_min L0 lt0n size_eq0.
  have tk : take L s \in ks by apply: (in_ks hs) => //; apply: prefix_take.
  apply: (one_term (i := take L s)) => //; first exact: uks.
  - by rewrite size_take_min geq_minl.
  - rewrite size_take_min; case: ifP => h /=; last exact: prefix_take.
    rewrite take_oversize //; lia.
  move=> q _ qL; case: ltnP => qL' /=; first by move=> /eqP ->; rewrite take_oversize.
  by move/prefix_takeE => {1}->; congr take; apply/eqP; rewrite eqn_leq qL.
rewrite -tw_all /time_where -big_split; apply: eq_bigr => k _ /=; case: (nth _ _ _ =P [::]) => _; by rewrite ?addr0 ?add0r.
Qed.
End Rep.
End History.

Section Statements.
Variables (R : realDomainType) (d : unit) (N : orderType d) (clock : nat -> R) (other : N) (L : nat).
Local Notation path := (seq N).
Variables (ops : seq (op N)) (tm tm' : timer R N) (rs : seq (option (report R N))) (r : report R N).
Hypothesis ran : run clock other (make N clock L 0) ops = Some (tm, rs).
(* the readings up to and including the one at which the report is made *)
Let H : seq path := rcons (before_report (history ops)) [::].
Local Notation tw := (time_where clock).
Lemma inv_ran : inv clock L tm (history ops).
Proof. exact: (run_inv (inv_make N clock L) ran). Qed.
Lemma last_restart h (l : path) : last [::] (foldl (@after_start _ N) h l) = last [::] h ++ l.
Proof. by elim: l h => [|x l ih] h; rewrite ?cats0 //= ih /after_start last_rcons cat_rcons. Qed.
(* C39: the running timers are the started ones not yet stopped, *)
Theorem C39_running : running tm = last [::] (history ops).
Proof. exact: inv_running inv_ran. Qed.
Hypothesis wrote : write clock other tm = (tm', Some (inl r)).
Lemma wrote_proof : exists tm2, [/\ inv clock L tm2 H, running tm2 = [::], some_timer_ran (history ops) &
  make_report other (timers tm2) L (clock (size H).-1 - clock 0) = inl r] /\ inv clock L tm' (after_report (history ops)).
Proof.
have := write_proof other inv_ran; case: ifP => hr; last by case=> t; rewrite wrote.
case=> tm2 [i2 [r2]]; rewrite wrote /H size_rcons; case e : (make_report _ _ _ _) => [r'|x] //.
by case=> t [et er] it; exists tm2; rewrite et er.
Qed.
Lemma rep_hyps tm2 : inv clock L tm2 H -> forall p, p != [::] -> get (timers tm2) p = tw (prefix p) H.
Proof. by move=> i2 p p0; rewrite (inv_get i2) // /H last_rcons; case: p p0 => //= *; rewrite subr0. Qed.
(* ... writing a report does not change them, *)
Theorem C39_write_keeps_running : running tm' = running tm.
Proof.
have [tm2 [[i2 r2 _ _] i']] := wrote_proof; rewrite (inv_running i') C39_running /after_report last_restart last_rcons //.
Qed.
(* ... the total is the time since the timer was made, *)
Theorem C39_total : report_total r = clock (size H).-1 - clock 0.
Proof. by have [tm2 [[i2 r2 _ er] _]] := wrote_proof; have [] := report_proof (inv_uniq i2) (inv_keys i2) (rep_hyps i2) er. Qed.
(* ... every row shows the time during which its timers were running and the time during which they were the innermost ones, *)
Theorem C39_rows p i e : (p, i, e) \in rows r -> p != [:: other] -> i = tw (prefix p) H /\ e = tw (counted_in L p) H.
Proof. by have [tm2 [[i2 r2 _ er] _]] := wrote_proof; have [_ h _ _ _] := report_proof (inv_uniq i2) (inv_keys i2) (rep_hyps i2) er => hp np; case: (h p i e hp np). Qed.
(* ... no timer that ran is missing down to the level asked for, *)
Theorem C39_complete p s : s \in H -> prefix p s -> p != [::] -> p != [:: other] -> (size p <= L)%N -> exists i e, (p, i, e) \in rows r.
Proof. by have [tm2 [[i2 r2 _ er] _]] := wrote_proof; have [_ _ h _ _] := report_proof (inv_uniq i2) (inv_keys i2) (rep_hyps i2) er => h1 h2 h3 h4 h5; apply: (h p s). Qed.
(* ... the row Other shows the time without any timer, *)
Theorem C39_other i e : ([:: other], i, e) \in rows r -> i = tw (pred1 [::]) H /\ e = tw (pred1 [::]) H.
Proof. by have [tm2 [[i2 r2 _ er] _]] := wrote_proof; have [_ _ _ _ h] := report_proof (inv_uniq i2) (inv_keys i2) (rep_hyps i2) er; apply: h. Qed.
(* ... no time is negative, *)
Theorem C39_not_negative p i e : (forall k, clock k <= clock k.+1) -> (p, i, e) \in rows r -> 0 <= e <= i.
Proof.
move=> mono; have w0 P : 0 <= tw P H by apply: sumr_ge0 => k _; case: ifP => // _; rewrite subr_ge0.
case: (p =P [:: other]) => [->|/eqP po] hp; first by have [-> ->] := C39_other hp; rewrite w0 lexx.
have [-> ->] := C39_rows hp po; rewrite w0 /=; apply: ler_sum => k _; rewrite /counted_in; case: (size p < L)%N => //.
by case: (_ =P p) => [->|_]; rewrite ?prefix_refl //; case: ifP => // _; rewrite subr_ge0.
Qed.
(* ... and the exclusive times add up to the total, provided no outermost timer has the name Other. *)
Theorem C39_adds_up_partial : (0 < L)%N -> ~~ has (prefix [:: other]) H -> \sum_(x <- rows r) x.2 = report_total r.
Proof.
move=> L0 no; have [tm2 [[i2 r2 _ er] _]] := wrote_proof; rewrite (sum_proof (inv_uniq i2) (inv_keys i2) (rep_hyps i2) L0 _ er) //.
by rewrite mem_sort (inv_keys i2) (negbTE no).
Qed.
End Statements.

Section Names.
Variables (R : realDomainType) (d : unit) (N : orderType d).
Local Notation path := (seq N).
Definition seconds (k : nat) : R := k%:R.
(* a call of a timer x, and the report *)
Lemma one_call (other x : N) (L : nat) : (0 < L)%N -> exists tm rs, run seconds other (make N seconds L 0) [:: Start x; Stop None] = Some (tm, rs) /\
  exists tm' r, write seconds other tm = (tm', Some (inl r)) /\ rows r = [:: ([:: x], if x == other then 2%:R else 1, if x == other then 2%:R else 1); ([:: other], 2%:R, 2%:R)] /\ report_total r = 3%:R.
Proof.
case: L => // L _.
have -> : run seconds other (make N seconds L.+1 0) [:: Start x; Stop None] = Some (Timer [:: ([:: x], 0 - seconds 1 + seconds 2)] (seconds 0) [::] L.+1 3, [::]).
  have es : start seconds (make N seconds L.+1 0) x = Timer [:: ([:: x], 0 - seconds 1)] (seconds 0) [:: x] L.+1 2 by [].
  by rewrite /= es /stop /= eqxx inE eqxx /set /= inE eqxx /= /get /= eqxx.
do 2 eexists; split; first by [].
rewrite /write /= /make_report /= /sort /= /has_parents /= /set /get /= inE.
have -> : (seconds 3 - seconds 0 == 0) = false by rewrite subr0 pnatr_eq0.
have o1 : 0 - seconds 1 + seconds 2 = 1 :> R by rewrite sub0r addrC /seconds -natrB.
have o2 : seconds 3 - seconds 0 - 1 = 2%:R :> R by rewrite subr0 /seconds -[1]/(1%:R) -natrB.
have eo (a b : N) : ([:: a] == [:: b]) = (a == b) by rewrite eqseq_cons andbT.
rewrite !eo o1 eqxx /= o2 [other == x]eq_sym; case: (x =P other) => [e|/eqP/negbTE ne] /=; do 2 eexists; (split; first by []); rewrite ?e ?eqxx ?eo ?ne /= ?eqxx ?eo ?ne /=; split; rewrite ?subr0 //.
Qed.
(* C39: a timer called Other breaks the sum. *)
Theorem C39_adds_up_refuted (other : N) (L : nat) : (0 < L)%N -> exists ops tm rs tm' r, [/\
  run seconds other (make N seconds L 0) ops = Some (tm, rs), write seconds other tm = (tm', Some (inl r)) & \sum_(x <- rows r) x.2 <> report_total r].
Proof.
move=> L0; have [tm [rs [h1 [tm' [r [h2 [h3 h4]]]]]]] := one_call other other L0.
exists [:: Start other; Stop None], tm, rs, tm', r; split => //.
rewrite h3 h4 !big_cons big_nil /= eqxx addr0 -natrD => /eqP; by rewrite eqr_nat.
Qed.
Example C39_case (other x : N) : x != other -> exists tm rs, run seconds other (make N seconds 1000 0) [:: Start x; Stop None] = Some (tm, rs) /\
  exists tm' r, write seconds other tm = (tm', Some (inl r)) /\ rows r = [:: ([:: x], 1, 1); ([:: other], 2%:R, 2%:R)] /\ report_total r = 3%:R.
Proof. by move/negbTE=> h; have := @one_call other x 1000 isT; rewrite h. Qed.

Section Exceptions.
Variables (clock : nat -> R).
Implicit Types (tm : timer R N) (body : method R N).
(* a body that starts as many timers as it stops and forgets none *)
Definition balanced body : Prop := forall tm, running (body tm).1 = running tm /\ {subset keys (timers tm) <= keys (timers (body tm).1)}.
Lemma stop_top tm s x : running tm = rcons s x -> rcons s x \in keys (timers tm) -> exists tm', stop clock tm None = (tm', None) /\ running tm' = s.
Proof.
move=> e hin; rewrite /stop e; case es : (rcons s x) => [|y z]; first by case: (s) es.
have [elast ebel] : last y z = x /\ belast y z = s by have := es; rewrite lastI => /rcons_inj[].
by rewrite /= eqxx -es hin; eexists; split; first by [].
Qed.
Lemma start_key tm x : rcons (running tm) x \in keys (timers (start clock tm x)).
Proof. by rewrite /start /= keys_set; case: ifP => // _; rewrite mem_rcons mem_head. Qed.
(* C40: a decorated method that returns leaves the running timers as they were, *)
Theorem C40_returning_partial name body tm : balanced body -> (body (start clock tm name)).2 = false ->
  running (decorated clock name body tm).1 = running tm /\ (decorated clock name body tm).2 = false.
Proof.
move=> b; rewrite /decorated; have [] := b (start clock tm name); case: (body _) => tm1 raised /= hr hk ->.
have [tm2 [-> e]] := stop_top hr (hk _ (start_key tm name)) => //.
Qed.
(* ... one that raises leaves its own timer running, *)
Theorem C40_raising_refuted name body tm : balanced body -> (body (start clock tm name)).2 = true ->
  running (decorated clock name body tm).1 = rcons (running tm) name /\ running (decorated clock name body tm).1 <> running tm.
Proof.
move=> b; rewrite /decorated; have [] := b (start clock tm name); case: (body _) => tm1 raised /= hr hk -> /=; rewrite hr; split => //.
by move/(congr1 size)/eqP; rewrite size_rcons -addn1 -{2}[size _]addn0 eqn_add2l.
Qed.
(* ... so that stopping the enclosing timer by its name raises RuntimeError, *)
Theorem C40_enclosing_timer name body tm outer : balanced body -> (body (start clock tm name)).2 = true -> outer != name ->
  (stop clock (decorated clock name body tm).1 (Some outer)).2 = Some RuntimeError.
Proof.
move=> b hb no; have [hr _] := C40_raising_refuted b hb; rewrite /stop hr; case es : (rcons _ _) => [|y z]; first by case: (running tm) es.
have elast : last y z = name by have := es; rewrite lastI => /rcons_inj[].
by rewrite /= elast no.
Qed.
(* ... while a with statement is safe in both cases. *)
Theorem C40_with_statement name body tm : balanced body -> running (with_timer clock name body tm).1 = running tm /\
  (with_timer clock name body tm).2 = (body (start clock tm name)).2.
Proof.
move=> b; rewrite /with_timer; have [] := b (start clock tm name); case: (body _) => tm1 raised /= hr hk.
by have [tm2 [-> e]] := stop_top hr (hk _ (start_key tm name)); rewrite orbF.
Qed.
Example C40_case : balanced (fun tm => (tm, true)) /\ balanced (fun tm => (tm, false)).
Proof. by split=> tm; split. Qed.
(* C68: a stop with the wrong name raises, but the innermost timer has been removed from the running ones and its time was not added. *)
Theorem C68_failed_stop tm s x name : running tm = rcons s x -> name != x ->
  stop clock tm (Some name) = (Timer (timers tm) (t0 tm) s (print_levels tm) (ticks tm), Some RuntimeError).
Proof.
move=> e nx; rewrite /stop e; case es : (rcons s x) => [|y z]; first by case: (s) es.
have [elast ebel] : last y z = x /\ belast y z = s by have := es; rewrite lastI => /rcons_inj[].
by rewrite /= elast nx ebel.
Qed.
Theorem C68_failed_stop_refuted tm s x name : running tm = rcons s x -> name != x -> (stop clock tm (Some name)).1 <> tm.
Proof.
by move=> e nx; rewrite (C68_failed_stop e nx) /= => /(congr1 (@running _ _ _)) /=; rewrite e => /(congr1 size)/eqP; rewrite size_rcons -{1}[size s]addn0 -addn1 eqn_add2l.
Qed.
(* C68: the next report shows the clock reading of the start as a negative time. *)
Theorem C68_negative_time_refuted (other x name : N) (L : nat) : (0 < L)%N -> name != x -> x != other -> clock 2 != clock 0 ->
  exists r, (write clock other (stop clock (start clock (make N clock L 0) x) (Some name)).1).2 = Some (inl r) /\ ([:: x], - clock 1, - clock 1) \in rows r.
Proof.
case: L => // L _ nx xo ck; rewrite (@C68_failed_stop _ [::] x) // /write /= /make_report /= /sort /= /has_parents /= /set /get /= inE.
have eo (a b : N) : ([:: a] == [:: b]) = (a == b) by rewrite eqseq_cons andbT.
rewrite subr_eq0 (negbTE ck) !eo [other == x]eq_sym (negbTE xo) /= !eqxx /=.
by eexists; split; first by []; rewrite /= sub0r mem_head.
Qed.
End Exceptions.
End Names.
Print Assumptions C39_rows.
Print Assumptions C39_adds_up_partial.
Print Assumptions C39_adds_up_refuted.
Print Assumptions C40_raising_refuted.
Print Assumptions C68_negative_time_refuted.
