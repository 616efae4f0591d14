From mathcomp Require Import all_ssreflect all_algebra.
From Verif Require Import MpiModel.
Set Implicit Arguments.
Unset Strict Implicit.
Unset Printing Implicit Defensive.
Import GRing.Theory.
Local Open Scope ring_scope.

Lemma chunk_end_start s n r : (chunk_range s n r).2 = (chunk_range s n r.+1).1.
Proof.
rewrite /chunk_range; set c := (s %/ n)%N; set l := (s - n * c)%N.
case: (ltnP r l) => h1; case: (ltnP r.+1 l) => h2 //=.
- have -> : l = r.+1 by apply/eqP; rewrite eqn_leq h1 h2.
  by rewrite mulnS addnC; rewrite addnC.
- by rewrite ltnNge (leq_trans h1 (leqnSn _)) in h2.
Qed.

Lemma chunk_start0 s n : (chunk_range s n 0).1 = 0%N.
Proof.
rewrite /chunk_range; case: ltnP => //=; rewrite leqn0 => /eqP ->.
by rewrite mul0n.
Qed.

Lemma chunk_last s n : (0 < n)%N -> (chunk_range s n n).1 = s.
Proof.
move=> n0; rewrite /chunk_range; set c := (s %/ n)%N.
have e : (s = n * c + s %% n)%N by rewrite mulnC -divn_eq.
have l : (s - n * c = s %% n)%N by rewrite {1}e addKn.
rewrite l; case: ltnP => [h|_] /=; last by rewrite addnC -e.
by have := ltn_pmod s n0; rewrite ltnNge (ltnW h).
Qed.

Lemma chunk_le s n r : ((chunk_range s n r).1 <= (chunk_range s n r).2)%N.
Proof.
by rewrite /chunk_range; case: ifP => _ /=; rewrite ?leq_add2l leq_mul2r leqnSn orbT.
Qed.

Lemma chunk_prefix (T : Type) (mesh : seq T) n r :
  flatten [seq mpi_view mesh n i | i <- iota 0 r] = take (chunk_range (size mesh) n r).1 mesh.
Proof.
elim: r => [|r IH]; first by rewrite chunk_start0 take0.
rewrite -addn1 iotaD map_cat flatten_cat IH /= cats0 /mpi_view addn1 add0n.
rewrite -chunk_end_start -[in RHS](subnKC (chunk_le (size mesh) n r)).
by rewrite takeD.
Qed.

Lemma chunks_cat (T : Type) (mesh : seq T) n : (0 < n)%N ->
  flatten [seq mpi_view mesh n i | i <- iota 0 n] = mesh.
Proof. by move=> n0; rewrite chunk_prefix chunk_last // take_size. Qed.

(* sizes differ by at most one *)
Lemma chunk_size s n r : 
  ((chunk_range s n r).2 - (chunk_range s n r).1 = s %/ n + (r < s - n * (s %/ n)))%N.
Proof.
rewrite /chunk_range; case: ltnP => h /=.
  by rewrite mulSn addnK addn1.
by rewrite subnDl mulSn addnK addn0.
Qed.

Section A.
Variables (T : eqType) (V : zmodType).

Lemma foldl_upd (f : T -> V) pts A q :
  foldl (fun A p => upd A p (f p)) A pts q = if q \in pts then f q else A q.
Proof.
elim: pts A => [//|p pts IH] A /=; rewrite IH inE.
by case: ifP => _; rewrite ?orbT // orbF /upd; case: eqP => [->|].
Qed.

Lemma fillE (f : T -> V) pts q : fill f pts q = if q \in pts then f q else 0.
Proof. exact: foldl_upd. Qed.

Lemma foldl_acc (E : Type) (key : E -> T) (h : E -> V) evs A q :
  foldl (fun A e => upd A (key e) (A (key e) + h e)) A evs q =
  A q + \sum_(e <- evs | key e == q) h e.
Proof.
elim: evs A => [|e evs IH] A /=; first by rewrite big_nil addr0.
rewrite IH big_cons /upd eq_sym; case: eqP => [->|_] //.
by rewrite addrA.
Qed.

Lemma accumulateE (E : Type) (key : E -> T) (h : E -> V) evs q :
  accumulate key h evs q = \sum_(e <- evs | key e == q) h e.
Proof. by rewrite /accumulate foldl_acc add0r. Qed.

Lemma sum_const_if (n : nat) (P : nat -> bool) (v : V) :
  \sum_(r < n) (if P r then v else 0) = v *+ count P (iota 0 n).
Proof.
elim: n => [|n IH]; first by rewrite big_ord0.
rewrite big_ord_recr IH -[in RHS](addn1 n) iotaD count_cat /= addn0 add0n mulrnDr.
by case: (P n).
Qed.

Lemma count_flatten_in (ss : seq (seq T)) q : uniq (flatten ss) ->
  count (fun s => q \in s) ss = (q \in flatten ss) :> nat.
Proof.
elim: ss => [//|s ss IH] /=; rewrite cat_uniq => /and3P [_ /hasPn h u].
rewrite IH // mem_cat; case: (boolP (q \in flatten ss)) => [hq|_]; last by rewrite orbF addn0.
by have hn : q \notin s := h q hq; rewrite orbT (negbTE hn).
Qed.

Lemma mpi_map_correct (mesh : seq T) nranks (sched : nat -> seq T) (f : T -> V) :
  (0 < nranks)%N -> uniq mesh ->
  (forall r, (r < nranks)%N -> perm_eq (sched r) (mpi_view mesh nranks r)) ->
  forall p, mpi_map nranks sched f p = if p \in mesh then f p else 0.
Proof.
move=> n0 um hs p; rewrite /mpi_map /all_reduce.
transitivity (\sum_(r < nranks) (if p \in mpi_view mesh nranks r then f p else 0)).
  by apply: eq_bigr => r _; rewrite fillE (perm_mem (hs r (ltn_ord r))).
rewrite (sum_const_if nranks (fun r => p \in mpi_view mesh nranks r)).
have := @count_flatten_in [seq mpi_view mesh nranks i | i <- iota 0 nranks] p.
rewrite chunks_cat // count_map => /(_ um) ->.
by case: (p \in mesh).
Qed.

End A.

Lemma sum_flatten_iota (V : zmodType) (K : Type) (ss : nat -> seq K) (h : K -> V) n :
  \sum_(r < n) \sum_(k <- ss r) h k = \sum_(k <- flatten [seq ss i | i <- iota 0 n]) h k.
Proof.
elim: n => [|n IH]; first by rewrite big_ord0 big_nil.
by rewrite big_ord_recr IH -[in RHS](addn1 n) iotaD map_cat flatten_cat big_cat /= cats0 add0n.
Qed.

Lemma mpi_accumulate_correct (K W : eqType) (V : zmodType) nranks (kmesh : seq K) (wmesh : seq W)
    (wsched : nat -> K -> seq W) (h : K * W -> V) :
  (0 < nranks)%N -> uniq wmesh ->
  (forall r k, (r < nranks)%N -> perm_eq (wsched r k) wmesh) ->
  forall w, mpi_accumulate nranks kmesh wsched h w =
            if w \in wmesh then \sum_(k <- kmesh) h (k, w) else 0.
Proof.
move=> n0 uw hs w; rewrite /mpi_accumulate /all_reduce.
transitivity (\sum_(r < nranks) \sum_(k <- mpi_view kmesh nranks r)
                (if w \in wmesh then h (k, w) else 0)).
  apply: eq_bigr => r _; rewrite accumulateE big_flatten /= big_map.
  rewrite big_seq_cond [RHS]big_seq_cond; apply: eq_bigr => k _.
  rewrite big_map /= (perm_big _ (hs r k (ltn_ord r))) /=.
  case: ifP => hw; last first.
    rewrite big1_seq // => w' /andP [/eqP ->]; by rewrite hw.
  by rewrite -big_filter filter_pred1_uniq // big_seq1.
rewrite (sum_flatten_iota (fun r => mpi_view kmesh nranks r) (fun k => if w \in wmesh then h (k, w) else 0)).
rewrite chunks_cat //; case: ifP => // _.
by rewrite big1.
Qed.
