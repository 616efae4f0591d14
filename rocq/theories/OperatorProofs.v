(* The algebra of operators. *)
From mathcomp Require Import all_ssreflect all_algebra.
From Verif Require Import OperatorModel OperatorSpec Fring.
Set Implicit Arguments.
Unset Strict Implicit.
Unset Printing Implicit Defensive.
Import GRing.Theory Num.Theory.
Local Open Scope ring_scope.

Lemma clt_irr x : clt x x = false.
Proof. by rewrite /clt eqxx /= ltnn; case: ifP. Qed.
Lemma clt_trans : transitive clt.
Proof.
move=> [b j] [a i] [d k]; rewrite /clt /=; case: a b d => [] [] [] //= h1 h2; first exact: ltn_trans h1 h2.
exact: ltn_trans h2 h1.
Qed.
Lemma clt_asym x y : clt x y -> clt y x = false.
Proof. by move=> h; apply/negP => /(clt_trans h); rewrite clt_irr. Qed.
Lemma clt_total x y : x <> y -> ~~ clt x y -> clt y x.
Proof.
case: x y => [a i] [b j]; rewrite /clt /=; case: a b => [] [] //= h; rewrite -leqNgt leq_eqVlt => /orP[/eqP e|//];
  by case: h; rewrite e.
Qed.
Lemma cbarK : involutive cbar.
Proof. by case=> b i; rewrite /cbar /= negbK. Qed.
Lemma cbar_irr x : (x == cbar x) = false.
Proof. by case: x => [[] i]; apply/eqP => -[]. Qed.
Lemma cbar_sym x y : (x == cbar y) = (y == cbar x).
Proof. by apply/eqP/eqP => ->; rewrite cbarK. Qed.
(* x precedes every operator of m *)
Definition below (x : cop) (m : mono) := all (clt x) m.
Lemma sorted_cons x m : sorted clt (x :: m) = below x m && sorted clt m.
Proof. by rewrite /= path_sortedE //; apply: clt_trans. Qed.
Lemma sorted_consI x m : below x m -> sorted clt m -> sorted clt (x :: m).
Proof. by rewrite sorted_cons => -> ->. Qed.
Lemma below_trans x y m : clt x y -> below y m -> below x m.
Proof. by move=> h; apply: sub_all => z; apply: clt_trans. Qed.

Section Algebra.
Variable C : numClosedFieldType.
Local Notation operator := (operator C).
Add Ring Cring : (fld_rt (Num.ClosedField.fieldType C)).
Implicit Types (A B D : operator) (F G : mono -> C) (m w : mono) (x y : cop).
Lemma sorted_ind2 (P : mono -> Prop) : P [::] -> (forall x m, below x m -> sorted clt m -> P m -> P (x :: m)) ->
  forall m, sorted clt m -> P m.
Proof. by move=> h0 h; elim=> [|x m ih] //; rewrite sorted_cons => /andP[b s]; apply: h => //; apply: ih. Qed.

Definition spair (s : seq (C * mono)) F : C := \sum_(p <- s) p.1 * F p.2.
Definition L x F : mono -> C := fun m => spair (lmul C x m) F.
Arguments L x F m : simpl never.
Definition eqF F G := forall m, sorted clt m -> F m = G m.

Lemma L_nil x F : L x F [::] = F [:: x].
Proof. by rewrite /L /spair /= big_seq1 mul1r. Qed.
Lemma L_lt x y m F : clt x y -> L x F (y :: m) = F (x :: y :: m).
Proof. by rewrite /L /spair /= => ->; rewrite big_seq1 mul1r. Qed.
Lemma L_eq x m F : L x F (x :: m) = 0.
Proof. by rewrite /L /spair /= clt_irr eqxx big_nil. Qed.
Lemma L_gt x y m F : clt y x -> L x F (y :: m) = - L x (fun p => F (y :: p)) m + (x == cbar y)%:R * F m.
Proof.
move=> h; rewrite /L /spair /= (clt_asym h) ifN; last by apply: contraTneq h => ->; rewrite clt_irr.
rewrite big_cat big_map /=; congr (_ + _); first by rewrite -sumrN; apply: eq_bigr => p _ /=; rewrite mulNr.
by case: eqP => _; rewrite ?big_seq1 ?big_nil ?mul1r ?mul0r.
Qed.
Lemma L_below x m F : below x m -> L x F m = F (x :: m).
Proof. by case: m => [|y m] => [_|/= /andP[h _]]; [apply: L_nil | apply: L_lt]. Qed.

(* products are normal ordered *)
Lemma lmul_below z x m p : below z m -> clt z x -> p \in lmul C x m -> below z p.2.
Proof.
elim: m p => [|y m ih] p /=; first by move=> _ h; rewrite inE => /eqP -> /=; rewrite h.
move=> /andP[hy hm] hx; case: ifP => h; first by rewrite inE => /eqP -> /=; rewrite hx hy.
case: ifP => e //; rewrite mem_cat => /orP[/mapP[q hq ->] /=|]; first by rewrite hy (ih q).
by case: ifP => // _; rewrite inE => /eqP ->.
Qed.
Lemma lmul_sorted x m p : sorted clt m -> p \in lmul C x m -> sorted clt p.2.
Proof.
elim: m p => [|y m ih] p; first by move=> _; rewrite inE => /eqP ->.
rewrite sorted_cons => /andP[hb hs] /=; case: ifP => h; first (rewrite inE => /eqP ->; apply: sorted_consI (sorted_consI hb hs)).
  by rewrite /below /= h; apply: below_trans hb.
case: eqP => e //; rewrite mem_cat => /orP[/mapP[q hq ->]|].
  by apply: sorted_consI (ih q hs hq); apply: (lmul_below hb _ hq); apply: clt_total e (negbT h).
by case: ifP => // _; rewrite inE => /eqP ->.
Qed.
Lemma spair_ext (s : seq (C * mono)) F G : (forall p, p \in s -> F p.2 = G p.2) -> spair s F = spair s G.
Proof. by move=> h; rewrite /spair big_seq_cond [RHS]big_seq_cond; apply: eq_bigr => p /andP[hp _]; rewrite h. Qed.
Lemma L_ext x F G : eqF F G -> eqF (L x F) (L x G).
Proof. by move=> h m hm; apply: spair_ext => p hp; apply/h/(lmul_sorted hm hp). Qed.
Lemma spair_lin (s : seq (C * mono)) (T : Type) (r : seq T) (a : T -> C) (F : T -> mono -> C) :
  spair s (fun m => \sum_(t <- r) a t * F t m) = \sum_(t <- r) a t * spair s (F t).
Proof.
rewrite /spair; under eq_bigr do rewrite mulr_sumr; rewrite exchange_big; apply: eq_bigr => t _.
by rewrite mulr_sumr; apply: eq_bigr => p _; rewrite mulrCA.
Qed.
Lemma L_lin x (T : Type) (r : seq T) (a : T -> C) (F : T -> mono -> C) m :
  L x (fun m => \sum_(t <- r) a t * F t m) m = \sum_(t <- r) a t * L x (F t) m.
Proof. exact: spair_lin. Qed.
Lemma L_add x a b F G m : L x (fun m => a * F m + b * G m) m = a * L x F m + b * L x G m.
Proof.
rewrite /L /spair !mulr_sumr -big_split; apply: eq_bigr => p _ /=; rewrite mulrDr [_ * (a * _)]mulrCA.
by rewrite [_ * (b * _)]mulrCA.
Qed.

(* the canonical anticommutation relations *)
Lemma car_lt x y F m : clt x y -> sorted clt m -> L y (L x F) m + L x (L y F) m = (x == cbar y)%:R * F m.
Proof.
move=> xy hm; move: m hm F; apply: sorted_ind2 => [|z m hb hs ih] F.
  by rewrite !L_nil L_lt // L_gt // L_nil [y == _]cbar_sym addrA subrr add0r.
case: (boolP (clt y z)) => yz.
  have xz := clt_trans xy yz.
  by rewrite (L_lt _ _ yz) (L_lt _ _ xz) (L_lt _ _ xy) L_gt // (L_lt _ _ yz) [y == _]cbar_sym addrA subrr add0r.
case: (y =P z) => [e|/clt_total /(_ yz) zy].
  by rewrite -e L_eq add0r (L_lt _ _ xy) L_gt // L_eq oppr0 add0r [y == _]cbar_sym.
rewrite [L y _ _]L_gt //.
case: (boolP (clt x z)) => xz.
  have -> : L x F m = F (x :: m) by apply: L_below; apply: below_trans hb.
  rewrite (L_lt _ _ xz) [L y F (x :: _)]L_gt // [L y _ (z :: m)]L_gt // [y == cbar x]cbar_sym.
  have -> : L y (fun p => L x F (z :: p)) m = L y (fun p => F (x :: z :: p)) m.
    by apply: spair_ext => p _; rewrite L_lt.
  fring C.
case: (x =P z) => [e|/clt_total /(_ xz) zx].
  rewrite -e L_eq addr0 [L x F m]L_below ?e // -e.
  have -> : L y (fun p => L x F (x :: p)) m = 0 by rewrite {1}/L /spair big1 // => p _; rewrite /= L_eq mulr0.
  by rewrite oppr0 add0r [y == _]cbar_sym.
rewrite [L x (L y F) _]L_gt //.
have e u v G : clt z u -> L v (fun p => L u G (z :: p)) m =
    - L v (L u (fun p => G (z :: p))) m + (u == cbar z)%:R * L v G m.
  move=> zu; rewrite -mulN1r -L_add; apply: spair_ext => p hp; by rewrite L_gt // mulN1r.
rewrite !e //; have := ih (fun p => F (z :: p)) => ih1.
have -> : (x == cbar y)%:R * F (z :: m) = L y (L x (fun p => F (z :: p))) m + L x (L y (fun p => F (z :: p))) m by rewrite ih1.
fring C.
Qed.
Lemma L_sq x F m : sorted clt m -> L x (L x F) m = 0.
Proof.
move=> hm; move: m hm F; apply: sorted_ind2 => [|z m hb hs ih] F; first by rewrite L_nil L_eq.
case: (boolP (clt x z)) => xz; first by rewrite L_lt // L_eq.
case: (x =P z) => [->|/clt_total /(_ xz) zx]; first exact: L_eq.
rewrite L_gt //.
have -> : L x (fun p => L x F (z :: p)) m = - L x (L x (fun p => F (z :: p))) m + (x == cbar z)%:R * L x F m.
  by rewrite -mulN1r -L_add; apply: spair_ext => p hp; rewrite L_gt // mulN1r.
rewrite ih; fring C.
Qed.
Lemma car x y F m : sorted clt m -> L y (L x F) m + L x (L y F) m = (x == cbar y)%:R * F m.
Proof.
move=> hm; case: (x =P y) => [->|n]; first by rewrite L_sq // addr0 cbar_irr mul0r.
case: (boolP (clt x y)) => h; first exact: car_lt.
by rewrite addrC cbar_sym; apply: car_lt (clt_total n h) hm.
Qed.

(* words *)
Definition W w F : mono -> C := foldl (fun G x => L x G) F w.
Lemma W_cons x w F : W (x :: w) F = W w (L x F). Proof. by []. Qed.
Lemma W_cat w1 w2 F : W (w1 ++ w2) F = W w2 (W w1 F). Proof. by rewrite /W foldl_cat. Qed.
Lemma W_ext w F G : eqF F G -> eqF (W w F) (W w G).
Proof. by elim: w F G => [|x w ih] F G h //=; apply/ih/L_ext. Qed.
Lemma W_lin w (T : Type) (r : seq T) (a : T -> C) (F : T -> mono -> C) m :
  sorted clt m -> W w (fun m => \sum_(t <- r) a t * F t m) m = \sum_(t <- r) a t * W w (F t) m.
Proof.
elim: w F m => [|x w ih] F m hm //=; rewrite -ih //; apply: W_ext => // q _; exact: L_lin.
Qed.
Lemma W_add w a b F G m : sorted clt m -> W w (fun m => a * F m + b * G m) m = a * W w F m + b * W w G m.
Proof. by elim: w F G m => [|x w ih] F G m hm //=; rewrite -ih //; apply: W_ext => // q _; apply: L_add. Qed.
Lemma W_one p F : sorted clt p -> W p F [::] = F p.
Proof.
move=> hp; move: p hp F; apply: sorted_ind2 => [|x m hb hs ih] F; first by [].
by rewrite W_cons ih L_below.
Qed.
(* left multiplication of a word *)
Lemma spair_W x p F m : sorted clt p -> sorted clt m -> spair (lmul C x p) (fun q => W q F m) = W (x :: p) F m.
Proof.
move=> hp hm; move: p hp F; apply: sorted_ind2 => [|y p hb hs ih] F.
  by rewrite /spair /= big_seq1 mul1r.
rewrite -/(L x (fun q => W q F m) (y :: p)); case: (boolP (clt x y)) => xy; first by rewrite L_lt.
case: (x =P y) => [->|/clt_total /(_ xy) yx].
  rewrite L_eq !W_cons; transitivity (W p (fun m => 0 * F m + 0 * F m) m); first by rewrite W_add // !mul0r addr0.
  by apply: W_ext => // q hq; rewrite L_sq // !mul0r addr0.
rewrite L_gt // /L (_ : spair _ _ = W (x :: p) (L y F) m); last by rewrite -ih; apply: spair_ext.
rewrite !W_cons (_ : W p (L y (L x F)) m = W p (fun q => -1 * L x (L y F) q + (x == cbar y)%:R * F q) m).
  by rewrite W_add // mulN1r.
by apply: W_ext => // q hq; rewrite -car // mulN1r addrC addrK.
Qed.
Lemma mono_mul_cons x w m : mono_mul C (x :: w) m = flatten [seq [seq (p.1 * q.1, q.2) | q <- lmul C x p.2] | p <- mono_mul C w m].
Proof. by []. Qed.
Lemma spair_mul w m F : spair (mono_mul C w m) F = W w F m.
Proof.
elim: w F => [|x w ih] F; first by rewrite /spair /= big_seq1 mul1r.
rewrite mono_mul_cons W_cons -ih /spair big_flatten big_map; apply: eq_bigr => p _.
by rewrite big_map /L /spair mulr_sumr; apply: eq_bigr => q _; rewrite mulrA.
Qed.
Lemma mono_mul_sorted w m p : sorted clt m -> p \in mono_mul C w m -> sorted clt p.2.
Proof.
elim: w p => [|x w ih] p hm; first by rewrite inE => /eqP ->.
rewrite mono_mul_cons => /flattenP[s /mapP[q hq ->] /mapP[r hr ->]] /=; apply: lmul_sorted hr; exact: ih.
Qed.
Lemma spair_mulW w p F m : sorted clt p -> sorted clt m -> spair (mono_mul C w p) (fun q => W q F m) = W (w ++ p) F m.
Proof.
move=> hp hm; elim: w F => [|x w ih] F; first by rewrite /spair /= big_seq1 mul1r.
rewrite cat_cons W_cons -ih spair_mul W_cons -spair_mul; apply: spair_ext => q hq; apply: spair_W => //.
exact: mono_mul_sorted hq.
Qed.

(* operators as functionals *)
Definition pr A F : C := \sum_(t <- A) t.2 * F t.1.
Lemma prE A m : coef A m = pr A (fun p => (p == m)%:R).
Proof. by rewrite /coef /pr big_mkcond; apply: eq_bigr => t _; case: eqP; rewrite ?mulr1 ?mulr0. Qed.
Lemma pr_cons t A F : pr (t :: A) F = t.2 * F t.1 + pr A F. Proof. exact: big_cons. Qed.
Lemma pr_nil F : pr [::] F = 0. Proof. exact: big_nil. Qed.
Lemma pr_add_term m a A F : pr (add_term m a A) F = pr A F + a * F m.
Proof.
elim: A => [|[m' a'] A ih] /=; first by rewrite pr_nil add0r; case: eqP => [->|_]; rewrite ?pr_cons pr_nil ?mul0r ?addr0.
case: eqP => [->|n]; last by rewrite !pr_cons ih addrA.
by case: eqP => [e|_]; rewrite !pr_cons /= addrAC -mulrDl ?e ?mul0r ?add0r.
Qed.
Lemma keys_add_term m a A p : p \in [seq t.1 | t <- add_term m a A] -> p = m \/ p \in [seq t.1 | t <- A].
Proof.
elim: A => [|[m' a'] A ih] /=; first by case: ifP => //= _; rewrite inE => /eqP ->; left.
case: eqP => [->|n]; first by case: ifP => _ /=; rewrite ?inE => h; right; rewrite ?h ?orbT.
by rewrite /= !inE => /orP[->|/ih [->|->]]; [right | left | right; rewrite orbT].
Qed.
Lemma stored_cons t A : stored (t :: A) = [&& t.1 \notin [seq s.1 | s <- A], sorted clt t.1, t.2 != 0 & stored A].
Proof. by rewrite /stored /=; case: (t.1 \notin _); case: (sorted _ _); case: (t.2 != 0); rewrite /= ?andbF ?andbT. Qed.
Definition okA A := all (fun t : mono * C => sorted clt t.1) A.
Lemma stored_ok A : stored A -> okA A. Proof. by case/and3P. Qed.
Lemma okA_cons t A : okA (t :: A) = sorted clt t.1 && okA A. Proof. by []. Qed.
Lemma stored_add_term m a A : sorted clt m -> stored A -> stored (add_term m a A).
Proof.
move=> hm; elim: A => [|[m' a'] A ih] /=; first by move=> _; case: ifPn => // h; rewrite stored_cons /= hm h.
rewrite stored_cons => /and4P[/= hn hs h0 hA]; case: eqP => [e|n].
  by case: ifPn => // h; rewrite stored_cons /= e hn hs h hA.
rewrite stored_cons /= hs h0 ih // !andbT; apply/negP => /keys_add_term [e|h]; first by case: n.
by rewrite h in hn.
Qed.
Lemma op_addE A t B : op_add A (t :: B) = op_add (add_term t.1 t.2 A) B. Proof. by []. Qed.
Lemma pr_op_add A B F : pr (op_add A B) F = pr A F + pr B F.
Proof. by elim: B A => [|t B ih] A; rewrite ?op_addE ?ih ?pr_add_term ?pr_nil ?pr_cons ?addr0 ?addrA. Qed.
Lemma stored_op_add A B : stored A -> okA B -> stored (op_add A B).
Proof. by elim: B A => [|t B ih] A hA //; rewrite okA_cons op_addE => /andP[h1 h2]; apply/ih/h2/stored_add_term. Qed.
Lemma pr_scale a A F : pr (op_scale a A) F = a * pr A F.
Proof.
rewrite /op_scale; case: eqP => [->|_]; first by rewrite pr_nil mul0r.
by rewrite /pr big_map mulr_sumr; apply: eq_bigr => t _; rewrite mulrA.
Qed.
Lemma ok_scale a A : okA A -> okA (op_scale a A).
Proof. by rewrite /op_scale /okA; case: eqP => // _; rewrite all_map. Qed.
Definition sem A F : mono -> C := fun m => pr A (fun p => W p F m).
Lemma add_terms (T : Type) (r : seq T) (k : T -> mono) (v : T -> C) A F :
  pr (foldl (fun acc p => add_term (k p) (v p) acc) A r) F = pr A F + \sum_(p <- r) v p * F (k p).
Proof. by elim: r A => [|p r ih] A /=; rewrite ?big_nil ?addr0 // ih pr_add_term big_cons addrA. Qed.
Lemma pr_mul A B F : pr (op_mul A B) F = pr B (sem A F).
Proof.
rewrite /op_mul.
have h (r : seq ((mono * C) * (mono * C))) D : pr (foldl (fun acc (ab : (mono * C) * (mono * C)) =>
    foldl (fun acc p => add_term p.2 (ab.1.2 * ab.2.2 * p.1) acc) acc (mono_mul C ab.1.1 ab.2.1)) D r) F =
    pr D F + \sum_(ab <- r) ab.1.2 * ab.2.2 * W ab.1.1 F ab.2.1.
  elim: r D => [|ab r ih] D /=; first by rewrite big_nil addr0.
  rewrite ih add_terms big_cons addrA; congr (_ + _ + _); rewrite -spair_mul mulr_sumr.
  by apply: eq_bigr => p _; rewrite mulrA.
rewrite h pr_nil add0r big_allpairs_dep /= exchange_big; apply: eq_bigr => b _ /=.
by rewrite /sem /pr mulr_sumr; apply: eq_bigr => a _; rewrite mulrA [b.2 * _]mulrC.
Qed.
Lemma stored_mul A B : okA B -> stored (op_mul A B).
Proof.
move=> hB; rewrite /op_mul; have : all (fun ab : (mono * C) * (mono * C) => sorted clt ab.2.1) [seq (a, b) | a <- A, b <- B].
  by apply/allP => _ /allpairsP[[a b] [_ hb ->]]; apply: (allP hB).
have : stored (nil : operator) by [].
elim: [seq (a, b) | a <- A, b <- B] [::] => [|ab r ih] D hD //= /andP[h1 h2]; apply: ih h2.
have : all (fun p : C * mono => sorted clt p.2) (mono_mul C ab.1.1 ab.2.1) by apply/allP => p; apply: mono_mul_sorted.
elim: (mono_mul C _ _) D hD => [|p q ih] D hD //= /andP[h3 h4]; by apply: ih => //; apply: stored_add_term.
Qed.
Lemma sem_ext A F G : eqF F G -> eqF (sem A F) (sem A G).
Proof. by move=> h m hm; rewrite /sem /pr; apply: eq_bigr => t _; rewrite (W_ext _ h). Qed.
Lemma pr_ext A F G : okA A -> eqF F G -> pr A F = pr A G.
Proof. by move=> hA h; rewrite /pr big_seq_cond [RHS]big_seq_cond; apply: eq_bigr => t /andP[ht _]; rewrite h //; apply: (allP hA). Qed.
Lemma sem_one A F : okA A -> sem A F [::] = pr A F.
Proof. by move=> h; apply: pr_ext => // m hm; apply: W_one. Qed.
Lemma sem_mul A B F m : okA B -> sorted clt m -> sem (op_mul A B) F m = sem B (sem A F) m.
Proof.
move=> hB hm; rewrite /sem pr_mul; apply: pr_ext => // q hq; rewrite /sem /pr W_lin //.
by apply: eq_bigr => t _; rewrite -W_cat -spair_mulW // spair_mul.
Qed.
(* equality *)
Lemma pr_coef A F (r : seq mono) : uniq r -> {subset [seq t.1 | t <- A] <= r} -> pr A F = \sum_(m <- r) coef A m * F m.
Proof.
move=> u h; rewrite /coef; under eq_bigr do rewrite mulr_suml; under eq_bigr do rewrite big_mkcond.
rewrite exchange_big /pr big_seq_cond [RHS]big_seq_cond; apply: eq_bigr => t /andP[ht _].
rewrite (big_rem t.1) /=; last by apply: h; apply: map_f.
rewrite eqxx big_seq_cond big1 ?addr0 // => m; rewrite andbT => hm; case: eqP => // e.
by rewrite -e mem_rem_uniq // inE eqxx in hm.
Qed.
Lemma same_pr A B F : same_operator A B -> pr A F = pr B F.
Proof.
move=> h; pose r := undup ([seq t.1 | t <- A] ++ [seq t.1 | t <- B]).
rewrite (@pr_coef A F r) ?(@pr_coef B F r) ?undup_uniq // => [|m hm|m hm]; last 2 first.
- by rewrite mem_undup mem_cat hm ?orbT.
- by rewrite mem_undup mem_cat hm ?orbT.
by apply: eq_bigr => m _; rewrite h.
Qed.
Lemma pr_same A B : (forall F, pr A F = pr B F) -> same_operator A B.
Proof. by move=> h m; rewrite !prE h. Qed.
Lemma coef_cons t A m : coef (t :: A) m = (if t.1 == m then t.2 else 0) + coef A m.
Proof. by rewrite /coef big_cons; case: ifP; rewrite ?add0r. Qed.
Lemma coef_notin A m : m \notin [seq t.1 | t <- A] -> coef A m = 0.
Proof. by elim: A => [|t A ih] /=; rewrite ?/coef ?big_nil // -/(coef _ _) coef_cons inE negb_or eq_sym => /andP[/negbTE -> /ih ->]; rewrite addr0. Qed.
Lemma coef_in t A : stored A -> t \in A -> coef A t.1 = t.2.
Proof.
elim: A => [|s A ih] //; rewrite stored_cons => /and4P[hn _ _ hA]; rewrite inE coef_cons => /orP[/eqP ->|h].
  by rewrite eqxx coef_notin ?addr0 //; apply: hn.
by rewrite ih // ifN ?add0r //; apply: contraNneq hn => ->; apply: map_f.
Qed.
Lemma coef_sorted A m : stored A -> ~~ sorted clt m -> coef A m = 0.
Proof. by move=> h hm; apply: coef_notin; apply: contra hm => /mapP[t ht ->]; apply: (allP (stored_ok h)). Qed.
Lemma coef_keys A m : stored A -> (m \in [seq t.1 | t <- A]) = (coef A m != 0).
Proof.
move=> h; apply/idP/idP => [/mapP[t ht ->]|]; last by apply: contraR => /coef_notin ->.
by rewrite coef_in //; case/and3P: h => _ _ /allP; apply.
Qed.
(* a loop which assigns one cell per term *)
Lemma fold_cell (X : Type) (get : X -> C) (st : option X -> mono * C -> option X) (ok : pred (mono * C)) m0 (v : C -> C) A (x : X) :
  (forall (y : X) t, ok t -> exists2 y', st (Some y) t = Some y' & get y' = if t.1 == m0 then v t.2 else get y) ->
  uniq [seq t.1 | t <- A] -> all ok A ->
  exists2 y', foldl st (Some x) A = Some y' & get y' = if m0 \in [seq t.1 | t <- A] then v (coef A m0) else get x.
Proof.
move=> hst; elim: A x => [|t A ih] x /=; first by move=> _ _; exists x.
move=> /andP[hn hu] /andP[ht hA]; have [y -> ey] := hst x t ht; have [z -> ez] := ih y hu hA; exists z => //.
rewrite ez ey inE coef_cons [m0 == _]eq_sym; case: eqP => [<-|n] /=; last by rewrite add0r.
by rewrite (negbTE hn) coef_notin ?addr0.
Qed.
End Algebra.
