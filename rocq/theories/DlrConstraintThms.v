(* C87 (discontinuity and positivity in the DLR fit), C88 (consistency of density matrix and static self-energy in the DLR fit). *)
From mathcomp Require Import all_ssreflect all_algebra all_field.
From mathcomp Require Import zify.
From Verif Require Import Fring SymmetryModel SymmetryProofs DlrFitModel DlrFitThms OperatorModel DlrConstraintModel HfModel.
Set Implicit Arguments.
Unset Strict Implicit.
Unset Printing Implicit Defensive.
Import Order.TTheory GRing.Theory Num.Theory.
Local Open Scope ring_scope.

Section Dot.
Variable C : numClosedFieldType.
Add Ring Cring : (fld_rt C).
Lemma dot_map (T : Type) (s : seq T) (f g : T -> C) : dot [seq f t | t <- s] [seq g t | t <- s] = \sum_(t <- s) f t * g t.
Proof. by rewrite /dot; elim: s => [|t s ih] /=; rewrite ?big_nil // !big_cons ih. Qed.
Lemma dot_cat (a b c d : seq C) : size a = size c -> dot (a ++ b) (c ++ d) = dot a c + dot b d.
Proof. by move=> h; rewrite /dot zip_cat // big_cat. Qed.
Lemma get_atE nx pos (g : data C) : get_at nx pos g = [seq g q.1 q.2.1 q.2.2 | q <- [seq (x, p) | x <- iota 0 nx, p <- pos]].
Proof. by rewrite /get_at map_allpairs. Qed.
Lemma sum_pairs nx (pos : seq (nat * nat)) (F : nat * (nat * nat) -> C) :
  \sum_(q <- [seq (x, p) | x <- iota 0 nx, p <- pos]) F q = \sum_(p <- pos) \sum_(x < nx) F (nat_of_ord x, p).
Proof.
rewrite big_allpairs exchange_big; apply: eq_bigr => p _ /=.
by rewrite -(big_mkord xpredT (fun x => F (x, p))) /index_iota subn0.
Qed.
(* the product of a row with the parameters is the real inner product over the stored positions *)
Definition part (rv : bool) (A g : C) : C := 'Re A * 'Re g + (if rv then 0 else 'Im A * 'Im g).
Lemma dot_packed nx posd posu rv (A g : data C) :
  dot (split_re_im rv (get_at nx posd A) (get_at nx posu A)) (split_re_im rv (get_at nx posd g) (get_at nx posu g)) =
  \sum_(p <- posd) \sum_(x < nx) 'Re (A x p.1 p.2) * 'Re (g x p.1 p.2) + \sum_(p <- posu) \sum_(x < nx) part rv (A x p.1 p.2) (g x p.1 p.2).
Proof.
rewrite /split_re_im !get_atE; case: rv; rewrite !dot_cat ?size_map // -!map_comp !dot_map !sum_pairs.
  by congr (_ + _); apply: eq_bigr => p _; apply: eq_bigr => x _; rewrite /part addr0.
congr (_ + _); rewrite -big_split; apply: eq_bigr => p _; rewrite -big_split; by apply: eq_bigr => x _.
Qed.
End Dot.

Section Packed.
Variables (C : numClosedFieldType) (nx no : nat) (rv : bool) (sym : symmetrizer C) (D : seq nat) (U : seq (nat * nat)).
Hypotheses (symD : get_x_d sym = get_at nx (diagonal D)) (symU : get_x_u sym = get_at nx U).
Hypotheses (uD : uniq D) (uU : uniq U) (offU : forall p, p \in U -> p.1 != p.2).
Lemma size_row (g g' : data C) : size (x_from_g sym rv g) = size (x_from_g sym rv g').
Proof. by rewrite /x_from_g symD symU /split_re_im; case: rv; rewrite !size_cat !size_map !size_get. Qed.
Lemma row_diag (g : data C) i : i \in D -> dot (x_from_g sym rv (unit_data 1 i i)) (x_from_g sym rv g) = \sum_(x < nx) 'Re (g x i i).
Proof.
move=> hi; rewrite /x_from_g symD symU dot_packed [X in _ + X]big_seq [X in _ + X]big1 ?addr0; last first.
  move=> p hp; apply: big1 => x _; rewrite /part /unit_data ifF; last by apply/negbTE; apply: contra (offU hp) => /andP[/eqP-> /eqP->].
  by rewrite !raddf0 !mul0r if_same addr0.
rewrite (bigD1_seq (i, i)) /=; last 2 first.
- by rewrite mem_diag eqxx hi.
- exact: uniq_diag.
rewrite [X in _ + X]big1 ?addr0 => [|[a b] /= n].
  by apply: eq_bigr => x _; rewrite /unit_data !eqxx (Creal_ReP 1 _) ?real1 // mul1r.
apply: big1 => x _; rewrite /unit_data ifF ?raddf0 ?mul0r //.
by apply/negbTE; apply: contra n => /andP[/eqP-> /eqP->].
Qed.
Lemma row_off (g : data C) v p : p \in U -> dot (x_from_g sym rv (unit_data v p.1 p.2)) (x_from_g sym rv g) = \sum_(x < nx) part rv v (g x p.1 p.2).
Proof.
move=> hp; rewrite /x_from_g symD symU dot_packed [X in X + _]big_seq [X in X + _]big1 ?add0r; last first.
  move=> [a b]; rewrite mem_diag => /andP[/eqP<- _]; apply: big1 => x _; rewrite /unit_data ifF ?raddf0 ?mul0r //.
  by apply/negbTE; apply: contra (offU hp) => /andP[/eqP/= <- /eqP <-].
rewrite (bigD1_seq p) //= [X in _ + X]big1 ?addr0 => [|[a b] /= n].
  by apply: eq_bigr => x _; rewrite /unit_data !eqxx.
apply: big1 => x _; rewrite /part /unit_data ifF ?raddf0 ?mul0r ?if_same ?addr0 //.
by apply/negbTE; apply: contra n => /andP[/eqP-> /eqP->]; rewrite -surjective_pairing.
Qed.
Lemma sat_eq v (g : data C) b : satisfies (x_from_g sym rv g) (Linear (x_from_g sym rv v) (Some b) b) = (dot (x_from_g sym rv v) (x_from_g sym rv g) == b).
Proof. by rewrite /satisfies /= (size_row v g) eqxx /= [RHS]eq_le andbC. Qed.
Lemma part1 (z : C) : part rv 1 z = 'Re z.
Proof. by rewrite /part (Creal_ReP 1 _) ?real1 // (Creal_ImP 1 _) ?real1 // mul1r mul0r if_same addr0. Qed.
Lemma partI (z : C) : rv = false -> part rv 'i z = 'Im z.
Proof. by rewrite /part => ->; rewrite Re_i Im_i mul0r add0r mul1r. Qed.
(* what the constraints say about the coefficients *)
Lemma discontinuity_iff (g : data C) b : all (satisfies (x_from_g sym rv g)) (discontinuity_constraints sym D U rv b) <->
  (forall i, i \in D -> \sum_(x < nx) 'Re (g x i i) = b) /\
  (forall p, p \in U -> \sum_(x < nx) 'Re (g x p.1 p.2) = 0 /\ (rv = false -> \sum_(x < nx) 'Im (g x p.1 p.2) = 0)).
Proof.
have fl (T : Type) (q : pred T) ss : all q (flatten ss) = all (all q) ss by elim: ss => //= r ss ih; rewrite all_cat ih.
rewrite /discontinuity_constraints all_cat all_map fl all_map.
have e p : p \in U -> all (satisfies (x_from_g sym rv g)) (Linear (x_from_g sym rv (unit_data 1 p.1 p.2)) (Some 0) 0 ::
    (if rv then [::] else [:: Linear (x_from_g sym rv (unit_data 'i p.1 p.2)) (Some 0) 0])) <->
    \sum_(x < nx) 'Re (g x p.1 p.2) = 0 /\ (rv = false -> \sum_(x < nx) 'Im (g x p.1 p.2) = 0).
  move=> hp; rewrite /= sat_eq row_off //; have -> : \sum_(x < nx) part rv 1 (g x p.1 p.2) = \sum_(x < nx) 'Re (g x p.1 p.2).
    by apply: eq_bigr => x _; rewrite part1.
  have ea X (c : linear_constraint C) : all (satisfies X) (if rv then [::] else [:: c]) = rv || satisfies X c.
    by case: rv => //=; rewrite andbT.
  rewrite ea sat_eq row_off //; case er : rv; first by rewrite andbT; split=> [/eqP ->|[-> _]].
  have -> : \sum_(x < nx) part false 'i (g x p.1 p.2) = \sum_(x < nx) 'Im (g x p.1 p.2).
    by apply: eq_bigr => x _; rewrite -er partI.
  by split=> [/andP[/eqP -> /eqP ->]|[-> ->]] //; rewrite ?eqxx.
split.
  case/andP=> /allP hd /allP hu; split=> [i hi|p hp]; last exact/e/hu.
  by have := hd i hi; rewrite /= sat_eq row_diag // => /eqP.
case=> hd hu; apply/andP; split; last by apply/allP => p hp; apply/e/hu.
apply/allP => i hi; by rewrite /= sat_eq row_diag // hd.
Qed.
Lemma positivity_iff (g : data C) : all (satisfies (x_from_g sym rv g)) (positivity_constraints sym D rv) <->
  forall i, i \in D -> \sum_(x < nx) 'Re (g x i i) <= 0.
Proof.
rewrite /positivity_constraints all_map; split=> [/allP h i hi|h]; last apply/allP => i hi.
  by have := h i hi; rewrite /satisfies /= => /andP[_]; rewrite row_diag.
by rewrite /satisfies /= (size_row _ g) eqxx row_diag // h.
Qed.
End Packed.

Section Plain.
Variables (C : numClosedFieldType) (nx no : nat) (rv : bool).
Add Ring Cring2 : (fld_rt C).
Local Notation N := (pairs_number no).
Local Notation sym := (Symmetrizer C nx no).
Local Notation D := (iota 0 no).
Local Notation discontinuity b := (discontinuity_constraints sym (iota 0 no) (triu no) rv b).
Local Notation positivity := (positivity_constraints sym (iota 0 no) rv).
Lemma off_triu p : p \in triu no -> p.1 != p.2.
Proof. by rewrite mem_triu => /andP[/ltn_eqF h _]; rewrite h. Qed.
(* the fitted function: real on the diagonal, below the diagonal the conjugate of an element above it *)
Lemma plain_g x : size x = number rv nx no N -> real_vector x -> exists g, [/\ g_from_x sym rv nx no x = Some g, x_from_g sym rv g = x,
   (forall y a b, (y < nx)%N -> (a < no)%N -> (b < no)%N -> (a == b) || rv -> g y a b \is Num.real) &
   forall a b, (b < a)%N -> (a < no)%N -> exists2 p, p \in triu no & forall y, g y a b = (g y p.1 p.2)^*].
Proof.
move=> sx rx; have [g [eg xg]] := C48_roundtrip sx rx; exists g; split=> //.
  have [x_d [x_u [e sd su rd es]]] := merge_ok sx rx; have [g0 [g' [e0 e1 hg]]] := plain_set sd su.
  move: eg; rewrite /g_from_x e e0 e1 => -[<-] y a b hy ha hb; rewrite hg //; case: eqP => /= [_ _|_ r].
    apply: (allP rd); apply: mem_nth; rewrite sd.
    by apply: (@leq_trans (y.+1 * no)); [rewrite mulSn addnC ltn_add2r | rewrite leq_mul2r hy orbT].
  have ru : real_vector x_u.
    move: e; rewrite /merge_re_im r => -[_ <-]; apply/allP => z /mem_drop; exact: allP.
  have rn k : nth 0 x_u k \is Num.real.
    by case: (ltnP k (size x_u)) => hk; [apply: (allP ru); apply: mem_nth | rewrite nth_default ?real0].
  by case: ifP => _; rewrite ?conj_Creal ?rn.
have [x_d [x_u [e sd su rd es]]] := merge_ok sx rx; have [g0 [g' [e0 e1 hg]]] := plain_set sd su.
move: eg; rewrite /g_from_x e e0 e1 => -[<-] a b hab ha.
have hk : (index (a, b) (tril no) < size (triu no))%N by rewrite size_triangles index_mem mem_tril /= hab ha.
exists (nth (0, 0)%N (triu no) (index (a, b) (tril no))); first exact: mem_nth.
move=> y; have := mem_nth (0, 0)%N hk; set p := nth _ _ _ => hp; have := hp; rewrite mem_triu => /andP[h1 h2].
rewrite !hg ?(ltn_trans h1 h2) //; last exact: ltn_trans hab ha.
rewrite gtn_eqF // ltnNge (ltnW hab) /= (ltn_eqF h1) h1 -surjective_pairing.
by rewrite /p index_uniq ?uniq_triu.
Qed.
Lemma ReIm0 (z : C) : 'Re z = 0 -> 'Im z = 0 -> z = 0.
Proof. by move=> h h'; rewrite [z]Crect h h' mulr0 addr0. Qed.
(* C87: the constraints on the parameters hold iff the coefficients of the fitted function sum to bound times the unit matrix, for any number of orbitals *)
Theorem C87_discontinuity x b : size x = number rv nx no N -> real_vector x -> exists g, g_from_x sym rv nx no x = Some g /\
  (all (satisfies x) (discontinuity b) <-> forall i j, (i < no)%N -> (j < no)%N -> \sum_(y < nx) g y i j = if i == j then b else 0).
Proof.
move=> sx rx; have [g [eg xg rg lg]] := plain_g sx rx; exists g; split=> //; rewrite -xg.
have reE i j : (i < no)%N -> (j < no)%N -> (i == j) || rv -> \sum_(y < nx) 'Re (g y i j) = \sum_(y < nx) g y i j.
  by move=> hi hj h; apply: eq_bigr => y _; apply/Creal_ReP; apply: rg.
have [to from] := @discontinuity_iff C nx rv sym (iota 0 no) (triu no) (erefl _) (erefl _) (iota_uniq _ _) (uniq_triu _) off_triu g b.
split=> [/to [hd hu]|h]; last first.
  apply: from; split=> [i|p]; first by rewrite mem_iota => /= hi; rewrite reE ?eqxx // h // eqxx.
  rewrite mem_triu => /andP[h1 h2]; have h3 := ltn_trans h1 h2.
  have := h _ _ h3 h2; rewrite (ltn_eqF h1) => hz; split=> [|_]; [rewrite -raddf_sum | rewrite -raddf_sum]; by rewrite hz raddf0.
have up p : p \in triu no -> \sum_(y < nx) g y p.1 p.2 = 0.
  move=> hp; have [h1 h2] := hu p hp; move: (hp); rewrite mem_triu => /andP[h3 h4].
  case er : rv; first by rewrite -reE ?er ?orbT // (ltn_trans h3).
  by apply: ReIm0; rewrite raddf_sum ?h1 ?h2.
move=> i j hi hj; case: (ltngtP i j) => hij.
- by rewrite (up (i, j)) // mem_triu /= hij hj.
- have [p hp hl] := lg i j hij hi; rewrite (eq_bigr (fun y : 'I_nx => (g y p.1 p.2)^*)) => [|y _]; last exact: hl.
  by rewrite -rmorph_sum /= up // conjC0.
- by rewrite -hij -reE ?eqxx // hd // mem_iota.
Qed.
(* the reported residual of the discontinuity vanishes exactly then *)
Lemma foldr_max0 (s : seq C) : all (fun z => 0 <= z) s -> (foldr (fun x y => if x <= y then y else x) 0 s == 0) = all (fun z => z == 0) s.
Proof.
have ge s' : all (fun z : C => 0 <= z) s' -> 0 <= foldr (fun x y => if x <= y then y else x) 0 s'.
  by elim: s' => //= z s' ih /andP[hz /ih h]; case: ifP.
elim: s => [|z s ih] /=; first by rewrite eqxx.
case/andP=> hz hs; have h0 := ge s hs; rewrite -ih //; set m := foldr _ _ _ in h0 *; case: ifP => hm.
  case: (m =P 0) => [e|_]; rewrite ?andbF // andbT; apply/esym; by rewrite eq_le hz -e hm.
have hmz : m <= z by rewrite real_leNgt ?ger0_real //; apply/negP => /ltW; rewrite hm.
by case: (z =P 0) => [e|//] /=; apply/esym; rewrite eq_le h0 -e hmz.
Qed.
Theorem C87_residual b (g : data C) : norm_res nx no b g = 0 <->
  forall i j, (i < no)%N -> (j < no)%N -> \sum_(y < nx) g y i j = if i == j then b else 0.
Proof.
rewrite /norm_res; split=> [/eqP|h]; last (apply/eqP); rewrite foldr_max0.
- move/allP => h i j hi hj; have := h `|- (\sum_(x < nx) g x i j) + b * (if i == j then 1 else 0)|; rewrite normr_eq0 => H.
  have {H}/eqP H := H (map_f (fun p : nat * nat => `|- (\sum_(x < nx) g x p.1 p.2) + b * (if p.1 == p.2 then 1 else 0)|)
     (allpairs_f pair (etrans (mem_iota 0 no i) hi) (etrans (mem_iota 0 no j) hj))).
  by apply/eqP; rewrite -subr_eq0 -oppr_eq0 opprB addrC; apply/eqP; rewrite -[RHS]H; case: eqP => _; rewrite ?mulr1 ?mulr0.
- by apply/allP => z /mapP[p _ ->].
- apply/allP => z /mapP[p /allpairsP[[i j] /= [hi hj ->]] ->] /=; move: hi hj; rewrite !mem_iota /= => hi hj; rewrite h //.
  by rewrite normr_eq0; case: (i == j); rewrite ?mulr1 ?mulr0 ?oppr0 ?addNr ?addr0.
- by apply/allP => z /mapP[p _ ->].
Qed.
(* what the discontinuity means for the function of imaginary time, with the kernels of the two libraries;
   e x t is exp(- w_x t / beta) in the first case and exp(- w_x t) in the second *)
Lemma jump_sum (dlr : driver C) (beta : C) (g : data C) i j : (forall y, basis dlr y 0 + basis dlr y beta = - bound dlr) ->
  eval_dlr_tau nx dlr g 0 i j + eval_dlr_tau nx dlr g beta i j = - bound dlr * \sum_(y < nx) g y i j.
Proof.
by move=> h; rewrite /eval_dlr_tau -big_split mulr_sumr; apply: eq_bigr => y _ /=; rewrite -mulrDl h.
Qed.
Definition jumps (dlr : driver C) (beta : C) (g : data C) : Prop := forall i j, (i < no)%N -> (j < no)%N ->
  eval_dlr_tau nx dlr g 0 i j + eval_dlr_tau nx dlr g beta i j = - (i == j)%:R.
Lemma jump_iff (dlr : driver C) (beta : C) x : bound dlr ^+ 2 = 1 -> (forall y, basis dlr y 0 + basis dlr y beta = - bound dlr) ->
  size x = number rv nx no N -> real_vector x -> exists g, g_from_x sym rv nx no x = Some g /\
  (all (satisfies x) (discontinuity (bound dlr)) <-> jumps dlr beta g).
Proof.
move=> h1 hb sx rx; have [g [eg iff]] := C87_discontinuity (bound dlr) sx rx; exists g; split=> //.
apply: (iff_trans iff); split=> h i j hi hj.
  by rewrite jump_sum // h //; case: eqP => _; rewrite ?mulr0 ?oppr0 // mulNr -expr2 h1.
have := h i j hi hj; rewrite jump_sum // => e.
have -> : \sum_(y < nx) g y i j = - bound dlr * (- bound dlr * \sum_(y < nx) g y i j) by rewrite mulrA mulNr mulrN opprK -expr2 h1 mul1r.
by rewrite e; case: eqP => _; rewrite ?mulr1n ?mulr0n ?oppr0 ?mulr0 // mulrNN mulr1.
Qed.
Theorem C87_jump_triqs (K e : nat -> C -> C) (w : nat -> C) (beta : C) x :
  (forall y t, K y t = - (e y t / (1 + e y beta))) -> (forall y, e y 0 = 1) -> (forall y, 1 + e y beta != 0) ->
  size x = number rv nx no N -> real_vector x -> exists g, g_from_x sym rv nx no x = Some g /\
  (all (satisfies x) (discontinuity (bound (triqs_driver K w beta))) <-> jumps (triqs_driver K w beta) beta g).
Proof.
move=> hK e0 e1; apply: jump_iff => [|y] /=; first by rewrite expr1n.
by rewrite !hK e0 -opprD -mulrDl divff.
Qed.
Theorem C87_jump_pydlr (kernel e : nat -> C -> C) (w : nat -> C) (beta : C) x : beta != 0 ->
  (forall y t, kernel y t = e y t / (1 + e y 1)) -> (forall y, e y 0 = 1) -> (forall y, 1 + e y 1 != 0) ->
  size x = number rv nx no N -> real_vector x -> exists g, g_from_x sym rv nx no x = Some g /\
  (all (satisfies x) (discontinuity (bound (pydlr_driver kernel w beta))) <-> jumps (pydlr_driver kernel w beta) beta g).
Proof.
move=> hb hK e0 e1; apply: jump_iff => [|y] /=; first by rewrite sqrrN expr1n.
by rewrite mul0r divff // !hK e0 -mulrDl divff // opprK.
Qed.
(* the positivity option only restricts the sum over all coefficients *)
Theorem C87_positivity_sum x : size x = number rv nx no N -> real_vector x -> exists g, g_from_x sym rv nx no x = Some g /\
  (all (satisfies x) positivity <-> forall i, (i < no)%N -> \sum_(y < nx) g y i i <= 0).
Proof.
move=> sx rx; have [g [eg xg rg _]] := plain_g sx rx; exists g; split=> //; rewrite -xg.
have reE i : (i < no)%N -> \sum_(y < nx) 'Re (g y i i) = \sum_(y < nx) g y i i.
  by move=> hi; apply: eq_bigr => y _; apply/Creal_ReP; apply: rg; rewrite ?eqxx.
have [to from] := @positivity_iff C nx rv sym (iota 0 no) (triu no) (erefl _) (erefl _) (iota_uniq _ _) off_triu g.
split=> [/to h i hi|h]; first by rewrite -reE // h // mem_iota.
by apply: from => i; rewrite mem_iota /= => hi; rewrite reE // h.
Qed.
(* with the TRIQS driver it contradicts the discontinuity *)
Theorem C87_positivity_triqs_refuted (K : nat -> C -> C) (w : nat -> C) (beta : C) x : (0 < no)%N -> size x = number rv nx no N -> real_vector x ->
  ~~ (all (satisfies x) (positivity ++ discontinuity (bound (triqs_driver K w beta)))).
Proof.
move=> h0 sx rx; rewrite all_cat; apply/negP => /andP[hp hd].
have [g [eg [to _]]] := C87_discontinuity (bound (triqs_driver K w beta)) sx rx.
have [g' [eg' [to' _]]] := C87_positivity_sum sx rx; move: eg'; rewrite eg => -[e]; subst g'.
by have := to' hp 0%N h0; rewrite (to hd) // eqxx /= ler10.
Qed.
(* with the pydlr driver it follows from the discontinuity *)
Theorem C87_positivity_pydlr (K : nat -> C -> C) (w : nat -> C) (beta : C) x : size x = number rv nx no N -> real_vector x ->
  all (satisfies x) (discontinuity (bound (pydlr_driver K w beta))) -> all (satisfies x) positivity.
Proof.
move=> sx rx hd; have [g [eg [to _]]] := C87_discontinuity (bound (pydlr_driver K w beta)) sx rx.
have [g' [eg' [_ from]]] := C87_positivity_sum sx rx; move: eg'; rewrite eg => -[e]; subst g'.
by apply: from => i hi; rewrite (to hd) // eqxx /= oppr_le0 ler01.
Qed.
End Plain.

Section Block.
Variables (C : numClosedFieldType) (nx no : nat) (rv : bool) (mat : nat -> nat -> int).
Local Notation sym := (BlockSymmetrizer C nx no mat).
(* a BlockSymmetrizer without labels above the diagonal *)
Theorem C87_block_diagonal x b : (0 < nx)%N -> triu_terms no mat = [::] -> size x = number rv nx (size (diag_terms no mat)) 0 -> real_vector x ->
  exists g, g_from_x sym rv nx no x = Some g /\
  (all (satisfies x) (discontinuity_constraints sym (diag_term_idx no mat) (triu_term_idx no mat) rv b) <->
   forall i j, (i < no)%N -> (j < no)%N -> \sum_(y < nx) g y i j = if (i == j) && (mat i i != 0) then b else 0).
Proof.
move=> h0 eU sx rx; have [g [eg hg lg xg]] := C48_block_diagonal h0 eU sx rx; exists g; split=> //; rewrite -xg.
have zU i j : (i < j)%N -> (j < no)%N -> mat i j = 0.
  move=> hij hj; apply/eqP/negPn/negP => n; have : mat i j \in triu_terms no mat; last by rewrite eU.
  rewrite mem_terms n /=; apply/mapP; exists (i, j) => //; by rewrite mem_triu /= hij.
have off i j : (i < no)%N -> (j < no)%N -> i != j -> \sum_(y < nx) g y i j = 0.
  move=> hi hj; rewrite neq_ltn => hij; apply: big1 => y _; case/orP: hij => hij.
    by have [e _] := lg y i j (ltn_ord y) hi hj (ltnW hij); rewrite e // zU.
  by rewrite hg //; have [e _] := lg y j i (ltn_ord y) hj hi (ltnW hij); rewrite e ?conjC0 // zU.
have reE i : (i < no)%N -> \sum_(y < nx) 'Re (g y i i) = \sum_(y < nx) g y i i.
  by move=> hi; apply: eq_bigr => y _; apply/Creal_ReP/CrealP; rewrite -hg.
have eI : triu_term_idx no mat = [::] by rewrite /triu_term_idx /triu_term_idxs eU.
have sI : size (diag_term_idx no mat) = size (diag_terms no mat) by rewrite !size_map.
have uI : uniq (diag_term_idx no mat).
  apply/(uniqP 0%N) => k l; rewrite !inE sI => hk hl e; have [_ e1] := nth_diag_idx hk; have [_ e2] := nth_diag_idx hl.
  by apply/eqP; rewrite -(nth_uniq 0 hk hl (uniq_terms _)) -e1 -e2 e.
have uU : uniq (triu_term_idx no mat) by rewrite eI.
have oU p : p \in triu_term_idx no mat -> p.1 != p.2 by rewrite eI.
have [to from] := @discontinuity_iff C nx rv sym (diag_term_idx no mat) (triu_term_idx no mat) (erefl _) (erefl _) uI uU oU g b.
rewrite eI in to from *.
split=> [/to [hd _] i j hi hj|h].
  case: (i =P j) => [<-|/eqP n] /=; last exact: off.
  case: (boolP (mat i i == 0)) => [/eqP z|n] /=.
    by apply: big1 => y _; have [e _] := lg y i i (ltn_ord y) hi hi (leqnn i); rewrite e.
  have hm : mat i i \in diag_terms no mat by rewrite mem_terms n; apply: (map_f (fun i => mat i i)); rewrite mem_iota.
  have hk : (index (mat i i) (diag_terms no mat) < size (diag_terms no mat))%N by rewrite index_mem.
  have [hi' em] := nth_diag_idx hk; rewrite nth_index // in em; set i' := nth _ _ _ in hi' em.
  rewrite -(hd i'); last by apply: mem_nth; rewrite sI.
  rewrite reE //; apply: eq_bigr => y _; have [_ e] := lg y i i (ltn_ord y) hi hi (leqnn i).
  by apply: e; rewrite ?eqxx.
apply: from; split=> // i hi; have hk : (index i (diag_term_idx no mat) < size (diag_terms no mat))%N by rewrite -sI index_mem.
have [] := nth_diag_idx hk; rewrite nth_index // => hi' em; rewrite reE // h // eqxx em.
by have := mem_nth 0 hk; rewrite mem_terms => /andP[->].
Qed.
End Block.

Section Density.
Variables (C : numClosedFieldType) (nx no : nat) (rv : bool) (dlr : driver C) (U : arr4 C) (h : nat -> nat -> C).
Add Ring Cring3 : (fld_rt C).
Local Notation sym := (Symmetrizer C nx no).
Local Notation constraint := (density_constraint sym rv (Symmetrizer C 1 no) nx no dlr U h).
(* density matrix, first moment and mean field of the fitted function *)
Definition density (g : data C) : 'M[C]_no := \matrix_(c, d) \sum_(y < nx) rho_x dlr y * g y c d.
Definition moment (g : data C) : 'M[C]_no := \matrix_(a, b) \sum_(y < nx) dK_x dlr y * g y a b.
Definition hmat : 'M[C]_no := \matrix_(a, b) h a b.
Lemma lhsE g (a b : 'I_no) : density_lhs nx no dlr U g a b = moment g a b - update_mean_field U (density g) a b.
Proof.
rewrite /density_lhs !mxE; congr (_ - _); rewrite exchange_big; apply: eq_bigr => c _ /=; rewrite exchange_big; apply: eq_bigr => d _ /=.
by rewrite mxE mulr_sumr; apply: eq_bigr => y _; rewrite mulrA.
Qed.
Lemma mat_vec_eq (A B : nat -> nat -> C) : mat_vec rv (Symmetrizer C 1 no) A = mat_vec rv (Symmetrizer C 1 no) B <->
  (forall a, (a < no)%N -> 'Re (A a a) = 'Re (B a a)) /\
  (forall a b, (a < b)%N -> (b < no)%N -> 'Re (A a b) = 'Re (B a b) /\ (rv = false -> 'Im (A a b) = 'Im (B a b))).
Proof.
have g1 pos (M : nat -> nat -> C) : get_at 1 pos (fun _ => M) = [seq M p.1 p.2 | p <- pos] by rewrite /get_at /= cats0.
rewrite /mat_vec /= !g1 /split_re_im -!map_comp; have rr (z : C) : 'Re ('Re z) = 'Re z by rewrite (Creal_ReP _ _) ?Creal_Re.
have eqm (T : eqType) (s : seq T) (f f' : T -> C) : map f s = map f' s <-> forall t, t \in s -> f t = f' t.
  by split=> [/eq_in_map|] // H; apply/eq_in_map.
have cat (s1 s2 t1 t2 : seq C) : size s1 = size t1 -> s1 ++ s2 = t1 ++ t2 <-> s1 = t1 /\ s2 = t2.
  by move=> e; split=> [/eqP|[-> ->]] //; rewrite eqseq_cat // => /andP[/eqP-> /eqP->].
have dE : [seq 'Re ('Re (A i i)) | i <- iota 0 no] = [seq 'Re ('Re (B i i)) | i <- iota 0 no] <-> forall a, (a < no)%N -> 'Re (A a a) = 'Re (B a a).
  apply: (iff_trans (eqm _ _ _ _)); split=> H a; first by move=> ha; have := H a; rewrite mem_iota !rr; apply.
  by rewrite mem_iota /= !rr; apply: H.
have uE (f : C -> C) : [seq f (A p.1 p.2) | p <- triu no] = [seq f (B p.1 p.2) | p <- triu no] <-> forall a b, (a < b)%N -> (b < no)%N -> f (A a b) = f (B a b).
  apply: (iff_trans (eqm _ _ _ _)); split=> H; first by move=> a b hab hb; apply: (H (a, b)); rewrite mem_triu /= hab.
  by move=> [a b]; rewrite mem_triu /= => /andP[hab hb]; apply: H.
case: rv.
  split; first by case/cat; rewrite ?size_map // => /dE H /(uE (fun z => 'Re z)) H'; split=> // a b hab hb; split=> //; apply: H'.
  by case=> /dE H H'; apply/cat; rewrite ?size_map //; split=> //; apply/(uE (fun z => 'Re z)) => a b hab hb; have [] := H' a b hab hb.
split.
  case/cat; rewrite ?size_map // => /dE H /cat; rewrite !size_map => -[] // /(uE (fun z => 'Re z)) H1 /(uE (fun z => 'Im z)) H2.
  by split=> // a b hab hb; rewrite H1 // H2.
case=> /dE H H'; apply/cat; rewrite ?size_map //; split=> //; apply/cat; rewrite ?size_map //.
by split; [apply/(uE (fun z => 'Re z)) | apply/(uE (fun z => 'Im z))] => a b hab hb; have [h1 h2] := H' a b hab hb; rewrite ?h1 ?h2.
Qed.
(* C88: for at most three orbitals the constraint is the matrix equation between first moment, one-body Hamiltonian and mean field of the density matrix *)
Hypotheses (no3 : (no <= 3)%N) (hermh : forall a b, h a b = (h b a)^* ) (hermU : forall a b c d, (U a b c d)^* = U b a d c)
  (rdK : forall y, dK_x dlr y \is Num.real) (rrho : forall y, rho_x dlr y \is Num.real)
  (rreal : rv -> (forall a b, h a b \is Num.real) /\ forall a b c d, U a b c d \is Num.real).
Lemma moment_herm g : hermitian nx no g -> forall a b, moment g a b = (moment g b a)^*.
Proof.
move=> hg a b; rewrite !mxE rmorph_sum /=; apply: eq_bigr => y _; by rewrite rmorphM /= -hg // conj_Creal.
Qed.
Lemma mean_herm g : hermitian nx no g -> forall a b, update_mean_field U (density g) a b = (update_mean_field U (density g) b a)^*.
Proof.
move=> hg a b; rewrite !mxE rmorph_sum /= exchange_big /=; apply: eq_bigr => c _; rewrite rmorph_sum /=; apply: eq_bigr => d _.
rewrite rmorphM rmorphN /= hermU !mxE; congr (_ * _); rewrite rmorph_sum /=; apply: eq_bigr => y _.
by rewrite rmorphM /= -hg // conj_Creal.
Qed.
Theorem C88_density_partial x : size x = number rv nx no (pairs_number no) -> real_vector x -> exists g, g_from_x sym rv nx no x = Some g /\
  (constraint x <-> moment g = hmat + update_mean_field U (density g)).
Proof.
move=> sx rx; have [g [eg xg rg _]] := plain_g sx rx; exists g; split=> //.
have [g' [eg' hg]] := C48_hermitian_partial no3 sx rx; move: eg'; rewrite eg => -[e]; subst g'.
rewrite /density_constraint eg; set L := density_lhs nx no dlr U g.
have LE (a b : 'I_no) : L a b = moment g a b - update_mean_field U (density g) a b by exact: lhsE.
have LH (a b : 'I_no) : L a b = (L b a)^* by rewrite !LE rmorphB /= -moment_herm // -mean_herm.
have rL (a b : 'I_no) : rv -> L a b \is Num.real.
  move=> r; have [_ rU] := rreal r; have rgy (y : 'I_nx) (c d : 'I_no) : g y c d \is Num.real by apply: rg; rewrite ?r ?orbT.
  rewrite LE !mxE; apply: realB; apply: sum_real => i _; first exact: realM.
  apply: sum_real => d _; rewrite realM ?realN // mxE; apply: sum_real => y _; exact: realM.
have eqE : (mat_vec rv (Symmetrizer C 1 no) L == mat_vec rv (Symmetrizer C 1 no) h) <-> mat_vec rv (Symmetrizer C 1 no) L = mat_vec rv (Symmetrizer C 1 no) h.
  by split=> [/eqP|->].
apply: (iff_trans eqE); apply: (iff_trans (mat_vec_eq L h)); split=> [[hd hu]|e].
  have up (a b : 'I_no) : (a <= b)%N -> L a b = h a b.
    rewrite leq_eqVlt => /orP[/eqP/val_inj <-|hab].
      rewrite -[LHS](Creal_ReP _ _) ?hd //; last by apply/CrealP; rewrite -LH.
      by apply/Creal_ReP/CrealP; rewrite -hermh.
    have [h1 h2] := hu a b hab (ltn_ord b); case er : rv h2 => h2; last by rewrite [LHS]Crect [RHS]Crect h1 h2.
    by rewrite -[LHS](Creal_ReP _ _) ?rL ?er // h1 (Creal_ReP _ _) //; case: (rreal er).
  apply/matrixP => a b; rewrite [RHS]mxE [hmat a b]mxE; apply/eqP; rewrite -subr_eq -LE; apply/eqP.
  by case: (leqP a b) => [|/ltnW] hab; [exact: up | rewrite LH up // -hermh].
have LhE (a b : nat) : (a < no)%N -> (b < no)%N -> L a b = h a b.
  move=> ha hb; rewrite -[a]/(nat_of_ord (Ordinal ha)) -[b]/(nat_of_ord (Ordinal hb)) LE e mxE addrK; by rewrite mxE.
by split=> [a ha|a b hab hb]; rewrite LhE // (ltn_trans hab hb).
Qed.
(* the Hartree-Fock solution satisfies the constraint *)
Theorem C88_solution (P : data C) : hermitian nx no P -> (rv -> forall y a b, P y a b \is Num.real) ->
  moment P = hmat + update_mean_field U (density P) -> constraint (x_from_g sym rv P).
Proof.
move=> hP rP e; have [g [eg hg]] := C48_unpack_partial no3 hP rP.
have [sx rx] : size (x_from_g sym rv P) = number rv nx no (pairs_number no) /\ real_vector (x_from_g sym rv P).
  split; last first.
    by rewrite /real_vector /x_from_g /split_re_im; case: (rv); rewrite !all_cat !all_map; do ?[apply/andP; split]; apply/allP => z _ /=; rewrite ?Creal_Re ?Creal_Im.
  by rewrite /x_from_g /split_re_im /number /=; case: (rv); rewrite !size_cat !size_map !size_get ?size_map ?size_iota ?size_triu !mulnDr.
have [g' [eg' [_ from]]] := C88_density_partial sx rx; move: eg'; rewrite eg => -[e']; subst g'; apply: from.
have -> : density g = density P by apply/matrixP => a b; rewrite !mxE; apply: eq_bigr => y _; rewrite hg.
rewrite -e; by apply/matrixP => a b; rewrite !mxE; apply: eq_bigr => y _; rewrite hg.
Qed.
End Density.

Section Meaning.
Variables (C : numClosedFieldType) (nx no : nat).
Add Ring Cring4 : (fld_rt C).
(* the derivative in imaginary time of a sum of exponentials exp(- w_y t / beta) with the coefficients of the basis functions *)
Definition slope (dlr : driver C) (w : nat -> C) (beta : C) (g : data C) (t : C) (a b : nat) : C :=
  \sum_(y < nx) - (w y / beta) * basis dlr y t * g y a b.
Theorem C88_triqs_quantities (K : nat -> C -> C) (w : nat -> C) (beta : C) (g : data C) (a b : 'I_no) : let dlr := triqs_driver K w beta in
  density nx no dlr g a b = - eval_dlr_tau nx dlr g beta a b /\
  moment nx no dlr g a b = slope dlr w beta g 0 a b + slope dlr w beta g beta a b.
Proof.
split; rewrite !mxE /eval_dlr_tau /slope; first by rewrite -sumrN; apply: eq_bigr => y _; rewrite mulNr.
by rewrite -big_split; apply: eq_bigr => y _ /=; fring C.
Qed.
Theorem C88_pydlr_quantities (kernel : nat -> C -> C) (w : nat -> C) (beta : C) (g : data C) (a b : 'I_no) : beta != 0 ->
  let dlr := pydlr_driver kernel w beta in
  density nx no dlr g a b = - eval_dlr_tau nx dlr g beta a b /\
  moment nx no dlr g a b = slope dlr w beta g 0 a b + slope dlr w beta g beta a b.
Proof.
move=> hb; split; rewrite !mxE /eval_dlr_tau /slope; first by rewrite -sumrN; apply: eq_bigr => y _ /=; rewrite mulNr divff.
by rewrite -big_split; apply: eq_bigr => y _ /=; rewrite divff // mul0r; fring C.
Qed.
(* the Green function of a Hartree-Fock solution with levels w_y / beta, projectors P_y and Fermi occupations satisfies all constraints *)
Theorem C88_hartree_fock (rv : bool) (K e : nat -> C -> C) (w : nat -> C) (beta : C) (U : arr4 C) (h : nat -> nat -> C) (P : nat -> 'M[C]_no)
  (p := fun y a b => if (insub a, insub b) is (Some i, Some j) then P y i j else 0) (dlr := triqs_driver K w beta) (sym := Symmetrizer C nx no) :
  (no <= 3)%N -> (forall a b, h a b = (h b a)^* ) -> (forall a b c d, (U a b c d)^* = U b a d c) ->
  (rv -> [/\ forall a b, h a b \is Num.real, forall a b c d, U a b c d \is Num.real & forall y a b, P y a b \is Num.real]) ->
  beta \is Num.real -> (forall y, w y \is Num.real) -> (forall y t, e y t \is Num.real) ->
  (forall y t, K y t = - (e y t / (1 + e y beta))) -> (forall y, e y 0 = 1) -> (forall y, 1 + e y beta != 0) ->
  (forall y (a b : 'I_no), P y a b = (P y b a)^* ) -> \sum_(y < nx) P y = 1%:M ->
  \sum_(y < nx) (w y / beta) *: P y = hmat no h + update_mean_field U (\sum_(y < nx) (e y beta / (1 + e y beta)) *: P y) ->
  all (satisfies (x_from_g sym rv p)) (discontinuity_constraints sym (iota 0 no) (triu no) rv (bound dlr)) /\
  density_constraint sym rv (Symmetrizer C 1 no) nx no dlr U h (x_from_g sym rv p).
Proof.
move=> no3 hh hU hr rb rw re hK e0 e1 hP sP scf.
have pE y (a b : 'I_no) : p y a b = P y a b by rewrite /p !valK.
have pO y a b (ha : (a < no)%N) (hb : (b < no)%N) : p y a b = P y (Ordinal ha) (Ordinal hb) by exact: (pE y (Ordinal ha) (Ordinal hb)).
have hp : hermitian nx no p by move=> y a b _ ha hb; rewrite !pO.
have rp : rv -> forall y a b, p y a b \is Num.real.
  by move=> /hr [_ _ r] y a b; rewrite /p; case: insubP => [i _ _|_]; [case: insubP => [j _ _|_] |]; rewrite ?r ?real0.
have rK y t : K y t \is Num.real by rewrite hK realN realM ?realV ?realD ?real1.
split; last first.
  apply: C88_solution => //.
  - by move=> y /=; rewrite !realM ?realN ?realD ?realV.
  - by move=> y /=; rewrite realN.
  - by move=> /hr [].
  have -> : moment nx no dlr p = \sum_(y < nx) (w y / beta) *: P y.
    apply/matrixP => a b; rewrite summxE mxE; apply: eq_bigr => y _; rewrite mxE pE /= !hK e0 -opprD -mulrDl divff //.
    by rewrite opprK mul1r.
  have -> : density nx no dlr p = \sum_(y < nx) (e y beta / (1 + e y beta)) *: P y; last exact: scf.
  by apply/matrixP => a b; rewrite summxE mxE; apply: eq_bigr => y _; rewrite mxE pE /= hK opprK.
have [_ from] := @discontinuity_iff C nx rv sym (iota 0 no) (triu no) (erefl _) (erefl _) (iota_uniq _ _) (uniq_triu _) (@off_triu no) p (bound dlr).
have sumE a b (ha : (a < no)%N) (hb : (b < no)%N) : \sum_(y < nx) p y a b = (a == b)%:R.
  rewrite (eq_bigr (fun y : 'I_nx => P y (Ordinal ha) (Ordinal hb))) => [|y _]; last exact: pO.
  by rewrite -(summxE _ _ (fun y : 'I_nx => P y)) sP mxE.
apply: from; split=> [i|q].
  by rewrite mem_iota /= => hi; rewrite -raddf_sum sumE // eqxx /= (Creal_ReP 1 _) ?real1.
rewrite mem_triu => /andP[h1 h2]; have h3 := ltn_trans h1 h2.
by split=> [|_]; rewrite -raddf_sum sumE // (ltn_eqF h1) mulr0n raddf0.
Qed.
End Meaning.

(* two levels at zero energy with occupation 1/2, interaction 2 between the densities and h = -1 : the half-filled atom in Hartree-Fock *)
Section Cases.
Local Notation C := [numClosedFieldType of algC].
Definition atom_U : arr4 C := fun a b c d => if [&& a == b, c == d & a != c] then - 2%:R else 0.
Definition atom_h : nat -> nat -> C := fun a b => if a == b then - 1 else 0.
Definition atom_P : nat -> 'M[C]_2 := fun y => \matrix_(a, b) ((a == b) && (nat_of_ord a == y))%:R.
Definition atom_p : data C := fun y a b => if (insub a, insub b) is (Some i, Some j) then atom_P y i j else 0.
Definition atom_dlr : driver C := triqs_driver (fun _ _ => - (1 / (1 + 1))) (fun _ => 0) 1.
Lemma atom_hf : let x := x_from_g (Symmetrizer C 2 2) false atom_p in
  all (satisfies x) (discontinuity_constraints (Symmetrizer C 2 2) (iota 0 2) (triu 2) false (bound atom_dlr)) /\
  density_constraint (Symmetrizer C 2 2) false (Symmetrizer C 1 2) 2 2 atom_dlr atom_U atom_h x.
Proof.
have n2 : 1 + 1 != 0 :> C by rewrite -(natrD _ 1 1) pnatr_eq0.
have sP : \sum_(y < 2) atom_P y = 1%:M.
  apply/matrixP => a b; rewrite summxE !big_ord_recl big_ord0 /= !mxE.
  by case: a => -[|[]] //= ?; case: b => -[|[]] //= ?; rewrite /= ?mulr0n ?mulr1n ?addr0 ?add0r.
apply: (@C88_hartree_fock C 2 2 false (fun _ _ => - (1 / (1 + 1))) (fun _ _ => 1) (fun _ => 0) 1 atom_U atom_h atom_P) => //.
- by move=> a b; rewrite /atom_h eq_sym; case: ifP; rewrite ?rmorphN ?conjC1 ?conjC0.
- move=> a b c d; rewrite /atom_U (eq_sym b a) (eq_sym d c); case: (a =P b) => [<-|_]; case: (c =P d) => [<-|_]; rewrite /= ?conjC0 //.
  by case: ifP; rewrite ?rmorphN ?conjC0 // conjC_nat.
- move=> y a b; rewrite !mxE (eq_sym b a); case: (a =P b) => [<-|_] /=; by rewrite conjC_nat.
rewrite -[in RHS]scaler_sumr sP big1 => [|y _]; last by rewrite mul0r scale0r.
apply/matrixP => a b; rewrite !mxE !big_ord_recl !big_ord0 !mxE /atom_h /atom_U /=.
have h2 : 2%:R * (1 / (1 + 1) * 1) = 1 :> C by rewrite mulr1 mul1r; apply: (@divff C).
rewrite !andbF !oppr0 !mul0r !addr0 ?add0r.
by case: a => -[|[]] //= ?; case: b => -[|[]] //= ?; rewrite /= ?opprK ?h2 ?oppr0 ?mul0r ?addr0 ?add0r ?addNr.
Qed.
Theorem C88_case : let x := x_from_g (Symmetrizer C 2 2) false atom_p in
  [/\ x = [:: 1; 0; 0; 1; 0; 0; 0; 0],
   all (satisfies x) (discontinuity_constraints (Symmetrizer C 2 2) (iota 0 2) (triu 2) false (bound atom_dlr)) &
   density_constraint (Symmetrizer C 2 2) false (Symmetrizer C 1 2) 2 2 atom_dlr atom_U atom_h x].
Proof.
split.
- have aE (y : nat) (a b : 'I_2) : atom_p y a b = ((a == b) && (nat_of_ord a == y))%:R by rewrite /atom_p !valK mxE.
  have p00 y : atom_p y 0%N 0%N = (0%N == y)%:R by rewrite (aE y ord0 ord0).
  have p11 y : atom_p y 1%N 1%N = (1%N == y)%:R by rewrite (aE y ord_max ord_max).
  have p01 y : atom_p y 0%N 1%N = 0 by rewrite (aE y ord0 ord_max).
  rewrite /x_from_g /split_re_im /= /get_at /= !p00 !p11 !p01 /= !mulr0n !mulr1n !raddf0.
  by rewrite !(Creal_ReP 1 _) ?real1.
- by case: atom_hf.
by case: atom_hf.
Qed.
(* four orbitals: the constraint holds, the matrix equation does not *)
Definition four_dlr : driver C := triqs_driver (fun _ _ => - (1 / (1 + 1))) (fun _ => 1) 1.
Definition four_h : nat -> nat -> C := fun a b => if ((a, b) == (0, 3)%N) || ((a, b) == (3, 0)%N) then 1 else 0.
Definition four_x : seq C := [:: 0; 0; 0; 0; 0; 0; 1; 0; 0; 0].
Definition no_U : arr4 C := fun _ _ _ _ => 0.
Theorem C88_four_orbitals_refuted : size four_x = number true 1 4 (pairs_number 4) /\ real_vector four_x /\ (forall a b, four_h a b = (four_h b a)^* ) /\
  density_constraint (Symmetrizer C 1 4) true (Symmetrizer C 1 4) 1 4 four_dlr no_U four_h four_x /\
  exists g, g_from_x (Symmetrizer C 1 4) true 1 4 four_x = Some g /\ moment 1 4 four_dlr g <> hmat 4 four_h + update_mean_field no_U (density 1 4 four_dlr g).
Proof.
have n2 : 1 + 1 != 0 :> C by rewrite -(natrD _ 1 1) pnatr_eq0.
have dK : dK_x four_dlr 0 = 1 by rewrite /= -opprD -mulrDl (@divff C) // !(opprK, mulr1) invr1 mulr1.
have rx : real_vector four_x by rewrite /real_vector /= !real0 real1.
have sx : size four_x = number true 1 4 (pairs_number 4) by [].
split=> //; split=> //; split.
  move=> a b; rewrite /four_h !xpair_eqE orbC andbC [X in _ || X]andbC.
  by case: ifP => _; rewrite ?conjC1 ?conjC0.
have [g [eg [up low]]] : exists g, g_from_x (Symmetrizer C 1 4) true 1 4 four_x = Some g /\
    (forall a b, (a <= b)%N -> (b < 4)%N -> g 0%N a b = four_h a b) /\ g 0%N 3%N 0%N = 0^*.
  eexists; split; first by []; split=> //.
  by move=> [|[|[|[|a]]]] [|[|[|[|b]]]].
have L a b : density_lhs 1 4 four_dlr no_U g a b = g 0%N a b.
  rewrite /density_lhs big_ord1 dK mul1r [X in _ - X]big1 ?subr0 // => y _; rewrite big1 // => c _; apply: big1 => d _.
  by rewrite /no_U oppr0 !mul0r.
split.
  rewrite /density_constraint eg; apply/eqP/mat_vec_eq; split=> [c hc|c d hcd hd]; rewrite !L !up //; exact: ltnW.
exists g; split=> // /matrixP/(_ ord_max ord0); rewrite !mxE big_ord1 dK mul1r low conjC0 !big1 => [|c _]; last first.
  by apply: big1 => d _; rewrite /no_U oppr0 mul0r.
by rewrite addr0 /= => /eqP; rewrite eq_sym oner_eq0.
Qed.
(* C87: two coefficients -2 and 1 of one orbital satisfy discontinuity and positivity of the pydlr fit although 1 is a negative spectral weight;
   with the TRIQS driver 2 and -1 satisfy the discontinuity *)
Theorem C87_positivity_pydlr_refuted : let dlr : driver C := pydlr_driver (fun _ _ => 1 / (1 + 1)) (fun _ => 0) 1 in let x : seq C := [:: - 2%:R; 1] in
  let sym := Symmetrizer C 2 1 in
  all (satisfies x) (positivity_constraints sym (iota 0 1) true ++ discontinuity_constraints sym (iota 0 1) (triu 1) true (bound dlr)) /\
  exists g, g_from_x sym true 2 1 x = Some g /\ ~ (g 1%N 0%N 0%N <= 0).
Proof.
move=> dlr x sym; have rx : real_vector x by rewrite /real_vector /= realN realn real1.
have sx : size x = number true 2 1 (pairs_number 1) by [].
have [g [eg [g0 g1]]] : exists g, g_from_x sym true 2 1 x = Some g /\ g 0%N 0%N 0%N = - 2%:R /\ g 1%N 0%N 0%N = 1 by eexists; split.
split; last by exists g; split=> //; rewrite g1 ler10.
have hd : all (satisfies x) (discontinuity_constraints sym (iota 0 1) (triu 1) true (bound dlr)).
  have [g' [eg' [_ from]]] := C87_discontinuity (bound dlr) sx rx; move: eg'; rewrite eg => -[e]; subst g'; apply: from => -[|//] [|//] _ _.
  by rewrite !big_ord_recl big_ord0 /= g0 g1 addr0 (natrD _ 1 1) opprD addrNK.
by rewrite all_cat hd andbT; apply: (@C87_positivity_pydlr C 2 1 true (fun _ _ => 1 / (1 + 1)) (fun _ => 0) 1).
Qed.
Theorem C87_case : let x : seq C := [:: 2%:R; - 1] in let sym := Symmetrizer C 2 1 in
  all (satisfies x) (discontinuity_constraints sym (iota 0 1) (triu 1) true (bound atom_dlr)) /\
  exists g, g_from_x sym true 2 1 x = Some g /\ eval_dlr_tau 2 atom_dlr g 0 0 0 + eval_dlr_tau 2 atom_dlr g 1 0 0 = - 1.
Proof.
move=> x sym; have rx : real_vector x by rewrite /real_vector /= realN realn real1.
have sx : size x = number true 2 1 (pairs_number 1) by [].
have n2 : 1 + 1 != 0 :> C by rewrite -(natrD _ 1 1) pnatr_eq0.
have [g [eg [g0 g1]]] : exists g, g_from_x sym true 2 1 x = Some g /\ g 0%N 0%N 0%N = 2%:R /\ g 1%N 0%N 0%N = - 1 by eexists; split.
have hd : all (satisfies x) (discontinuity_constraints sym (iota 0 1) (triu 1) true (bound atom_dlr)).
  have [g' [eg' [_ from]]] := C87_discontinuity (bound atom_dlr) sx rx; move: eg'; rewrite eg => -[e]; subst g'; apply: from => -[|//] [|//] _ _.
  by rewrite !big_ord_recl big_ord0 /= g0 g1 addr0 (natrD _ 1 1) addrK.
split=> //; have [] := @C87_jump_triqs C 2 1 true (fun _ _ => - (1 / (1 + 1))) (fun _ _ => 1) (fun _ => 0) 1 x => // g' [eg' [to _]].
by exists g'; split=> //; rewrite (to hd).
Qed.
End Cases.
Print Assumptions C87_discontinuity.
Print Assumptions C87_residual.
Print Assumptions C87_jump_triqs.
Print Assumptions C87_jump_pydlr.
Print Assumptions C87_positivity_sum.
Print Assumptions C87_positivity_triqs_refuted.
Print Assumptions C87_positivity_pydlr.
Print Assumptions C87_block_diagonal.
Print Assumptions C88_density_partial.
Print Assumptions C88_solution.
Print Assumptions C88_triqs_quantities.
Print Assumptions C88_pydlr_quantities.
Print Assumptions C88_hartree_fock.
Print Assumptions C88_case.
Print Assumptions C88_four_orbitals_refuted.
Print Assumptions C87_positivity_pydlr_refuted.
Print Assumptions C87_case.
