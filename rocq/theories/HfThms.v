(* C34, C35, C36, C66, C67: the Hartree-Fock solver. *)
From mathcomp Require Import all_ssreflect all_algebra.
From mathcomp Require Import zify.
From Verif Require Import OperatorModel OperatorSpec OperatorProofs OperatorThms KanamoriModel KanamoriThms SymmetryModel SymmetryProofs HfModel HfSpec Fring.
Set Implicit Arguments.
Unset Strict Implicit.
Unset Printing Implicit Defensive.
Import GRing.Theory Num.Theory Order.Theory.
Local Open Scope ring_scope.

Section Packing.
Variables (C : numClosedFieldType) (n : nat).
Local Notation mx := 'M[C]_n.
Lemma at_ord (m : mx) (i j : 'I_n) : at_ m i j = m i j. Proof. by rewrite /at_ !valK. Qed.
Lemma triu_square : (n + (size (triu n) + size (triu n)))%N = (n * n)%N.
Proof.
rewrite {2}size_triangles !size_filter.
have -> : (n * n)%N = size (all_pairs n) by rewrite size_allpairs size_iota.
have c0 : count (fun p : nat * nat => p.1 == p.2) (all_pairs n) = n.
  rewrite -size_filter (_ : [seq p <- _ | _] = [seq (i, i) | i <- iota 0 n]) ?size_map ?size_iota //.
  have h r : {subset r <= iota 0 n} -> [seq p <- [seq (i, j) | i <- r, j <- iota 0 n] | p.1 == p.2] = [seq (i, i) | i <- r].
    elim: r => [|i r ih] hs //=; rewrite filter_cat ih; last by move=> x hx; apply: hs; rewrite inE hx orbT.
    rewrite -cat1s; congr (_ ++ _); rewrite filter_map (eq_in_filter (a2 := pred1 i)) /=; last by move=> j _ /=; rewrite eq_sym.
    by rewrite filter_pred1_uniq ?iota_uniq //; apply: hs; rewrite mem_head.
  exact: h.
have -> : size (all_pairs n) = (count (fun p : nat * nat => p.1 == p.2) (all_pairs n) +
   (count (fun p : nat * nat => (p.1 < p.2)%N) (all_pairs n) + count (fun p : nat * nat => (p.2 < p.1)%N) (all_pairs n)))%N; last by rewrite c0.
by elim: (all_pairs n) => [|[i j] r ih] //=; rewrite ih; case: (ltngtP i j); lia.
Qed.
Lemma sz_mat2vec (m : mx) : size (mat2vec m) = (n * n)%N.
Proof. by rewrite /mat2vec !size_cat !size_map size_iota triu_square. Qed.
(* the parts of a vector of the right length *)
Lemma vec2matE (vec : seq C) : size vec = (n * n)%N -> let t := size (triu n) in
  vec2mat n vec = Some (let val_ i j := nth 0 vec (n + index (i, j) (triu n)) + 'i * nth 0 vec (n + t + index (i, j) (triu n)) in
   \matrix_(i < n, j < n) (if (i < j)%N then val_ (val i) (val j) else if (j < i)%N then (val_ (val j) (val i))^* else nth 0 vec i)).
Proof.
move=> hs t; have es : size (drop n vec) = (t + t)%N by rewrite size_drop hs -triu_square addKn.
have st : size (take n vec) = n by apply: size_takel; rewrite hs -triu_square leq_addr.
rewrite /vec2mat es oddD addbb st eqxx /= addnn doubleK.
have sr : size (take t (drop n vec)) = t by rewrite size_takel // es leq_addr.
rewrite sr eqxx /=; congr Some; apply/matrixP => i j; rewrite !mxE /= !mem_triu /= !ltn_ord !andbT.
have nv p : p \in triu n -> nth 0 [seq p.1 + 'i * p.2 | p <- zip (take t (drop n vec)) (drop t (drop n vec))] (index p (triu n)) =
    nth 0 vec (n + index p (triu n)) + 'i * nth 0 vec (n + t + index p (triu n)).
  move=> hp; have hi : (index p (triu n) < t)%N by rewrite index_mem.
  have sd : size (drop t (drop n vec)) = t by rewrite size_drop es addKn.
  rewrite (nth_map (0, 0)) ?size_zip ?sr ?sd ?minnn // nth_zip ?sr ?sd //= nth_take // !nth_drop addnA //.
case: (ltngtP i j) => h; rewrite -?(inj_eq val_inj) /=.
- rewrite nv ?mem_triu /= ?h ?ltn_ord // conjC0 addr0 (ltn_eqF h) addr0 //.
- rewrite nv ?mem_triu /= ?h ?ltn_ord // add0r (gtn_eqF h) addr0 //.
by rewrite h eqxx conjC0 !add0r nth_take // ltn_ord.
Qed.
Lemma re_im (x : C) : 'Re x + 'i * 'Im x = x. Proof. by rewrite -Crect. Qed.
Lemma nth_diag (m : mx) (i : nat) : (i < n)%N -> nth 0 (mat2vec m) i = 'Re (at_ m i i).
Proof. by move=> hi; rewrite /mat2vec nth_cat size_map size_iota hi (nth_map 0%N) ?size_iota // nth_iota. Qed.
Lemma nth_re (m : mx) p : p \in triu n -> nth 0 (mat2vec m) (n + index p (triu n)) = 'Re (at_ m p.1 p.2).
Proof.
move=> hp; have hi : (index p (triu n) < size (triu n))%N by rewrite index_mem.
rewrite /mat2vec nth_cat size_map size_iota ltnNge leq_addr /= addKn nth_cat !size_map hi (nth_map 0) ?size_map // (nth_map (0%N, 0%N)) //.
by rewrite nth_index.
Qed.
Lemma nth_im (m : mx) p : p \in triu n -> nth 0 (mat2vec m) (n + size (triu n) + index p (triu n)) = 'Im (at_ m p.1 p.2).
Proof.
move=> hp; have hi : (index p (triu n) < size (triu n))%N by rewrite index_mem.
rewrite /mat2vec nth_cat size_map size_iota -addnA ltnNge leq_addr /= addKn nth_cat !size_map ltnNge leq_addr /= addKn.
by rewrite (nth_map 0) ?size_map // (nth_map (0%N, 0%N)) // nth_index.
Qed.
Lemma C36_matrix_proof (m : mx) : hermitian_mx m -> vec2mat n (mat2vec m) = Some m.
Proof.
move=> hm; have h i j : (m i j)^* = m j i by rewrite -[in RHS]hm !mxE.
rewrite vec2matE ?sz_mat2vec //; congr Some; apply/matrixP => i j; rewrite mxE; case: (ltngtP i j) => hij.
- by rewrite nth_re ?nth_im ?mem_triu /= ?hij ?ltn_ord // re_im at_ord.
- by rewrite nth_re ?nth_im ?mem_triu /= ?hij ?ltn_ord // re_im at_ord h.
rewrite nth_diag // at_ord (val_inj hij); apply/Creal_ReP; rewrite CrealE; apply/eqP/h.
Qed.
Lemma C36_vector_proof (v : seq C) : size v = (n * n)%N -> all (fun x => x \is Num.real) v ->
  exists m, [/\ vec2mat n v = Some m, hermitian_mx m & mat2vec m = v].
Proof.
move=> hs /allP hv; have hr i : nth 0 v i \is Num.real.
  by case: (ltnP i (size v)) => hi; [apply/hv/mem_nth | rewrite nth_default ?rpred0].
have cr i : (nth 0 v i)^* = nth 0 v i by apply/CrealP.
rewrite vec2matE //; eexists; split; first by [].
- apply/matrixP => i j; rewrite !mxE; case: (ltngtP i j) => hij; rewrite ?conjCK //.
  by rewrite cr hij.
apply: (@eq_from_nth _ 0); first by rewrite sz_mat2vec.
move=> i; rewrite sz_mat2vec -triu_square => hi.
have hz p : p \in triu n -> (p.1 < n)%N && (p.2 < n)%N && (p.1 < p.2)%N by rewrite mem_triu; lia.
case: (ltnP i n) => h1.
  rewrite nth_diag // (at_ord _ (Ordinal h1) (Ordinal h1)) mxE ltnn; exact/Creal_ReP.
case: (ltnP i (n + size (triu n))) => h2.
  have {h2}hi2 : (i - n < size (triu n))%N by lia.
  have ep : index (nth (0%N, 0%N) (triu n) (i - n)) (triu n) = (i - n)%N by rewrite index_uniq // uniq_triu.
  have pm := mem_nth (0%N, 0%N) hi2; move: ep pm; set p := nth _ _ _ => ep pm.
  have {1}-> : i = (n + index p (triu n))%N by rewrite ep; lia.
  rewrite nth_re //; have /andP[/andP[q1 q2] q3] := hz _ pm.
  rewrite (at_ord _ (Ordinal q1) (Ordinal q2)) mxE /= q3 -surjective_pairing ep subnKC // Re_rect //.
have hi2 : (i - n - size (triu n) < size (triu n))%N by lia.
have ep : index (nth (0%N, 0%N) (triu n) (i - n - size (triu n))) (triu n) = (i - n - size (triu n))%N by rewrite index_uniq // uniq_triu.
have pm := mem_nth (0%N, 0%N) hi2; move: ep pm; set p := nth _ _ _ => ep pm.
have {1}-> : i = (n + size (triu n) + index p (triu n))%N by rewrite ep; lia.
rewrite nth_im //; have /andP[/andP[q1 q2] q3] := hz _ pm.
rewrite (at_ord _ (Ordinal q1) (Ordinal q2)) mxE /= q3 -surjective_pairing ep Im_rect //; congr (nth _ _ _); lia.
Qed.
Lemma C36_hartree_proof (m : mx) : hermitian_mx m -> (forall i j, i != j -> m i j = 0) -> vec2mat_hartree n (mat2vec_hartree m) = Some m.
Proof.
move=> hm hd; have h i j : (m i j)^* = m j i by rewrite -[in RHS]hm !mxE.
rewrite /vec2mat_hartree /mat2vec_hartree size_map size_iota eqxx; congr Some; apply/matrixP => i j; rewrite mxE.
case: eqP => [<-|/eqP hij]; last by rewrite hd.
have r : m i i \is Num.real by rewrite CrealE h.
rewrite (nth_map 0%N) ?size_iota // nth_iota // add0n at_ord.
by move/Creal_ReP: (r) => ->; apply/Creal_ReP.
Qed.
Lemma C36_hartree_vector_proof (v : seq C) : size v = n -> all (fun x => x \is Num.real) v ->
  exists2 m, vec2mat_hartree n v = Some m & mat2vec_hartree m = v.
Proof.
move=> hs /allP hv; rewrite /vec2mat_hartree hs eqxx; eexists; first by [].
apply: (@eq_from_nth _ 0); first by rewrite size_map size_iota.
move=> i; rewrite size_map size_iota => hi; rewrite (nth_map 0%N) ?size_iota // nth_iota // add0n (at_ord _ (Ordinal hi) (Ordinal hi)) mxE eqxx /=.
have r : nth 0 v i \is Num.real by apply/hv/mem_nth; rewrite hs.
by move/Creal_ReP: (r) => ->; apply/Creal_ReP.
Qed.
End Packing.

Section Iteration.
Variables (C : numClosedFieldType) (n : nat) (K : finType).
Variables (eigh : 'M[C]_n -> 'rV[C]_n * 'M[C]_n) (exp : C -> C) (brentq : (C -> C) -> C -> C -> option C) (beta : C).
Variables (e_k : K -> 'M[C]_n) (U : arr4 C) (mu_min mu_max : option C).
Variables (pack : 'M[C]_n -> seq C) (unpack : seq C -> option 'M[C]_n).
Local Notation step := (density_matrix_step eigh exp brentq beta e_k U mu_min mu_max pack unpack).
Local Notation iter := (iterate eigh exp brentq beta e_k U mu_min mu_max pack unpack).
Local Notation solve := (solve_iter eigh exp brentq beta e_k U mu_min mu_max pack unpack).
Implicit Types (s : solver C n) (v : seq C) (h : seq (seq C)).
Variables (N tol mixing : C).
Lemma step_state s s' v : step s v (Some N) = step s' v (Some N). Proof. by []. Qed.
Lemma iterateS fuel s v h : iter fuel.+1 N mixing tol s v h = if step s v (Some N) is Some (s', new) then
  if below tol v new then Some (s', rcons h v) else iter fuel N mixing tol s' (mixed mixing v new) (rcons h v) else None.
Proof. by []. Qed.
(* one step of the recursion from a recorded vector *)
Definition goes_on (v w : seq C) : Prop := forall s, exists s' new, [/\ step s v (Some N) = Some (s', new), ~~ below tol v new & w = mixed mixing v new].
Definition ends_with (v : seq C) (s' : solver C n) (early : bool) : Prop := forall s, exists2 new, step s v (Some N) = Some (s', new) & early -> below tol v new.
Lemma iterate_proof fuel s v h0 s' h : iter fuel N mixing tol s v h0 = Some (s', h) ->
  exists r, [/\ h = h0 ++ r, (size r <= fuel)%N, (0 < fuel -> exists r', r = v :: r')%N,
    (forall t, t.+1 < size r -> goes_on (nth [::] r t) (nth [::] r t.+1))%N &
    (0 < fuel)%N -> ends_with (last [::] r) s' (size r < fuel)%N].
Proof.
elim: fuel s v h0 => [|fuel ih] s v h0 /=; first by case=> _ <-; exists [::]; split; rewrite ?cats0.
case e : (step s v (Some N)) => [[s1 new]|] //; case: ifP => hb.
  case=> <- <-; exists [:: v]; split => //; first by rewrite cats1.
    by move=> _; exists [::].
  by move=> _ s2; exists new.
case: (posnP fuel) => [f0|f0].
  rewrite f0 /= => -[<- <-]; exists [:: v]; split => //; first by rewrite cats1.
    by move=> _; exists [::].
  by move=> _ s2; exists new => //=; rewrite ltnn.
case/ih=> r [-> hr h1 h2 h3]; exists (v :: r); split.
- by rewrite -cats1 -catA.
- by [].
- by move=> _; exists r.
- move=> [|t] /= ht; last exact: h2.
  have [r' er] := h1 f0; by rewrite er /= => s2; exists s1, new; rewrite hb.
by move=> _ /=; have [r' er] := h1 f0; move: (h3 f0); rewrite ltnS er.
Qed.
(* vectors of one length *)
Lemma stationary_proof v w : size v = size w -> mixing != 0 -> (mixed mixing v w = v <-> w = v).
Proof.
move=> e m0; split=> [h|->]; last first.
  rewrite /mixed; elim: v {e} => [|x v ih] //=; rewrite ih; congr (_ :: _); rewrite -mulrDl subrK mul1r //.
move: h; rewrite /mixed; elim: v w e => [|x v ih] [|y w] //= [/ih{}ih] [e /ih ->]; congr (_ :: _).
move/eqP: e; rewrite mulrBl mul1r -addrA -subr_eq0 addrAC subrr add0r addrC -mulrBr mulf_eq0 (negbTE m0) subr_eq0 => /eqP //.
Qed.
Lemma zip_sub v : \sum_(x <- [seq p.1 - p.2 | p <- zip v v]) `|x| ^+ 2 = 0.
Proof. by elim: v => [|x v ih]; rewrite /= ?big_nil // big_cons ih subrr normr0 expr0n addr0. Qed.
Lemma fixed_stops_proof fuel s v s1 : 0 < tol -> norm v != 0 -> step s v (Some N) = Some (s1, v) ->
  iter fuel.+1 N mixing tol s v [::] = Some (s1, [:: v]).
Proof. by move=> t0 v0 e; rewrite /= e /below v0 /norm zip_sub sqrtC0 mul0r t0. Qed.
(* the test of the loop compares relative changes *)
Lemma norm_nth v : \sum_(x <- v) `|x| ^+ 2 = \sum_(i < size v) `|nth 0 v i| ^+ 2.
Proof. by rewrite (big_nth 0) big_mkord. Qed.
Lemma diff_nth v w : size v = size w -> \sum_(x <- [seq p.1 - p.2 | p <- zip v w]) `|x| ^+ 2 = \sum_(i < size v) `|nth 0 v i - nth 0 w i| ^+ 2.
Proof.
move=> e; rewrite norm_nth size_map size_zip -e minnn; apply: eq_bigr => i _.
by rewrite (nth_map (0, 0)) ?size_zip -?e ?minnn // nth_zip.
Qed.
Lemma sum_sq_ge0 m (f : 'I_m -> C) : 0 <= \sum_i `|f i| ^+ 2.
Proof. by apply: sumr_ge0 => i _; rewrite exprn_ge0. Qed.
Lemma below_close v w : 0 <= tol -> size v = size w -> below tol v w <-> close tol v w.
Proof.
move=> t0 e; rewrite /below /close /norm diff_nth // norm_nth.
set A := \sum_(i < _) _; set B := \sum_(i < _) `|_ - _| ^+ 2; have A0 : 0 <= A := sum_sq_ge0 _; have B0 : 0 <= B := sum_sq_ge0 _.
rewrite sqrtC_eq0; case: (A =P 0) => [->|/eqP nA] /=; first by rewrite mulr0; split => // /lt_geF; rewrite B0.
have Ap : 0 < A by rewrite lt0r nA.
rewrite ltr_pdivr_mulr ?sqrtC_gt0 // -{2}[B]sqrtCK -{2}[A]sqrtCK -exprMn.
by rewrite ltr_pexpn2r ?nnegrE ?mulr_ge0 ?sqrtC_ge0.
Qed.
Lemma nth_mixed v w i : size v = size w -> (i < size v)%N -> nth 0 (mixed mixing v w) i = (1 - mixing) * nth 0 v i + mixing * nth 0 w i.
Proof. by move=> e hi; rewrite /mixed (nth_map (0, 0)) ?size_zip -?e ?minnn // nth_zip. Qed.
(* the map whose fixed points are the solutions *)
Definition density_map (v : seq C) : option (seq C) := omap snd (step (Solver 0 0 0) v (Some N)).
Variable L : nat.
Hypothesis packL : forall m, size (pack m) = L.
Lemma step_size s v s' w : step s v (Some N) = Some (s', w) -> size w = L.
Proof. by rewrite /density_matrix_step; case: (unpack v) => // r; case: (update_chemical_potential _ _ _ _ _ _ _ _) => // m [_ <-]. Qed.
Lemma C34_history_proof s M0 mu0 nitermax s' h : 0 <= tol -> (0 < nitermax)%N -> solve s N M0 mu0 nitermax mixing tol = Some (s', h) ->
  exists s0 v0 new, [/\ solve_setup eigh exp brentq beta e_k mu_min mu_max pack s N M0 mu0 = Some (s0, v0),
    (size h <= nitermax)%N /\ (exists h', h = v0 :: h'), orbit density_map mixing tol h,
    step s (last [::] h) (Some N) = Some (s', new) & (size h < nitermax)%N -> close tol (last [::] h) new].
Proof.
move=> t0 n0; rewrite /solve_iter; case: ifP => // _; case e : (solve_setup _ _ _ _ _ _ _ _ _ _ _) => [[s0 v0]|] // /iterate_proof[r [-> h1 h2 h3 h4]].
have [r' er] := h2 n0; have [new e1 e2] := h4 n0 s.
have sz0 : size v0 = L by move: e; rewrite /solve_setup; case: (if mu0 is Some m then _ else _) => // _; case: (update_chemical_potential _ _ _ _ _ _ _ _) => // m [_ <-].
have szr t : (t < size r)%N -> size (nth [::] r t) = L.
  elim: t => [|t ih] ht; first by rewrite er.
  have [s1 [w [ew _ ->]]] := h3 t ht (Solver 0 0 0); rewrite /mixed size_map size_zip (step_size ew) ih ?minnn // ltnW //.
exists s0, v0, new; split => //; first by split => //; exists r'.
- move=> t ht; have [s1 [w [ew nb nx]]] := h3 t ht (Solver 0 0 0); exists w.
  have ez : size (nth [::] r t) = size w by rewrite (step_size ew) szr // ltnW.
  split; first by rewrite /density_map ew.
  - by rewrite nx size_map size_zip ez minnn.
  - by move/(below_close t0 ez); apply/negP.
  by move=> i hi; rewrite nx nth_mixed.
move=> hs; apply/below_close => //; last exact: e2.
by rewrite (step_size e1) (last_nth [::]) er /= -[LHS]/(size (nth [::] (v0 :: r') (size r'))) -er szr // er.
Qed.
End Iteration.

Section Energy.
Variables (C : numClosedFieldType) (n : nat) (idx : seq nat).
Hypotheses (u : uniq idx) (sz : size idx = n).
Local Notation mx := 'M[C]_n.
Local Notation Q := (quart idx).
Add Field Cfield : (fld_ft (Num.ClosedField.fieldType C)).
Variables (H : operator C) (T : arr4 C).
Hypotheses (sH : stored H) (qH : quartic idx H) (eT : interaction_tensor H (modes C idx) = Some T).
Implicit Types (rho : mx).
Lemma lt_ord (a : 'I_n) : (a < size idx)%N. Proof. by rewrite sz. Qed.
Lemma T_read (a b c d : 'I_n) : T a b c d = pr H (Phi C idx b d a c).
Proof. exact: (rpa_read u (lt_ord b) (lt_ord d) (lt_ord a) (lt_ord c) sH (quartic_is_ok sH qH) eT). Qed.
Lemma Phi_swap a b c d p : Phi C idx a b c d p = Phi C idx b a d c p.
Proof. by rewrite /Phi; fring C. Qed.
Lemma T_pair (a b c d : 'I_n) : T a b c d = T c d a b.
Proof. by rewrite !T_read; apply: eq_bigr => t _; rewrite Phi_swap. Qed.
Lemma sum4_one (f : 'I_n -> 'I_n -> 'I_n -> 'I_n -> C) (i j k l : 'I_n) :
  \sum_a \sum_b \sum_c \sum_d f a b c d * [&& a == i, b == j, c == k & d == l]%:R = f i j k l.
Proof.
have e (g : 'I_n -> C) (i0 : 'I_n) (P : 'I_n -> bool) : (forall a, a != i0 -> P a = false) -> \sum_a g a * (P a)%:R = g i0 * (P i0)%:R.
  by move=> h; rewrite (bigD1 i0) //= big1 ?addr0 // => a /h ->; rewrite mulr0.
rewrite (bigD1 i) //= [X in _ + X]big1 ?addr0 => [|a /negbTE ha]; last by apply: big1 => b _; apply: big1 => c _; apply: big1 => d _; rewrite ha mulr0.
rewrite (bigD1 j) //= [X in _ + X]big1 ?addr0 => [|a /negbTE ha]; last by apply: big1 => b _; apply: big1 => c _; rewrite ha andbF mulr0.
rewrite (bigD1 k) //= [X in _ + X]big1 ?addr0 => [|a /negbTE ha]; last by apply: big1 => b _; rewrite ha /= !andbF mulr0.
rewrite (bigD1 l) //= [X in _ + X]big1 ?addr0 => [|a /negbTE ha]; last by rewrite ha !andbF mulr0.
by rewrite !eqxx mulr1.
Qed.
Lemma Q_ord (a b c d i j k l : 'I_n) : (Q i j k l == Q a b c d) = [&& a == i, b == j, c == k & d == l].
Proof. by rewrite quart_eq ?lt_ord // -!(inj_eq val_inj) ![_ == val a]eq_sym ![_ == val b]eq_sym ![_ == val c]eq_sym ![_ == val d]eq_sym. Qed.
(* one term of the operator *)
Lemma term_energy rho (i j k l : 'I_n) :
  \sum_(a < n) \sum_(b < n) \sum_(c < n) \sum_(d < n) rho a b * Phi C idx b d a c (Q i j k l) * rho c d = 2%:R * (rho k i * rho l j - rho l i * rho k j).
Proof.
have two x : 2%:R * x = x + x :> C by rewrite mulr_natl mulr2n.
rewrite two.
transitivity (\sum_a \sum_b \sum_c \sum_d (rho a b * rho c d * [&& a == k, b == i, c == l & d == j]%:R -
    rho a b * rho c d * [&& a == k, b == j, c == l & d == i]%:R + (rho a b * rho c d * [&& a == l, b == j, c == k & d == i]%:R -
    rho a b * rho c d * [&& a == l, b == i, c == k & d == j]%:R))).
  apply: eq_bigr => a _; apply: eq_bigr => b _; apply: eq_bigr => c _; apply: eq_bigr => d _; rewrite /Phi /del !Q_ord.
  have r1 : [&& b == i, d == j, a == k & c == l] = [&& a == k, b == i, c == l & d == j] by do 4 case: eqP.
  have r2 : [&& d == i, b == j, a == k & c == l] = [&& a == k, b == j, c == l & d == i] by do 4 case: eqP.
  have r3 : [&& d == i, b == j, c == k & a == l] = [&& a == l, b == j, c == k & d == i] by do 4 case: eqP.
  have r4 : [&& b == i, d == j, c == k & a == l] = [&& a == l, b == i, c == k & d == j] by do 4 case: eqP.
  by rewrite r1 r2 r3 r4; fring C.
have split4 (f g : 'I_n -> 'I_n -> 'I_n -> 'I_n -> C) : \sum_a \sum_b \sum_c \sum_d (f a b c d + g a b c d) =
    \sum_a \sum_b \sum_c \sum_d f a b c d + \sum_a \sum_b \sum_c \sum_d g a b c d.
  by rewrite -big_split; apply: eq_bigr => a _; rewrite -big_split; apply: eq_bigr => b _; rewrite -big_split; apply: eq_bigr => c _; rewrite -big_split.
have split4N (f g : 'I_n -> 'I_n -> 'I_n -> 'I_n -> C) : \sum_a \sum_b \sum_c \sum_d (f a b c d - g a b c d) =
    \sum_a \sum_b \sum_c \sum_d f a b c d - \sum_a \sum_b \sum_c \sum_d g a b c d.
  by rewrite -sumrB; apply: eq_bigr => a _; rewrite -sumrB; apply: eq_bigr => b _; rewrite -sumrB; apply: eq_bigr => c _; rewrite -sumrB.
rewrite (split4 (fun a b c d => _) (fun a b c d => _)) !(split4N (fun a b c d => _) (fun a b c d => _)) !(sum4_one (fun a b c d => rho a b * rho c d)).
by fring C.
Qed.
Lemma energy_proof rho : update_interaction_energy T rho = - mean_interaction idx H rho.
Proof.
have n2 : (2%:R : C) != 0 by rewrite pnatr_eq0.
apply: (mulfI n2); rewrite mulrA divff // mul1r mulrN /mean_interaction mulr_sumr -sumrN.
transitivity (\sum_(t <- H) t.2 * \sum_(a < n) \sum_(b < n) \sum_(c < n) \sum_(d < n) rho a b * Phi C idx b d a c t.1 * rho c d).
  transitivity (\sum_(t <- H) \sum_(a < n) \sum_(b < n) \sum_(c < n) \sum_(d < n) t.2 * (rho a b * Phi C idx b d a c t.1 * rho c d)).
    rewrite [RHS]exchange_big; apply: eq_bigr => a _; rewrite [RHS]exchange_big; apply: eq_bigr => b _.
    rewrite [RHS]exchange_big; apply: eq_bigr => c _; rewrite [RHS]exchange_big; apply: eq_bigr => d _.
    by rewrite T_read /pr mulr_sumr mulr_suml; apply: eq_bigr => t _; fring C.
  apply: eq_bigr => t _; rewrite mulr_sumr; apply: eq_bigr => a _; rewrite mulr_sumr; apply: eq_bigr => b _.
  by rewrite mulr_sumr; apply: eq_bigr => c _; rewrite mulr_sumr; apply: eq_bigr => d _; fring C.
rewrite big_seq_cond [RHS]big_seq_cond; apply: eq_bigr => t; rewrite andbT => ht; have := qH ht; case: (t) => m x /=.
case: m => [|[d1 t1] [|[d2 t2] [|[d3 t3] [|[d4 t4] [|x' m']]]]] //=; rewrite /quartic_in //; case: d1 => //; try (case: d2 => //); try (case: d3 => //); try (case: d4 => //).
move=> /and4P[h1 h2 h3 h4].
have [o1 e1] : exists o : 'I_n, nth 0%N idx o = t1 by have hi : (index t1 idx < n)%N; [rewrite -sz index_mem | exists (Ordinal hi); rewrite /= nth_index].
have [o2 e2] : exists o : 'I_n, nth 0%N idx o = t2 by have hi : (index t2 idx < n)%N; [rewrite -sz index_mem | exists (Ordinal hi); rewrite /= nth_index].
have [o3 e3] : exists o : 'I_n, nth 0%N idx o = t3 by have hi : (index t3 idx < n)%N; [rewrite -sz index_mem | exists (Ordinal hi); rewrite /= nth_index].
have [o4 e4] : exists o : 'I_n, nth 0%N idx o = t4 by have hi : (index t4 idx < n)%N; [rewrite -sz index_mem | exists (Ordinal hi); rewrite /= nth_index].
rewrite -e1 -e2 -e3 -e4 -/(Q o1 o2 o3 o4) term_energy /pair_value !index_uniq ?lt_ord // !valK.
by fring C.
Qed.
Lemma mean_field_proof rho delta :
  mean_interaction idx H (rho + delta) = mean_interaction idx H rho + trace_product (update_mean_field T rho) delta + mean_interaction idx H delta.
Proof.
have n2 : (2%:R : C) != 0 by rewrite pnatr_eq0.
have ei (r : mx) : mean_interaction idx H r = - update_interaction_energy T r by rewrite energy_proof opprK.
rewrite !ei; apply: (mulfI n2); rewrite !mulrDr !mulrN /update_interaction_energy !mulrA !divff // !mul1r.
pose S4 (f : 'I_n -> 'I_n -> 'I_n -> 'I_n -> C) := \sum_a \sum_b \sum_c \sum_d f a b c d.
have S4D f g : S4 (fun a b c d => f a b c d + g a b c d) = S4 f + S4 g.
  by rewrite /S4 -big_split; apply: eq_bigr => a _; rewrite -big_split; apply: eq_bigr => b _; rewrite -big_split; apply: eq_bigr => c _; rewrite -big_split.
have -> : trace_product (update_mean_field T rho) delta = - S4 (fun a b c d => delta a b * T a b c d * rho c d).
  rewrite /trace_product /S4 -sumrN; apply: eq_bigr => a _; rewrite -sumrN; apply: eq_bigr => b _; rewrite mxE mulr_suml -sumrN; apply: eq_bigr => c _.
  by rewrite mulr_suml -sumrN; apply: eq_bigr => d _; fring C.
have sw : S4 (fun a b c d => rho a b * T a b c d * delta c d) = S4 (fun a b c d => delta a b * T a b c d * rho c d).
  rewrite /S4; transitivity (\sum_(c < n) \sum_(d < n) \sum_(a < n) \sum_(b < n) rho a b * T a b c d * delta c d).
    under eq_bigr => a _ do rewrite exchange_big; rewrite exchange_big; apply: eq_bigr => c _.
    under eq_bigr => a _ do rewrite exchange_big; rewrite exchange_big; apply: eq_bigr => d _; by [].
  by apply: eq_bigr => a _; apply: eq_bigr => b _; apply: eq_bigr => c _; apply: eq_bigr => d _; rewrite [T a b c d]T_pair; fring C.
rewrite -/(S4 (fun a b c d => (rho + delta) a b * T a b c d * (rho + delta) c d)) -/(S4 (fun a b c d => rho a b * T a b c d * rho c d)) -/(S4 (fun a b c d => delta a b * T a b c d * delta c d)).
have -> : S4 (fun a b c d => (rho + delta) a b * T a b c d * (rho + delta) c d) =
   S4 (fun a b c d => (rho a b * T a b c d * rho c d + rho a b * T a b c d * delta c d) + (delta a b * T a b c d * rho c d + delta a b * T a b c d * delta c d)).
  by apply: eq_bigr => a _; apply: eq_bigr => b _; apply: eq_bigr => c _; apply: eq_bigr => d _; rewrite !mxE; fring C.
rewrite !S4D sw (_ : 2%:R = 1 + 1) //; fring C.
Qed.
Lemma mean_field_hermitian_proof rho : same_operator (dagger H) H -> hermitian_mx rho -> hermitian_mx (update_mean_field T rho).
Proof.
move=> hH hr; have r i j : (rho i j)^* = rho j i by rewrite -[in RHS]hr !mxE.
have hT (a b c d : 'I_n) : (T a b c d)^* = T b a d c.
  rewrite [RHS]T_pair !T_read -[RHS](same_pr _ hH) pr_dagger; congr (_^*); apply: eq_bigr => t _; congr (_ * _).
  have rq i j k l : Q i j k l = rev [seq cbar x | x <- Q l k j i] by [].
  have ri : injective (fun m : mono => rev [seq cbar x | x <- m]).
    by move=> m1 m2 /(congr1 rev); rewrite !revK => /inj_map; apply; apply: can_inj cbarK.
  have nat_conj (q : bool) : (q%:R : C)^* = q%:R by rewrite conjC_nat.
  rewrite /Phi /del !(rmorphB, rmorphD) /= !nat_conj.
  have e i j k l : (rev [seq cbar x | x <- t.1] == Q i j k l) = (t.1 == Q l k j i) by rewrite (rq i j k l) (inj_eq ri).
  by rewrite !e; fring C.
apply/matrixP => a b; rewrite !mxE rmorph_sum exchange_big; apply: eq_bigr => c _; rewrite rmorph_sum; apply: eq_bigr => d _.
by rewrite rmorphM rmorphN /= hT r.
Qed.
End Energy.

Section Density.
Variables (C : numClosedFieldType) (n : nat) (K : finType).
Local Notation mx := 'M[C]_n.
Add Field Cfield2 : (fld_ft (Num.ClosedField.fieldType C)).
Variables (eigh : mx -> 'rV[C]_n * mx) (exp : C -> C) (beta : C).
Hypotheses (betaR : beta \is Num.real) (expP : forall x, x \is Num.real -> 0 < exp x).
Lemma fermi_pos e : e \is Num.real -> 0 < fermi exp beta e.
Proof. by move=> he; rewrite /fermi div1r invr_gt0 addr_gt0 ?ltr01 // expP // rpredM. Qed.
Lemma fermi_lt1 e : e \is Num.real -> fermi exp beta e < 1.
Proof.
move=> he; have p : 0 < exp (beta * e) by apply: expP; apply: rpredM.
by rewrite /fermi div1r invf_lt1 ?addr_gt0 ?ltr01 // ltr_addr.
Qed.
Variables (e_k_MF : K -> mx) (mu : C).
Hypotheses (hH : forall k, eigh_at eigh (e_k_MF k)) (muR : mu \is Num.real).
Local Notation rho_k := (update_momentum_density_matrix eigh exp beta e_k_MF mu).
Local Notation rho := (update_density_matrix eigh exp beta e_k_MF mu).
Definition occ (e : 'rV[C]_n) : 'rV[C]_n := \row_b fermi exp beta (e ord0 b - mu).
Lemma rho_kE k : rho_k k = (eigh (e_k_MF k)).2 *m diag_mx (occ (eigh (e_k_MF k)).1) *m adjoint (eigh (e_k_MF k)).2.
Proof.
rewrite /update_momentum_density_matrix; case: (eigh _) => e V /=; apply/matrixP => a c; rewrite mul_mx_diag !mxE; apply: eq_bigr => b _.
by rewrite !mxE.
Qed.
Lemma adjointM (A B : mx) : adjoint (A *m B) = adjoint B *m adjoint A.
Proof. by rewrite /adjoint trmx_mul map_mxM. Qed.
Lemma adjointK (A : mx) : adjoint (adjoint A) = A.
Proof. by apply/matrixP => i j; rewrite !mxE conjCK. Qed.
Lemma eP k : let (e, V) := eigh (e_k_MF k) in
  [/\ forall i, e ord0 i \is Num.real, unitary_mx V & e_k_MF k = V *m diag_mx e *m adjoint V].
Proof. exact: hH. Qed.
Lemma unit_other (V : mx) : unitary_mx V -> adjoint V *m V = 1%:M.
Proof. exact: mulmx1C. Qed.
Lemma rho_k_hermitian k : hermitian_mx (rho_k k).
Proof.
rewrite /hermitian_mx rho_kE; have := eP k; case: (eigh _) => e V /= [er _ _]; rewrite !adjointM adjointK mulmxA; congr (_ *m _ *m _).
apply/matrixP => i j; rewrite !mxE [j == i]eq_sym; case: eqP => [->|_]; last by rewrite conjC0.
by rewrite !mulr1n; apply/CrealP/gtr0_real/fermi_pos/rpredB.
Qed.
Lemma rho_hermitian : hermitian_mx rho.
Proof.
rewrite /hermitian_mx /update_density_matrix; apply/matrixP => i j; rewrite !mxE !summxE rmorphM rmorph_sum /n_k /= fmorphV conjC_nat; congr (_ * _).
by apply: eq_bigr => k _; rewrite -[in RHS](rho_k_hermitian k) !mxE.
Qed.
Lemma occupation_k k (x : 'cV[C]_n) : let y := adjoint (eigh (e_k_MF k)).2 *m x in
  occupation (rho_k k) x = \sum_b fermi exp beta ((eigh (e_k_MF k)).1 ord0 b - mu) * `|y b ord0| ^+ 2.
Proof.
rewrite /occupation /update_momentum_density_matrix; case: (eigh _) => e V /=.
have -> : \sum_b fermi exp beta (e ord0 b - mu) * `|(adjoint V *m x) b ord0| ^+ 2 =
   \sum_b \sum_a \sum_c fermi exp beta (e ord0 b - mu) * ((V a b * (x a ord0)^*) * ((V c b)^* * x c ord0)).
  apply: eq_bigr => b _; rewrite normCKC mxE rmorph_sum big_distrl mulr_sumr; apply: eq_bigr => a _; rewrite /= big_distrr mulr_sumr; apply: eq_bigr => c _.
  by rewrite !mxE /= rmorphM conjCK.
rewrite [RHS]exchange_big; apply: eq_bigr => a _; rewrite [RHS]exchange_big; apply: eq_bigr => c _.
by rewrite mxE mulr_sumr mulr_suml; apply: eq_bigr => b _; fring C.
Qed.
Lemma norm2_k k (x : 'cV[C]_n) : norm2 x = \sum_b `|(adjoint (eigh (e_k_MF k)).2 *m x) b ord0| ^+ 2.
Proof.
have := eP k; case: (eigh _) => e V /= [_ uV _].
have q (y : 'cV[C]_n) : norm2 y = ((map_mx (fun z => z^*) y^T) *m y) ord0 ord0 by rewrite mxE; apply: eq_bigr => a _; rewrite !mxE.
have -> : \sum_b `|(adjoint V *m x) b ord0| ^+ 2 = norm2 (adjoint V *m x) by apply: eq_bigr => b _; rewrite normCKC.
rewrite !q; congr (fun_of_matrix _ _ _).
rewrite trmx_mul map_mxM /=; have -> : map_mx (fun z => z^*) (adjoint V)^T = V by apply/matrixP => i j; rewrite !mxE conjCK.
by rewrite -mulmxA (mulmxA V) uV mul1mx.
Qed.
Lemma occupation_bounds (x : 'cV[C]_n) : (0 < #|K|)%N -> 0 <= occupation rho x <= norm2 x.
Proof.
move=> K0; have nk : (n_k C K : C) != 0 by rewrite /n_k pnatr_eq0 -lt0n.
have -> : occupation rho x = (n_k C K)^-1 * \sum_k occupation (rho_k k) x.
  rewrite /occupation [in RHS]exchange_big mulr_sumr; apply: eq_bigr => a _; rewrite [in RHS]exchange_big mulr_sumr; apply: eq_bigr => b _.
  rewrite /update_density_matrix mxE summxE !mulr_sumr mulr_suml; apply: eq_bigr => k _; fring C.
have b k : 0 <= occupation (rho_k k) x <= norm2 x.
  rewrite occupation_k (norm2_k k); have := eP k; case: (eigh _) => e V /= [er _ _].
  have f b := fermi_pos (rpredB (er b) muR); have g b := fermi_lt1 (rpredB (er b) muR).
  apply/andP; split; first by apply: sumr_ge0 => i _; apply: mulr_ge0; [exact: ltW | exact: exprn_ge0].
  by apply: ler_sum => i _; apply: ler_pimull; [exact: exprn_ge0 | exact: ltW].
have nk0 : 0 < n_k C K by rewrite lt0r nk ler0n.
apply/andP; split.
  by apply: mulr_ge0; [rewrite invr_ge0 ltW | apply: sumr_ge0 => k _; case/andP: (b k)].
rewrite mulrC ler_pdivr_mulr //; have -> : norm2 x * n_k C K = \sum_(k : K) norm2 x by rewrite sumr_const mulr_natr.
by apply: ler_sum => k _; case/andP: (b k).
Qed.
Lemma density_count : N_tot rho = (\sum_(x <- levels eigh e_k_MF) fermi exp beta (x - mu)) / n_k C K.
Proof.
have -> : \sum_(x <- levels eigh e_k_MF) fermi exp beta (x - mu) = \sum_k \sum_(i < n) fermi exp beta ((eigh (e_k_MF k)).1 ord0 i - mu).
  by rewrite /levels big_allpairs_dep big_enum; apply: eq_bigr => k _; rewrite big_enum.
rewrite mulrC mulr_sumr; transitivity (\sum_k (n_k C K)^-1 * \tr (rho_k k)).
  rewrite /N_tot /update_density_matrix; transitivity (\tr ((n_k C K)^-1 *: \sum_k rho_k k)); first by apply: eq_bigr => a _.
  by rewrite linearZ /= raddf_sum mulr_sumr.
apply: eq_bigr => k _; congr (_ * _); rewrite rho_kE; have := eP k; case: (eigh _) => e V /= [_ uV _].
rewrite mxtrace_mulC mulmxA unit_other // mul1mx /mxtrace; apply: eq_bigr => i _; rewrite !mxE eqxx mulr1n //.
Qed.
Lemma commutes k : rho_k k *m e_k_MF k = e_k_MF k *m rho_k k.
Proof.
rewrite rho_kE; have := eP k; case: (eigh _) => e V /= [_ /unit_other uV ->].
rewrite !mulmxA -(mulmxA _ (adjoint V) V) uV mulmx1 -(mulmxA _ (adjoint V) V) uV mulmx1; congr (_ *m _).
rewrite -!mulmxA; congr (_ *m _); apply/matrixP => i j; rewrite !mul_diag_mx !mxE; case: (i =P j) => [->|_]; rewrite ?mulr0n ?mulr0 ?mul0r // !mulr1n mulrC //.
Qed.
End Density.

Section Filling.
Variables (C : numClosedFieldType) (n : nat) (K : finType).
Local Notation mx := 'M[C]_n.
Variables (eigh : mx -> 'rV[C]_n * mx) (exp : C -> C) (brentq : (C -> C) -> C -> C -> option C) (beta : C).
Lemma foldl_in (f : C -> C -> C) : (forall x y, f x y = x \/ f x y = y) -> forall x l, foldl f x l \in x :: l.
Proof.
move=> h x l; elim: l x => [|y l ih] x /=; first by rewrite inE.
have := ih (f x y); rewrite !inE => /orP[/eqP ->|->]; last by rewrite !orbT.
by case: (h x y) => ->; rewrite eqxx ?orbT.
Qed.
Lemma minimum_in (l : seq C) : l != [::] -> minimum l \in l.
Proof. by case: l => // x l _; apply: foldl_in => a b; rewrite minElt; case: ifP; [left | right]. Qed.
Lemma maximum_in (l : seq C) : l != [::] -> maximum l \in l.
Proof. by case: l => // x l _; apply: foldl_in => a b; rewrite maxElt; case: ifP; [right | left]. Qed.
Hypotheses (betaR : beta \is Num.real) (expP : forall x, x \is Num.real -> 0 < exp x) (exp0 : exp 0 = 1).
Hypothesis raises : brentq_raises brentq.
Variable e_k_MF : K -> mx.
Local Notation lev := (levels eigh e_k_MF).
Hypotheses (K0 : (0 < #|K|)%N) (n0 : (0 < n)%N) (levR : forall x, x \in lev -> x \is Num.real).
Lemma fermi0 : fermi exp beta 0 = 2%:R^-1 :> C.
Proof. by rewrite /fermi mulr0 exp0 div1r. Qed.
Lemma nk_gt0 : 0 < n_k C K. Proof. by rewrite /n_k ltr0n. Qed.
Lemma size_lev : size lev = (#|K| * n)%N.
Proof. by rewrite size_allpairs -!cardE card_ord. Qed.
Lemma lev0 : lev != [::]. Proof. by rewrite -size_eq0 size_lev -lt0n muln_gt0 K0. Qed.
Lemma count_split (y : C) : y \in lev -> \sum_(x <- lev) fermi exp beta (x - y) = 2%:R^-1 + \sum_(x <- rem y lev) fermi exp beta (x - y).
Proof. by move=> hy; rewrite (perm_big _ (perm_to_rem hy)) big_cons subrr fermi0. Qed.
Lemma at_level (y N : C) : y \in lev -> N < (2%:R * n_k C K)^-1 -> 0 < target_function K exp beta lev N y :> C.
Proof.
move=> hy hN; rewrite /target_function subr_gt0; apply: lt_le_trans hN _; rewrite invfM count_split // mulrDl ler_addl; apply: mulr_ge0; last by rewrite invr_ge0 ltW // nk_gt0.
rewrite big_seq_cond; apply: sumr_ge0 => x; rewrite andbT => /mem_rem hx; apply/ltW/fermi_pos => //; apply: rpredB; exact: levR.
Qed.
Lemma at_level_hi (y N : C) : y \in lev -> n%:R - (2%:R * n_k C K)^-1 < N -> target_function K exp beta lev N y < 0 :> C.
Proof.
move=> hy hN; rewrite /target_function subr_lt0; apply: le_lt_trans hN; have nk := nk_gt0.
rewrite ler_pdivr_mulr // mulrBl invfM -mulrA mulVf ?lt0r_neq0 // mulr1.
have -> : n%:R * n_k C K = (size lev)%:R by rewrite /n_k -natrM size_lev mulnC.
have -> : (size lev)%:R - 2%:R^-1 = 2%:R^-1 + (size (rem y lev))%:R :> C.
  rewrite size_rem //; case: (lev) hy => // z l _ /=.
  have h : 2%:R^-1 + 2%:R^-1 = 1 :> C by exact: half2.
  by apply/eqP; rewrite subr_eq addrAC h -addn1 natrD addrC.
rewrite count_split // ler_add2l.
have : forall x, x \in rem y lev -> x \in lev by move=> x /mem_rem.
elim: (rem y lev) => [|x l ih] hs; first by rewrite big_nil.
rewrite big_cons /= -addn1 natrD addrC; apply: ler_add; first by apply: ih => z hz; apply: hs; rewrite inE hz orbT.
by apply/ltW/fermi_lt1 => //; apply: rpredB; [apply/levR/hs/mem_head | exact: levR].
Qed.
Lemma bracket_fails N : N < (2%:R * n_k C K)^-1 \/ n%:R - (2%:R * n_k C K)^-1 < N ->
  update_chemical_potential eigh exp brentq beta None None e_k_MF N = None.
Proof.
have mi := minimum_in lev0; have ma := maximum_in lev0.
by case=> hN; apply: raises; rewrite /=; [apply: mulr_gt0; apply: at_level | rewrite nmulr_rgt0; apply: at_level_hi].
Qed.
End Filling.
(* Final statements *)
Section Statements.
Variables (C : numClosedFieldType) (n : nat) (K : finType).
Local Notation mx := 'M[C]_n.
Variables (eigh : mx -> 'rV[C]_n * mx) (exp log : C -> C) (brentq : (C -> C) -> C -> C -> option C) (beta : C).
Variables (e_k : K -> mx) (mu_min mu_max : option C).

Add Field Cfield3 : (fld_ft (Num.ClosedField.fieldType C)).
(* C36: packing a Hermitian matrix into a real vector and back. *)
Theorem C36_matrix (m : mx) : hermitian_mx m -> vec2mat n (mat2vec m) = Some m.
Proof. exact: C36_matrix_proof. Qed.
Theorem C36_vector (v : seq C) : size v = (n * n)%N -> all (fun x => x \is Num.real) v ->
  exists m, [/\ vec2mat n v = Some m, hermitian_mx m & mat2vec m = v].
Proof. exact: C36_vector_proof. Qed.
Theorem C36_hartree_matrix (m : mx) : hermitian_mx m -> (forall i j, i != j -> m i j = 0) -> vec2mat_hartree n (mat2vec_hartree m) = Some m.
Proof. exact: C36_hartree_proof. Qed.
Theorem C36_hartree_vector (v : seq C) : size v = n -> all (fun x => x \is Num.real) v ->
  exists2 m : mx, vec2mat_hartree n v = Some m & mat2vec_hartree m = v.
Proof. exact: C36_hartree_vector_proof. Qed.

Section Iterating.
Variables (U : arr4 C) (pack : mx -> seq C) (unpack : seq C -> option mx) (L : nat).
Hypothesis packL : forall m, size (pack m) = L.
Local Notation step := (density_matrix_step eigh exp brentq beta e_k U mu_min mu_max pack unpack).
Local Notation solve := (solve_iter eigh exp brentq beta e_k U mu_min mu_max pack unpack).
Local Notation map_ := (density_map eigh exp brentq beta e_k U mu_min mu_max pack unpack).
Variables (N mixing tol : C) (s s' : solver C n) (M0 : mx) (mu0 : option C) (nitermax : nat) (h : seq (seq C)).
(* C34: the returned history starts at the set-up density, is never longer than nitermax, follows the mixed map without meeting the
   convergence criterion before its last entry, and the solver ends in the state reached from the last entry; an early end means convergence. *)
Theorem C34_history : 0 <= tol -> (0 < nitermax)%N -> solve s N M0 mu0 nitermax mixing tol = Some (s', h) ->
  exists s0 v0 new, [/\ solve_setup eigh exp brentq beta e_k mu_min mu_max pack s N M0 mu0 = Some (s0, v0),
    (size h <= nitermax)%N /\ (exists h', h = v0 :: h'), orbit (map_ N) mixing tol h,
    step s (last [::] h) (Some N) = Some (s', new) & (size h < nitermax)%N -> close tol (last [::] h) new].
Proof. exact: (C34_history_proof packL). Qed.
(* C34: for a non-zero mixing the points where the recursion stands still are the fixed points of the map *)
Theorem C34_stationary (v new : seq C) : size v = size new -> mixing != 0 -> (mixed mixing v new = v <-> new = v).
Proof. exact: stationary_proof. Qed.
(* ... from which the loop stops at once *)
Theorem C34_fixed_point_stops (v0 : seq C) (s0 s1 : solver C n) : 0 <= mixing <= 1 -> 0 < tol -> norm v0 != 0 ->
  solve_setup eigh exp brentq beta e_k mu_min mu_max pack s N M0 mu0 = Some (s0, v0) -> step s0 v0 (Some N) = Some (s1, v0) ->
  solve s N M0 mu0 nitermax.+1 mixing tol = Some (s1, [:: v0]).
Proof. by move=> m0 t0 nv e e1; rewrite /solve_iter m0 e; apply: fixed_stops_proof. Qed.
(* C34: with the accepted value mixing = 0 the density never moves. *)
Theorem C34_zero_mixing : 0 <= tol -> (0 < nitermax)%N -> solve s N M0 mu0 nitermax 0 tol = Some (s', h) ->
  forall t, (t < size h)%N -> nth [::] h t = head [::] h.
Proof.
move=> t0 n0 /(C34_history_proof packL t0 n0)[s0 [v0 [new [_ [_ [h' eh]] o _ _]]]] t; rewrite eh.
elim: t => [|t ih] ht //; have [|w [_ es _ ev]] := o t; first by rewrite eh.
have {}ih := ih (ltnW ht); rewrite eh in es ev; rewrite ih in es ev.
by apply: (@eq_from_nth _ 0) => [|i hi]; rewrite ?es // ev -?es // subr0 mul1r mul0r addr0.
Qed.
End Iterating.

Section Energies.
Variables (idx : seq nat) (H : operator C) (T : arr4 C).
Hypotheses (u : uniq idx) (sz : size idx = n) (sH : stored H) (qH : quartic idx H).
Hypothesis eT : interaction_tensor H (modes C idx) = Some T.
Variables (e_k_MF : K -> mx) (mu : C) (rho : mx).
Local Notation total := (update_total_energy eigh exp log beta T e_k e_k_MF mu rho).
(* C35: the grand potential is the one of the mean-field problem minus the interaction energy, *)
Theorem C35_grand_potential : total.2 = update_non_int_free_energy eigh exp log beta e_k_MF mu - mean_interaction idx H rho.
Proof. by rewrite /= (energy_proof u sz sH qH eT). Qed.
(* ... the total energy is the kinetic energy minus the mean interaction energy, *)
Theorem C35_total_energy_partial : total.1 = update_kinetic_energy eigh exp beta e_k e_k_MF mu - mean_interaction idx H rho.
Proof. by rewrite /= (energy_proof u sz sH qH eT). Qed.
(* ... hence it is never the expectation value of the Hamiltonian once there is an interaction energy. *)
Theorem C35_total_energy_refuted : mean_interaction idx H rho != 0 ->
  total.1 <> update_kinetic_energy eigh exp beta e_k e_k_MF mu + mean_interaction idx H rho.
Proof.
rewrite C35_total_energy_partial => m0 /addrI e; move: m0; rewrite -[mean_interaction _ _ _ == 0](mulrn_eq0 _ 2) mulr2n -{1}e addNr eqxx //.
Qed.
(* C66: the mean field is the derivative of the mean interaction energy in the density matrix, *)
Theorem C66_mean_field_derivative (delta : mx) :
  mean_interaction idx H (rho + delta) = mean_interaction idx H rho + trace_product (update_mean_field T rho) delta + mean_interaction idx H delta.
Proof. exact: mean_field_proof. Qed.
(* ... where the last term is of second order, *)
Theorem C66_second_order (x : C) (delta : mx) : mean_interaction idx H (x *: delta) = x ^+ 2 * mean_interaction idx H delta.
Proof.
rewrite /mean_interaction mulr_sumr; apply: eq_bigr => t _.
have pv i j : pair_value idx (x *: delta) i j = x * pair_value idx delta i j.
  by rewrite /pair_value; case: insub => [a|]; [case: insub => [b|]|]; rewrite ?mxE ?mulr0.
rewrite /wick; case: (t.1) => [|[d1 t1] [|[d2 t2] [|[d3 t3] [|[d4 t4] [|x' m']]]]]; rewrite ?mulr0 //; case: d1; rewrite ?mulr0 //; case: d2; rewrite ?mulr0 //; case: d3; rewrite ?mulr0 //; case: d4; rewrite ?mulr0 //.
by rewrite !pv expr2; fring C.
Qed.
(* ... and it is Hermitian. *)
Theorem C66_mean_field_hermitian : same_operator (dagger H) H -> hermitian_mx rho -> hermitian_mx (update_mean_field T rho).
Proof. exact: (mean_field_hermitian_proof u sz sH qH eT). Qed.
End Energies.

Section Occupations.
Hypotheses (betaR : beta \is Num.real) (expP : forall x, x \is Num.real -> 0 < exp x).
Variables (e_k_MF : K -> mx) (mu : C).
Hypotheses (hE : forall k, eigh_at eigh (e_k_MF k)) (muR : mu \is Num.real) (K0 : (0 < #|K|)%N).
(* C66: the density matrix is Hermitian, no state is occupied less than zero or more than once, and it commutes with the mean-field Hamiltonian. *)
Theorem C66_density_matrix : hermitian_mx (update_density_matrix eigh exp beta e_k_MF mu) /\
  forall x, 0 <= occupation (update_density_matrix eigh exp beta e_k_MF mu) x <= norm2 x.
Proof. by split=> [|x]; [apply: rho_hermitian | apply: occupation_bounds]. Qed.
Theorem C66_stationary_state (k : K) : update_momentum_density_matrix eigh exp beta e_k_MF mu k *m e_k_MF k =
  e_k_MF k *m update_momentum_density_matrix eigh exp beta e_k_MF mu k.
Proof. exact: commutes. Qed.
(* C67: a chemical potential that was found gives the requested filling, *)
Theorem C67_filling (N mu' : C) : brentq_root brentq -> update_chemical_potential eigh exp brentq beta mu_min mu_max e_k_MF N = Some mu' ->
  N_tot (update_density_matrix eigh exp beta e_k_MF mu') = N.
Proof. by move=> br /br /eqP; rewrite subr_eq0 => /eqP <-; rewrite density_count. Qed.
End Occupations.
(* C67: but the default search interval misses every filling below 1/(2 n_k) and every filling above n - 1/(2 n_k). *)
Theorem C67_default_interval_refuted (e_k_MF : K -> mx) (N : C) : beta \is Num.real -> (forall x, x \is Num.real -> 0 < exp x) -> exp 0 = 1 ->
  brentq_raises brentq -> (0 < #|K|)%N -> (0 < n)%N -> (forall k, eigh_at eigh (e_k_MF k)) ->
  N < (2%:R * n_k C K)^-1 \/ n%:R - (2%:R * n_k C K)^-1 < N ->
  update_chemical_potential eigh exp brentq beta None None e_k_MF N = None.
Proof.
move=> b0 e0 e1 br k0 n0 hE; apply: bracket_fails => // x /allpairsP[[k i] /= [_ _ ->]].
by have := hE k; rewrite /eigh_at; case: (eigh _) => e V [].
Qed.
(* C34: a density matrix reproduced by the map solves the Hartree-Fock equations at the requested filling. *)
Theorem C34_self_consistent (U : arr4 C) (s s' : solver C n) (v : seq C) (N : C) : beta \is Num.real -> (forall x, x \is Num.real -> 0 < exp x) ->
  brentq_root brentq -> (forall m, hermitian_mx m -> eigh_at eigh m) -> (forall f a b x, brentq f a b = Some x -> x \is Num.real) ->
  (forall rho : mx, hermitian_mx rho -> hermitian_mx (update_mean_field U rho)) -> (forall k, hermitian_mx (e_k k)) ->
  size v = (n * n)%N -> all (fun x => x \is Num.real) v ->
  density_matrix_step eigh exp brentq beta e_k U mu_min mu_max (@mat2vec C n) (vec2mat n) s v (Some N) = Some (s', v) ->
  s_rho s' = update_density_matrix eigh exp beta (fun k => e_k k + update_mean_field U (s_rho s')) (s_mu s') /\ N_tot (s_rho s') = N.
Proof.
move=> b0 e0 br hE bR hM hek sv rv; have [rho [er hr ev]] := C36_vector_proof sv rv.
rewrite /density_matrix_step er; case eb : (update_chemical_potential _ _ _ _ _ _ _ _) => [mu|] // [<- em] /=.
have hMF k : eigh_at eigh (update_mean_field_dispersion e_k (update_mean_field U rho) k).
  apply: hE; rewrite /hermitian_mx /update_mean_field_dispersion -[in RHS](hek k) -[in RHS](hM _ hr); apply/matrixP => i j; rewrite !mxE rmorphD //.
have hn := rho_hermitian b0 e0 hMF (bR _ _ _ _ eb).
have e2 : update_density_matrix eigh exp beta (update_mean_field_dispersion e_k (update_mean_field U rho)) mu = rho.
  by have := C36_matrix_proof hn; rewrite em er => -[].
by split; [rewrite e2 | apply: C67_filling br eb].
Qed.
End Statements.

Section Cases.
Variable C : numClosedFieldType.
Add Field Cfield4 : (fld_ft (Num.ClosedField.fieldType C)).
(* a function with the properties asked of exp *)
Definition case_exp (x : C) : C := if 0 <= x then 1 + x else (1 - x)^-1.
Lemma case_exp_pos x : x \is Num.real -> 0 < case_exp x.
Proof.
rewrite /case_exp realE; case: ifP => [h _|h]; first by rewrite (lt_le_trans (@ltr01 _)) // ler_addl.
by move=> /= x0; rewrite invr_gt0 (lt_le_trans (@ltr01 _)) // ler_addl oppr_ge0.
Qed.
Lemma case_exp0 : case_exp 0 = 1. Proof. by rewrite /case_exp lexx addr0. Qed.
(* a Hermitian matrix with a complex element *)
Definition case_m : 'M[C]_2 := \matrix_(i, j) (if i == j then (1 + i)%N%:R else if (i < j)%N then 'i else - 'i).
Example C36_case : hermitian_mx case_m /\ mat2vec case_m = [:: 1; 2%:R; 0; 1].
Proof.
split.
  apply/matrixP => i j; rewrite !mxE [j == i]eq_sym; case: (i =P j) => [->|/eqP h]; first by rewrite conjC_nat.
  by move: h; rewrite -(inj_eq val_inj); case: (ltngtP i j) => //; rewrite ?rmorphN ?conjCi ?opprK.
have e0 : (insub 0%N : option 'I_2) = Some ord0 by rewrite insubT //; congr Some; apply: val_inj.
have e1 : (insub 1%N : option 'I_2) = Some ord_max by rewrite insubT //; congr Some; apply: val_inj.
rewrite /mat2vec /triu /all_pairs /at_ /= e0 e1 !mxE /=.
have r1 : 'Re (1 : C) = 1 by apply/Creal_ReP; rewrite ger0_real ?ler01.
have r2 : 'Re (2%:R : C) = 2%:R by apply/Creal_ReP; rewrite ger0_real ?ler0n.
by rewrite r1 r2 Re_i Im_i.
Qed.
(* one orbital, one momentum *)
Definition case_eigh (m : 'M[C]_1) : 'rV[C]_1 * 'M[C]_1 := (\row_i m ord0 ord0, 1%:M).
Definition case_U : arr4 C := fun _ _ _ _ => -1.
Local Notation case_step := (density_matrix_step case_eigh case_exp (fun _ _ _ => Some 0) 1 (fun _ : unit => 1%:M) case_U None None (@mat2vec C 1) (vec2mat 1)).
Lemma case_rho (e : unit -> 'M[C]_1) : update_density_matrix case_eigh case_exp 1 e 0 = ((case_exp (e tt ord0 ord0) + 1)^-1)%:M.
Proof.
apply/matrixP => i j; rewrite !ord1 mxE summxE (big_pred1 tt); last by case.
rewrite /n_k card_unit invr1 mul1r mxE big_ord_recl big_ord0 /fermi !mxE /= subr0 !mul1r conjC1 mulr1 addr0 mulr1n //.
Qed.
Lemma case_pack (x : C) : x \is Num.real -> mat2vec (x%:M : 'M[C]_1) = [:: x].
Proof.
move=> hx; have e0 : (insub 0%N : option 'I_1) = Some ord0 by rewrite insubT //; congr Some; apply: val_inj.
by rewrite /mat2vec /triu /all_pairs /at_ /= e0 !mxE mulr1n; congr [:: _]; apply/Creal_ReP.
Qed.
Lemma case_unpack (x : C) : x \is Num.real -> vec2mat 1 [:: x] = Some x%:M.
Proof. by move=> hx; rewrite -case_pack // C36_matrix_proof //; apply/matrixP => i j; rewrite !ord1 !mxE eqxx mulr1n; apply/CrealP. Qed.
Lemma case_step1 s (x : C) : 0 <= x -> exists s', case_step s [:: x] (Some 0) = Some (s', [:: (3%:R + x)^-1]).
Proof.
move=> x0; rewrite /density_matrix_step case_unpack ?ger0_real //; eexists (Solver _ _ _); congr (Some (_, _)).
rewrite case_rho /update_mean_field_dispersion !mxE !big_ord_recl !big_ord0 !mxE /case_exp /case_U !eqxx !mulr1n !addr0 opprK mul1r.
rewrite (_ : 0 <= 1 + x) ?addr_ge0 ?ler01 // case_pack.
  by congr [:: _^-1]; rewrite (_ : 3%:R = 1 + (1 + 1)) //; fring C.
by rewrite ger0_real // invr_ge0 !addr_ge0 ?ler01.
Qed.
(* densities 1/3 and then halfway to 3/10 *)
Example C34_case : (forall m, size (@mat2vec C 1 m) = 1%N) /\ exists s', solve_iter case_eigh case_exp (fun _ _ _ => Some 0) 1 (fun _ : unit => 1%:M) case_U None None
    (@mat2vec C 1) (vec2mat 1) (Solver 0 0 0) 0 0 None 2 2%:R^-1 0 = Some (s', [:: [:: 3%:R^-1]; [:: 19%:R / 60%:R]]).
Proof.
split; first by move=> m; rewrite sz_mat2vec.
have h0 : 0 <= 2%:R^-1 :> C by rewrite invr_ge0 ler0n.
have h1 : 2%:R^-1 <= 1 :> C by rewrite invf_le1 ?ler1n ?ltr0n.
have n2 : (2%:R : C) <> 0 by apply/eqP; rewrite pnatr_eq0.
have n3 : (3%:R : C) <> 0 by apply/eqP; rewrite pnatr_eq0.
have n60 : (60%:R : C) <> 0 by apply/eqP; rewrite pnatr_eq0.
have n10 : (10%:R : C) <> 0 by apply/eqP; rewrite pnatr_eq0.
have p3 : 0 <= 3%:R^-1 :> C by rewrite invr_ge0 ler0n.
have e3 : (case_exp (((1%:M : 'M[C]_1) + 0) ord0 ord0) + 1)^-1 = 3%:R^-1.
  by rewrite !mxE eqxx mulr1n addr0 /case_exp ler01 -addrA.
have [s0 es] : exists s0, solve_setup case_eigh case_exp (fun _ _ _ => Some 0) 1 (fun _ : unit => 1%:M) None None (@mat2vec C 1) (Solver 0 0 0) 0 0 None = Some (s0, [:: 3%:R^-1]).
  by eexists (Solver _ _ _); rewrite /solve_setup /= case_rho /update_mean_field_dispersion e3 case_pack ?ger0_real.
have [s1 e1] := case_step1 s0 p3; rewrite /solve_iter h0 h1 es iterateS e1.
have nb v w : below (0 : C) v w = false.
  by apply/negbTE; rewrite /below negb_and; apply/orP; right; rewrite -real_leNgt ?divr_ge0 ?sqrtC_ge0 //; try (by apply: sumr_ge0 => i _; rewrite exprn_ge0); rewrite ?ger0_real ?divr_ge0 ?sqrtC_ge0 //; apply: sumr_ge0 => i _; rewrite exprn_ge0.
rewrite nb {1}/mixed [map _ _]/=.
have -> : (1 - 2%:R^-1) * 3%:R^-1 + 2%:R^-1 * (3%:R + 3%:R^-1)^-1 = 19%:R / 60%:R :> C.
  have -> : (3%:R + 3%:R^-1)^-1 = 3%:R / 10%:R :> C.
    rewrite -[RHS]invrK invf_div; congr (_^-1); apply: (mulIf (introN eqP n3)); rewrite mulfVK ?mulrDl ?mulVf //; try exact/eqP.
    by rewrite !mul1r -!natrD -mulrSr.
  have -> : 60%:R = 2%:R * 3%:R * 10%:R :> C by rewrite -!natrM.
  have -> : 19%:R = 10%:R + 3%:R * 3%:R :> C by rewrite -natrM -natrD.
  have h : 1 - 2%:R^-1 = 2%:R^-1 :> C by apply/eqP; rewrite subr_eq half2.
  by rewrite h; move: n2 n3 n10; move: (2%:R : C) (3%:R : C) (10%:R : C) => a b c *; ffield C.
have p19 : 0 <= 19%:R / 60%:R :> C by rewrite divr_ge0 ?ler0n.
by have [s2 e2] := case_step1 s1 p19; exists s2; rewrite iterateS e2 nb.
Qed.
(* the Hubbard interaction with unequal occupations *)
Definition hubbard (U : C) : operator C := [:: ([:: (true, 0%N); (true, 1%N); (false, 1%N); (false, 0%N)], U)].
Definition case_diag (a b : C) : 'M[C]_2 := \matrix_(i, j) (if i == j then if i == ord0 then a else b else 0).
Example C35_case (U a b : C) : U != 0 -> [/\ uniq [:: 0; 1]%N, stored (hubbard U), quartic [:: 0; 1]%N (hubbard U),
  exists T, interaction_tensor (hubbard U) (modes C [:: 0; 1]%N) = Some T & mean_interaction [:: 0; 1]%N (hubbard U) (case_diag a b) = U * (a * b)].
Proof.
move=> U0; have sH : stored (hubbard U) by rewrite /stored /= U0.
have qH : quartic [:: 0; 1]%N (hubbard U) by move=> t; rewrite inE => /eqP ->.
split => //; first by apply: rpa_total => //; apply: quartic_is_ok sH qH.
have e0 : (insub 0%N : option 'I_2) = Some ord0 by rewrite insubT //; congr Some; apply: val_inj.
have e1 : (insub 1%N : option 'I_2) = Some ord_max by rewrite insubT //; congr Some; apply: val_inj.
by rewrite /mean_interaction /hubbard big_seq1 /= /pair_value /= e0 e1 !mxE /= mul0r subr0.
Qed.
Example C66_case (U : C) : U^* = U -> same_operator (dagger (hubbard U)) (hubbard U).
Proof. by move=> e m; rewrite /dagger /hubbard /= e. Qed.
(* two orbitals with a hopping: bonding and antibonding level *)
Definition case_hop : 'M[C]_2 := \matrix_(i, j) (i != j)%:R.
Definition case_V : 'M[C]_2 := \matrix_(i, j) (if (i == ord_max) && (j == ord_max) then - (sqrtC 2%:R)^-1 else (sqrtC 2%:R)^-1).
Definition case_eigh2 (m : 'M[C]_2) : 'rV[C]_2 * 'M[C]_2 := (\row_j (if j == ord0 then 1 else -1), case_V).
Example C67_case : eigh_at case_eigh2 case_hop /\ (forall N : C, 0 < N < 4%:R^-1 -> N < (2%:R * n_k C [finType of unit])^-1).
Proof.
have r2 : ((sqrtC 2%:R)^-1 : C)^* = (sqrtC 2%:R)^-1 by apply/CrealP; rewrite ger0_real // invr_ge0 sqrtC_ge0 ler0n.
have s2 : (sqrtC 2%:R)^-1 * (sqrtC 2%:R)^-1 + (sqrtC 2%:R)^-1 * (sqrtC 2%:R)^-1 = 1 :> C.
  by rewrite -invfM -expr2 sqrtCK half2.
split; last first.
  move=> N /andP[_ h]; apply: lt_le_trans h _; by rewrite /n_k card_unit -natrM lef_pinv ?posrE ?ltr0n // ler_nat.
have ord2 (P : 'I_2 -> Prop) : P ord0 -> P ord_max -> forall i, P i.
  by move=> p0 p1 [[|[|i]] hi] //; [rewrite (_ : Ordinal hi = ord0) | rewrite (_ : Ordinal hi = ord_max)] => //; apply: val_inj.
have b2 (f : 'I_2 -> C) : \sum_i f i = f ord0 + f ord_max.
  by rewrite big_ord_recl big_ord_recl big_ord0 addr0; congr (_ + f _); apply: val_inj.
split; first by refine (ord2 _ _ _); rewrite mxE /= ?rpred1 ?rpredN1.
  apply/matrixP; refine (ord2 _ _ _); refine (ord2 _ _ _); rewrite !mxE b2 !mxE /= ?rmorphN /= ?r2 ?mulrN ?mulNr ?opprK ?s2 ?subrr //.
apply/matrixP; refine (ord2 _ _ _); refine (ord2 _ _ _); rewrite !mxE b2 !mxE !b2 !mxE /= ?rmorphN /= ?r2 ?mulr1n ?mulr0n ?mulr0 ?addr0 ?add0r ?mulrN ?mulNr ?mulr1 ?opprK ?s2 ?subrr ?addNr //.
Qed.
End Cases.
Print Assumptions C34_history.
Print Assumptions C34_self_consistent.
Print Assumptions C35_total_energy_refuted.
Print Assumptions C36_vector.
Print Assumptions C66_mean_field_derivative.
Print Assumptions C66_density_matrix.
Print Assumptions C67_default_interval_refuted.
