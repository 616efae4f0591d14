(* C63: the tensor of kanamori_quartic_tensor and the Hamiltonians it can stand for. *)
From mathcomp Require Import all_ssreflect all_algebra.
From mathcomp Require Import zify.
From Verif Require Import Base OperatorModel OperatorSpec OperatorProofs OperatorThms RpaTensorModel KanamoriModel KanamoriSpec Fring.
Set Implicit Arguments.
Unset Strict Implicit.
Unset Printing Implicit Defensive.
Import GRing.Theory Num.Theory.
Local Open Scope ring_scope.

Section Words.
Variable C : numClosedFieldType.
Local Notation operator := (operator C).
Local Notation modes := (modes C).
Add Field Cfield : (fld_ft (Num.ClosedField.fieldType C)).
Implicit Types (A B : operator) (F : mono -> C).
Lemma pr_ccrcra p q r s F : pr (ccrcra C p q r s) F = W [:: (true, p); (true, q); (false, r); (false, s)] F [::].
Proof.
have := @mul4 C 1 p q r s F; rewrite mul1r => <-; rewrite /ccrcra /op_scale oner_eq0 /=; congr (pr (op_mul (op_mul (op_mul _ _) _) _) F).
by rewrite /c_dag mul1r.
Qed.
Lemma ok_number x : okA (number C x). Proof. exact/stored_ok/stored_mul. Qed.
Lemma sem_number x F m : sorted clt m -> sem (number C x) F m = W [:: (true, x); (false, x)] F m.
Proof. by move=> hm; rewrite sem_mul // sem_c; apply: L_ext => // p hp; rewrite sem_cdag. Qed.
Lemma pr_numbers x y F : x != y -> pr (op_mul (number C x) (number C y)) F = W [:: (true, x); (true, y); (false, y); (false, x)] F [::].
Proof.
move=> xy; rewrite -sem_one; last by apply/stored_ok/stored_mul/ok_number.
rewrite sem_mul ?ok_number // sem_number //.
have -> : W [:: (true, y); (false, y)] (sem (number C x) F) [::] = W [:: (true, x); (false, x); (true, y); (false, y)] F [::].
  by rewrite -[in RHS]cat1s -[[:: (true, x)] ++ _]/([:: (true, x); (false, x)] ++ [:: (true, y); (false, y)]) W_cat; apply: W_ext => // m hm; exact: sem_number.
have flip (u v : cop) F0 m : sorted clt m -> u != cbar v -> W [:: u; v] F0 m = - W [:: v; u] F0 m.
  by move=> hm uv; have := car u v F0 hm; rewrite (negbTE uv) mul0r => /eqP; rewrite addr_eq0 => /eqP.
rewrite (W_cat [:: (true, x)] [:: (false, x); (true, y); (false, y)]) (W_cat [:: (false, x); (true, y)] [:: (false, y)]).
rewrite (W_cat [:: (true, x)] [:: (true, y); (false, y); (false, x)]) (W_cat [:: (true, y)] [:: (false, y); (false, x)]).
set G := W [:: (true, x)] F.
transitivity (W [:: (false, y)] (fun m => (-1) * W [:: (true, y); (false, x)] G m + 0 * G m) [::]).
  by apply: W_ext => // m hm; rewrite flip ?mulN1r ?mul0r ?addr0 // /cbar xpair_eqE /= negb_and xy orbT.
rewrite W_add // mul0r addr0 mulN1r -W_cat /= (W_cat [:: (true, y)] [:: (false, x); (false, y)]) flip ?opprK //.
Qed.
Lemma pr_op_sum l F : pr (op_sum l) F = \sum_(x <- l) pr x F.
Proof. by rewrite /op_sum (pr_foldl (v := fun x => pr x F)) ?pr_nil ?add0r // => A B _; exact: pr_op_add. Qed.
Lemma stored_op_sum (l : seq operator) : all (@okA C) l -> stored (op_sum l).
Proof. by move=> /allP h; apply: stored_foldl => // A B hB hA; apply: stored_op_add => //; apply: h. Qed.

Section Read.
Variables (idx : seq nat) (a b c d : nat).
Hypotheses (u : uniq idx) (ha : (a < size idx)%N) (hb : (b < size idx)%N) (hc : (c < size idx)%N) (hd : (d < size idx)%N).
Local Notation I := (nth 0%N idx).
Local Notation Q := (quart idx).
Definition del (m : mono) : mono -> C := fun p => (p == m)%:R.
Definition Phi : mono -> C := fun p => del (Q a b c d) p - del (Q b a c d) p + del (Q b a d c) p - del (Q a b d c) p.
Definition DD (i j x y : nat) : C := ((i == x) && (j == y))%:R - ((i == y) && (j == x))%:R.
Lemma half_pair i j x y : (i < size idx)%N -> (j < size idx)%N -> (x < size idx)%N -> (y < size idx)%N ->
  s2 C (I i) (I j) * (((minn (I i) (I j) == I x) && (maxn (I i) (I j) == I y))%:R - ((minn (I i) (I j) == I y) && (maxn (I i) (I j) == I x))%:R) = DD i j x y.
Proof.
move=> hi hj hx hy; rewrite mulrBr /DD; case: (ltngtP (I x) (I y)) => h.
- rewrite nrm_pair // !nth_uniq // [X in _ - X](_ : _ = 0) ?subr0 //.
  have -> : (minn (I i) (I j) == I y) && (maxn (I i) (I j) == I x) = false by lia.
  by rewrite mulr0.
- rewrite [X in _ - X]nrm_pair // !nth_uniq // [X in X - _](_ : _ = 0) ?sub0r ?opprB //.
  have -> : (minn (I i) (I j) == I x) && (maxn (I i) (I j) == I y) = false by lia.
  by rewrite mulr0.
by move/eqP: h; rewrite nth_uniq // => /eqP ->; rewrite !subrr.
Qed.
Lemma W_Phi i j k l : (i < size idx)%N -> (j < size idx)%N -> (k < size idx)%N -> (l < size idx)%N ->
  W (Q i j k l) Phi [::] = DD i j a b * DD k l c d.
Proof.
move=> hi hj hk hl; rewrite W4 /Phi /del /nrm /quart !eqseq_cons !xpair_eqE /= !andbT.
have -> : DD k l c d = DD l k d c by rewrite /DD ![(k == _) && _]andbC.
rewrite -!half_pair // [minn (I l) _]minnC [maxn (I l) _]maxnC.
have bm (p q : bool) : (p && q)%:R = p%:R * q%:R :> C by rewrite -natrM mulnb.
by rewrite !bm; fring C.
Qed.
Lemma rpa_read (H : operator) T : stored H -> all (@quartic_ok C) H -> get_rpa_tensor H (modes idx) = Some T -> T c a d b = pr H Phi.
Proof.
move=> sH qH; rewrite /get_rpa_tensor; have [h eh hh] := quartic_read_proof false u sH qH; rewrite eh => -[<-].
rewrite /transpose_2031 /quartic_permutation_symmetrize !hh // /K !prE /Phi /del.
have -> : pr H (fun p => (p == Q a b c d)%:R - (p == Q b a c d)%:R + (p == Q b a d c)%:R - (p == Q a b d c)%:R) =
   pr H (fun p => (p == Q a b c d)%:R) - pr H (fun p => (p == Q b a c d)%:R) + pr H (fun p => (p == Q b a d c)%:R) - pr H (fun p => (p == Q a b d c)%:R).
  by rewrite /pr -!sumrB -!big_split -sumrB; apply: eq_bigr => t _ /=; rewrite !(mulrBr, mulrDr).
have n2 : (2%:R : C) != 0 by rewrite pnatr_eq0.
rewrite (_ : 4%:R = 2%:R * 2%:R); last by rewrite -natrM.
move: n2; move: (2%:R : C) => z /eqP hz; ffield C; exact: hz.
Qed.
End Read.
(* operators whose terms are all of the shape of nrm *)
Definition nrm_only (A : operator) := forall F, (forall a b c d, F (nrm a b c d) = 0) -> pr A F = 0.
Lemma nrm_only_ok A : stored A -> nrm_only A -> all (@quartic_ok C) A.
Proof.
move=> sA h; apply/allP => t ht; rewrite /quartic_ok (allP (stored_ok sA)) //=.
have : coef A t.1 != 0 by rewrite -coef_keys // map_f.
apply: contraNT => hn; rewrite prE h // => a b c d; case: (nrm a b c d =P t.1) => // e.
by move: hn; rewrite -e.
Qed.
Lemma rpa_total (H : operator) idx : uniq idx -> stored H -> all (@quartic_ok C) H -> exists T, get_rpa_tensor H (modes idx) = Some T.
Proof. by move=> u sH qH; rewrite /get_rpa_tensor; have [h -> _] := quartic_read_proof false u sH qH; eexists. Qed.
End Words.

Section Sums.
Variables (C : numClosedFieldType) (norb : nat).
Add Field Cfield2 : (fld_ft (Num.ClosedField.fieldType C)).
Local Notation pos s o := (pidx s o : nat).
Implicit Types (s t : 'I_2) (o i j : 'I_norb).
Definition at1 s i s' o : C := ((s == s') && (i == o))%:R.
Lemma pos_eq s o s' o' : (pos s o == pos s' o') = (s == s') && (o == o').
Proof. by rewrite -(pidx_eq s o s' o'). Qed.
Lemma sum_delta (f : 'I_norb -> C) o : \sum_i (i == o)%:R * f i = f o.
Proof. by rewrite (bigD1 o) //= eqxx mul1r big1 ?addr0 // => i /negbTE ->; rewrite mul0r. Qed.
Lemma at1E s i s' o : at1 s i s' o = (s == s')%:R * (i == o)%:R. Proof. by rewrite /at1 -natrM mulnb. Qed.
Lemma ijji t1 t2 t3 t4 s1 s2 s3 s4 o1 o2 o3 o4 (w : 'I_norb -> 'I_norb -> C) :
  \sum_i \sum_j w i j * (at1 t1 i s1 o1 * at1 t2 j s2 o2 * at1 t3 j s3 o3 * at1 t4 i s4 o4) =
  (t1 == s1)%:R * (t2 == s2)%:R * (t3 == s3)%:R * (t4 == s4)%:R * (w o1 o2 * (o2 == o3)%:R * (o1 == o4)%:R).
Proof.
transitivity (\sum_i (i == o1)%:R * (\sum_j (j == o2)%:R * ((t1 == s1)%:R * (t2 == s2)%:R * (t3 == s3)%:R * (t4 == s4)%:R * (w i j * (j == o3)%:R * (i == o4)%:R)))).
  by apply: eq_bigr => i _; rewrite mulr_sumr; apply: eq_bigr => j _; rewrite !at1E; fring C.
by rewrite sum_delta sum_delta.
Qed.
Lemma jjii t1 t2 t3 t4 s1 s2 s3 s4 o1 o2 o3 o4 (w : 'I_norb -> 'I_norb -> C) :
  \sum_i \sum_j w i j * (at1 t1 j s1 o1 * at1 t2 j s2 o2 * at1 t3 i s3 o3 * at1 t4 i s4 o4) =
  (t1 == s1)%:R * (t2 == s2)%:R * (t3 == s3)%:R * (t4 == s4)%:R * (w o3 o1 * (o1 == o2)%:R * (o3 == o4)%:R).
Proof.
transitivity (\sum_i (i == o3)%:R * (\sum_j (j == o1)%:R * ((t1 == s1)%:R * (t2 == s2)%:R * (t3 == s3)%:R * (t4 == s4)%:R * (w i j * (j == o2)%:R * (i == o4)%:R)))).
  by apply: eq_bigr => i _; rewrite mulr_sumr; apply: eq_bigr => j _; rewrite !at1E; fring C.
by rewrite sum_delta sum_delta.
Qed.
Lemma DDE s i t j s1 o1 s2 o2 : DD C (pos s i) (pos t j) (pos s1 o1) (pos s2 o2) = at1 s i s1 o1 * at1 t j s2 o2 - at1 s i s2 o2 * at1 t j s1 o1.
Proof. by rewrite /DD !pos_eq /at1 -!natrM !mulnb. Qed.
Definition ind4 t1 t2 t3 t4 s1 s2 s3 s4 : C := (t1 == s1)%:R * (t2 == s2)%:R * (t3 == s3)%:R * (t4 == s4)%:R.
Definition W1 t1 t2 t3 t4 (w : 'I_norb -> 'I_norb -> C) s1 s2 s3 s4 o1 o2 o3 o4 := ind4 t1 t2 t3 t4 s1 s2 s3 s4 * (w o1 o2 * (o2 == o3)%:R * (o1 == o4)%:R).
Definition W2 t1 t2 t3 t4 (w : 'I_norb -> 'I_norb -> C) s1 s2 s3 s4 o1 o2 o3 o4 := ind4 t1 t2 t3 t4 s1 s2 s3 s4 * (w o3 o1 * (o1 == o2)%:R * (o3 == o4)%:R).
Definition four (f : 'I_2 -> 'I_2 -> 'I_2 -> 'I_2 -> 'I_norb -> 'I_norb -> 'I_norb -> 'I_norb -> C) s1 s2 s3 s4 o1 o2 o3 o4 : C :=
  f s1 s2 s3 s4 o1 o2 o3 o4 - f s2 s1 s3 s4 o2 o1 o3 o4 + f s2 s1 s4 s3 o2 o1 o4 o3 - f s1 s2 s4 s3 o1 o2 o4 o3.
Lemma sum_ijji t1 t2 t3 t4 w s1 s2 s3 s4 o1 o2 o3 o4 :
  \sum_i \sum_j w i j * (DD C (pos t1 i) (pos t2 j) (pos s1 o1) (pos s2 o2) * DD C (pos t3 j) (pos t4 i) (pos s3 o3) (pos s4 o4)) =
  four (W1 t1 t2 t3 t4 w) s1 s2 s3 s4 o1 o2 o3 o4.
Proof.
rewrite /four /W1 /ind4 -!ijji -!sumrB -big_split -sumrB; apply: eq_bigr => i _ /=; rewrite -!sumrB -big_split -sumrB; apply: eq_bigr => j _ /=.
by rewrite !DDE; fring C.
Qed.
Lemma sum_jjii t1 t2 t3 t4 w s1 s2 s3 s4 o1 o2 o3 o4 :
  \sum_i \sum_j w i j * (DD C (pos t1 j) (pos t2 j) (pos s1 o1) (pos s2 o2) * DD C (pos t3 i) (pos t4 i) (pos s3 o3) (pos s4 o4)) =
  four (W2 t1 t2 t3 t4 w) s1 s2 s3 s4 o1 o2 o3 o4.
Proof.
rewrite /four /W2 /ind4 -!jjii -!sumrB -big_split -sumrB; apply: eq_bigr => i _ /=; rewrite -!sumrB -big_split -sumrB; apply: eq_bigr => j _ /=.
by rewrite !DDE; fring C.
Qed.

Variable idx : seq nat.
Hypotheses (u : uniq idx) (n2 : size idx = (2 * norb)%N).
Definition mode s o : nat := nth 0%N idx (pos s o).
Lemma pos_lt s o : (pos s o < size idx)%N. Proof. by rewrite n2; apply: ltn_ord. Qed.
Lemma mode_eq s o s' o' : (mode s o == mode s' o') = (s == s') && (o == o').
Proof. by rewrite /mode nth_uniq ?pos_lt // pos_eq. Qed.
Local Notation H := (kanamori mode).
Lemma sum_pairs (P : rel 'I_norb) (f : 'I_norb -> 'I_norb -> C) :
  \sum_(p <- pairs_of norb | P p.1 p.2) f p.1 p.2 = \sum_i \sum_j (P i j)%:R * f i j.
Proof.
rewrite big_mkcond /pairs_of big_allpairs_dep big_enum; apply: eq_bigr => i _; rewrite big_enum; apply: eq_bigr => j _ /=.
by case: (P i j); rewrite ?mul1r ?mul0r.
Qed.
Lemma big_flatten_map (T : Type) (f : T -> seq (operator C)) (r : seq T) F : \sum_(x <- flatten [seq f p | p <- r]) pr x F = \sum_(p <- r) \sum_(x <- f p) pr x F.
Proof. by elim: r => [|p r ih] /=; rewrite ?big_nil // big_cat big_cons ih. Qed.
Local Notation Wd p q r s F := (W [:: (true, p); (true, q); (false, r); (false, s)] F [::]).
Lemma pr_kanamori (U Up J K P : C) F : pr (H U Up J K P) F =
  \sum_(i < norb) \sum_(j < norb) ((i == j)%:R * U) * Wd (mode s_up i) (mode s_dn j) (mode s_dn j) (mode s_up i) F +
  (\sum_(i < norb) \sum_(j < norb) ((j < i)%N%:R * (Up - J)) * Wd (mode s_up i) (mode s_up j) (mode s_up j) (mode s_up i) F +
   \sum_(i < norb) \sum_(j < norb) ((j < i)%N%:R * Up) * Wd (mode s_up i) (mode s_dn j) (mode s_dn j) (mode s_up i) F +
   \sum_(i < norb) \sum_(j < norb) ((j < i)%N%:R * Up) * Wd (mode s_dn i) (mode s_up j) (mode s_up j) (mode s_dn i) F +
   \sum_(i < norb) \sum_(j < norb) ((j < i)%N%:R * (Up - J)) * Wd (mode s_dn i) (mode s_dn j) (mode s_dn j) (mode s_dn i) F) +
  (\sum_(i < norb) \sum_(j < norb) ((i != j)%:R * - K) * Wd (mode s_dn i) (mode s_up j) (mode s_dn j) (mode s_up i) F +
   \sum_(i < norb) \sum_(j < norb) ((i != j)%:R * - P) * Wd (mode s_up j) (mode s_dn j) (mode s_up i) (mode s_dn i) F).
Proof.
rewrite pr_op_sum /density_part /flip_part !big_cat /= !big_flatten_map; congr (_ + _ + _).
- rewrite big_map big_enum; apply: eq_bigr => i _; rewrite pr_scale pr_numbers ?mode_eq //.
  by rewrite (eq_bigr (fun j => (j == i)%:R * (U * Wd (mode s_up i) (mode s_dn j) (mode s_dn j) (mode s_up i) F))) ?sum_delta // => j _; rewrite mulrA eq_sym.
- rewrite big_filter (sum_pairs (fun i j => (j < i)%N) (fun i j => \sum_(x <- [seq op_scale (Up - J * (t.1 == t.2)%:R) (op_mul (number C (mode t.1 i)) (number C (mode t.2 j)))
               | t <- [:: (s_up, s_up); (s_up, s_dn); (s_dn, s_up); (s_dn, s_dn)]]) pr x F)).
  rewrite -!big_split; apply: eq_bigr => i _; rewrite -!big_split; apply: eq_bigr => j _ /=; rewrite !big_cons big_nil !pr_scale.
  case: (ltnP j i) => ji; last by rewrite !mul0r !addr0.
  have ij : (i == j) = false by apply/eqP => e; rewrite e ltnn in ji.
  by rewrite !pr_numbers ?mode_eq ?ij ?andbF //= !mulr1 !mulr0 !subr0; fring C.
rewrite big_filter (sum_pairs (fun i j => i != j) (fun i j => \sum_(x <- [:: op_scale (- K) (ccrcra C (mode s_dn i) (mode s_up j) (mode s_dn j) (mode s_up i));
   op_scale (- P) (ccrcra C (mode s_up j) (mode s_dn j) (mode s_up i) (mode s_dn i))]) pr x F)).
rewrite -!big_split; apply: eq_bigr => i _; rewrite -!big_split; apply: eq_bigr => j _ /=; rewrite !big_cons big_nil !pr_scale !pr_ccrcra; fring C.
Qed.
Lemma stored_kanamori (U Up J K P : C) : stored (H U Up J K P).
Proof.
apply: stored_op_sum; rewrite all_cat /density_part /flip_part all_cat -andbA; apply/and3P; split.
- by apply/allP => _ /mapP[i _ ->]; apply/ok_scale/stored_ok/stored_mul/ok_number.
- apply/allP => x /flattenP[l /mapP[p _ ->] /mapP[t _ ->]]; exact/ok_scale/stored_ok/stored_mul/ok_number.
apply/allP => x /flattenP[l /mapP[p _ ->]]; rewrite !inE => /orP[] /eqP ->; exact/ok_scale/stored_ok/stored_mul.
Qed.
Lemma ok_kanamori (U Up J K P : C) : all (@quartic_ok C) (H U Up J K P).
Proof.
apply: nrm_only_ok; first exact: stored_kanamori.
move=> F hF; rewrite pr_kanamori; have z (p q r s : nat) : Wd p q r s F = 0 by rewrite W4 hF mulr0.
have zs (g : 'I_norb -> 'I_norb -> C) (h : 'I_norb -> 'I_norb -> C) : (forall i j, h i j = 0) -> \sum_i \sum_j g i j * h i j = 0.
  by move=> hh; apply: big1 => i _; apply: big1 => j _; rewrite hh mulr0.
by rewrite !zs ?addr0.
Qed.
Definition gamma (U Up J K P : C) s1 s2 s3 s4 o1 o2 o3 o4 : C :=
  four (W1 s_up s_dn s_dn s_up (fun i j => (i == j)%:R * U)) s1 s2 s3 s4 o1 o2 o3 o4 +
  (four (W1 s_up s_up s_up s_up (fun i j : 'I_norb => (j < i)%N%:R * (Up - J))) s1 s2 s3 s4 o1 o2 o3 o4 +
   four (W1 s_up s_dn s_dn s_up (fun i j : 'I_norb => (j < i)%N%:R * Up)) s1 s2 s3 s4 o1 o2 o3 o4 +
   four (W1 s_dn s_up s_up s_dn (fun i j : 'I_norb => (j < i)%N%:R * Up)) s1 s2 s3 s4 o1 o2 o3 o4 +
   four (W1 s_dn s_dn s_dn s_dn (fun i j : 'I_norb => (j < i)%N%:R * (Up - J))) s1 s2 s3 s4 o1 o2 o3 o4) +
  (four (W1 s_dn s_up s_dn s_up (fun i j => (i != j)%:R * - K)) s1 s2 s3 s4 o1 o2 o3 o4 +
   four (W2 s_up s_dn s_up s_dn (fun i j => (i != j)%:R * - P)) s1 s2 s3 s4 o1 o2 o3 o4).
Lemma kanamori_gamma (U Up J K P : C) T s1 s2 s3 s4 o1 o2 o3 o4 : get_rpa_tensor (H U Up J K P) (modes C idx) = Some T ->
  T (pos s3 o3) (pos s1 o1) (pos s4 o4) (pos s2 o2) = gamma U Up J K P s1 s2 s3 s4 o1 o2 o3 o4.
Proof.
move=> e; rewrite (rpa_read u _ _ _ _ _ _ e) ?pos_lt ?stored_kanamori ?ok_kanamori // pr_kanamori.
have q (p q r s : nat) : (p < size idx)%N -> (q < size idx)%N -> (r < size idx)%N -> (s < size idx)%N ->
  Wd (nth 0%N idx p) (nth 0%N idx q) (nth 0%N idx r) (nth 0%N idx s) (Phi C idx (pos s1 o1) (pos s2 o2) (pos s3 o3) (pos s4 o4)) =
  DD C p q (pos s1 o1) (pos s2 o2) * DD C r s (pos s3 o3) (pos s4 o4) by move=> hp hq hr hs; apply: W_Phi; rewrite ?pos_lt.
have e1 t1 t2 t3 t4 w : \sum_i \sum_j w i j * Wd (mode t1 i) (mode t2 j) (mode t3 j) (mode t4 i) (Phi C idx (pos s1 o1) (pos s2 o2) (pos s3 o3) (pos s4 o4)) =
    four (W1 t1 t2 t3 t4 w) s1 s2 s3 s4 o1 o2 o3 o4.
  by rewrite -sum_ijji; apply: eq_bigr => i _; apply: eq_bigr => j _; rewrite q ?pos_lt.
have e2 t1 t2 t3 t4 w : \sum_i \sum_j w i j * Wd (mode t1 j) (mode t2 j) (mode t3 i) (mode t4 i) (Phi C idx (pos s1 o1) (pos s2 o2) (pos s3 o3) (pos s4 o4)) =
    four (W2 t1 t2 t3 t4 w) s1 s2 s3 s4 o1 o2 o3 o4.
  by rewrite -sum_jjii; apply: eq_bigr => i _; apply: eq_bigr => j _; rewrite q ?pos_lt.
rewrite !e1 e2 /gamma; congr (_ + _ + _).
Qed.
Lemma spin_cases s : s = s_up \/ s = s_dn.
Proof. by case: s => [[|[|m]] h]; [left|right|]; try exact: val_inj. Qed.
Lemma gamma_match (U Up J Jp : C) s1 s2 s3 s4 o1 o2 o3 o4 :
  gamma U Up J J Jp s1 s2 s3 s4 o1 o2 o3 o4 = kanamori_quartic_tensor U Up J Jp (pidx s3 o3) (pidx s1 o1) (pidx s4 o4) (pidx s2 o2).
Proof.
rewrite /kanamori_quartic_tensor /quartic_tensor_from_charge_and_spin /store8 /= !pidxK1 !pidxK2 (_ : 2%:R = 1 + 1 :> C) //.
have n2' : (1 + 1 : C) <> 0 by apply/eqP; rewrite (_ : 1 + 1 = 2%:R :> C) ?pnatr_eq0.
have e12 (x y : 'I_norb) : x != y -> ((x < y)%N = false -> (y < x)%N).
  by move=> nxy h; rewrite ltn_neqAle leqNgt h andbT; apply: contra nxy => /eqP e; apply/eqP; apply: val_inj.
case: (spin_cases s1) => ->; case: (spin_cases s2) => ->; case: (spin_cases s3) => ->; case: (spin_cases s4) => ->; rewrite /gamma /four /W1 /W2 /ind4 /=;
  rewrite ?(mul0r, mulr0, mul1r, subr0, add0r, addr0, oppr0);
  try (case: (eqVneq o1 o2) => [?|?]; [subst o2|]); try (case: (eqVneq o1 o3) => [?|?]; [subst o3|]); try (case: (eqVneq o1 o4) => [?|?]; [subst o4|]);
  try (case: (eqVneq o2 o3) => [?|?]; [subst o3|]); try (case: (eqVneq o2 o4) => [?|?]; [subst o4|]); try (case: (eqVneq o3 o4) => [?|?]; [subst o4|]);
  try (exfalso; match goal with h : is_true (?x != ?x) |- _ => by rewrite eqxx in h end);
  rewrite ?(eqxx, ltnn, mul0r, mulr0, mul1r, mulr1, subr0, add0r, addr0, oppr0) //=;
  repeat match goal with
  | h : is_true (?x != ?y) |- context [?x == ?y] => rewrite (negbTE h)
  | h : is_true (?x != ?y) |- context [?y == ?x] => rewrite [y == x]eq_sym (negbTE h)
  end;
  repeat match goal with
  | h : is_true (?x != ?y) |- context [(nat_of_ord ?x < nat_of_ord ?y)%N] => case: (boolP (x < y)%N) => [/ltnW|/negbTE/(e12 _ _ h)]; [rewrite leqNgt => /negbTE ->| move=> ->]
  end; rewrite ?(mul0r, mulr0, mul1r, mulr1, subr0, add0r, addr0, oppr0) //=; try by [ffield C].
Qed.
Lemma gamma_K (U Up J K P : C) a b : a != b -> gamma U Up J K P s_dn s_up s_dn s_up a b b a = - K.
Proof.
move=> ab; have ba : b != a by rewrite eq_sym.
rewrite /gamma /four /W1 /W2 /ind4 /= !eqxx !(negbTE ab) !(negbTE ba) /=.
by rewrite ?(mul0r, mulr0, mul1r, mulr1, subr0, add0r, addr0, oppr0).
Qed.
Lemma gamma_P (U Up J K P : C) a b : a != b -> gamma U Up J K P s_up s_dn s_up s_dn a a b b = - P.
Proof.
move=> ab; have ba : b != a by rewrite eq_sym.
rewrite /gamma /four /W1 /W2 /ind4 /= !eqxx !(negbTE ab) !(negbTE ba) /=.
by rewrite ?(mul0r, mulr0, mul1r, mulr1, subr0, add0r, addr0, oppr0).
Qed.
Definition agrees (T : arr4 C) (V : 'I_(2 * norb) -> 'I_(2 * norb) -> 'I_(2 * norb) -> 'I_(2 * norb) -> C) :=
  forall x1 x2 x3 x4 : 'I_(2 * norb), T x1 x2 x3 x4 = V x1 x2 x3 x4.
Lemma gamma_one (U Up J K P K' P' : C) s1 s2 s3 s4 o1 o2 o3 o4 : ~~ (1 < norb)%N ->
  gamma U Up J K P s1 s2 s3 s4 o1 o2 o3 o4 = gamma U Up J K' P' s1 s2 s3 s4 o1 o2 o3 o4.
Proof.
move=> n1; have e x y : x = y :> 'I_norb by apply: val_inj; case: x y => [x hx] [y hy] /=; lia.
by rewrite /gamma /four /W1 /W2 /ind4 (e o2 o1) (e o3 o1) (e o4 o1) eqxx /= !mul0r !mulr0.
Qed.
Lemma C63_iff_proof (U Up J Jp K P : C) : exists T, get_rpa_tensor (H U Up J K P) (modes C idx) = Some T /\
  (agrees T (kanamori_quartic_tensor U Up J Jp) <-> ((1 < norb)%N -> K = J /\ P = Jp)).
Proof.
have [T eT] := rpa_total u (stored_kanamori U Up J K P) (ok_kanamori U Up J K P); exists T; split => //; split => [h n1|h].
  pose a : 'I_norb := Ordinal (ltnW n1); pose b : 'I_norb := Ordinal n1; have ab : a != b by [].
  split; apply: oppr_inj.
    by rewrite -(gamma_K U Up J K P ab) -(kanamori_gamma _ _ _ _ _ _ _ _ eT) h -gamma_match gamma_K.
  by rewrite -(gamma_P U Up J K P ab) -(kanamori_gamma _ _ _ _ _ _ _ _ eT) h -gamma_match gamma_P.
move=> x1 x2 x3 x4; rewrite -(pidx_eta x1) -(pidx_eta x2) -(pidx_eta x3) -(pidx_eta x4) (kanamori_gamma _ _ _ _ _ _ _ _ eT) -gamma_match.
by case: (boolP (1 < norb)%N) => [/h[-> ->] | n1] //; apply: gamma_one.
Qed.
(* h.c. of the exchange terms *)
Lemma pr_dagger_ccrcra (p q r s : nat) F : pr (dagger (ccrcra C p q r s)) F = pr (ccrcra C s r q p) F.
Proof.
rewrite pr_dagger !pr_ccrcra !W4 /nrm /rev /= !rmorphM /= conjCK.
have sc x y : (s2 C x y)^* = s2 C x y by rewrite /s2; case: ltngtP; rewrite ?rmorph0 ?rmorph1 ?rmorphN1.
by rewrite !sc [minn s r]minnC [maxn s r]maxnC [maxn q p]maxnC [minn q p]minnC [s2 C s r * _]mulrC.
Qed.
Lemma pr_dagger_scale a (A : operator C) F : pr (dagger (op_scale a A)) F = a^* * pr (dagger A) F.
Proof. by rewrite !pr_dagger pr_scale rmorphM. Qed.
Lemma C63_documented_proof (U Up J : C) : same_operator (kanamori_documented mode U Up J) (H U Up J (2%:R * J) (2%:R * J)).
Proof.
apply: pr_same => F; rewrite !pr_op_sum !big_cat /=; congr (_ + _); rewrite big_map /flip_part !big_flatten_map !big_filter.
pose f (x : C) (i j : 'I_norb) := \sum_(x <- [:: op_scale (- x) (ccrcra C (mode s_dn i) (mode s_up j) (mode s_dn j) (mode s_up i));
   op_scale (- x) (ccrcra C (mode s_up j) (mode s_dn j) (mode s_up i) (mode s_dn i))]) pr x F.
rewrite (sum_pairs (fun i j => i != j) (f J)) (sum_pairs (fun i j => i != j) (f (2%:R * J))).
have -> : \sum_(x <- flatten [seq [:: op_scale (- J^*) (ccrcra C (mode s_dn p.1) (mode s_up p.2) (mode s_dn p.2) (mode s_up p.1));
     op_scale (- J^*) (ccrcra C (mode s_up p.2) (mode s_dn p.2) (mode s_up p.1) (mode s_dn p.1))] | p <- pairs_of norb & p.1 != p.2]) pr (dagger x) F =
   \sum_i \sum_j (i != j)%:R * f J j i.
  rewrite -(sum_pairs (fun i j => i != j) (fun i j => f J j i)) -[in RHS]big_filter; elim: [seq _ <- _ | _] => [|p r ih] /=; rewrite ?big_nil //.
  rewrite !big_cons ih addrA; congr (_ + _); rewrite /f !big_cons !big_nil addr0 !pr_dagger_scale !pr_dagger_ccrcra !pr_scale rmorphN /= conjCK !pr_ccrcra.
  congr (- J * _ + - J * _); rewrite !W4 /nrm ![minn (mode s_up _) (mode s_dn _)]minnC ![maxn (mode s_up _) (mode s_dn _)]maxnC.
    by rewrite [s2 C (mode s_up p.1) _]s2N [s2 C (mode s_up p.2) _]s2N !(mulrN, mulNr).
  by rewrite [s2 C (mode s_up p.1) _]s2N [s2 C (mode s_up p.2) _]s2N !(mulrN, mulNr).
rewrite [X in _ + X]exchange_big -big_split; apply: eq_bigr => i _; rewrite -big_split; apply: eq_bigr => j _ /=; rewrite [j == i]eq_sym.
rewrite /f !big_cons !big_nil !pr_scale (_ : 2%:R = 1 + 1) //; fring C.
Qed.
Lemma same_stored_keys (A B : operator C) : stored A -> stored B -> same_operator A B -> forall m, (m \in [seq t.1 | t <- A]) = (m \in [seq t.1 | t <- B]).
Proof. by move=> sA sB e m; rewrite !coef_keys // e. Qed.
Lemma C63_documented_refuted_proof (U Up J : C) : (1 < norb)%N -> J != 0 -> forall T, get_rpa_tensor (kanamori_documented mode U Up J) (modes C idx) = Some T ->
  ~ agrees T (kanamori_quartic_tensor U Up J J).
Proof.
move=> n1 J0 T eT h; set D := kanamori_documented mode U Up J in eT.
have same : same_operator D (H U Up J (2%:R * J) (2%:R * J)) := C63_documented_proof U Up J.
have sD : stored D.
  apply: stored_op_sum; rewrite catA all_cat all_map.
  have okf (K P : C) : all (@okA C) (flip_part mode K P).
    by apply/allP => x /flattenP[l /mapP[p _ ->]]; rewrite !inE => /orP[] /eqP ->; exact/ok_scale/stored_ok/stored_mul.
  rewrite all_cat okf andbT; apply/andP; split; last first.
    by apply: sub_all (okf J^* J^*) => x hx; exact: ok_dagger.
  rewrite /density_part all_cat; apply/andP; split.
    by apply/allP => _ /mapP[i _ ->]; apply/ok_scale/stored_ok/stored_mul/ok_number.
  apply/allP => x /flattenP[l /mapP[p _ ->] /mapP[t _ ->]]; exact/ok_scale/stored_ok/stored_mul/ok_number.
have qD : all (@quartic_ok C) D.
  apply/allP => t ht; have : t.1 \in [seq t.1 | t <- H U Up J (2%:R * J) (2%:R * J)].
    by rewrite -(same_stored_keys sD (stored_kanamori _ _ _ _ _) same) map_f.
  by case/mapP=> t' ht' e; have := allP (ok_kanamori U Up J (2%:R * J) (2%:R * J)) t' ht'; rewrite /quartic_ok e.
have [T' eT'] := rpa_total u (stored_kanamori U Up J (2%:R * J) (2%:R * J)) (ok_kanamori U Up J (2%:R * J) (2%:R * J)).
have eTT : agrees T' (fun x1 x2 x3 x4 => T x1 x2 x3 x4).
  move=> x1 x2 x3 x4; have lt (x : 'I_(2 * norb)) : (x < size idx)%N by rewrite n2.
  rewrite (rpa_read u (lt x2) (lt x4) (lt x1) (lt x3) (stored_kanamori _ _ _ _ _) (ok_kanamori _ _ _ _ _) eT').
  by rewrite (rpa_read u (lt x2) (lt x4) (lt x1) (lt x3) sD qD eT); apply/esym/same_pr.
have [T2 [eT2 [hT _]]] := C63_iff_proof U Up J J (2%:R * J) (2%:R * J); move: eT2; rewrite eT' => -[e2]; subst T2.
have [|e _] := hT _ n1; first by move=> x1 x2 x3 x4; rewrite eTT h.
move: J0; rewrite -[X in X != 0](addrK J) -mulr2n -mulr_natl e subrr eqxx //.
Qed.
End Sums.

(* C63: for any number of orbitals the tensor stands for the Kanamori Hamiltonian with spin flip J and pair hopping Jp. *)
Theorem C63_kanamori_hamiltonian_partial (C : numClosedFieldType) (norb : nat) (idx : seq nat) (U Up J Jp : C) : uniq idx -> size idx = (2 * norb)%N ->
  exists T, get_rpa_tensor (kanamori (mode idx : 'I_2 -> 'I_norb -> nat) U Up J J Jp) (modes C idx) = Some T /\
    forall x1 x2 x3 x4 : 'I_(2 * norb), T x1 x2 x3 x4 = kanamori_quartic_tensor U Up J Jp x1 x2 x3 x4.
Proof. by move=> u n2; have [T [eT h]] := C63_iff_proof u n2 U Up J Jp J Jp; exists T; split => //; apply/h. Qed.
(* ... and for no other strengths of spin flip and pair hopping once there are two orbitals. *)
Theorem C63_kanamori_strengths (C : numClosedFieldType) (norb : nat) (idx : seq nat) (U Up J Jp K P : C) : uniq idx -> size idx = (2 * norb)%N ->
  (1 < norb)%N -> forall T, get_rpa_tensor (kanamori (mode idx : 'I_2 -> 'I_norb -> nat) U Up J K P) (modes C idx) = Some T ->
    (forall x1 x2 x3 x4 : 'I_(2 * norb), T x1 x2 x3 x4 = kanamori_quartic_tensor U Up J Jp x1 x2 x3 x4) -> K = J /\ P = Jp.
Proof. by move=> u n2 n1 T eT h; have [T' [eT' hT]] := C63_iff_proof u n2 U Up J Jp K P; move: eT; rewrite eT' => -[e]; subst T; apply: (proj1 hT) n1. Qed.
(* C63: the parameter documented as the strength of pair hopping and spin flip does not set the spin flip. *)
Theorem C63_spin_flip_strength_refuted (C : numClosedFieldType) (norb : nat) (idx : seq nat) (U Up J Jp : C) : uniq idx -> size idx = (2 * norb)%N ->
  (1 < norb)%N -> Jp <> J -> forall T, get_rpa_tensor (kanamori (mode idx : 'I_2 -> 'I_norb -> nat) U Up J Jp Jp) (modes C idx) = Some T ->
    ~ (forall x1 x2 x3 x4 : 'I_(2 * norb), T x1 x2 x3 x4 = kanamori_quartic_tensor U Up J Jp x1 x2 x3 x4).
Proof. by move=> u n2 n1 JJ T eT h; case: (C63_kanamori_strengths u n2 n1 eT h) => /JJ. Qed.
(* C63: the Hamiltonian printed in the documentation counts every exchange term twice, *)
Theorem C63_documented_hamiltonian (C : numClosedFieldType) (norb : nat) (idx : seq nat) (U Up J : C) : uniq idx -> size idx = (2 * norb)%N ->
  same_operator (kanamori_documented (mode idx : 'I_2 -> 'I_norb -> nat) U Up J) (kanamori (mode idx : 'I_2 -> 'I_norb -> nat) U Up J (2%:R * J) (2%:R * J)).
Proof. by move=> u n2; apply: C63_documented_proof. Qed.
(* ... so that the tensor is not the one of that Hamiltonian. *)
Theorem C63_documented_hamiltonian_refuted (C : numClosedFieldType) (norb : nat) (idx : seq nat) (U Up J : C) : uniq idx -> size idx = (2 * norb)%N ->
  (1 < norb)%N -> J != 0 -> forall T, get_rpa_tensor (kanamori_documented (mode idx : 'I_2 -> 'I_norb -> nat) U Up J) (modes C idx) = Some T ->
    ~ (forall x1 x2 x3 x4 : 'I_(2 * norb), T x1 x2 x3 x4 = kanamori_quartic_tensor U Up J J x1 x2 x3 x4).
Proof. by move=> u n2 n1 J0 T eT; apply: (C63_documented_refuted_proof u n2 n1 J0 eT). Qed.
(* two orbitals, modes numbered 0..3 *)
Example C63_case (C : numClosedFieldType) : uniq [:: 3%N; 0%N; 5%N; 1%N] /\ size [:: 3%N; 0%N; 5%N; 1%N] = (2 * 2)%N /\
  kanamori_quartic_tensor (nb := 2) (3%:R : C) 2%:R 1 5%:R (pidx s_dn ord_max) (pidx s_dn ord0) (pidx s_up ord0) (pidx s_up ord_max) = -1 /\
  kanamori_quartic_tensor (nb := 2) (3%:R : C) 2%:R 1 5%:R (pidx s_up ord_max) (pidx s_up ord0) (pidx s_dn ord_max) (pidx s_dn ord0) = - 5%:R.
Proof.
split => //; split => //; split; rewrite -gamma_match //; [exact: gamma_K | exact: gamma_P].
Qed.
Print Assumptions C63_kanamori_hamiltonian_partial.
Print Assumptions C63_documented_hamiltonian_refuted.
