(* Closed forms of the loops of symmetries.py. *)
From Coq Require Import String.
From mathcomp Require Import all_ssreflect all_algebra.
From mathcomp Require Import zify.
From Verif Require Import SymmetryModel SymmetrySpec.
Set Implicit Arguments.
Unset Strict Implicit.
Unset Printing Implicit Defensive.
Import GRing.Theory Num.Theory.

Section Index.
Local Open Scope nat_scope.
Local Notation P ds := (foldr muln 1 ds).
Definition negi (ds : seq nat) (i : nat) : nat := ravel ds (invert_momentum (unravel ds i) ds).

Lemma negi_cons m ds i : negi (m :: ds) i = ((m - i %/ P ds) %% m) * P ds + negi ds (i %% P ds).
Proof. by []. Qed.
Lemma prod_pos ds : all (leq 1) ds -> 0 < P ds.
Proof. by elim: ds => //= m ds ih /andP[m0 /ih]; rewrite muln_gt0 m0. Qed.
Lemma prod_filter ds : P [seq m <- ds | m != 1] = P ds.
Proof. by elim: ds => //= m ds ih; case: eqP => [->|_] /=; rewrite ih ?mul1n. Qed.
Lemma negi_lt ds i : all (leq 1) ds -> i < P ds -> negi ds i < P ds.
Proof.
elim: ds i => //= m ds ih i /andP[m0 hd] hi; rewrite negi_cons.
have p0 := prod_pos hd; have := ih _ hd (ltn_pmod i p0).
have := ltn_pmod (m - i %/ P ds) m0; nia.
Qed.
Lemma negi_filter ds i : all (leq 1) ds -> i < P ds -> negi [seq m <- ds | m != 1] i = negi ds i.
Proof.
elim: ds i => //= m ds ih i /andP[m0 hd] hi; have p0 := prod_pos hd.
case: eqP => [m1|_] /=.
  rewrite m1 mul1n in hi *; rewrite negi_cons modn1 mul0n add0n modn_small //; exact: ih.
by rewrite !negi_cons prod_filter ih // ltn_pmod.
Qed.
Lemma neg_digit m q : 0 < m -> q < m -> (m - (m - q) %% m) %% m = q.
Proof.
move=> m0 hq; case: (posnP q) => [->|q0]; first by rewrite subn0 modnn subn0 modnn.
rewrite (modn_small (m := m - q)); last by lia.
by rewrite modn_small; lia.
Qed.
Lemma digit_lt m ds i : 0 < P ds -> i < m * P ds -> i %/ P ds < m.
Proof. by move=> p0 hi; rewrite ltn_divLR. Qed.
Lemma negiK ds i : all (leq 1) ds -> i < P ds -> negi ds (negi ds i) = i.
Proof.
elim: ds i => [|m ds ih] i /=; first by case: i.
move=> /andP[m0 hd] hi; have p0 := prod_pos hd.
have lt := negi_lt hd (ltn_pmod i p0).
rewrite [X in negi (m :: ds) X]negi_cons negi_cons divnMDl // (divn_small lt) addn0 modnMDl (modn_small lt).
by rewrite neg_digit ?digit_lt // ih ?ltn_pmod // -divn_eq.
Qed.
Lemma minusE m i : 0 < m -> i < m -> (m - i) %% m = minus m i.
Proof.
rewrite /minus => m0 hi; case: eqP => [->|ne]; first by rewrite subn0 modnn.
by rewrite modn_small; lia.
Qed.
Lemma minus_lt m i : i < m -> minus m i < m.
Proof. rewrite /minus; case: eqP; lia. Qed.
Lemma kpos_lt n1 n2 n3 i j l : i < n1 -> j < n2 -> l < n3 -> kpos n2 n3 i j l < P [:: n1; n2; n3].
Proof.
rewrite /kpos /= muln1 => h1 h2 h3.
have a : i * n2 + j < n1 * n2 by nia.
have b : (i * n2 + j).+1 * n3 <= n1 * n2 * n3 by rewrite leq_mul2r a orbT.
rewrite mulnA; nia.
Qed.
Lemma negi3 n1 n2 n3 i j l : i < n1 -> j < n2 -> l < n3 ->
  negi [:: n1; n2; n3] (kpos n2 n3 i j l) = kpos n2 n3 (minus n1 i) (minus n2 j) (minus n3 l).
Proof.
move=> h1 h2 h3; rewrite !negi_cons /kpos /negi /= !muln1 !divn1 !addn0.
have e : (i * n2 + j) * n3 + l = i * (n2 * n3) + (j * n3 + l) by lia.
have p : 0 < n2 * n3 by rewrite muln_gt0; lia.
have lt : j * n3 + l < n2 * n3 by apply: leq_trans (_ : j.+1 * n3 <= _); [lia | rewrite leq_mul2r h2 orbT].
rewrite e divnMDl // modnMDl (divn_small lt) (modn_small lt).
rewrite divnMDl; last by lia.
rewrite modnMDl (divn_small h3) (modn_small h3) !addn0 !minusE //; lia.
Qed.
Lemma kpos_ex n1 n2 n3 k : k < P [:: n1; n2; n3] -> exists i j l,
  [/\ i < n1, j < n2, l < n3 & k = kpos n2 n3 i j l].
Proof.
rewrite /= muln1 => hk; exists (k %/ (n2 * n3)), ((k %% (n2 * n3)) %/ n3), (k %% n3).
have p : 0 < n2 * n3 by lia.
have p3 : 0 < n3 by lia.
split; [by rewrite ltn_divLR| by rewrite ltn_divLR ?ltn_pmod | by rewrite ltn_pmod |].
have e1 := divn_eq k (n2 * n3); have e2 := divn_eq (k %% (n2 * n3)) n3.
have e3 : (k %% (n2 * n3)) %% n3 = k %% n3 by rewrite modn_dvdm // dvdn_mull.
rewrite /kpos; nia.
Qed.
Definition good_dims (ds : seq nat) := all (leq 1) ds.
Lemma inv_idxE ds k : good_dims ds -> k < P ds -> inv_idx ds k = negi ds k.
Proof. exact: negi_filter. Qed.
Lemma inv_idx_lt ds k : good_dims ds -> k < P ds -> inv_idx ds k < P ds.
Proof. by move=> h hk; rewrite inv_idxE // negi_lt. Qed.
Lemma inv_idxK ds k : good_dims ds -> k < P ds -> inv_idx ds (inv_idx ds k) = k.
Proof. by move=> h hk; rewrite (inv_idxE h hk) inv_idxE ?negi_lt // negiK. Qed.

(* triangles *)
Lemma mem_all_pairs n p : (p \in all_pairs n) = (p.1 < n) && (p.2 < n).
Proof.
apply/allpairsP/andP => [[[i j] [/= hi hj ->]]|[h1 h2]] /=.
  by move: hi hj; rewrite !mem_iota /= !add0n.
by exists p; rewrite !mem_iota /= !add0n; case: p h1 h2.
Qed.
Lemma uniq_all_pairs n : uniq (all_pairs n).
Proof. by apply: allpairs_uniq; rewrite ?iota_uniq // => -[? ?] [? ?]. Qed.
Lemma mem_triu n p : (p \in triu n) = (p.1 < p.2) && (p.2 < n).
Proof. by case: p => a b; rewrite mem_filter mem_all_pairs /=; lia. Qed.
Lemma mem_tril n p : (p \in tril n) = (p.2 < p.1) && (p.1 < n).
Proof. by case: p => a b; rewrite mem_filter mem_all_pairs /=; lia. Qed.
Lemma uniq_triu n : uniq (triu n). Proof. exact/filter_uniq/uniq_all_pairs. Qed.
Lemma uniq_tril n : uniq (tril n). Proof. exact/filter_uniq/uniq_all_pairs. Qed.
Definition swap (p : nat * nat) := (p.2, p.1).
Lemma size_triangles n : size (triu n) = size (tril n).
Proof.
have i : injective swap by move=> [? ?] [? ?] [-> ->].
have h : perm_eq (map swap (triu n)) (tril n).
  apply: uniq_perm; rewrite ?map_inj_uniq ?uniq_triu ?uniq_tril // => -[a b].
  by rewrite -[(a, b)]/(swap (b, a)) mem_map // mem_triu mem_tril.
by rewrite -(perm_size h) size_map.
Qed.
Definition mate n (p : nat * nat) : nat * nat := nth p (tril n) (index p (triu n)).
Lemma mate_low n p : p \in triu n -> mate n p \in tril n.
Proof. by move=> h; apply: mem_nth; rewrite -size_triangles index_mem. Qed.
Lemma mate_small n p : n <= 3 -> p \in triu n -> mate n p = swap p.
Proof.
case: n => [|[|[|[|//]]]] _; rewrite ?inE //.
  by move=> /eqP->.
by move=> /or3P[] /eqP->.
Qed.
Lemma mate_big n : 4 <= n -> mate n (0, 3) = (2, 1).
Proof.
case: n => [|[|[|[|n]]]] // _; rewrite /mate.
have -> : triu n.+4 = [:: (0, 1), (0, 2), (0, 3) & drop 3 (triu n.+4)].
  by rewrite /triu /all_pairs /= !filter_cat /=; congr [:: _, _, _ & _]; rewrite drop0.
have -> : tril n.+4 = [:: (1, 0), (2, 0), (2, 1) & drop 3 (tril n.+4)].
  rewrite /tril /all_pairs /= !filter_cat /=.
  have z s i : all (fun j => 4 <= j) s -> i < 4 -> [seq p : nat * nat <- [seq (i, j) | j <- s] | p.2 < p.1] = [::].
    by elim: s => //= j s ih /andP[hj hs] hi; rewrite ih //; case: ifP => //; lia.
  have h4 : all (fun j => 4 <= j) (iota 4 n) by apply/allP => j; rewrite mem_iota => /andP[].
  by rewrite !z //= filter_cat z //= drop0.
by [].
Qed.
End Index.

Local Open Scope ring_scope.
Section Loops.
Variable C : numFieldType.
Local Notation gf := (gf C).
Local Notation array := (array C).
Local Notation parity := (@parity C).

(* lines 283-311 in closed form *)
Definition mom_val (ds : seq nat) (even : bool) (x : array) : array := fun n k a b =>
  let inv := inv_idx ds k in
  if inv == k then (if even then x n k a b else 0)
  else if (k < inv)%N then parity even * x n inv a b else x n k a b.
Definition mom_upto (ds : seq nat) (even : bool) (x : array) (t : nat) : array := fun n k a b =>
  let inv := inv_idx ds k in
  if inv == k then (if even || (t <= k)%N then x n k a b else 0)
  else let lo := minn k inv in let hi := maxn k inv in
    if (t <= lo)%N then x n k a b
    else if (t <= hi)%N then (if k == lo then x n hi a b else parity even * x n hi a b)
    else (if k == lo then parity even * x n hi a b else x n hi a b).
Lemma momentum_loop ds even (x : array) t : good_dims ds -> (t <= foldr muln 1%N ds)%N ->
  forall n k a b, (k < foldr muln 1%N ds)%N ->
  foldl (momentum_step ds even) x (iota 0 t) n k a b = mom_upto ds even x t n k a b.
Proof.
move=> gd; elim: t => [|t ih] ht n k a b hk.
  by rewrite /mom_upto /=; case: eqP => // _; rewrite orbT.
rewrite -addn1 iotaD foldl_cat /= add0n addn1.
have iht := ih (ltnW ht); have lt := inv_idx_lt gd ht; have tK := inv_idxK gd ht.
have lk := inv_idx_lt gd hk; have kK := inv_idxK gd hk.
rewrite {1}/momentum_step; case: eqP => [et|net].
- case: even iht {ih} => iht.
    rewrite iht // /mom_upto /=; case: eqP => // nk.
    have kt : k <> t by move=> e; apply: nk; rewrite e -et.
    have kt' : inv_idx ds k <> t by move=> e; apply: kt; rewrite -kK e -et.
    have -> : (t < minn k (inv_idx ds k))%N = (t <= minn k (inv_idx ds k))%N by lia.
    by have -> : (t < maxn k (inv_idx ds k))%N = (t <= maxn k (inv_idx ds k))%N by lia.
  case: eqP => [->|kt]; rewrite iht // /mom_upto /=.
    by rewrite -et eqxx mulr0 ltnn.
  case: eqP => [_|nk]; first by have -> : (t < k)%N = (t <= k)%N by lia.
  have kt' : inv_idx ds k <> t by move=> e; apply: kt; rewrite -kK e -et.
  have -> : (t < minn k (inv_idx ds k))%N = (t <= minn k (inv_idx ds k))%N by lia.
  by have -> : (t < maxn k (inv_idx ds k))%N = (t <= maxn k (inv_idx ds k))%N by lia.
- set inv := inv_idx ds t in lt tK net *.
  case: (eqVneq k inv) => [ek|nkinv].
    (* the partner of t *)
    have nit : (inv == t) = false by apply/eqP => e; apply: net.
    rewrite ek nit iht // /mom_upto tK [t == inv]eq_sym nit.
    case: (ltngtP t inv) => [lo|hi|/net //]; rewrite ?leqnn ?ltnn ?eqxx ?nit /SymmetrySpec.parity.
      by rewrite lo; case: (even).
    have -> : (t <= inv)%N = false by lia.
    have -> : (t < inv)%N = false by lia.
    by case: (even).
  case: (eqVneq k t) => [ek|nkt].
    rewrite ek iht // /mom_upto tK -/inv [inv == t]eq_sym [t == inv](introF eqP net).
    have nit : (inv == t) = false by apply/eqP => e; apply: net.
    case: (ltngtP t inv) => [lo|hi|/net //]; rewrite ?leqnn ?ltnn ?eqxx ?nit //=.
      by rewrite lo.
    have -> : (t <= inv)%N = false by lia.
    have -> : (t < inv)%N = false by lia.
    by rewrite eq_sym nit.
  rewrite iht // /mom_upto; case: eqP => [_|nk]; first by have -> : (t < k)%N = (t <= k)%N by lia.
  have kt' : inv_idx ds k <> t by move=> e; move/eqP: nkinv; apply; rewrite /inv -e kK.
  have -> : (t < minn k (inv_idx ds k))%N = (t <= minn k (inv_idx ds k))%N by lia.
  by have -> : (t < maxn k (inv_idx ds k))%N = (t <= maxn k (inv_idx ds k))%N by lia.
Qed.
Lemma momentum_valE ds even (x : array) n k a b : good_dims ds -> (k < foldr muln 1%N ds)%N ->
  foldl (momentum_step ds even) x (iota 0 (foldr muln 1%N ds)) n k a b = mom_val ds even x n k a b.
Proof.
move=> gd hk; rewrite momentum_loop // /mom_upto /mom_val; have lk := inv_idx_lt gd hk.
rewrite (leqNgt _ k) hk orbF; case: eqP => // nk.
rewrite (leqNgt _ (minn _ _)) (leqNgt _ (maxn _ _)).
have -> : (minn k (inv_idx ds k) < foldr muln 1 ds)%N by lia.
have -> : (maxn k (inv_idx ds k) < foldr muln 1 ds)%N by lia.
case: (ltnP k (inv_idx ds k)) => h /=.
  by rewrite eqxx.
by have -> : (k == inv_idx ds k) = false by apply/eqP => e; apply: nk.
Qed.

(* lines 406-426 in closed form *)
Lemma triangle_loop even (us ls : seq (nat * nat)) (x : array) n k a b : size us = size ls -> uniq us -> uniq ls ->
  (forall p, p \in us -> p \notin ls) ->
  foldl (orbital_step even) x (zip us ls) n k a b =
  if (a, b) \in us then let l := nth (a, b) ls (index (a, b) us) in x n k l.1 l.2
  else if (a, b) \in ls then parity even * x n k a b else x n k a b.
Proof.
elim: us ls x => [|u us ih] [|l ls] x //= [sz] /andP[nu uu] /andP[nl ul] dis.
rewrite ih // => [|p hp]; last by have := dis p; rewrite !inE hp orbT negb_or => /(_ isT) /andP[].
have dul : (u == l) = false.
  by have := dis u; rewrite !inE eqxx negb_or => /(_ isT) /andP[/negbTE].
rewrite !inE /orbital_step.
case: (eqVneq (a, b) u) => [->|nau] /=.
rewrite (negbTE nu) dul.
  by have := dis u; rewrite !inE eqxx negb_or => /(_ isT) /andP[_ /negbTE ->].
case: (boolP ((a, b) \in us)) => [hus|nus].
  set q := nth _ _ _.
  have hq : q \in ls by apply: mem_nth; rewrite -sz index_mem.
  have nqu : ((q.1, q.2) == u) = false.
    by rewrite -surjective_pairing; apply/eqP => e; have := dis u; rewrite !inE eqxx -e hq orbT => /(_ isT).
  have nql : ((q.1, q.2) == l) = false.
    by rewrite -surjective_pairing; apply/eqP => e; move: nl; rewrite -e hq.
  by rewrite nqu nql.
case: (eqVneq (a, b) l) => [e|nal] /=.
  rewrite e (negbTE nl) -surjective_pairing [l == u]eq_sym dul /SymmetrySpec.parity.
  have [-> ->] : a = l.1 /\ b = l.2 by rewrite -e.
  by case: (even).
by [].
Qed.
Lemma diagonal_loop (x : array) t n k a b :
  foldl (@diagonal_step C) x (iota 0 t) n k a b = if (a == b) && (a < t)%N then 0 else x n k a b.
Proof.
elim: t n k a b => [|t ih] n k a b; first by rewrite andbF.
rewrite -addn1 iotaD foldl_cat /= add0n addn1 /diagonal_step !ih.
case: eqP => [[-> ->]|ne]; first by rewrite eqxx ltnn ltnSn mulr0.
case: (a =P b) => //= e; have -> // : (a < t.+1)%N = (a < t)%N by apply/idP/idP => *; [|lia]; have : a <> t; [move=> e2; apply: ne; rewrite -e e2|lia].
Qed.
Definition orb_val (no : nat) (even : bool) (x : array) : array := fun n k a b =>
  if a == b then (if even then x n k a b else 0)
  else if (a < b)%N then x n k (mate no (a, b)).1 (mate no (a, b)).2 else parity even * x n k a b.
Lemma orbital_valE no even (x : array) n k a b : (a < no)%N -> (b < no)%N ->
  (if even then foldl (orbital_step even) x (zip (triu no) (tril no))
   else foldl (@diagonal_step C) (foldl (orbital_step even) x (zip (triu no) (tril no))) (iota 0 no)) n k a b =
  orb_val no even x n k a b.
Proof.
move=> ha hb.
have h := @triangle_loop even (triu no) (tril no) x n k a b (size_triangles no) (uniq_triu no) (uniq_tril no).
have {}h := h (fun p => _); rewrite mem_triu mem_tril /= ha hb !andbT -/(mate no (a, b)) in h.
have dis p : p \in triu no -> p \notin tril no by rewrite mem_triu mem_tril; lia.
case: even h => /(_ dis) h; rewrite ?diagonal_loop h /orb_val ?ha ?andbT.
  by case: (ltngtP a b).
by case: (ltngtP a b).
Qed.
End Loops.

(* every sequence of symmetrizations multiplies by a sign (or zero) the value at a representative *)
Section Normal.
Variable C : numFieldType.
Local Notation gf := (gf C).
Local Notation array := (array C).
Local Notation parity := (@parity C).
Variables (h : nat) (ds : seq nat) (no : nat).
Local Notation kk := (foldr muln 1%N ds).
Hypothesis gd : good_dims ds.
Local Notation inv := (inv_idx ds).
Record nform := NF { ff : option bool; fm : option bool; mz : bool; fo : option (bool * bool); oz : bool }.
Definition cf (f : option bool) (n : nat) : C := if f is Some e then (if (n < h)%N then parity e else 1) else 1.
Definition rf (f : option bool) (n : nat) : nat := if f is Some _ then (if (n < h)%N then h + (h.-1 - n) else n)%N else n.
Definition cm (m : option bool) (z : bool) (k : nat) : C :=
  if inv k == k then (if z then 0 else 1) else if m is Some e then (if (k < inv k)%N then parity e else 1) else 1.
Definition rm (m : option bool) (k : nat) : nat := if m is Some _ then (if (k < inv k)%N then inv k else k) else k.
Definition co (o : option (bool * bool)) (z : bool) (a b : nat) : C :=
  if a == b then (if z then 0 else 1) else if o is Some (u, l) then (if (a < b)%N then parity u else parity l) else 1.
Definition ro (o : option (bool * bool)) (a b : nat) : nat * nat :=
  if o is Some _ then (if (a < b)%N then mate no (a, b) else (a, b)) else (a, b).
Definition app (s : nform) (x : array) : array := fun n k a b =>
  cf (ff s) n * cm (fm s) (mz s) k * co (fo s) (oz s) a b *
  x (rf (ff s) n) (rm (fm s) k) (ro (fo s) a b).1 (ro (fo s) a b).2.
Definition orelse T (x y : option T) := if x is Some _ then x else y.
Definition same (p q : bool) := p == q.
Definition comp_o (o2 o1 : option (bool * bool)) := match o2, o1 with
  | Some (u2, l2), Some (u1, l1) => Some (u2 == l1, l2 == l1)
  | Some _, None => o2 | None, _ => o1 end.
Definition comp (s2 s1 : nform) : nform :=
  NF (orelse (ff s2) (ff s1)) (orelse (fm s2) (fm s1)) (mz s2 || mz s1) (comp_o (fo s2) (fo s1)) (oz s2 || oz s1).
Definition ins n k a b := [/\ n < h + h, k < kk, a < no & b < no]%N.

Lemma parityM p q : parity (p == q) = parity p * parity q.
Proof. by rewrite /SymmetrySpec.parity; case: p; case: q; rewrite ?mul1r ?mulr1 // mulrNN mulr1. Qed.
Lemma parity_sq p : parity p * parity p = 1.
Proof. by rewrite -parityM eqxx. Qed.
Lemma comp_f f2 f1 n : cf f2 n * cf f1 (rf f2 n) = cf (orelse f2 f1) n /\ rf f1 (rf f2 n) = rf (orelse f2 f1) n.
Proof.
case: f2 => [e|] /=; last by rewrite mul1r.
rewrite /cf /rf; case: (ltnP n h) => hn; case: f1 => [e1|]; rewrite ?mulr1 //.
  by rewrite ltnNge leq_addr mulr1.
by rewrite ltnNge hn mulr1.
Qed.
Lemma comp_m m2 m1 z2 z1 k : (k < kk)%N -> cm m2 z2 k * cm m1 z1 (rm m2 k) = cm (orelse m2 m1) (z2 || z1) k /\
   rm m1 (rm m2 k) = rm (orelse m2 m1) k.
Proof.
move=> hk; have kK := inv_idxK gd hk; rewrite /cm /rm.
case: (eqVneq (inv k) k) => [e|ne].
  rewrite e ltnn; have -> : (if m2 is Some _ then k else k) = k by case: m2.
  rewrite e eqxx ltnn; split; last by case: m1; case: m2.
  by case: z2; rewrite ?mul0r ?mul1r.
case: m2 => [e|]; last by rewrite mul1r (negbTE ne).
case: (ltnP k (inv k)) => lt /=; last by rewrite (negbTE ne) ltnNge lt /= mul1r; case: m1.
rewrite kK eq_sym (negbTE ne) ltnNge (ltnW lt) /=.
by case: m1; rewrite mulr1.
Qed.
Lemma ro_low (o : option (bool * bool)) p : p \in tril no -> ro o p.1 p.2 = p.
Proof. by rewrite mem_tril => /andP[lt _]; rewrite /ro ltnNge (ltnW lt) /=; case: o; case: p lt. Qed.
Lemma co_low (o : option (bool * bool)) z p : p \in tril no -> co o z p.1 p.2 = if o is Some (u, l) then parity l else 1.
Proof. by rewrite mem_tril => /andP[lt _]; rewrite /co gtn_eqF // ltnNge (ltnW lt). Qed.
Lemma comp_or o2 o1 z2 z1 a b : (a < no)%N -> (b < no)%N ->
  co o2 z2 a b * co o1 z1 (ro o2 a b).1 (ro o2 a b).2 = co (comp_o o2 o1) (z2 || z1) a b /\
  ro o1 (ro o2 a b).1 (ro o2 a b).2 = ro (comp_o o2 o1) a b.
Proof.
move=> ha hb; case: o2 => [[u2 l2]|] /=; last first.
  by rewrite /co; case: eqP => // _; rewrite ?mul1r //; case: z2; rewrite ?mul0r ?mul1r.
case: (ltngtP a b) => lt.
- have m : mate no (a, b) \in tril no by apply: mate_low; rewrite mem_triu /= lt hb.
  rewrite co_low // ro_low // /co ltn_eqF // lt /=; case: o1 => [[u1 l1]|] /=; last by rewrite mulr1 lt.
  by rewrite parityM lt.
- have m : (a, b) \in tril no by rewrite mem_tril /= lt ha.
  rewrite (co_low _ _ m) (ro_low _ m) /co gtn_eqF // ltnNge (ltnW lt) /=.
  by case: o1 => [[u1 l1]|] /=; rewrite ?mulr1 ?parityM // ltnNge (ltnW lt).
- rewrite -lt /co eqxx /=; split; first by case: z2; rewrite ?mul0r ?mul1r.
  by case: o1 => [[u1 l1]|] /=; rewrite ltnn.
Qed.
Lemma compE s2 s1 x n k a b : ins n k a b -> app s2 (app s1 x) n k a b = app (comp s2 s1) x n k a b.
Proof.
case=> hn hk ha hb; rewrite /app /=.
have [f1 f2] := comp_f (ff s2) (ff s1) n.
have [m1 m2] := comp_m (fm s2) (fm s1) (mz s2) (mz s1) hk.
have [o1 o2] := comp_or (fo s2) (fo s1) (oz s2) (oz s1) ha hb.
rewrite -f1 -m1 -o1 -f2 -m2 -o2 !mulrA; congr (_ * _).
set c1 := cf _ _; set c2 := cm _ _ _; set c3 := co _ _ _ _; set d1 := cf _ _; set d2 := cm _ _ _; set d3 := co _ _ _ _.
rewrite -!mulrA; congr (_ * _); rewrite !mulrA [c2 * c3 * d1]mulrC !mulrA; congr (_ * _).
by rewrite -!mulrA; congr (_ * (_ * _)); rewrite mulrC.
Qed.
Lemma ins_rep s n k a b : ins n k a b -> ins (rf (ff s) n) (rm (fm s) k) (ro (fo s) a b).1 (ro (fo s) a b).2.
Proof.
case=> hn hk ha hb; split.
- by rewrite /rf; case: (ff s) => //= _; case: ifP => //; lia.
- by rewrite /rm; case: (fm s) => //= _; case: ifP => // _; apply: inv_idx_lt.
- rewrite /ro; case: (fo s) => //= _; case: ifP => // lt.
  have : mate no (a, b) \in tril no by apply: mate_low; rewrite mem_triu /= lt hb.
  by rewrite mem_tril => /andP[].
- rewrite /ro; case: (fo s) => //= _; case: ifP => // lt.
  have : mate no (a, b) \in tril no by apply: mate_low; rewrite mem_triu /= lt hb.
  by rewrite mem_tril => /andP[l1 l2]; apply: ltn_trans l1 l2.
Qed.
Lemma app_eq s x y n k a b : (forall n k a b, ins n k a b -> x n k a b = y n k a b) -> ins n k a b ->
  app s x n k a b = app s y n k a b.
Proof. by move=> e hi; rewrite /app e //; apply: ins_rep. Qed.
(* twice *)
Lemma twiceE s x n k a b : (forall u l, fo s = Some (u, l) -> ~~ l -> oz s) -> ins n k a b ->
  app s (app s x) n k a b = (if fo s is Some (u, l) then parity l else 1) * app s x n k a b.
Proof.
move=> hl hi; rewrite compE // /app /comp /=.
have -> : orelse (ff s) (ff s) = ff s by case: (ff s).
have -> : orelse (fm s) (fm s) = fm s by case: (fm s).
rewrite !orbb; case e: (fo s) => [[u l]|] /=; last by rewrite mul1r.
rewrite mulrCA -!mulrA; congr (_ * (_ * _)); rewrite !mulrA; congr (_ * _).
rewrite /co; case: eqP => [ab|_]; last by case: ifP => _; rewrite parityM // mulrC.
case: l e => [|] /hl h1; first by rewrite mulr1.
by rewrite h1 // mul0r.
Qed.
End Normal.

Section Run.
Variable C : numFieldType.
Local Notation gf := (gf C).
Local Notation iseven s := (String.eqb s "even").
(* the loop on one object *)
Fixpoint run (g : gf) (todo : seq (string * string)) : option gf :=
  if todo is (v, s) :: rest then
    if symmetrize_fct C v is Some f then (if f g (iseven s) is Some g' then run g' rest else None) else None
  else Some g.
Lemma nth_error_set (st : seq gf) r g g' i : List.nth_error st r = Some g ->
  List.nth_error (set_nth g' st r g') i = if i == r then Some g' else List.nth_error st i.
Proof.
elim: st r i => [|x st ih] [|r] [|i] //=.
by move=> h; rewrite ih.
Qed.
Lemma loop_run (st : seq gf) r g todo : List.nth_error st r = Some g ->
  match run g todo with
  | Some g' => exists2 st2, symmetrize_loop st r todo = Some st2 &
      forall i, List.nth_error st2 i = if i == r then Some g' else List.nth_error st i
  | None => symmetrize_loop st r todo = None
  end.
Proof.
elim: todo st g => [|[v s] todo ih] st g /= e.
  by exists st => // i; case: eqP => // ->.
case: (symmetrize_fct C v) => // f; rewrite e; case: (f g _) => // g1.
have e1 : List.nth_error (set_nth g1 st r g1) r = Some g1 by rewrite (nth_error_set _ _ e) eqxx.
have := ih _ _ e1; case: (run g1 todo) => [g2 [st2 -> h]|-> //].
by exists st2 => // i; rewrite h (nth_error_set _ _ e); case: eqP.
Qed.
End Run.

Section Apply.
Variable C : numFieldType.
Local Notation gf := (gf C).
Local Notation iseven s := (String.eqb s "even").
Local Notation parity := (@parity C).
Definition nf0 := NF None None false None false.
Definition op (p : string * string) : nform :=
  if String.eqb p.1 "frequency" then NF (Some (iseven p.2)) None false None false
  else if String.eqb p.1 "momentum" then NF None (Some (iseven p.2)) (~~ iseven p.2) None false
  else NF None None false (Some (true, iseven p.2)) (~~ iseven p.2).
Definition nf (s0 : nform) (l : seq (string * string)) := foldl (fun s p => comp (op p) s) s0 l.
Local Notation ap g s x := (app ((nfreq g)./2) (dims g) (norb g) s x).
Definition known (v : string) : bool := if symmetrize_fct C v is Some _ then true else false.

Lemma same_refl (g : gf) : same_shape g g. Proof. by []. Qed.
Lemma same_trans (g1 g2 g3 : gf) : same_shape g1 g2 -> same_shape g2 g3 -> same_shape g1 g3.
Proof. by case=> ? ? ? ? ?; case=> *; split; congruence. Qed.
Lemma same_proper n1 n2 n3 (g g' : gf) : same_shape g g' -> proper n1 n2 n3 g -> proper n1 n2 n3 g'.
Proof. by case=> e1 e2 e3 e4 e5; case=> *; split; rewrite -?e1 -?e2 -?e3 -?e4. Qed.
Lemma proper_dims n1 n2 n3 (g : gf) : proper n1 n2 n3 g -> good_dims (dims g).
Proof. by case=> _ _ -> _ /and3P[p1 p2 p3]; rewrite /good_dims /= p1 p2 p3. Qed.
Lemma proper_half n1 n2 n3 (g : gf) : proper n1 n2 n3 g -> nfreq g = ((nfreq g)./2 + (nfreq g)./2)%N.
Proof. by case=> _ /negbTE e _ _ _; rewrite addnn -{1}(odd_double_half (nfreq g)) e. Qed.
Lemma insideP n1 n2 n3 (g : gf) n k a b : proper n1 n2 n3 g ->
  inside g n k a b <-> ins ((nfreq g)./2) (dims g) (norb g) n k a b.
Proof. by move=> pr; rewrite /ins -(proper_half pr). Qed.
Lemma app0 h ds no (x : array C) n k a b : app h ds no nf0 x n k a b = x n k a b.
Proof. by rewrite /app /cm /co /=; do 2 case: eqP => _; rewrite !mul1r. Qed.

Lemma op_step n1 n2 n3 (g : gf) v s : proper n1 n2 n3 g -> known v ->
  exists2 g', obind (fun f => f g (iseven s)) (symmetrize_fct C v) = Some g' &
    same_shape g g' /\ forall n k a b, inside g n k a b -> data g' n k a b = ap g (op (v, s)) (data g) n k a b.
Proof.
move=> pr; have gd := proper_dims pr; have hf := proper_half pr; case: (pr) => fer ev _ np _.
rewrite /known /symmetrize_fct /op /=.
case: (String.eqb v "frequency") => [_|] /=.
  have hf2 : (nfreq g - (nfreq g)./2)%N = (nfreq g)./2 by rewrite {1}hf addnK.
  rewrite /symmetrize_frequency fer /= hf2 eqxx /=; eexists; first by [].
  split=> // n k a b _; rewrite /app /cm /co /= /rf /cf.
  by case: ifP => _; do 2 case: eqP => _; rewrite !(mulr1, mul1r).
case: (String.eqb v "momentum") => [_|] /=.
  rewrite /symmetrize_momentum; eexists; first by [].
  split=> // n k a b [hn hk ha hb]; rewrite /= momentum_valE // /mom_val /app /cm /co /= /rm mul1r.
  case: (eqVneq (inv_idx _ k) k) => [e|ne].
    rewrite e ltnn; do 1 case: (a == b); rewrite mulr1; case: (iseven s); rewrite ?mul1r ?mul0r //.
  by case: ifP => _; case: (a == b); rewrite !mulr1 ?mul1r.
case: (String.eqb v "orbital") => [_|] //=.
rewrite /symmetrize_orbital np /=; eexists; first by [].
split=> // n k a b [hn hk ha hb]; rewrite /= orbital_valE // /orb_val /app /cm /co /= /ro.
case: (inv_idx _ k == k); rewrite mul1r mul1r; case: (eqVneq a b) => [e|ne].
- by rewrite e ltnn; case: (iseven s); rewrite ?mul1r ?mul0r.
- by case: ifP => _; rewrite ?mul1r.
- by rewrite e ltnn; case: (iseven s); rewrite ?mul1r ?mul0r.
- by case: ifP => _; rewrite ?mul1r.
Qed.
Lemma run_app n1 n2 n3 (g : gf) l (s0 : nform) (x : array C) : proper n1 n2 n3 g -> all (fun p => known p.1) l ->
  (forall n k a b, inside g n k a b -> data g n k a b = ap g s0 x n k a b) ->
  exists2 g', run g l = Some g' &
    same_shape g g' /\ forall n k a b, inside g n k a b -> data g' n k a b = ap g (nf s0 l) x n k a b.
Proof.
elim: l g s0 => [|[v s] l ih] g s0 pr /=; first by move=> _ e; exists g.
move=> /andP[kv kl] e; have [g1 e1 [sh d1]] := op_step s pr kv.
have gd := proper_dims pr.
have pr1 := same_proper sh pr; have [e1' e2 e3 e4 e5] := sh.
have [|g2 r2 [sh2 d2]] := ih g1 (comp (op (v, s)) s0) pr1 kl.
  move=> n k a b; rewrite /inside /nk -e2 -e3 -e5 => hi; rewrite d1 //.
  have hi' := (insideP _ _ _ _ pr).1 hi.
  rewrite -compE //; apply: app_eq => // n' k' a' b' hi2; apply: e; exact/(insideP _ _ _ _ pr).
exists g2; last first.
  split; first exact: same_trans sh sh2.
  by move=> n k a b hi; rewrite d2 -?e2 -?e3 -?e5 //; rewrite /inside /nk -e2 -e3 -e5.
by move: e1; case: (symmetrize_fct C v) => //= f ->.
Qed.

(* invariants of the composed normal form *)
Definition valids l := all (fun p : string * string => known p.1 && valid_symmetry p.2) l.
Lemma known_cases v : known v -> [\/ v = "frequency"%string, v = "momentum"%string | v = "orbital"%string].
Proof.
rewrite /known /symmetrize_fct; case: String.eqb_spec => [->|_]; first by constructor 1.
case: String.eqb_spec => [->|_]; first by constructor 2.
by case: String.eqb_spec => [->|_] //; constructor 3.
Qed.
Lemma odd_even s : valid_symmetry s -> String.eqb s "odd" = ~~ iseven s.
Proof.
rewrite /valid_symmetry; case: String.eqb_spec => [->|] //=.
Qed.
Lemma last_rcons v l p : last_request v (rcons l p) = if String.eqb p.1 v then Some p.2 else last_request v l.
Proof. by rewrite /last_request -cats1 foldl_cat. Qed.
Lemma nf_rcons s0 l p : nf s0 (rcons l p) = comp (op p) (nf s0 l).
Proof. by rewrite /nf -cats1 foldl_cat. Qed.
Definition nf_inv (l : seq (string * string)) : Prop :=
  let s := nf nf0 l in let c := odd_orbital_requests l in
  [/\ ff s = omap (fun x => iseven x) (last_request "frequency" l),
      fm s = omap (fun x => iseven x) (last_request "momentum" l),
      mz s = has (fun p => String.eqb p.1 "momentum" && String.eqb p.2 "odd") l,
      oz s = (0 < c)%N &
      match last_request "orbital" l with
      | Some x => exists2 u, fo s = Some (u, ~~ odd c) & ~~ odd c = (u == iseven x) /\ (~~ iseven x -> 0 < c)%N
      | None => fo s = None /\ c = 0%N
      end].
Lemma nf_invP l : valids l -> nf_inv l.
Proof.
elim/last_ind: l => [|l [v s] ih]; first by [].
rewrite /valids all_rcons /= => /andP[/andP[kv vs] /ih [i1 i2 i3 i4 i5]]; rewrite /nf_inv nf_rcons !last_rcons has_rcons /=.
have -> : odd_orbital_requests (rcons l (v, s)) = (odd_orbital_requests l + (String.eqb v "orbital" && String.eqb s "odd"))%N.
  by rewrite /odd_orbital_requests -cats1 count_cat /= addn0.
case: (known_cases kv) => -> /=; rewrite ?addn0 ?i3 ?i4 //.
- by split=> //=; rewrite odd_even.
split=> //=.
  by rewrite odd_even //; case: (iseven s) => //=; rewrite ?addn0 ?addn1.
rewrite odd_even //; move: i5; case: (last_request "orbital" l) => [x [u -> [h1 h2]]|[-> ->]] /=.
  exists (true == ~~ odd (odd_orbital_requests l)).
    by congr (Some (_, _)); case: (iseven s); rewrite ?addn0 ?addn1 //=; case: (odd _).
  split; last by case: (iseven s) => //=; rewrite addn1.
  by case: (iseven s); rewrite ?addn0 ?addn1 /=; case: (odd _).
by exists true; case: (iseven s).
Qed.
End Apply.

(* check_symmetry: the signs collected by a loop *)
Section Check.
Variable C : numFieldType.
Local Notation gf := (gf C).
Local Notation array := (array C).
Local Notation parity := (@parity C).
Variables (rtol atol0 : C).
Lemma allclose3P d1 d2 d3 atol (x y : nat -> nat -> nat -> C) :
  reflect (forall i j l, (i < d1)%N -> (j < d2)%N -> (l < d3)%N -> close rtol atol (x i j l) (y i j l))
          (allclose3 rtol d1 d2 d3 atol x y).
Proof.
apply: (iffP allP) => [h i j l hi hj hl|h i].
  have m d t : (t < d)%N -> t \in iota 0 d by rewrite mem_iota.
  by have /allP /(_ _ (m _ _ hj)) /allP /(_ _ (m _ _ hl)) := h _ (m _ _ hi).
rewrite mem_iota /= add0n => hi; apply/allP => j; rewrite mem_iota /= add0n => hj; apply/allP => l.
by rewrite mem_iota /= add0n => hl; apply: h.
Qed.
Lemma allclose2P d1 d2 atol (x y : nat -> nat -> C) :
  reflect (forall i j, (i < d1)%N -> (j < d2)%N -> close rtol atol (x i j) (y i j)) (allclose2 rtol d1 d2 atol x y).
Proof.
apply: (iffP allP) => [h i j hi hj|h i].
  have m d t : (t < d)%N -> t \in iota 0 d by rewrite mem_iota.
  by have /allP /(_ _ (m _ _ hj)) := h _ (m _ _ hi).
by rewrite mem_iota /= add0n => hi; apply/allP => j; rewrite mem_iota /= add0n; apply: h.
Qed.
Lemma overallP s e : overall_sign s = Some e <-> (0 < size s)%N /\ all (eq_op^~ e) s.
Proof.
rewrite /overall_sign; split.
  case u: (undup s) => [|x [|? ?]] // [<-]; split; first by case: s u.
  by apply/allP => y; rewrite -mem_undup u inE.
case: s => [[]//|x s [_ h]]; have {h}/(all_pred1P e) -> : all (pred1 e) (x :: s) by [].
have u n : undup (nseq n.+1 e) = [:: e] by elim: n => //= n; rewrite inE eqxx.
by rewrite [size _]/= u.
Qed.
(* one visited pair contributes signs, or ends the loop *)
Definition step_of T (c : T -> option (seq bool)) (acc : option (seq bool)) (x : T) : option (seq bool) :=
  if acc is Some s then omap (cat s) (c x) else None.
Lemma foldl_none T (c : T -> option (seq bool)) l : foldl (step_of c) None l = None.
Proof. by elim: l. Qed.
Lemma foldl_step T (c : T -> option (seq bool)) s l :
  foldl (step_of c) (Some s) l =
  if all (fun x => c x != None) l then Some (s ++ flatten [seq odflt [::] (c x) | x <- l]) else None.
Proof.
elim: l s => [|x l ih] s /=; first by rewrite cats0.
by case: (c x) => [t|] /=; [rewrite ih catA | rewrite foldl_none].
Qed.
Lemma eq_foldl T S (f g : S -> T -> S) : (forall s x, f s x = g s x) -> forall s l, foldl f s l = foldl g s l.
Proof. by move=> e s l; elim: l s => //= x l ih s; rewrite e ih. Qed.
Definition contrib_m (g : gf) atol idx : option (seq bool) :=
  let inv := inv_idx (dims g) idx in
  let pos n a b := data g n idx a b in
  let neg n a b := data g n inv a b in
  let ac := allclose3 rtol (nfreq g) (norb g) (norb g) in
  if ac atol pos (fun _ _ _ => 0) && ac atol neg (fun _ _ _ => 0) then Some [::] else
  if idx == inv then (if ~~ ac atol0 (fun _ _ _ => 0) pos then Some [:: true] else Some [::]) else
  if ac atol pos neg then Some [:: true]
  else if ac atol (fun n a b => -1 * pos n a b) neg then Some [:: false] else None.
Lemma check_mE (g : gf) atol : check_momentum_symmetry rtol atol0 g atol =
  if all (fun i => contrib_m g atol i != None) (iota 0 (nk g))
  then overall_sign (flatten [seq odflt [::] (contrib_m g atol i) | i <- iota 0 (nk g)]) else None.
Proof.
rewrite /check_momentum_symmetry (eq_foldl (g := step_of (contrib_m g atol))).
  by rewrite foldl_step; case: ifP.
move=> [s|] i //; rewrite /check_momentum_step /step_of /contrib_m.
by repeat case: ifP => //= _; rewrite ?cats0 ?cats1.
Qed.
Definition contrib_o (g : gf) atol (ul : (nat * nat) * (nat * nat)) : option (seq bool) :=
  let up n k := data g n k ul.1.1 ul.1.2 in
  let low n k := data g n k ul.2.1 ul.2.2 in
  if allclose2 rtol (nfreq g) (nk g) atol up low then Some [:: true]
  else if allclose2 rtol (nfreq g) (nk g) atol up (fun n k => -1 * low n k) then Some [:: false] else None.
Definition diag_big (g : gf) atol o := ~~ allclose2 rtol (nfreq g) (nk g) atol (fun n k => data g n k o o) (fun _ _ => 0).
Lemma check_oE (g : gf) atol : nparticle g = 2%N -> check_orbital_symmetry rtol g atol =
  Some (if all (fun i => contrib_o g atol i != None) (zip (triu (norb g)) (tril (norb g)))
  then overall_sign (flatten [seq odflt [::] (contrib_o g atol i) | i <- zip (triu (norb g)) (tril (norb g))] ++
                     nseq (count (diag_big g atol) (iota 0 (norb g))) true) else None).
Proof.
move=> np; rewrite /check_orbital_symmetry np /= (eq_foldl (g := step_of (contrib_o g atol))).
  by rewrite foldl_step; case: ifP.
move=> [s|] i //; rewrite /check_triangle_step /step_of /contrib_o.
by repeat case: ifP => //= _; rewrite ?cats0 ?cats1.
Qed.
Lemma zip_mate no p : p \in zip (triu no) (tril no) -> p.1 \in triu no /\ p.2 = mate no p.1.
Proof.
have sz := size_triangles no; move=> /(nthP ((0, 0), (0, 0))%N) [i]; rewrite size_zip sz minnn => hi <-.
rewrite nth_zip //=; split; first by apply: mem_nth; rewrite sz.
by rewrite /mate index_uniq ?uniq_triu ?sz //; apply: set_nth_default.
Qed.
Lemma mate_zip no u : u \in triu no -> (u, mate no u) \in zip (triu no) (tril no).
Proof.
have sz := size_triangles no; move=> hu; apply/(nthP ((0, 0), (0, 0))%N); exists (index u (triu no)).
  by rewrite size_zip sz minnn -sz index_mem.
rewrite nth_zip // nth_index //; congr (_, _); rewrite /mate; apply: set_nth_default.
by rewrite -sz index_mem.
Qed.
Lemma mate_inj no u v : u \in triu no -> v \in triu no -> mate no u = mate no v -> u = v.
Proof.
move=> hu hv; have sz := size_triangles no; rewrite /mate (set_nth_default v) -?sz ?index_mem //.
move=> /eqP; rewrite nth_uniq ?uniq_tril -?sz ?index_mem // => /eqP e.
by rewrite -(nth_index v hu) e nth_index.
Qed.
End Check.
