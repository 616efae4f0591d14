(* C46, C47, C72, C73: block assembly and frequency conventions. *)
From mathcomp Require Import all_ssreflect all_algebra.
From mathcomp Require Import zify.
From Verif Require Import FreqConvModel Fring.
Set Implicit Arguments.
Unset Strict Implicit.
Unset Printing Implicit Defensive.
Import GRing.Theory Num.Theory.
Local Open Scope ring_scope.

Section Assembly.
Variable C : numClosedFieldType.
Implicit Types (bg : seq (block C)).
Local Notation b0 := (0%N, fun _ _ : nat => 0 : C).
(* specification: the first row of block b *)
Definition offset bg (b : nat) : nat := \sum_(c < b) (nth b0 bg c).1.
Lemma offset_cons x bg b : offset (x :: bg) b.+1 = (x.1 + offset bg b)%N.
Proof. by rewrite /offset big_ord_recl. Qed.
Lemma total_size bg n : foldl (fun n (b : block C) => (n + b.1)%N) n bg = (n + offset bg (size bg))%N.
Proof. by elim: bg n => [|x bg ih] n /=; [rewrite /offset big_ord0 addn0 | rewrite ih offset_cons addnA]. Qed.
Lemma place_before bg (s : nat * (nat -> nat -> C)) i j : (i < s.1)%N || (j < s.1)%N -> (foldl (@place C) s bg).2 i j = s.2 i j.
Proof.
elim: bg s => [|x bg ih] s h //=; rewrite ih /=; last by case/orP: h => h; apply/orP; [left|right]; lia.
by rewrite /assign_range; case: ifP => // /andP[]; case/orP: h; lia.
Qed.
Lemma place_at bg (s : nat * (nat -> nat -> C)) b b' i j : (b < size bg)%N -> (b' < size bg)%N -> (i < (nth b0 bg b).1)%N -> (j < (nth b0 bg b').1)%N ->
  (forall i j, (s.1 <= i)%N || (s.1 <= j)%N -> s.2 i j = 0) ->
  (foldl (@place C) s bg).2 (s.1 + offset bg b + i)%N (s.1 + offset bg b' + j)%N = if b == b' then (nth b0 bg b).2 i j else 0.
Proof.
elim: bg s b b' => [|x bg ih] s b b' //= hb hb' hi hj hs.
have hs' i' j' : ((s.1 + x.1)%N <= i')%N || ((s.1 + x.1)%N <= j')%N -> assign_range s.2 s.1 x i' j' = 0.
  move=> h; rewrite /assign_range; case: ifP => [/andP[]|_]; first by case/orP: h; lia.
  by apply: hs; case/orP: h => h; apply/orP; [left|right]; lia.
case: b hb hi => [|b] hb hi; case: b' hb' hj => [|b'] hb' hj; rewrite /= in hi hj *; rewrite ?offset_cons.
- rewrite place_before /=; last by rewrite /offset big_ord0; apply/orP; left; lia.
  by rewrite /offset big_ord0 /assign_range ifT; [congr (x.2 _ _); lia | apply/andP; split; apply/andP; split; lia].
- rewrite place_before /=; last by rewrite /offset big_ord0; apply/orP; left; lia.
  by rewrite /assign_range ifF; [apply: hs; apply/orP; left; rewrite /offset big_ord0; lia | apply/negbTE/negP => /andP[_]; lia].
- rewrite place_before /=; last by rewrite /offset big_ord0; apply/orP; right; lia.
  by rewrite /assign_range ifF; [apply: hs; apply/orP; left; lia | apply/negbTE/negP => /andP[]; lia].
rewrite eqSS -(ih (place s x) b b') // /=; congr ((foldl _ _ _).2 _ _); lia.
Qed.
Lemma locate bg r : (r < offset bg (size bg))%N -> exists b i, [/\ (b < size bg)%N, (i < (nth b0 bg b).1)%N & r = (offset bg b + i)%N].
Proof.
elim: bg r => [|x bg ih] r /=; first by rewrite /offset big_ord0.
rewrite offset_cons => h; case: (ltnP r x.1) => hr; first by exists 0%N, r; rewrite /offset big_ord0.
have [|b [i [hb hi e]]] := ih (r - x.1)%N; first by lia.
by exists b.+1, i; rewrite offset_cons /=; split=> //; lia.
Qed.
Lemma offset_le bg b b' : (b <= b')%N -> (offset bg b <= offset bg b')%N.
Proof.
move=> h; rewrite /offset -(subnKC h) big_split_ord /= addnC.
by rewrite leq_addl.
Qed.
Lemma offset_S bg b : offset bg b.+1 = (offset bg b + (nth b0 bg b).1)%N.
Proof. by rewrite /offset big_ord_recr. Qed.
(* C47: every block stands on the diagonal at its offset, everything else vanishes; *)
Theorem C47_block_diagonal bg b b' i j : (b < size bg)%N -> (b' < size bg)%N -> (i < (nth b0 bg b).1)%N -> (j < (nth b0 bg b').1)%N ->
  exists g, block_iw_AB_to_matrix_valued bg = Some (offset bg (size bg), g) /\
    g (offset bg b + i)%N (offset bg b' + j)%N = if b == b' then (nth b0 bg b).2 i j else 0.
Proof.
move=> hb hb' hi hj.
exists (foldl (@place C) (0%N, fun _ _ => 0) bg).2; split; last by rewrite -(place_at (s := (0%N, fun _ _ => 0)) hb hb' hi hj).
by rewrite /block_iw_AB_to_matrix_valued total_size add0n; case: (bg) hb.
Qed.
(* ... every row belongs to exactly one block. *)
Theorem C47_rows bg r : (r < offset bg (size bg))%N -> exists b i, [/\ (b < size bg)%N, (i < (nth b0 bg b).1)%N & r = (offset bg b + i)%N] /\
  forall b' i', (i' < (nth b0 bg b').1)%N -> r = (offset bg b' + i')%N -> b' = b /\ i' = i.
Proof.
move=> /locate[b [i [hb hi e]]]; exists b, i; split=> // b' i' hi' e'; rewrite e in e'.
have hbb : b' = b.
  by case: (ltngtP b b') => // /offset_le h; have := h bg; rewrite offset_S; move: e' hi hi'; clear; lia.
by split=> //; move: e'; rewrite hbb; lia.
Qed.
Example C47_case : let bg := [:: (2%N, fun i j => (i + 10 * j)%:R); (1%N, fun _ _ => 7%:R)] : seq (block C) in
  exists g, block_iw_AB_to_matrix_valued bg = Some (3%N, g) /\ g 1%N 0%N = 1 /\ g 2%N 2%N = 7%:R /\ g 0%N 2%N = 0.
Proof. by eexists; split; first by []. Qed.
End Assembly.
Print Assumptions C47_block_diagonal.
Print Assumptions C47_rows.

Section Crossing.
Variable C : numClosedFieldType.
Add Ring Cring : (fld_rt C).
Variables (mesh : pred point) (outside : point -> comp -> C).
Local Notation store := (store C).
Definition below (nb : nat) (i : comp) : bool := let: (a, b, c, d) := i in [&& a < nb, b < nb, c < nb & d < nb]%N.
(* an evaluation order: all mesh points and components, each once *)
Definition evaluation_order (nb : nat) (order : seq cell) : Prop :=
  uniq order /\ forall c : cell, (c \in order) = mesh c.1 && below nb c.2.
Lemma clef_simple (order : seq cell) (f : cell -> C) (s : store) c : clef order (fun _ c => f c) s c = if c \in order then f c else s c.
Proof.
elim: order s => [|x r ih] s //=; rewrite /clef /= -/(clef r (fun _ c => f c) _) ih inE /write.
by case: (boolP (c \in r)); rewrite ?orbT // orbF; case: eqP => [->|].
Qed.
(* in-place assignment whose right-hand side sees the same in all intermediate stores *)
Lemma clef_inplace (order : seq cell) (rhs : store -> cell -> C) (F : cell -> C) (s0 s : store) : uniq order ->
  (forall s', (forall c, s' c = s0 c \/ s' c = F c) -> forall c, s' c = s0 c -> rhs s' c = F c) ->
  (forall c, s c = s0 c \/ s c = F c) -> (forall c, c \in order -> s c = s0 c) ->
  forall c, clef order rhs s c = if c \in order then F c else s c.
Proof.
move=> + hr; elim: order s => [|x r ih] s //= /andP[xr ur] hs ho c.
have hx : rhs s x = F x by apply: hr => //; apply: ho; rewrite inE eqxx.
rewrite /clef /= -/(clef r rhs _) ih //.
- by rewrite inE /write; case: (boolP (c \in r)); rewrite ?orbT // orbF; case: eqP => [->|].
- by move=> c'; rewrite /write; case: eqP => [->|_]; [right | apply: hs].
by move=> c' h; rewrite /write; case: eqP => [e|_]; [move: xr; rewrite -e h | apply: ho; rewrite inE h orbT].
Qed.
Lemma eq_kron {T : eqType} (x y : T) : kron C x y = kron C y x.
Proof. by rewrite /kron eq_sym. Qed.
(* C46: whatever the order of evaluation and the previous contents, on the mesh the components (a a c c) are the given ones, the components
   (a c c a) with a <> c are minus the (a a c c) components at the exchanged frequency, and all others vanish. *)
Lemma AABB_final nb order1 order2 (bg2 : nat -> nat -> point -> C) g2 n1 n2 n3 a b c d :
  evaluation_order nb order1 -> evaluation_order nb order2 -> mesh (n1, n2, n3) -> below nb (a, b, c, d) ->
  block_3nu_AABB_to_tensor_valued mesh outside order1 order2 bg2 g2 ((n1, n2, n3), (a, b, c, d)) =
    kron C a b * kron C c d * bg2 a c (n1, n2, n3) +
    kron C a d * kron C b c * (1 - kron C a c) *
      - (if mesh (n1, n1 - n2 + n3, n3) then bg2 a c (n1, n1 - n2 + n3, n3) else outside (n1, n1 - n2 + n3, n3) (a, a, c, c)).
Proof.
move=> [u1 m1] [u2 m2] hm hb; rewrite /block_3nu_AABB_to_tensor_valued.
set s1 := clef order1 _ _.
have s1E x : s1 x = if x \in order1 then rhs_AABB bg2 g2 x else g2 x * 0 by exact: (clef_simple order1 (rhs_AABB bg2 g2) _ x).
rewrite (clef_inplace (F := rhs_ABBA mesh outside s1) (s0 := s1)) //; last 2 first.
- move=> s' hs' [[[n1' n2'] n3'] [[[a' b'] c'] d']] e; rewrite /rhs_ABBA e; congr (_ + _).
  rewrite /kron; case: (a' =P d') => [<-|]; last by rewrite !mul0r.
  case: (b' =P c') => [->|]; last by rewrite mulr0 !mul0r.
  case: (a' =P c') => [_|n]; first by rewrite subrr mulr0 !mul0r.
  congr (_ * - _); rewrite /read; case: ifP => // _.
  have [->//|->] := hs' (n1', n1' - n2' + n3', n3', (a', a', c', c')).
  rewrite /rhs_ABBA /kron; case: eqP => // _; rewrite ?mul0r ?addr0 //.
- by move=> x; left.
have h12 : ((n1, n2, n3), (a, b, c, d)) \in order1 /\ ((n1, n2, n3), (a, b, c, d)) \in order2.
  by rewrite m1 m2 hm hb.
rewrite h12.2 /rhs_ABBA s1E h12.1; congr (_ + _).
rewrite /kron; case: (a =P d) hb => [<-|_ _]; last by rewrite !mul0r.
case: (b =P c) => [->|_ _]; last by rewrite mulr0 !mul0r.
case: (a =P c) => [_ _|n /and4P[ha hc _ _]]; first by rewrite subrr mulr0 !mul0r.
congr (_ * - _); rewrite /read; case: ifP => // hm'.
by rewrite s1E m1 /= hm' ha hc /= /kron !eqxx !mul1r.
Qed.
Variables (nb : nat) (order1 order2 : seq cell) (bg2 : nat -> nat -> point -> C) (g2 : store).
Hypotheses (ho1 : evaluation_order nb order1) (ho2 : evaluation_order nb order2).
Local Notation result := (block_3nu_AABB_to_tensor_valued mesh outside order1 order2 bg2 g2).
Theorem C46_AABB p a c : mesh p -> (a < nb)%N -> (c < nb)%N -> result (p, (a, a, c, c)) = bg2 a c p.
Proof.
case: p => [[n1 n2] n3] hm ha hc; rewrite (AABB_final (nb := nb)) //= ?ha ?hc // /kron !eqxx !mul1r.
by case: eqP => [->|_]; rewrite ?eqxx ?subrr ?mulr0 !mul0r addr0.
Qed.
Theorem C46_ABBA n1 n2 n3 a c : a != c -> mesh (n1, n2, n3) -> mesh (n1, n1 - n2 + n3, n3) -> (a < nb)%N -> (c < nb)%N ->
  result ((n1, n2, n3), (a, c, c, a)) = - bg2 a c (n1, n1 - n2 + n3, n3).
Proof.
move=> n hm hm' ha hc; rewrite (AABB_final (nb := nb)) //= ?ha ?hc // hm' /kron !eqxx (negbTE n) (eq_sym c a) (negbTE n).
by rewrite !mul0r add0r subr0 !mul1r.
Qed.
Theorem C46_other p a b c d : mesh p -> below nb (a, b, c, d) -> ~~ ((a == b) && (c == d)) -> ~~ ((a == d) && (b == c)) ->
  result (p, (a, b, c, d)) = 0.
Proof.
case: p => [[n1 n2] n3] hm hb /negbTE h1 /negbTE h2; rewrite (AABB_final (nb := nb)) // /kron.
by rewrite -!natrM !mulnb h1 h2 !mul0r addr0.
Qed.
(* the crossing symmetry, G_abcd(n1,n2,n3) = - G_adcb(n1, n1-n2+n3, n3), of all components but a = b = c = d *)
Theorem C46_crossing_partial n1 n2 n3 a b c d : mesh (n1, n2, n3) -> mesh (n1, n1 - n2 + n3, n3) -> below nb (a, b, c, d) ->
  ~~ [&& a == b, b == c & c == d] -> result ((n1, n2, n3), (a, b, c, d)) = - result ((n1, n1 - n2 + n3, n3), (a, d, c, b)).
Proof.
move=> hm hm' hb hn; have hb' : below nb (a, d, c, b) by move: hb => /= /and4P[-> -> -> ->].
rewrite !(AABB_final (nb := nb)) // hm'.
have -> : n1 - (n1 - n2 + n3) + n3 = n2 by lia.
rewrite hm (eq_kron d c) (eq_kron c b).
have k1 : kron C a b * kron C c d * kron C a c = 0.
  by rewrite /kron -!natrM !mulnb; move: hn; case: (a =P b) => [<-|] //=; case: (c =P d) => [_|] //=; rewrite ?andbT; case: eqP.
have k2 : kron C a d * kron C b c * kron C a c = 0.
  by rewrite /kron -!natrM !mulnb; move: hn; case: (a =P d) => [<-|] //=; case: (b =P c) => [<-|] //=; rewrite (eq_sym b a) ?andbT ?andbb; case: eqP.
rewrite !mulrBr !mulr1 k1 k2 !subr0; fring C.
Qed.
(* ... and of all components when the given diagonal blocks have it *)
Theorem C46_crossing n1 n2 n3 a b c d : mesh (n1, n2, n3) -> mesh (n1, n1 - n2 + n3, n3) -> below nb (a, b, c, d) ->
  (forall e m1 m2 m3, mesh (m1, m2, m3) -> mesh (m1, m1 - m2 + m3, m3) -> bg2 e e (m1, m2, m3) = - bg2 e e (m1, m1 - m2 + m3, m3)) ->
  result ((n1, n2, n3), (a, b, c, d)) = - result ((n1, n1 - n2 + n3, n3), (a, d, c, b)).
Proof.
move=> hm hm' hb hc; case: (boolP [&& a == b, b == c & c == d]) => [|h]; last exact: C46_crossing_partial.
by case/and3P=> /eqP<- /eqP e /eqP e'; move: hb; rewrite -e' -e => /= /and4P[ha _ _ _]; rewrite !C46_AABB // hc.
Qed.
(* the magnetic component of the assembled function of two spins is the correlation function of S_z, sum_ss' (-1)^s (-1)^s' G_sss's' / 2, when the two
   spins are equivalent, *)
Theorem C46_magnetic p : (1 < nb)%N -> mesh p -> bg2 1 1 p = bg2 0 0 p -> bg2 1 0 p = bg2 0 1 p ->
  get_magnetic_component (fun p i => result (p, i)) p = (\sum_(s < 2) \sum_(t < 2) (-1) ^+ s * (-1) ^+ t * result (p, (s : nat, s : nat, t : nat, t : nat))) / 2%:R.
Proof.
move=> hn hm h1 h2; have h0 : (0 < nb)%N by exact: ltnW.
rewrite !big_ord_recl !big_ord0 /= !addr0 /bump /= !addn0 !expr0 !expr1 mulrNN !mul1r mulr1 !mulN1r /get_magnetic_component !C46_AABB // h1 h2.
set x := bg2 0 0 p; set y := bg2 0 1 p.
rewrite [- y + x]addrC -mulr2n -mulr_natr mulfK // pnatr_eq0 //.
Qed.
(* and the exchange component -- the correlation function of S_+ and S_- -- when the blocks do not depend on the direction of the spin *)
Theorem C46_transverse n1 n2 n3 : (1 < nb)%N -> mesh (n1, n2, n3) -> mesh (n1, n1 - n2 + n3, n3) ->
  bg2 0 0 (n1, n2, n3) = bg2 0 1 (n1, n2, n3) - bg2 0 1 (n1, n1 - n2 + n3, n3) ->
  get_magnetic_component (fun p i => result (p, i)) (n1, n2, n3) = result ((n1, n2, n3), (0, 1, 1, 0)%N).
Proof.
move=> hn hm hm' h; have h0 : (0 < nb)%N by exact: ltnW.
by rewrite /get_magnetic_component !C46_AABB // C46_ABBA // h addrAC subrr add0r.
Qed.
End Crossing.
Print Assumptions C46_magnetic.
Print Assumptions C46_transverse.
Print Assumptions C46_crossing.
Print Assumptions C46_other.
Print Assumptions C46_ABBA.

(* evaluation orders exist: any enumeration of the mesh *)
Section Order.
Variable C : numClosedFieldType.
Definition comps (nb : nat) : seq comp :=
  [seq (x, d) | x <- [seq (y, c) | y <- [seq (a, b) | a <- iota 0 nb, b <- iota 0 nb], c <- iota 0 nb], d <- iota 0 nb].
Lemma order_exists (pts : seq point) nb : uniq pts -> evaluation_order (mem pts) nb [seq (p, i) | p <- pts, i <- comps nb].
Proof.
move=> up; have uc : uniq (comps nb) by do !apply: allpairs_uniq; rewrite ?iota_uniq // => -[? ?] [? ?] _ _ [-> ->].
split; first by apply: allpairs_uniq => // -[? ?] [? ?] _ _ [-> ->].
move=> [p [[[a b] c] d]] /=; apply/allpairsP/andP => [[[p' i] /= [hp hi [-> e]]]|[hp h]].
  split=> //; move: hi; rewrite -e => /allpairsP[[x d'] /= [/allpairsP[[y c'] /= [/allpairsP[[a' b'] /= [h1 h2 ->]] h3 ->]] h4 [-> -> -> ->]]].
  by move: h1 h2 h3 h4; rewrite !mem_iota /= !add0n => -> -> -> ->.
case/and4P: h => ha hb hc hd.
exists (p, (a, b, c, d)); split=> //=; apply/allpairsP; exists (a, b, c, d); rewrite /= mem_iota hd; split=> //.
apply/allpairsP; exists (a, b, c); rewrite /= mem_iota hc; split=> //.
by apply/allpairsP; exists (a, b); rewrite /= !mem_iota ha hb.
Qed.
(* two blocks on a mesh closed under the exchange *)
Example C46_case (outside : point -> comp -> C) (g2 : store C) :
  let pts := [:: (0, 0, 1); (0, 1, 1)] : seq point in
  let o := [seq (p, i) | p <- pts, i <- comps 2] in
  let bg2 := fun (a c : nat) (p : point) => if p == (0, 0, 1) then 5%:R else 3%:R : C in
  let r := block_3nu_AABB_to_tensor_valued (mem pts) outside o o bg2 g2 in
  r ((0, 0, 1), (0, 0, 1, 1)%N) = 5%:R /\ r ((0, 0, 1), (0, 1, 1, 0)%N) = - 3%:R /\ r ((0, 1, 1), (1, 0, 0, 1)%N) = - 5%:R.
Proof.
move=> pts o bg2 r; have ho : evaluation_order (mem pts) 2 o by apply: order_exists.
by split; [rewrite /r (C46_AABB _ _ _ ho ho) | split; rewrite /r (C46_ABBA _ _ _ ho ho)].
Qed.
(* equivalent spins whose blocks do not depend on the direction: 2 = 5 - 3 *)
Theorem C46_magnetic_case (outside : point -> comp -> C) (g2 : store C) :
  let pts := [:: (0, 0, 1); (0, 1, 1)] : seq point in
  let o := [seq (p, i) | p <- pts, i <- comps 2] in
  let bg2 := fun (a c : nat) (p : point) => if a == c then (if p == (0, 0, 1) then 2%:R else - 2%:R) else if p == (0, 0, 1) then 5%:R else 3%:R : C in
  let r := block_3nu_AABB_to_tensor_valued (mem pts) outside o o bg2 g2 in
  let m := get_magnetic_component (fun p i => r (p, i)) (0, 0, 1) in
  m = - 3%:R /\ m = r ((0, 0, 1), (0, 1, 1, 0)%N).
Proof.
move=> pts o bg2 r m; have ho : evaluation_order (mem pts) 2 o by apply: order_exists.
have e : m = r ((0, 0, 1), (0, 1, 1, 0)%N).
  by apply: (C46_transverse outside g2 ho ho) => //=; apply/eqP; rewrite eq_sym subr_eq -natrD.
by split=> //; rewrite e /r (C46_ABBA _ _ _ ho ho).
Qed.
End Order.

Section Channels.
Variable C : numClosedFieldType.
Add Ring Cring2 : (fld_rt C).
Implicit Types (w n np : int) (g : int -> nat -> nat -> C).
(* documented parametrizations (doc/theory/vertex.rst lines 92-130) in the integers of the Matsubara frequencies: the frequencies nu1, nu2, nu3, nu4 *)
Inductive channel := PH | PHbar | PP | PPx.
Definition documented (ch : channel) w n np : int * int * int * int :=
  match ch with
  | PH => (n, n + w, np + w, np)
  | PHbar => (n, np, np + w, n + w)
  | PP => (n, np, w - n - 1, w - np - 1)
  | PPx => (n, w - np - 1, w - n - 1, np)
  end.
(* all documented parametrizations conserve the frequency *)
Lemma documented_conserves ch w n np : let: (n1, n2, n3, n4) := documented ch w n np in n1 + n3 = n2 + n4.
Proof. by case: ch => /=; lia. Qed.
(* a channel function f reads g2 at the documented frequencies *)
Definition follows ch (f : (point -> comp -> C) -> int -> int -> int -> comp -> C) : Prop :=
  forall (g2 : point -> comp -> C) w n np i, f g2 w n np i = let: (n1, n2, n3, _) := documented ch w n np in g2 (n1, n2, n3) i.
(* C72: the two particle-hole channels read the documented frequencies and lose nothing: the three-frequency function is recovered; for a crossing
   symmetric function they are minus each other with the creation operators exchanged. *)
Theorem C72_PH : follows PH (@from_3nu_PH C) /\ forall (g2 : point -> comp -> C) n1 n2 n3, from_3nu_PH g2 (n2 - n1) n1 (n1 - n2 + n3) = g2 (n1, n2, n3).
Proof. by split=> // g2 n1 n2 n3; rewrite /from_3nu_PH; congr (g2 (_, _, _)); lia. Qed.
Theorem C72_PHbar : follows PHbar (@from_3nu_PH_bar C) /\ forall (g2 : point -> comp -> C) n1 n2 n3, from_3nu_PH_bar g2 (n3 - n2) n1 n2 = g2 (n1, n2, n3).
Proof. by split=> // g2 n1 n2 n3; rewrite /from_3nu_PH_bar; congr (g2 (_, _, _)); lia. Qed.
Theorem C72_crossing (g2 : point -> comp -> C) :
  (forall n1 n2 n3 a b c d, g2 (n1, n2, n3) (a, b, c, d) = - g2 (n1, n1 - n2 + n3, n3) (a, d, c, b)) ->
  forall w n np a b c d, from_3nu_PH g2 w n np (a, b, c, d) = - from_3nu_PH_bar g2 w n np (a, d, c, b).
Proof. by move=> h w n np a b c d; rewrite /from_3nu_PH h; congr (- g2 (_, _, _) _); lia. Qed.
(* The particle-particle channel is not any of the documented ones; it agrees with the documented one exactly at equal fermionic frequencies. *)
Theorem C72_PP_refuted : forall ch, ~ follows ch (@from_3nu_PP C).
Proof.
move=> ch /(_ (fun p _ => (p == (1, 0, -1))%:R) 0 1 0 (0, 0, 0, 0)%N) /=.
by case: ch => /= /eqP; rewrite /from_3nu_PP ?oner_eq0 // eq_sym ?oner_eq0.
Qed.
Theorem C72_PP_partial w n np : (forall (g2 : point -> comp -> C) i, from_3nu_PP g2 w n np i = let: (n1, n2, n3, _) := documented PP w n np in g2 (n1, n2, n3) i) <-> n = np.
Proof.
split=> [h|-> //]; have /eqP := h (fun p _ => (p == (n, np, w - np - 1))%:R) (0, 0, 0, 0)%N.
rewrite /from_3nu_PP /= eqxx; case: (_ =P (n, np, w - np - 1)) => [/(congr1 snd) /= e _|_]; first by lia.
by rewrite oner_eq0.
Qed.
(* specification: the two-particle function of uncorrelated particles, G2_abcd(nu1, nu2, nu3, nu4) = beta delta(nu1, nu2) G_ba(nu1) G_dc(nu3) -
   beta delta(nu1, nu4) G_da(nu1) G_bc(nu3): the disconnected components of doc/theory/notation.rst lines 40-46 with the frequency conservation of line 212 *)
Definition uncorrelated (beta : C) g (p : point) (i : comp) : C :=
  let: (n1, n2, n3) := p in let: (a, b, c, d) := i in
  beta * (n1 == n2)%:R * g n1 b a * g n3 d c - beta * (n1 == n1 - n2 + n3)%:R * g n1 d a * g n3 b c.
Example C72_case beta g n1 n2 n3 a b c d : uncorrelated beta g (n1, n2, n3) (a, b, c, d) = - uncorrelated beta g (n1, n1 - n2 + n3, n3) (a, d, c, b).
Proof.
rewrite /uncorrelated; have -> : n1 - (n1 - n2 + n3) + n3 = n2 by lia.
by rewrite opprB.
Qed.
(* C73: the susceptibility of uncorrelated particles is the bare one. *)
Theorem C73_PH beta g w n np i : chi_PH beta g (from_3nu_PH (uncorrelated beta g)) w n np i = chi0_PH beta g w n np i.
Proof.
case: i => [[[a b] c] d]; rewrite /chi_PH /chi0_PH /from_3nu_PH /uncorrelated /kron.
have -> : (n == n + w) = (w == 0) by apply/eqP/eqP; lia.
have -> : (n == n - (n + w) + (np + w)) = (n == np) by apply/eqP/eqP; lia.
case: (w =P 0) => [->|_]; case: (n =P np) => [->|_]; rewrite /= ?mulr1n ?mulr0n ?addr0; fring C.
Qed.
(* the particle-particle susceptibility is the bare one for the function in the crossed parametrization ... *)
Theorem C73_PP_partial beta g (g2 : int -> int -> int -> comp -> C) w n np i :
  (forall w n np i, g2 w n np i = let: (n1, n2, n3, _) := documented PPx w n np in uncorrelated beta g (n1, n2, n3) i) ->
  chi_PP beta g g2 w n np i = chi0_PP beta g w n np i.
Proof.
move=> h; case: i => [[[a b] c] d]; rewrite /chi_PP /chi0_PP h /= /kron.
have -> : (n == w - np - 1) = (n + np + 1 == w) by apply/eqP/eqP; lia.
have -> : (n == n - (w - np - 1) + (w - n - 1)) = (n == np) by apply/eqP/eqP; lia.
case: (_ =P w) => [e|_]; last by case: (n =P np) => [<-|_]; rewrite /= ?mulr1n ?mulr0n; fring C.
have -> : w - n - 1 = np by lia.
by case: (n =P np) => [<-|_]; rewrite /= ?mulr1n ?mulr0n; fring C.
Qed.
(* ... but not for the one that from_3nu_PP or the documented PP parametrization gives: *)
Theorem C73_PP_refuted : exists beta g w n np i,
  chi_PP beta g (from_3nu_PP (uncorrelated beta g)) w n np i <> chi0_PP beta g w n np i /\
  chi_PP beta g (fun w n np i => let: (n1, n2, n3, _) := documented PP w n np in uncorrelated beta g (n1, n2, n3) i) w n np i <> chi0_PP beta g w n np i.
Proof.
exists 1, (fun _ a b => (a == b)%:R), 0, 0, 0, (0, 0, 1, 1)%N.
rewrite /chi_PP /chi0_PP /from_3nu_PP /uncorrelated /documented /kron /=.
by rewrite !mulr1 !mul1r !mulr0 !subr0; split; apply/eqP; rewrite oner_eq0.
Qed.
End Channels.
Print Assumptions C72_PP_partial.
Print Assumptions C73_PH.
Print Assumptions C73_PP_partial.
Print Assumptions C73_PP_refuted.
