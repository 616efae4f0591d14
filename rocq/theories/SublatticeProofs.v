(* Fourier transforms of functions with a smaller period in momentum space: the mesh of n + 1 = q (m + 1) points per direction and the one of m + 1 points. *)
From mathcomp Require Import all_ssreflect all_algebra.
From Verif Require Import Fring FourierModel FourierProofs.
Set Implicit Arguments.
Unset Strict Implicit.
Unset Printing Implicit Defensive.
Import GRing.Theory Num.Theory.
Local Open Scope ring_scope.

(* the sum over one residue class *)
Lemma sum_class (V : zmodType) (M q k : nat) (F : nat -> V) : (k < M)%N -> \sum_(i < q * M) (if (i %% M == k)%N then F i else 0) = \sum_(j < q) F (j * M + k)%N.
Proof.
move=> hk; elim: q => [|q IH]; first by rewrite !big_ord0.
rewrite big_ord_recr /= -IH mulSnr big_split_ord /=; congr (_ + _).
rewrite (bigD1 (Ordinal hk)) //= modnMDl modn_small // eqxx big1 ?addr0 // => i; rewrite -val_eqE /= => /negbTE hi.
by rewrite modnMDl modn_small // hi.
Qed.

Section OneDirection.
Variables (C : numClosedFieldType) (n m q : nat) (z : C).
Hypothesis zP : (n.+1).-primitive_root z.
Hypothesis nq : n.+1 = (q * m.+1)%N.
Let q0 : (0 < q)%N. Proof. by case: (q) nq. Qed.
(* the momentum modulo the smaller period; the cell of the sublattice *)
Definition fold_k (k : 'I_n.+1) : 'I_m.+1 := inord (k %% m.+1)%N.
Definition cell (r : 'I_m.+1) : 'I_n.+1 := inord (q * r)%N.
Lemma fold_kE k : fold_k k = (k %% m.+1)%N :> nat. Proof. by rewrite inordK // ltn_pmod. Qed.
Lemma cellE r : cell r = (q * r)%N :> nat.
Proof. by rewrite inordK // nq ltn_pmul2l. Qed.
Lemma cell_inj : injective cell.
Proof. by move=> r s /(congr1 (@nat_of_ord _)); rewrite !cellE => /eqP; rewrite eqn_pmul2l // => /eqP/val_inj. Qed.
Lemma cell_dvd r : (r \in codom cell) = (q %| r)%N.
Proof.
apply/codomP/idP => [[s ->]|]; first by rewrite cellE dvdn_mulr.
case/dvdnP=> s e; have hs : (s < m.+1)%N by rewrite -(ltn_pmul2l q0) -nq mulnC -e.
by exists (Ordinal hs); apply: ord_inj; rewrite cellE /= mulnC.
Qed.
Lemma cell0 : cell 0 = 0. Proof. by apply: ord_inj; rewrite cellE muln0. Qed.
Lemma cellN r : cell (- r) = - cell r.
Proof. by apply: ord_inj; rewrite cellE /= cellE nq muln_modr -mulnBr. Qed.
Lemma fold_k0 : fold_k 0 = 0. Proof. by apply: ord_inj; rewrite fold_kE mod0n. Qed.
Lemma fold_k_surj k : exists k', fold_k k' = k.
Proof.
have h : (k < n.+1)%N by rewrite nq (leq_trans (ltn_ord k)) // leq_pmull.
by exists (Ordinal h); apply: ord_inj; rewrite fold_kE /= modn_small.
Qed.
Lemma zq : (m.+1).-primitive_root (z ^+ q).
Proof. have h : (m.+1 %| n.+1)%N by rewrite nq dvdn_mull. by have := dvdn_prim_root zP h; rewrite [in (_ %/ _)%N]nq mulnK. Qed.
Lemma phase_cell (k : 'I_n.+1) r : z ^+ (k * cell r) = (z ^+ q) ^+ (fold_k k * r).
Proof. by rewrite cellE fold_kE [RHS]exprM (zmod zq) -!exprM mulnCA mulnA. Qed.
(* the sum over the momenta with the same image *)
Lemma sum_fold (k : 'I_m.+1) (r : 'I_n.+1) : \sum_(k' | fold_k k' == k) (z ^+ (k' * r))^-1 = if (q %| r)%N then q%:R * (z ^+ (k * r))^-1 else 0.
Proof.
pose x := (z ^+ (m.+1 * r))^-1.
transitivity (\sum_(i < q * m.+1) (if (i %% m.+1 == k)%N then (z ^+ (i * r))^-1 else 0)).
  rewrite -nq big_mkcond; apply: eq_bigr => i _; by rewrite -val_eqE /= fold_kE.
rewrite (sum_class q (fun i => (z ^+ (i * r))^-1)) //.
have -> : \sum_(j < q) (z ^+ ((j * m.+1 + k) * r))^-1 = (\sum_(j < q) x ^+ j) * (z ^+ (k * r))^-1.
  rewrite mulr_suml; apply: eq_bigr => j _; rewrite mulnDl exprD invfM; congr (_ * _).
  by rewrite /x exprVn -exprM -mulnA mulnC.
have x1 : (x == 1) = (q %| r)%N.
  by rewrite /x invr_eq1 -(prim_order_dvd zP); move: (nat_of_ord r) => s; rewrite nq mulnC dvdn_pmul2l.
have xq : x ^+ q = 1.
  rewrite /x exprVn -exprM; have -> : (m.+1 * r * q = n.+1 * r)%N by move: (nat_of_ord r) => s; rewrite nq mulnAC [(m.+1 * q)%N]mulnC.
  by rewrite exprM (z_n zP) expr1n invr1.
case: ifP => hr; last first.
  have : (x - 1) * (\sum_(j < q) x ^+ j) = 0 by rewrite -subrX1 xq subrr.
  by move/eqP; rewrite mulf_eq0 subr_eq0 x1 hr /= => /eqP ->; rewrite mul0r.
have /eqP -> : x == 1 by rewrite x1.
by congr (_ * _); under eq_bigr do rewrite expr1n; rewrite sumr_const card_ord.
Qed.
End OneDirection.

Section Lattice.
Variables (C : numClosedFieldType) (n1 n2 n3 m1 m2 m3 q1 q2 q3 : nat) (z1 z2 z3 : C).
Add Ring Cring : (fld_rt C).
Hypothesis z1P : (n1.+1).-primitive_root z1.
Hypothesis z2P : (n2.+1).-primitive_root z2.
Hypothesis z3P : (n3.+1).-primitive_root z3.
Hypotheses (nq1 : n1.+1 = (q1 * m1.+1)%N) (nq2 : n2.+1 = (q2 * m2.+1)%N) (nq3 : n3.+1 = (q3 * m3.+1)%N).
Local Notation K := (site n1 n2 n3).
Local Notation K' := (site m1 m2 m3).
Definition fold (k : K) : K' := (fold_k m1 k.1.1, fold_k m2 k.1.2, fold_k m3 k.2).
Definition emb (r : K') : K := (cell n1 q1 r.1.1, cell n2 q2 r.1.2, cell n3 q3 r.2).
Local Notation k2r := (@fourier_k_to_r C n1 n2 n3 z1 z2 z3).
Local Notation r2k := (@fourier_r_to_k C n1 n2 n3 z1 z2 z3).
Local Notation k2r' := (@fourier_k_to_r C m1 m2 m3 (z1 ^+ q1) (z2 ^+ q2) (z3 ^+ q3)).
Local Notation r2k' := (@fourier_r_to_k C m1 m2 m3 (z1 ^+ q1) (z2 ^+ q2) (z3 ^+ q3)).
Local Notation ph := (@phase C n1 n2 n3 z1 z2 z3).
Local Notation ph' := (@phase C m1 m2 m3 (z1 ^+ q1) (z2 ^+ q2) (z3 ^+ q3)).
Definition on_sub : pred K := fun r => [&& (q1 %| r.1.1), (q2 %| r.1.2) & (q3 %| r.2)]%N.
Lemma emb_inj : injective emb.
Proof. by move=> [[a b] c] [[a' b'] c'] [] /(cell_inj nq1) -> /(cell_inj nq2) -> /(cell_inj nq3) ->. Qed.
Lemma emb0 : emb 0 = 0. Proof. by rewrite /emb /= (cell0 nq1) (cell0 nq2) (cell0 nq3). Qed.
Lemma embN r : emb (- r) = - emb r. Proof. by rewrite /emb /= (cellN nq1) (cellN nq2) (cellN nq3). Qed.
Lemma fold0 : fold 0 = 0. Proof. by rewrite /fold /= !fold_k0. Qed.
Lemma fold_surj k : exists k', fold k' = k.
Proof.
case: k => [[a b] c]; have [a' <-] := fold_k_surj nq1 a; have [b' <-] := fold_k_surj nq2 b; have [c' <-] := fold_k_surj nq3 c.
by exists (a', b', c').
Qed.
Lemma on_subP r : reflect (exists r', r = emb r') (on_sub r).
Proof.
rewrite /on_sub -(cell_dvd nq1) -(cell_dvd nq2) -(cell_dvd nq3).
apply: (iffP and3P) => [[/codomP [a ha] /codomP [b hb] /codomP [c hc]]|[r' ->]]; last by split; exact: codom_f.
by exists (a, b, c); rewrite /emb -ha -hb -hc; case: (r) => [[? ?] ?].
Qed.
Lemma on_emb r : on_sub (emb r). Proof. by apply/on_subP; exists r. Qed.
Lemma on_subN r : on_sub (- r) = on_sub r.
Proof.
have h s : on_sub s -> on_sub (- s) by case/on_subP=> r' ->; rewrite -embN on_emb.
by apply/idP/idP=> /h; rewrite ?opprK.
Qed.
Lemma phase_emb k r : ph k (emb r) = ph' (fold k) r.
Proof. by rewrite /phase /= (phase_cell z1P nq1) (phase_cell z2P nq2) (phase_cell z3P nq3). Qed.
Lemma ncells_sub : ncells n1 n2 n3 = (q1 * q2 * q3 * ncells m1 m2 m3)%N.
Proof. by rewrite /ncells nq1 nq2 nq3 [(q1 * m1.+1 * _)%N]mulnACA mulnACA. Qed.
(* C19 relates the transforms of one mesh; this one those of two *)
Lemma sum3 (F1 : 'I_n1.+1 -> C) (F2 : 'I_n2.+1 -> C) (F3 : 'I_n3.+1 -> C) : \sum_(k : K) F1 k.1.1 * F2 k.1.2 * F3 k.2 = (\sum_a F1 a) * (\sum_b F2 b) * (\sum_c F3 c).
Proof.
rewrite -(pair_bigA _ (fun (p : 'I_n1.+1 * 'I_n2.+1) (c : 'I_n3.+1) => F1 p.1 * F2 p.2 * F3 c)) /=.
rewrite -(pair_bigA _ (fun (a : 'I_n1.+1) (b : 'I_n2.+1) => \sum_c F1 a * F2 b * F3 c)) /=.
rewrite [(\sum_a F1 a) * _](big_distrlr _ _ _ _ _ F1 F2) big_distrl; apply: eq_bigr => a _.
by rewrite big_distrl; apply: eq_bigr => b _; rewrite big_distrr.
Qed.
Lemma fiber k r : \sum_(k' | fold k' == k) (ph k' r)^-1 =
  (if (q1 %| r.1.1)%N then q1%:R * (z1 ^+ (k.1.1 * r.1.1))^-1 else 0) * (if (q2 %| r.1.2)%N then q2%:R * (z2 ^+ (k.1.2 * r.1.2))^-1 else 0) *
  (if (q3 %| r.2)%N then q3%:R * (z3 ^+ (k.2 * r.2))^-1 else 0).
Proof.
rewrite -(sum_fold z1P nq1) -(sum_fold z2P nq2) -(sum_fold z3P nq3) big_mkcond [X in X * _ * _]big_mkcond [X in _ * X * _]big_mkcond [X in _ * _ * X]big_mkcond -sum3.
apply: eq_bigr => k' _; rewrite /phase !invfM /fold; case: k k' => [[a b] c] [[a' b'] c'] /=.
rewrite !xpair_eqE; case: (_ == a); case: (_ == b); case: (_ == c); rewrite /= ?mulr0 ?mul0r //.
Qed.
Lemma k2r_fiber (h : K' -> C) r : k2r (fun k => h (fold k)) r = (\sum_k (\sum_(k' | fold k' == k) (ph k' r)^-1) * h k) / (ncells n1 n2 n3)%:R.
Proof.
rewrite /fourier_k_to_r; congr (_ / _); rewrite (partition_big fold xpredT) //=; apply: eq_bigr => k _.
by rewrite mulr_suml; apply: eq_bigr => k' /eqP ->.
Qed.
Lemma k2r_off (h : K' -> C) r : ~~ on_sub r -> k2r (fun k => h (fold k)) r = 0.
Proof.
rewrite k2r_fiber /on_sub => hr; rewrite big1 ?mul0r // => k _; rewrite fiber.
by case: ifP hr => _ /=; rewrite ?mul0r //; case: ifP => _ /=; rewrite ?mulr0 ?mul0r //; case: ifP => // _ _; rewrite mulr0 mul0r.
Qed.
Let q_neq0 (q n m : nat) : n.+1 = (q * m.+1)%N -> q%:R != 0 :> C.
Proof. by rewrite pnatr_eq0; case: q. Qed.
Lemma k2r_fold (h : K' -> C) r : k2r (fun k => h (fold k)) (emb r) = k2r' h r.
Proof.
rewrite k2r_fiber /fourier_k_to_r ncells_sub [in X in _ / X]natrM invfM mulrA; congr (_ / _).
rewrite mulr_suml; apply: eq_bigr => k _; rewrite fiber; have := on_emb r; rewrite /on_sub => /and3P [-> -> ->].
have e (q m n : nat) (z : C) (nq : n.+1 = (q * m.+1)%N) (a b : 'I_m.+1) : z ^+ (a * cell n q b) = (z ^+ q) ^+ (a * b).
  by rewrite cellE // mulnCA exprM.
rewrite /phase /= (e _ _ _ _ nq1) (e _ _ _ _ nq2) (e _ _ _ _ nq3) !invfM !natrM !invfM.
have := q_neq0 nq1; have := q_neq0 nq2; have := q_neq0 nq3.
move: (_^-1) (_^-1) (_^-1) (h k) => a b c d h1 h2 h3.
transitivity ((q1%:R / q1%:R) * (q2%:R / q2%:R) * (q3%:R / q3%:R) * (c * b * a * d)); last by rewrite !divff ?mul1r.
fring C.
Qed.
Lemma r2k_emb (x : K -> C) k : (forall r, ~~ on_sub r -> x r = 0) -> r2k x k = r2k' (fun r => x (emb r)) (fold k).
Proof.
move=> h; rewrite /fourier_r_to_k (bigID on_sub) /= [X in _ + X]big1 ?addr0; last by move=> r hr; rewrite h ?mulr0.
rewrite (reindex_onto emb (fun r => if [pick r' | r == emb r'] is Some r' then r' else 0)) /=; last first.
  by move=> r /on_subP [r' ->]; case: pickP => [s /eqP ->|/(_ r')] //; rewrite eqxx.
apply: eq_big => [r|r _]; last by rewrite phase_emb.
by rewrite on_emb /=; case: pickP => [s /eqP/emb_inj ->|/(_ r)]; rewrite eqxx.
Qed.
End Lattice.
