(* Limits of sums over symmetric windows of Matsubara frequencies, used in HubbardAtomThms. *)
From mathcomp Require Import all_ssreflect all_algebra.
From mathcomp Require Import zify.
From Verif Require Import Fring.
Set Implicit Arguments.
Unset Strict Implicit.
Unset Printing Implicit Defensive.
Import Order.TTheory GRing.Theory Num.Theory.
Local Open Scope ring_scope.

Section Limits.
Variable C : numClosedFieldType.
Add Ring CringL : (fld_rt C).
Implicit Types (f g : nat -> C) (a b l : C).
(* f N tends to l *)
Definition lim f l : Prop := forall eps, 0 < eps -> exists N0 : nat, forall N, (N0 <= N)%N -> `|f N - l| < eps.
Lemma lim_const l : lim (fun _ => l) l.
Proof. by move=> eps h; exists 0%N => N _; rewrite subrr normr0. Qed.
Lemma lim_eventually f g l N0 : (forall N, (N0 <= N)%N -> f N = g N) -> lim g l -> lim f l.
Proof.
move=> e h eps he; have [N1 h1] := h eps he; exists (N0 + N1)%N => N hN.
by rewrite e; [apply: h1 | ]; lia.
Qed.
Lemma lim_ext f g l : f =1 g -> lim g l -> lim f l.
Proof. by move=> e; apply: (@lim_eventually _ _ _ 0%N) => N _. Qed.
Lemma lim_add f g a b : lim f a -> lim g b -> lim (fun N => f N + g N) (a + b).
Proof.
move=> hf hg eps he; have he2 : 0 < eps / 2%:R by rewrite divr_gt0 ?ltr0n.
have [N1 h1] := hf _ he2; have [N2 h2] := hg _ he2; exists (N1 + N2)%N => N hN.
have -> : f N + g N - (a + b) = (f N - a) + (g N - b) by rewrite opprD addrACA.
apply: le_lt_trans (ler_norm_add _ _) _; have -> : eps = eps / 2%:R + eps / 2%:R.
  by rewrite -mulrDr -mulr2n -(mulr_natl 2%:R^-1) divff ?mulr1 // pnatr_eq0.
by apply: ltr_add; [apply: h1 | apply: h2]; lia.
Qed.
Lemma lim_mul f g a b : lim f a -> lim g b -> lim (fun N => f N * g N) (a * b).
Proof.
move=> hf hg eps he; pose M := `|a| + `|b| + 1.
have hM : 0 < M by rewrite ltr_spaddr ?ltr01 ?addr_ge0.
have he2 : 0 < eps / (M * 3%:R) by rewrite divr_gt0 ?mulr_gt0 ?ltr0n.
have [N1 h1] := hf _ he2; have [N2 h2] := hg _ he2; have [N3 h3] := hf 1 ltr01; exists (N1 + N2 + N3)%N => N hN.
have {h1}h1 : `|f N - a| < eps / (M * 3%:R) by apply: h1; lia.
have {h2}h2 : `|g N - b| < eps / (M * 3%:R) by apply: h2; lia.
have {h3}h3 : `|f N - a| < 1 by apply: h3; lia.
have -> : f N * g N - a * b = (f N - a) * (g N - b) + (f N - a) * b + a * (g N - b).
  by fring C.
have -> : eps = eps / (M * 3%:R) * M + eps / (M * 3%:R) * M + eps / (M * 3%:R) * M.
  rewrite -!mulrDr; have -> : M + M + M = M * 3%:R by rewrite mulr_natr !mulrS mulr0n addr0 addrA.
  by rewrite mulfVK // mulf_neq0 ?pnatr_eq0 // lt0r_neq0.
set d := eps / _ in he2 h1 h2 *; have d0 := ltW he2.
have Ma : `|a| <= M by rewrite /M -addrA ler_addl addr_ge0 ?ler01.
have Mb : `|b| <= M by rewrite /M addrAC ler_addr addr_ge0 ?ler01.
have M1 : 1 <= M by rewrite /M ler_addr addr_ge0.
apply: le_lt_trans (ler_norm_add _ _) _; apply: ltr_le_add; last by rewrite normrM mulrC ler_pmul // ltW.
apply: le_lt_trans (ler_norm_add _ _) _; apply: ltr_le_add; last by rewrite normrM ler_pmul // ltW.
rewrite normrM; apply: le_lt_trans (_ : `|g N - b| < _); first by rewrite ler_pimull // ltW.
by apply: lt_le_trans h2 _; rewrite ler_pemulr.
Qed.
Lemma lim_scale c f a : lim f a -> lim (fun N => c * f N) (c * a).
Proof. by move=> h; apply: lim_mul => //; apply: lim_const. Qed.
Lemma lim_eq f a b : lim f a -> a = b -> lim f b.
Proof. by move=> h <-. Qed.
Lemma lim_uniq f a b : lim f a -> lim f b -> a = b.
Proof.
move=> ha hb; apply/eqP; rewrite -subr_eq0 -normr_eq0; apply/negPn/negP => n.
have h : 0 < `|a - b| / 2%:R by rewrite divr_gt0 ?ltr0n // lt_def n normr_ge0.
have [N1 h1] := ha _ h; have [N2 h2] := hb _ h.
have : `|a - b| < `|a - b|; last by rewrite ltxx.
have {2}-> : `|a - b| = `|a - b| / 2%:R + `|a - b| / 2%:R.
  by rewrite -mulrDr -mulr2n -(mulr_natl 2%:R^-1) divff ?mulr1 // pnatr_eq0.
have {1}-> : a - b = (f (N1 + N2)%N - b) - (f (N1 + N2)%N - a) by fring C.
apply: le_lt_trans (ler_norm_sub _ _) _; apply: ltr_add; [apply: h2 | apply: h1]; lia.
Qed.
End Limits.

Section Windows.
Variable C : numClosedFieldType.
Add Ring CringW : (fld_rt C).
Implicit Types (f g : int -> C).
(* the window -N <= n < N of indices of fermionic frequencies *)
Definition win (N : nat) f : C := \sum_(k < N) (f (Posz k) + f (Negz k)).
Lemma win_ext N f g : f =1 g -> win N f = win N g.
Proof. by move=> e; apply: eq_bigr => k _; rewrite !e. Qed.
Lemma win_add N f g : win N (fun n => f n + g n) = win N f + win N g.
Proof. by rewrite /win -big_split; apply: eq_bigr => k _ /=; rewrite addrACA. Qed.
Lemma win_scale N c f : win N (fun n => c * f n) = c * win N f.
Proof. by rewrite /win mulr_sumr; apply: eq_bigr => k _; rewrite mulrDr. Qed.
Lemma win_reflect N f : win N (fun n => f (- n - 1)) = win N f.
Proof. by apply: eq_bigr => k _; rewrite addrC; congr (f _ + f _); lia. Qed.
Lemma win_shift N f : win N (fun n => f (n + 1)) = win N f + f (Posz N) - f (- Posz N).
Proof.
rewrite /win; elim: N => [|N ih]; first by rewrite !big_ord0 add0r oppr0 subrr.
rewrite !big_ord_recr ih /=; have -> : Posz N + 1 = Posz N.+1 by lia.
have -> : Negz N + 1 = - Posz N by lia.
have -> : - Posz N.+1 = Negz N by lia.
fring C.
Qed.
Lemma win_at N (n : int) f : (absz n < N)%N -> win N (fun k => (if k == n then 1 else 0) * f k) = f n.
Proof.
move=> h; rewrite /win; case: n h => n h.
  rewrite (bigD1 (Ordinal h)) //= eqxx mul1r mul0r addr0 big1 ?addr0 // => k hk.
  have -> : (Posz k == Posz n) = false by apply/negbTE; apply: contra hk => /eqP[e]; apply/eqP/val_inj.
  by rewrite !mul0r addr0.
have h' : (n < N)%N by move: h; rewrite NegzE abszN /=; lia.
rewrite (bigD1 (Ordinal h')) //= eqxx mul1r mul0r add0r big1 ?addr0 // => k hk.
have -> : (Negz k == Negz n) = false by apply/negbTE; apply: contra hk => /eqP[e]; apply/eqP/val_inj.
by rewrite !mul0r addr0.
Qed.
Definition in_win (N : nat) (n : int) : bool := match n with Posz k => (k < N)%N | Negz k => (k < N)%N end.
Lemma win_in N (n : int) f : in_win N n -> win N (fun k => (if k == n then 1 else 0) * f k) = f n.
Proof.
rewrite /win; case: n => n /= h; rewrite (bigD1 (Ordinal h)) //= eqxx mul1r mul0r ?addr0 ?add0r big1 ?addr0 // => k hk.
  have -> : (Posz k == Posz n) = false by apply/negbTE; apply: contra hk => /eqP[e]; apply/eqP/val_inj.
  by rewrite !mul0r addr0.
have -> : (Negz k == Negz n) = false by apply/negbTE; apply: contra hk => /eqP[e]; apply/eqP/val_inj.
by rewrite !mul0r addr0.
Qed.
Lemma win_cong N f g : (forall n, in_win N n -> f n = g n) -> win N f = win N g.
Proof. by move=> e; apply: eq_bigr => k _; rewrite (e (Posz k)) ?(e (Negz k)) /=. Qed.
(* shifting the frequencies does not change the limit of the sum when the terms vanish at both ends *)
Lemma lim_shift1 f l : lim (fun N => f (Posz N)) 0 -> lim (fun N => f (- Posz N)) 0 -> lim (win^~ f) l -> lim (win^~ (fun n => f (n + 1))) l.
Proof.
move=> hp hm h; apply: lim_eq (lim_ext _ (lim_add (lim_add h hp) (lim_scale (- 1) hm))) _ => [N /=|].
  by rewrite win_shift mulN1r.
by rewrite mulr0 !addr0.
Qed.
Lemma lim_next (u : nat -> C) l : lim u l -> lim (fun N => u N.+1) l.
Proof. by move=> h eps he; have [N0 h0] := h eps he; exists N0 => N hN; apply: h0; lia. Qed.
Lemma lim_prev (u : nat -> C) l : lim (fun N => u N.+1) l -> lim u l.
Proof. by move=> h eps he; have [N0 h0] := h eps he; exists N0.+1 => -[|N] // hN; apply: h0. Qed.
(* terms that vanish at both ends *)
Definition ends f : Prop := forall j : int, lim (fun N => f (Posz N + j)) 0 /\ lim (fun N => f (- Posz N + j)) 0.
Lemma lim_shift f l (m : int) : ends f -> lim (win^~ f) l -> lim (win^~ (fun n => f (n + m))) l.
Proof.
have up k : forall f, ends f -> lim (win^~ f) l -> lim (win^~ (fun n => f (n + Posz k))) l.
  elim: k => [|k ih] g hg hl; first by apply: lim_ext hl => N; apply: win_ext => n; rewrite addr0.
  apply: lim_ext (lim_shift1 _ _ (ih g hg hl)) => [N||].
  - by apply: win_ext => n; congr g; lia.
  - by case: (hg (Posz k)).
  - by case: (hg (Posz k)).
move=> hf hl; case: m => k; first exact: up.
have := up k.+1 (fun n => f (- n - 1)); have e : lim (win^~ (fun n => f (- n - 1))) l by apply: lim_ext hl => N; rewrite win_reflect.
move=> /(_ _ e) H; have {}H : lim (win^~ (fun n => f (- (n + Posz k.+1) - 1))) l.
  apply: H => j; have [h1 h2] := hf (- j - 1); split; [apply: lim_ext h2 | apply: lim_ext h1] => N; congr f; lia.
by apply: lim_ext H => N; rewrite -win_reflect; apply: win_ext => n; congr f; lia.
Qed.
Lemma lim_wscale c f l : lim (win^~ f) l -> lim (win^~ (fun n => c * f n)) (c * l).
Proof. by move=> h; apply: lim_ext (lim_scale c h) => N; rewrite win_scale. Qed.
Lemma lim_wadd f g l l' : lim (win^~ f) l -> lim (win^~ g) l' -> lim (win^~ (fun n => f n + g n)) (l + l').
Proof. by move=> h h'; apply: lim_ext (lim_add h h') => N; rewrite win_add. Qed.
Lemma lim_wext f g l : f =1 g -> lim (win^~ g) l -> lim (win^~ f) l.
Proof. by move=> e; apply: lim_ext => N; apply: win_ext. Qed.
(* a Kronecker symbol picks one term *)
Lemma lim_at n f : lim (win^~ (fun k => (if k == n then 1 else 0) * f k)) (f n).
Proof. by apply: (@lim_eventually _ _ (fun _ => f n) _ (absz n).+1) (lim_const _) => N hN; rewrite win_at. Qed.
End Windows.
Arguments win {C} N f.
Arguments lim {C} f l.
Arguments ends {C} f.
