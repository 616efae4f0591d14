From mathcomp Require Import all_ssreflect all_algebra.
From Verif Require Import Fring FourierModel.
Set Implicit Arguments.
Unset Strict Implicit.
Unset Printing Implicit Defensive.
Import GRing.Theory Num.Theory.
Local Open Scope ring_scope.

Section P1.
Variables (C : fieldType) (n : nat) (z : C).
Hypothesis zP : (n.+1).-primitive_root z.

Lemma z_n : z ^+ n.+1 = 1. Proof. exact: prim_expr_order zP. Qed.
Lemma z_neq0 : z != 0.
Proof. by apply/eqP => h; have := z_n; rewrite h expr0n /= => /esym/eqP; rewrite oner_eq0. Qed.

Lemma zmod (i : nat) : z ^+ (i %% n.+1) = z ^+ i.
Proof. exact: expr_mod z_n. Qed.

Lemma z_addl (k k' : 'I_n.+1) (r : nat) : z ^+ ((k + k' : 'I_n.+1) * r) = z ^+ (k * r) * z ^+ (k' * r).
Proof.
rewrite /= -exprD -mulnDl exprM zmod -exprM //.
Qed.

Lemma z_oppl (k : 'I_n.+1) (r : nat) : z ^+ ((- k : 'I_n.+1) * r) = (z ^+ (k * r))^-1.
Proof.
apply: (mulIf (x := z ^+ (k * r))); first by rewrite expf_neq0 // z_neq0.
rewrite mulVf ?expf_neq0 ?z_neq0 // -z_addl addNr /= mul0n expr0 //.
Qed.

Lemma sum_phase1 (r : 'I_n.+1) : \sum_(k : 'I_n.+1) z ^+ (k * r) = (n.+1)%:R *+ (r == 0).
Proof.
have [->|r0] := eqVneq r 0.
  by under eq_bigr do rewrite muln0 expr0; rewrite sumr_const card_ord mulr1n.
rewrite mulr0n.
have x1 : z ^+ r - 1 != 0.
  rewrite subr_eq0 -(prim_order_dvd zP).
  apply/negP => /dvdn_leq h; have := ltn_ord r; rewrite ltnNge h //.
  by rewrite lt0n; move: r0; rewrite -val_eqE.
apply: (mulfI x1); rewrite mulr0.
under eq_bigr do rewrite mulnC exprM.
by rewrite -subrX1 exprAC z_n expr1n subrr.
Qed.
End P1.

Section P3.
Variables (C : fieldType) (n1 n2 n3 : nat) (z1 z2 z3 : C).
Add Ring Cring : (fld_rt C).
Hypothesis z1P : (n1.+1).-primitive_root z1.
Hypothesis z2P : (n2.+1).-primitive_root z2.
Hypothesis z3P : (n3.+1).-primitive_root z3.
Local Notation K := (site n1 n2 n3).
Local Notation ph := (@phase C n1 n2 n3 z1 z2 z3).
Implicit Types k q r : K.

Lemma sum_opp (f : K -> C) : \sum_(r : K) f r = \sum_(r : K) f (- r).
Proof.
have oppI : injective (fun r : K => - r) by exact: oppr_inj.
exact: (reindex_inj (h := fun r : [finType of K] => (- (r : K)) : [finType of K]) oppI).
Qed.
Lemma sum_subl q (f : K -> C) : \sum_(r : K) f r = \sum_(r : K) f (q - r).
Proof.
have subI : injective (fun r : K => q - r) by move=> x y /addrI /oppr_inj.
exact: (reindex_inj (h := fun r : [finType of K] => (q - (r : K)) : [finType of K]) subI).
Qed.
Lemma sum_shift q (f : K -> C) : \sum_(r : K) f r = \sum_(r : K) f (r + q).
Proof.
have subI : injective (fun r : K => r + q) by move=> x y /addIr.
exact: (reindex_inj (h := fun r : [finType of K] => ((r : K) + q) : [finType of K]) subI).
Qed.

Lemma phase_addl k k' r : ph (k + k') r = ph k r * ph k' r.
Proof.
rewrite /phase /= (z_addl z1P) (z_addl z2P) (z_addl z3P).
set a := z1 ^+ _; set a' := z1 ^+ _; set b := z2 ^+ _; set b' := z2 ^+ _.
set c := z3 ^+ _; set c' := z3 ^+ _.
by rewrite [a * a' * _]mulrACA (mulrACA (a * b)).
Qed.
Lemma phase_oppl k r : ph (- k) r = (ph k r)^-1.
Proof. by rewrite /phase /= (z_oppl z1P) (z_oppl z2P) (z_oppl z3P) !invfM. Qed.
Lemma phase_sym k r : ph k r = ph r k.
Proof. by rewrite /phase !(mulnC _ (nat_of_ord r.1.1), mulnC _ (nat_of_ord r.1.2), mulnC _ (nat_of_ord r.2)). Qed.
Lemma phase_addr k r r' : ph k (r + r') = ph k r * ph k r'.
Proof. by rewrite !(phase_sym k) phase_addl. Qed.
Lemma phase_oppr k r : ph k (- r) = (ph k r)^-1.
Proof. by rewrite !(phase_sym k) phase_oppl. Qed.
Lemma phase0l r : ph 0 r = 1.
Proof. by rewrite /phase /= !mul0n !expr0 !mul1r. Qed.
Lemma phase0r k : ph k 0 = 1. Proof. by rewrite phase_sym phase0l. Qed.
Lemma phase_neq0 k r : ph k r != 0.
Proof. by rewrite /phase !mulf_neq0 // expf_neq0 // (z_neq0 z1P, z_neq0 z2P, z_neq0 z3P). Qed.
Lemma phase_subl k q r : ph (k - q) r = ph k r * (ph q r)^-1.
Proof. by rewrite phase_addl phase_oppl. Qed.

Lemma sum_phase r : \sum_k ph k r = (ncells n1 n2 n3)%:R *+ (r == 0).
Proof.
have -> : \sum_k ph k r =
  (\sum_(i : 'I_n1.+1) z1 ^+ (i * r.1.1)) * (\sum_(j : 'I_n2.+1) z2 ^+ (j * r.1.2)) *
  (\sum_(l : 'I_n3.+1) z3 ^+ (l * r.2)).
  rewrite mulr_suml (eq_bigr (fun k : K => ph (k.1, k.2) r)); last by case.
  rewrite -(pair_bigA _ (fun (a : 'I_n1.+1 * 'I_n2.+1) (l : 'I_n3.+1) => ph (a, l) r)) /=.
  rewrite mulr_suml.
  rewrite (eq_bigr (fun p : 'I_n1.+1 * 'I_n2.+1 => z1 ^+ (p.1 * r.1.1) * z2 ^+ (p.2 * r.1.2) *
    \sum_(l : 'I_n3.+1) z3 ^+ (l * r.2))); last first.
    by case=> i j _; rewrite mulr_sumr; apply: eq_bigr.
  rewrite -(pair_bigA _ (fun (i : 'I_n1.+1) (j : 'I_n2.+1) =>
     z1 ^+ (i * r.1.1) * z2 ^+ (j * r.1.2) * \sum_(l : 'I_n3.+1) z3 ^+ (l * r.2))) /=.
  set S := \sum_(l < n3.+1) z3 ^+ (l * r.2); move: S => S.
  by apply: eq_bigr => i _; rewrite mulr_sumr mulr_suml.
rewrite (sum_phase1 z1P) (sum_phase1 z2P) (sum_phase1 z3P).
case: r => [[r1 r2] r3] /=; rewrite -[(_, _, _) == 0]/((r1, r2, r3) == (0, 0, 0)) !xpair_eqE.
case: (r1 == 0); case: (r2 == 0); case: (r3 == 0); rewrite /= ?mulr0n ?mulr1n ?(mul0r, mulr0) //.
by rewrite /ncells !natrM.
Qed.
Lemma sum_phase_r k : \sum_r ph k r = (ncells n1 n2 n3)%:R *+ (k == 0).
Proof. by under eq_bigr do rewrite phase_sym; rewrite sum_phase. Qed.

Hypothesis charC : (ncells n1 n2 n3)%:R != 0 :> C.
Local Notation N := ((ncells n1 n2 n3)%:R : C).
Local Notation k2r := (@fourier_k_to_r C n1 n2 n3 z1 z2 z3).
Local Notation r2k := (@fourier_r_to_k C n1 n2 n3 z1 z2 z3).

Lemma r2kK (f : K -> C) r : k2r (r2k f) r = f r.
Proof.
rewrite /fourier_k_to_r /fourier_r_to_k.
apply: (canLR (mulfK charC)).
under eq_bigr do rewrite mulr_sumr.
rewrite exchange_big /= (bigD1 r) //= [X in _ + X]big1 ?addr0.
  under eq_bigr do rewrite mulrA mulVf ?phase_neq0 // mul1r.
  by rewrite sumr_const card_prod card_prod !card_ord mulr_natr.
move=> r' hr; under eq_bigr do rewrite mulrA -phase_oppr -phase_addr.
rewrite -mulr_suml sum_phase addrC subr_eq0 (negbTE hr) mulr0n mul0r //.
Qed.

Lemma k2rK (f : K -> C) k : r2k (k2r f) k = f k.
Proof.
rewrite /fourier_k_to_r /fourier_r_to_k.
under eq_bigr do rewrite mulrA mulr_sumr.
rewrite -mulr_suml; apply: (canLR (mulfK charC)).
rewrite exchange_big /= (bigD1 k) //= [X in _ + X]big1 ?addr0.
  under eq_bigr do rewrite mulrA mulfV ?phase_neq0 // mul1r.
  by rewrite sumr_const card_prod card_prod !card_ord mulr_natr.
move=> k' hk; under eq_bigr do rewrite mulrA -phase_oppl -phase_addl.
by rewrite -mulr_suml sum_phase_r subr_eq0 eq_sym (negbTE hk) mulr0n mul0r.
Qed.

(* convolution theorems *)
Lemma conv_diff (f g : K -> C) q :
  r2k (fun r => k2r f r * k2r g (- r)) q = (\sum_k f k * g (k - q)) / N.
Proof.
rewrite /fourier_r_to_k.
transitivity (\sum_r \sum_k ((f k * (ph (q - k) r * k2r g (- r))) / N)).
  apply: eq_bigr => r _; rewrite /fourier_k_to_r mulrA mulr_suml mulr_sumr mulr_suml.
  apply: eq_bigr => k _; rewrite phase_subl.
  by fring C.
rewrite exchange_big mulr_suml; apply: eq_bigr => k _.
rewrite -mulr_suml -mulr_sumr; congr (_ * _ / _).
rewrite sum_opp.
rewrite -[RHS](k2rK g) /fourier_r_to_k; apply: eq_bigr => r _.
by rewrite opprK phase_oppr -phase_oppl opprB.
Qed.

Lemma conv_sum (f g : K -> C) q :
  r2k (fun r => k2r f r * k2r g r) q = (\sum_k f k * g (q - k)) / N.
Proof.
have := conv_diff f (fun k => g (- k)) q.
have e r : k2r (fun k => g (- k)) (- r) = k2r g r.
  rewrite /fourier_k_to_r; congr (_ / _); rewrite sum_opp.
  by apply: eq_bigr => k _; rewrite opprK phase_oppl phase_oppr invrK.
rewrite /fourier_r_to_k => h.
under eq_bigr do rewrite -e; rewrite h; congr (_ / _).
by apply: eq_bigr => k _; rewrite opprB.
Qed.

Lemma k2r_lin (c : C) (f g : K -> C) r : k2r (fun k => c * f k + g k) r = c * k2r f r + k2r g r.
Proof.
rewrite /fourier_k_to_r mulrA -mulrDl mulr_sumr -big_split /=; congr (_ / _).
by apply: eq_bigr => k _; rewrite mulrDr mulrCA.
Qed.
Lemma r2k_lin (c : C) (f g : K -> C) k : r2k (fun r => c * f r + g r) k = c * r2k f k + r2k g k.
Proof.
rewrite /fourier_r_to_k mulr_sumr -big_split /=.
by apply: eq_bigr => r _; rewrite mulrDr mulrCA.
Qed.
Lemma r2k_ext (f g : K -> C) k : f =1 g -> r2k f k = r2k g k.
Proof. by move=> h; rewrite /fourier_r_to_k; under eq_bigr do rewrite h. Qed.
Lemma k2r_ext (f g : K -> C) k : f =1 g -> k2r f k = k2r g k.
Proof. by move=> h; rewrite /fourier_k_to_r; under eq_bigr do rewrite h. Qed.
Lemma k2r_0 (f : K -> C) : k2r f 0 = (\sum_k f k) / N.
Proof. by rewrite /fourier_k_to_r; under eq_bigr do rewrite phase0r invr1 mul1r. Qed.
Lemma r2k_0 (f : K -> C) : r2k f 0 = \sum_r f r.
Proof. by rewrite /fourier_r_to_k; under eq_bigr do rewrite phase0l mul1r. Qed.
(* a function concentrated at r = 0 transforms to a constant *)
Lemma r2k_delta (v : C) k : r2k (fun r => if r == 0 then v else 0) k = v.
Proof.
rewrite /fourier_r_to_k (bigD1 (0 : K)) // big1 ?addr0 => [|r /negbTE ->]; last by rewrite mulr0.
by rewrite eqxx phase0r mul1r; apply: addr0.
Qed.
Lemma k2r_const (v : C) r : k2r (fun=> v) r = if r == 0 then v else 0.
Proof.
rewrite -(r2kK (fun r => if r == 0 then v else 0) r).
by apply: k2r_ext => k; rewrite r2k_delta.
Qed.
End P3.
