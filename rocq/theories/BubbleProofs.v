From mathcomp Require Import all_ssreflect all_algebra.
From Verif Require Import Fring Base MpiModel MpiProofs MpiSpec FourierModel FourierProofs BubbleModel.
Set Implicit Arguments.
Unset Strict Implicit.
Unset Printing Implicit Defensive.
Import GRing.Theory Num.Theory.
Local Open Scope ring_scope.

Lemma foldl_sub (V : zmodType) (T : Type) (f : T -> V) s x :
  foldl (fun acc k => acc - f k) x s = x - \sum_(k <- s) f k.
Proof.
by elim: s x => [|k s IH] x /=; rewrite ?big_nil ?subr0 // IH big_cons opprD addrA.
Qed.
Lemma foldl_add (V : zmodType) (T : Type) (f : T -> V) s x :
  foldl (fun acc k => acc + f k) x s = x + \sum_(k <- s) f k.
Proof.
by elim: s x => [|k s IH] x /=; rewrite ?big_nil ?addr0 // IH big_cons addrA.
Qed.

Section P.
Variables (C : fieldType) (n1 n2 n3 nb : nat) (z1 z2 z3 : C) (beta : C).
Add Ring Cring : (fld_rt C).
Hypothesis z1P : (n1.+1).-primitive_root z1.
Hypothesis z2P : (n2.+1).-primitive_root z2.
Hypothesis z3P : (n3.+1).-primitive_root z3.
Hypothesis charC : (ncells n1 n2 n3)%:R != 0 :> C.
Local Notation K := (site n1 n2 n3).
Local Notation N := ((ncells n1 n2 n3)%:R : C).
Local Notation gfun := (gfun C n1 n2 n3 nb).
Local Notation wk2wr := (@fourier_wk_to_wr C n1 n2 n3 nb z1 z2 z3).
Local Notation wr2wk := (@fourier_wr_to_wk C n1 n2 n3 nb z1 z2 z3).

Lemma wk2wrK (g : gfun) n k : wr2wk (wk2wr g) n k = g n k.
Proof.
apply/matrixP=> i j; rewrite mxE.
rewrite (@r2k_ext C n1 n2 n3 z1 z2 z3 _ (fourier_k_to_r z1 z2 z3 (fun k => g n k i j))).
  by rewrite k2rK.
by move=> r; rewrite mxE.
Qed.
Lemma wr2wkK (g : gfun) n k : wk2wr (wr2wk g) n k = g n k.
Proof.
apply/matrixP=> i j; rewrite mxE.
rewrite (@k2r_ext C n1 n2 n3 z1 z2 z3 _ (fourier_r_to_k z1 z2 z3 (fun k => g n k i j))).
  by rewrite r2kK.
by move=> r; rewrite mxE.
Qed.

Lemma chi0_n_E w q (g : gfun) n a b c d :
  chi0_n_from_g_wk_PH beta w q g n a b c d =
  - beta / N * \sum_(k : K) g n k d a * g (n + w) (k - q) b c.
Proof. by rewrite /chi0_n_from_g_wk_PH foldl_sub sub0r mulrC !mulrN !mulNr. Qed.

Lemma bubble_r_is_k (g : gfun) w n q a b c d :
  fourier_r_to_k z1 z2 z3 (fun r => chi0r_kernel beta (wk2wr g) w n r a b c d) q =
  chi0_n_from_g_wk_PH beta w q g n a b c d.
Proof.
rewrite chi0_n_E.
rewrite (@r2k_ext _ _ _ _ _ _ _ _ (fun r => - beta * (fourier_k_to_r z1 z2 z3 (fun k => g n k d a) r *
   fourier_k_to_r z1 z2 z3 (fun k => g (n + w) k b c) (- r)) + 0)); last first.
  by move=> r; rewrite /chi0r_kernel !mxE addr0 -mulrA.
rewrite r2k_lin (conv_diff z1P z2P z3P charC) -[RHS]addr0; congr (_ + _).
  by fring C.
by rewrite /fourier_r_to_k big1 // => r _; rewrite mulr0.
Qed.

(* the e_k / sigma version equals the Green's function version at w = 0 ... *)
Lemma chi0_e_k_sigma_E iw mu (e : K -> 'M[C]_nb) sigma w q n a b c d :
  chi0_n_from_e_k_sigma_w_PH beta iw mu e sigma w q n a b c d =
  - beta / N * \sum_(k : K) dyson_inv (iw n + mu) (e k) (sigma n) d a *
                     dyson_inv (iw n + mu) (e (k - q)) (sigma (n + w)) b c.
Proof. by rewrite /chi0_n_from_e_k_sigma_w_PH foldl_sub sub0r mulrC !mulrN !mulNr. Qed.
End P.
