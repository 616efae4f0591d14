(* Lemmas for the GW self energies. *)
From mathcomp Require Import all_ssreflect all_algebra.
From Verif Require Import Base MpiModel MpiProofs MpiSpec FourierModel FourierProofs BubbleModel MatsubaraModel ImtimeModel GwModel GwSpec.
Set Implicit Arguments.
Unset Strict Implicit.
Unset Printing Implicit Defensive.
Import GRing.Theory.
Local Open Scope ring_scope.

Section Lin.
Variables (C : fieldType) (nb : nat) (A : Type) (I : Type).
Lemma linfun0 (f : (A -> C) -> C) : linfun f -> f (fun=> 0) = 0.
Proof.
case=> e l; have := l 1 (fun=> 0) (fun=> 0); rewrite [1 * f _]mul1r => h.
apply: (addrI (f (fun=> 0))); rewrite addr0 -h; apply: e => a; by rewrite mulr0 addr0.
Qed.
Lemma linfun_sum (f : (A -> C) -> C) (s : seq I) (c : I -> C) (x : I -> A -> C) : linfun f ->
  f (fun a => \sum_(i <- s) c i * x i a) = \sum_(i <- s) c i * f (x i).
Proof.
move=> lf; have [e l] := lf; elim: s => [|i s IH].
  by rewrite big_nil; transitivity (f (fun=> 0)); [apply: e => a; rewrite big_nil | exact: linfun0].
by rewrite big_cons -IH -l; apply: e => a; rewrite big_cons.
Qed.
Lemma linfun_mx0 (f : (A -> 'M[C]_nb) -> C) : linfun_mx f -> f (fun=> 0) = 0.
Proof.
case=> e l; have := l 1 (fun=> 0) (fun=> 0); rewrite [1 * f _]mul1r => h.
apply: (addrI (f (fun=> 0))); rewrite addr0 -h; apply: e => a; by rewrite scaler0 addr0.
Qed.
Lemma linfun_mx_sum (f : (A -> 'M[C]_nb) -> C) (s : seq I) (c : I -> C) (x : I -> A -> 'M[C]_nb) : linfun_mx f ->
  f (fun a => \sum_(i <- s) c i *: x i a) = \sum_(i <- s) c i * f (x i).
Proof.
move=> lf; have [e l] := lf; elim: s => [|i s IH].
  by rewrite big_nil; transitivity (f (fun=> 0)); [apply: e => a; rewrite big_nil | exact: linfun_mx0].
by rewrite big_cons -IH -l; apply: e => a; rewrite big_cons.
Qed.
End Lin.

Section Gw.
Variables (C : fieldType) (n1 n2 n3 nb : nat) (z1 z2 z3 : C).
Hypothesis z1P : n1.+1.-primitive_root z1.
Hypothesis z2P : n2.+1.-primitive_root z2.
Hypothesis z3P : n3.+1.-primitive_root z3.
Hypothesis charC : (ncells n1 n2 n3)%:R != 0 :> C.
Local Notation K := (site n1 n2 n3).
Local Notation t4 := (tensor4 C nb).
Local Notation mat := 'M[C]_nb.
Local Notation gfun := (gfun C n1 n2 n3 nb).
Local Notation k2r := (@fourier_k_to_r C n1 n2 n3 z1 z2 z3).
Local Notation r2k := (@fourier_r_to_k C n1 n2 n3 z1 z2 z3).

Lemma r2k_sum (I : Type) (s : seq I) (f : I -> K -> C) k : r2k (fun r => \sum_(i <- s) f i r) k = \sum_(i <- s) r2k (f i) k.
Proof.
rewrite /fourier_r_to_k; under eq_bigr do rewrite mulr_sumr.
exact: exchange_big.
Qed.
Lemma r2k_opp (f : K -> C) k : r2k (fun r => - f r) k = - r2k f k.
Proof. by rewrite /fourier_r_to_k -sumrN; apply: eq_bigr => r _; rewrite mulrN. Qed.

(* the transform of a contraction of two real-space functions is the convolution *)
Lemma contract_conv (W : K -> t4) (G : K -> mat) k a b (sw : bool) :
  r2k (fun r => \sum_c \sum_d - k2r (fun q => W q a c d b) r * k2r (fun q => if sw then G q d c else G q c d) r) k =
  - ((\sum_(q : K) \sum_c \sum_d W q a c d b * (if sw then G (k - q) d c else G (k - q) c d)) / (ncells n1 n2 n3)%:R).
Proof.
rewrite r2k_sum; under eq_bigr => c _.
  rewrite r2k_sum; under eq_bigr => d _.
    rewrite (r2k_ext z1 z2 z3 (g := fun r => - (k2r (fun q => W q a c d b) r * k2r (fun q => if sw then G q d c else G q c d) r))); last first.
      by move=> r; rewrite mulNr.
    rewrite r2k_opp conv_sum //.
    over.
  over.
under eq_bigr do rewrite sumrN.
rewrite sumrN; congr (- _).
under eq_bigr do rewrite -mulr_suml.
rewrite -mulr_suml; congr (_ / _).
under eq_bigr do rewrite exchange_big /=.
by rewrite exchange_big.
Qed.
End Gw.
