(* C42: the square lattice. *)
From mathcomp Require Import all_ssreflect all_algebra.
From mathcomp Require Import zify.
From Verif Require Import TbModel Fring.
Set Implicit Arguments.
Unset Strict Implicit.
Unset Printing Implicit Defensive.
Import GRing.Theory Num.Theory.
Local Open Scope ring_scope.

Section C42.
Variable C : numClosedFieldType.
Add Ring Cring : (fld_rt C).
Implicit Types t tp zeeman z : C.
(* specification: a Hamiltonian is Hermitian at all momenta; the momentum enters as unit complex numbers *)
Definition on_circle z : Prop := z * z^* = 1.
Definition Hermitian (n : nat) (H : C -> C -> nat -> nat -> C) : Prop :=
  forall z1 z2, on_circle z1 -> on_circle z2 -> forall a b, (a < n)%N -> (b < n)%N -> H z1 z2 a b = (H z1 z2 b a)^*.
(* 2 cos k *)
Definition twocos z : C := z + z^*.
Lemma circle_inv z : on_circle z -> z ^ (-1) = z^*.
Proof.
move=> h; have z0 : z != 0 by apply/eqP => e; move: h; rewrite /on_circle e mul0r => /eqP; rewrite eq_sym oner_eq0.
by apply: (mulfI z0); rewrite h -[X in X * _]expr1z -expfzDr // subrr expr0z.
Qed.
(* C42: the documented Hamiltonian: hopping -t to the four nearest and -tp to the four next-nearest neighbours, and a Zeeman term that is
   + for the first and - for the second spin of every orbital. *)
Theorem C42_dispersion norb t tp zeeman spin : (zeeman == 0) || spin ->
  exists h, square_lattice norb t tp zeeman spin = Some (if spin then (norb * 2)%N else norb, h) /\
    forall z1 z2, on_circle z1 -> on_circle z2 -> forall a b,
      fourier h z1 z2 a b = if a == b then - t * (twocos z1 + twocos z2) - tp * (twocos z1 * twocos z2) + (if odd a then - zeeman else zeeman) else 0.
Proof.
move=> hz; rewrite /square_lattice (_ : (zeeman != 0) && ~~ spin = false); last by rewrite -negb_or hz.
eexists; split; first by []; move=> z1 z2 h1 h2 a b; rewrite /fourier !big_cons big_nil /= !expr0z !expr1z !circle_inv // /scale /eye /diag /twocos.
case: eqP => [_|_] /=; last by rewrite !mulr0 !mul0r !addr0.
rewrite -signr_odd; case: (odd a); rewrite /= ?expr1 ?expr0 ?mulr1n; move: (z1^*) (z2^*) => c1 c2; fring C.
Qed.
Theorem C42_raises norb t tp zeeman : zeeman <> 0 -> square_lattice norb t tp zeeman false = None.
Proof. by move/eqP=> h; rewrite /square_lattice h. Qed.
Lemma twocos_conj z : (twocos z)^* = twocos z.
Proof. by rewrite /twocos rmorphD conjCK addrC. Qed.
(* C42: it is Hermitian exactly when the three parameters are real. *)
Theorem C42_hermitian_refuted norb t tp zeeman spin n h : (0 < norb)%N -> square_lattice norb t tp zeeman spin = Some (n, h) ->
  Hermitian n (fourier h) <-> t^* = t /\ tp^* = tp /\ zeeman^* = zeeman.
Proof.
move=> n0; case hz : ((zeeman == 0) || spin); last by rewrite /square_lattice -negb_or hz.
have [h' [-> hf]] := C42_dispersion norb t tp hz; case=> <- <- {n h}.
have np : (0 < if spin then norb * 2 else norb)%N by case: spin {hz hf} => //; rewrite muln2 double_gt0.
split=> [H|[rt [rp rz]] z1 z2 h1 h2 a b _ _]; last first.
  rewrite !hf // eq_sym; case: eqP => [->|_]; last by rewrite conjC0.
  move: (twocos_conj z1) (twocos_conj z2); move: (twocos z1) (twocos z2) => p q hp hq.
  rewrite rmorphD rmorphB !rmorphM /= rmorphN rmorphD rt rp hp hq /=.
  by case: (odd a); rewrite ?rmorphN /= rz.
have H0 z1 z2 (h1 : on_circle z1) (h2 : on_circle z2) := H z1 z2 h1 h2 0%N 0%N np np.
have c1 : on_circle 1 by rewrite /on_circle conjC1 mulr1.
have cm : on_circle (-1) by rewrite /on_circle rmorphN conjC1 mulrNN mulr1.
have ci : on_circle 'i by rewrite /on_circle conjCi mulrN -expr2 sqrCi opprK.
have ti : twocos 'i = 0 by rewrite /twocos conjCi subrr.
have t1 : twocos 1 = 2%:R by rewrite /twocos conjC1.
have tm : twocos (-1) = - 2%:R by rewrite /twocos rmorphN conjC1 -opprD.
have rz : zeeman^* = zeeman.
  by have := H0 _ _ ci ci; rewrite hf //= ti addr0 !mulr0 subr0 add0r.
have n4 : (2%:R * 2%:R : C) != 0 by rewrite mulf_neq0 // pnatr_eq0.
have rp : tp^* = tp.
  have := H0 _ _ c1 cm; rewrite hf //= t1 tm subrr mulr0 add0r mulrN mulrN opprK.
  have : (2%:R * 2%:R : C)^* = 2%:R * 2%:R by rewrite -natrM conjC_nat.
  by move: n4; move: (2%:R * 2%:R : C) => f n4 ef; rewrite rmorphD rmorphM rz ef /= => /addIr /(mulIf n4) {2}->.
split; last by [].
have := H0 _ _ c1 c1; rewrite hf //= t1.
have n4' : (2%:R + 2%:R : C) != 0 by rewrite -natrD pnatr_eq0.
have : (2%:R * 2%:R : C)^* = 2%:R * 2%:R by rewrite -natrM conjC_nat.
have : (2%:R + 2%:R : C)^* = 2%:R + 2%:R by rewrite -natrD conjC_nat.
move: n4 n4'; move: (2%:R * 2%:R : C) (2%:R + 2%:R : C) => f g nf ng eg ef; rewrite rmorphD rmorphB !rmorphM /= rmorphN rz rp ef eg /=.
by rewrite !mulNr => /addIr /addIr /oppr_inj /(mulIf ng) {2}->.
Qed.
Theorem C42_hermitian_partial norb t tp zeeman spin n h : t^* = t -> tp^* = tp -> zeeman^* = zeeman ->
  square_lattice norb t tp zeeman spin = Some (n, h) -> Hermitian n (fourier h).
Proof.
move=> rt rp rz e; case: norb e => [|norb] e; last by apply: (iffRL (C42_hermitian_refuted _ e)).
by move: e; rewrite /square_lattice; case: ifP => // _ [<- _] z1 z2 _ _ a b; case: (spin).
Qed.
(* the model for tests is Hermitian exactly when its matrix is *)
Theorem C42_test_model dim norb t t1 t2 t12 t21 m : (0 < dim)%N -> test_matrix norb t t1 t2 t12 t21 = Some m ->
  (forall z : nat -> C, (forall d, (d < dim)%N -> on_circle (z d)) -> forall a b, (a < norb)%N -> (b < norb)%N -> test_fourier dim m z a b = (test_fourier dim m z b a)^*) <->
  if norb == 1%N then t^* = t else t1^* = t1 /\ t2^* = t2 /\ t12 = t21^*.
Proof.
move=> d0 em.
have tf (z : nat -> C) : (forall d, (d < dim)%N -> on_circle (z d)) -> forall a b, test_fourier dim m z a b = m a b * \sum_(d < dim) twocos (z d).
  move=> hz a b; rewrite /test_fourier /unit_steps big_allpairs_dep -(big_mkord xpredT (fun d => twocos (z d))) /index_iota subn0 mulr_sumr.
  rewrite big_seq [RHS]big_seq; apply: eq_bigr => d; rewrite mem_iota add0n => hd.
  rewrite -[LHS]/(\sum_(s <- [:: -1 : int; 1 : int]) m a b * z d ^ s).
  rewrite !big_cons big_nil addr0 expr1z.
  by rewrite (circle_inv (hz d hd)) -mulrDr addrC.
have sc (z : nat -> C) : (\sum_(d < dim) twocos (z d))^* = \sum_(d < dim) twocos (z d) by rewrite rmorph_sum; apply: eq_bigr => d _; rewrite twocos_conj.
have -> : (forall z : nat -> C, (forall d, (d < dim)%N -> on_circle (z d)) -> forall a b, (a < norb)%N -> (b < norb)%N -> test_fourier dim m z a b = (test_fourier dim m z b a)^*) <->
  forall a b, (a < norb)%N -> (b < norb)%N -> m a b = (m b a)^*.
  split=> H.
    move=> a b ha hb; have c1 : forall d, (d < dim)%N -> on_circle ((fun _ => 1) d) by move=> d _; rewrite /on_circle conjC1 mulr1.
    have := H _ c1 a b ha hb; rewrite !tf // rmorphM (sc (fun _ => 1)); apply: mulIf.
    rewrite (eq_bigr (fun _ => 2%:R)) => [|d _]; last by rewrite /twocos conjC1.
    by rewrite sumr_const card_ord -mulr_natr mulf_neq0 // pnatr_eq0 -lt0n.
  by move=> z hz a b ha hb; rewrite !tf // rmorphM (sc z) H.
case: norb em => [|[|[|n]]] //= [<-]; rewrite /scale /eye.
  split=> [/(_ 0%N 0%N isT isT)|ht [|a] [|b] //= _ _]; rewrite /= !mulr1 rmorphN; first by move/oppr_inj => <-.
  by rewrite ht.
split=> [H|[h1 [h2 h3]] a b].
  have := H 0%N 0%N isT isT; have := H 1%N 1%N isT isT; have := H 0%N 1%N isT isT; rewrite /= !rmorphN.
  by move=> /oppr_inj h12 /oppr_inj h22 /oppr_inj h11; rewrite -h11 -h22.
by case: a b => [|[|a]] [|[|b]] //= _ _; rewrite rmorphN ?h1 ?h2 -?h3 // h3 conjCK.
Qed.
Example C42_case : ((1 : C)^* = 1 /\ exists h, square_lattice 2 (1 : C) 1 1 true = Some (4%N, h)) /\
  (exists h, square_lattice 1 ('i : C) 0 0 false = Some (1%N, h)) /\ ('i : C)^* <> 'i.
Proof.
split; first by rewrite conjC1; split; last by rewrite /square_lattice andbF; eexists.
split; first by rewrite /square_lattice eqxx; eexists.
rewrite conjCi => /eqP; rewrite eq_sym -subr_eq0 opprK -mulr2n -mulr_natr mulf_eq0 pnatr_eq0 orbF; exact/negP/neq0Ci.
Qed.
End C42.
Print Assumptions C42_dispersion.
Print Assumptions C42_hermitian_refuted.
