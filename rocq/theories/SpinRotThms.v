(* C108: invariance under rotations of the spin and of the orbitals. *)
From mathcomp Require Import all_ssreflect all_algebra.
From Verif Require Import Base MatAlg Fring LindhardModel LindhardThms MpiModel MpiSpec RpaModel RpaSpec RpaProofs RpaThms RpaTensorModel RpaTensorSpec RpaTensorProofs RpaTensorThms RpaSymThms.
Set Implicit Arguments.
Unset Strict Implicit.
Unset Printing Implicit Defensive.
Import Order.TTheory GRing.Theory Num.Theory.
Local Open Scope ring_scope.

Section Spec.
Variables (C : numClosedFieldType) (nb : nat) (at_ : bool -> 'I_nb -> 'I_(2 * nb)).
(* the unitary matrix R acts on the spin *)
Definition unitary2 (R : bool -> bool -> C) : Prop := forall s t, \sum_u R s u * (R t u)^* = (s == t)%:R.
Definition rotates_spin (R : bool -> bool -> C) (V : 'M[C]_(2 * nb)) : Prop := forall s t a b, V (at_ s a) (at_ t b) = R s t * (a == b)%:R.
Definition rotation_invariant (T : tensor4 C (2 * nb)) : Prop := forall R V, unitary2 R -> rotates_spin R V -> eq_t4 (rotate V T) T.
(* real orthogonal matrices act on the orbitals *)
Definition orthogonal (V : 'M[C]_nb) : Prop := (forall a b, V a b \is Num.real) /\ forall a b, \sum_c V a c * V b c = (a == b)%:R.
Definition orbital_invariant (T : tensor4 C nb) : Prop := forall V, orthogonal V -> eq_t4 (rotate V T) T.
(* a Hamiltonian that does not act on the spin *)
Definition spin_independent (K : Type) (e : K -> 'M[C]_(2 * nb)) : Prop := exists h : K -> 'M[C]_nb, forall k s t a b, e k (at_ s a) (at_ t b) = (s == t)%:R * h k a b.
End Spec.

Section Spin.
Variables (C : numClosedFieldType) (nb : nat) (fast : bool).
Add Ring Cring : (fld_rt C).
Local Notation so := (@so nb fast).
Local Notation big4 := (tensor4 C (2 * nb)).
Lemma collapse (V : 'M[C]_(2 * nb)) R s a (g : 'I_(2 * nb) -> C) : rotates_spin so R V -> \sum_i V (so s a) i * g i = \sum_t R s t * g (so t a).
Proof.
move=> h; rewrite (sum_so fast) big_bool /= addrC; congr (_ + _).
  rewrite (bigD1 a) //= h eqxx mulr1 big1 ?addr0 // => o ho; by rewrite h eq_sym (negbTE ho) mulr0 mul0r.
rewrite (bigD1 a) //= h eqxx mulr1 big1 ?addr0 // => o ho; by rewrite h eq_sym (negbTE ho) mulr0 mul0r.
Qed.
Lemma collapse_c (V : 'M[C]_(2 * nb)) R s a (g : 'I_(2 * nb) -> C) : rotates_spin so R V -> \sum_i (V (so s a) i)^* * g i = \sum_t (R s t)^* * g (so t a).
Proof.
move=> h; have h' : rotates_spin so (fun s t => (R s t)^*) (map_mx conjC V) by move=> s1 t1 a1 b1; rewrite mxE h rmorphM rmorph_nat.
by have := collapse s a g h'; under eq_bigr do rewrite mxE.
Qed.
Lemma rotE V R (T : big4) s1 s2 s3 s4 a b c d : rotates_spin so R V -> rotate V T (so s1 a) (so s2 b) (so s3 c) (so s4 d) =
  \sum_t1 R s1 t1 * (\sum_t2 (R s2 t2)^* * (\sum_t3 R s3 t3 * (\sum_t4 (R s4 t4)^* * T (so t1 a) (so t2 b) (so t3 c) (so t4 d)))).
Proof.
move=> h; rewrite /rotate -(collapse s1 a (fun i => \sum_t2 (R s2 t2)^* * (\sum_t3 R s3 t3 * (\sum_t4 (R s4 t4)^* * T i (so t2 b) (so t3 c) (so t4 d)))) h); apply: eq_bigr => i _.
rewrite -(collapse_c s2 b (fun j => \sum_t3 R s3 t3 * (\sum_t4 (R s4 t4)^* * T i j (so t3 c) (so t4 d))) h) mulr_sumr; apply: eq_bigr => j _.
rewrite -(collapse s3 c (fun k => \sum_t4 (R s4 t4)^* * T i j k (so t4 d)) h) !mulr_sumr; apply: eq_bigr => k _.
rewrite -(collapse_c s4 d (fun l => T i j k l) h) !mulr_sumr; apply: eq_bigr => l _; fring C.
Qed.
Lemma su2_form (T : big4) s1 s2 s3 s4 a b c d : su2_invariant so T -> T (so s1 a) (so s2 b) (so s3 c) (so s4 d) =
  ((s1 == s2) && (s3 == s4))%:R * T (so false a) (so false b) (so true c) (so true d) +
  ((s1 == s4) && (s2 == s3))%:R * (T (so false a) (so false b) (so false c) (so false d) - T (so false a) (so false b) (so true c) (so true d)).
Proof.
move=> h; have [h0 h1 h2 h3] := h a b c d.
case: s1; case: s2; case: s3; case: s4; rewrite /= ?mul0r ?mul1r ?add0r ?addr0;
  first [by rewrite h0 | by rewrite h1 addrC subrK | by rewrite h2 | by rewrite addrC subrK | by rewrite (h3 true) | by rewrite (h3 false) | by []].
Qed.
Lemma invariant_forward (T : big4) : su2_invariant so T -> rotation_invariant so T.
Proof.
move=> h R V hR hV; apply/(eq_so (fast := fast)) => s1 s2 s3 s4 a b c d; rewrite (rotE _ _ _ _ _ _ _ _ _ hV) (su2_form s1 s2 s3 s4 _ _ _ _ h).
under eq_bigr => t1 _ do under eq_bigr => t2 _ do under eq_bigr => t3 _ do under eq_bigr => t4 _ do rewrite (su2_form t1 t2 t3 t4 _ _ _ _ h).
move: (T _ _ _ _) (T _ _ _ _ - _) => r x.
have e12 := hR s1 s2; have e34 := hR s3 s4; have e14 := hR s1 s4; have e32 := hR s3 s2.
rewrite -!mulnb !natrM -e12 -e34 -e14 [s2 == s3]eq_sym -e32 !big_bool /=.
by rewrite !(mulr0n, mulr1n); fring C.
Qed.
Definition spin_mx (R : bool -> bool -> C) : 'M[C]_(2 * nb) :=
  \matrix_(i, j) \sum_s \sum_t \sum_a R s t * (so s a == i)%:R * (so t a == j)%:R.
Lemma spin_mxP R : rotates_spin so R (spin_mx R).
Proof.
move=> s t a b; rewrite mxE (bigD1 s) //= (bigD1 t) //= (bigD1 a) //= !so_inj !eqxx mulr1 /=.
rewrite !big1 ?addr0 //.
- by move=> s' /negbTE h; rewrite big1 // => t' _; rewrite big1 // => a' _; rewrite so_inj h mulr0 mul0r.
- by move=> t' /negbTE h; rewrite big1 // => a' _; rewrite !so_inj h mulr0.
by move=> a' /negbTE h; rewrite !so_inj h andbF mulr0 mul0r.
Qed.
Definition R_phase (s t : bool) : C := (s == t)%:R * (if s then 1 else 'i).
Definition R_swap (s t : bool) : C := (s != t)%:R.
Definition h2 : C := (sqrtC 2%:R)^-1.
Definition R_had (s t : bool) : C := h2 * (if s && t then - 1 else 1).
Lemma h2h2 : h2 * h2 = 2%:R^-1. Proof. by rewrite /h2 -invfM -expr2 sqrtCK. Qed.
Lemma h2C : h2^* = h2. Proof. by apply/CrealP; rewrite realV ger0_real // sqrtC_ge0 ler0n. Qed.
Lemma n2 : (2%:R : C) != 0. Proof. by rewrite pnatr_eq0. Qed.
Lemma phase_unitary : unitary2 R_phase.
Proof.
move=> s t; rewrite big_bool /R_phase; case: s; case: t; rewrite /= ?(mulr0n, mulr1n) ?mul0r ?mul1r ?conjC0 ?conjC1 ?mulr0 ?mulr1 ?addr0 ?add0r //.
by rewrite conjCi mulrN -expr2 sqrCi opprK.
Qed.
Lemma swap_unitary : unitary2 R_swap.
Proof. by move=> s t; rewrite big_bool /R_swap; case: s; case: t; rewrite /= ?(mulr0n, mulr1n) ?mul0r ?mul1r ?conjC0 ?conjC1 ?mulr0 ?mulr1 ?addr0 ?add0r. Qed.
Lemma had_unitary : unitary2 R_had.
Proof.
have e : h2 * h2 + h2 * h2 = 1 by rewrite h2h2 -mulr2n -[_ *+ 2]mulr_natl mulfV ?n2.
by move=> s t; rewrite big_bool /R_had; case: s; case: t; rewrite /= ?(mulr0n, mulr1n) ?mulr1 ?mulrN1 ?rmorphN /= h2C ?mulrNN ?mulrN ?mulNr ?subrr ?addNr ?e.
Qed.
Lemma invariant_back (T : big4) : rotation_invariant so T -> su2_invariant so T.
Proof.
move=> h a b c d.
have rot R s1 s2 s3 s4 : unitary2 R -> \sum_t1 R s1 t1 * (\sum_t2 (R s2 t2)^* * (\sum_t3 R s3 t3 * (\sum_t4 (R s4 t4)^* * T (so t1 a) (so t2 b) (so t3 c) (so t4 d)))) =
    T (so s1 a) (so s2 b) (so s3 c) (so s4 d).
  by move=> hR; rewrite -(rotE _ _ _ _ _ _ _ _ _ (spin_mxP R)) (h R _ hR (spin_mxP R)).
have sw s1 s2 s3 s4 : T (so (~~ s1) a) (so (~~ s2) b) (so (~~ s3) c) (so (~~ s4) d) = T (so s1 a) (so s2 b) (so s3 c) (so s4 d).
  rewrite -[RHS](rot R_swap _ _ _ _ swap_unitary) !big_bool /R_swap.
  by case: s1; case: s2; case: s3; case: s4; rewrite /= ?(mulr0n, mulr1n) ?conjC0 ?conjC1 ?mul0r ?mul1r ?mulr0 ?addr0 ?add0r.
have ze s1 s2 s3 s4 : ~~ conserves_spin s1 s2 s3 s4 -> T (so s1 a) (so s2 b) (so s3 c) (so s4 d) = 0.
  have := rot R_phase s1 s2 s3 s4 phase_unitary; rewrite !big_bool /R_phase.
  have i1 : 'i != 1 :> C by apply/eqP => e; have := sqrCi C; rewrite e expr1n => /eqP; rewrite -subr_eq0 opprK -mulr2n pnatr_eq0.
  have i2 : - 'i != 1 :> C by apply/eqP => e; have := sqrCi C; rewrite -sqrrN e expr1n => /eqP; rewrite -subr_eq0 opprK -mulr2n pnatr_eq0.
  have key x t : x != 1 -> x * t = t -> t = 0 :> C.
    by move=> hx /eqP; rewrite -subr_eq0 -{2}[t]mul1r -mulrBl mulf_eq0 subr_eq0 (negbTE hx) /= => /eqP.
  have m1 : - 1 != 1 :> C by rewrite eq_sym -subr_eq0 opprK -mulr2n pnatr_eq0.
  have ii : 'i * 'i = - 1 :> C by rewrite -expr2 sqrCi.
  have iit t : 'i * ('i * t) = - t :> C by rewrite mulrA ii mulN1r.
  by case: s1; case: s2; case: s3; case: s4 => //=; rewrite !(mulr0n, mulr1n, conjC0, conjC1, conjCi, mul0r, mul1r, mulr0, mulr1, addr0, add0r, mulNr, mulrN, opprK, iit) => hh _;
    first [exact: (key _ _ i1 hh) | apply: (key _ _ i2); rewrite mulNr; exact: hh | apply: (key _ _ m1); rewrite mulN1r; exact: hh].
have hd := rot R_had false false false false had_unitary.
move: hd; rewrite !big_bool /R_had /= !mulr1 h2C.
rewrite (ze true true true false) // (ze true true false true) // (ze true false true true) // (ze false true true true) //.
rewrite (ze false false false true) // (ze false false true false) // (ze false true false false) // (ze true false false false) //.
rewrite (ze true false true false) // (ze false true false true) //.
have s0 := sw false false false false; have s1 := sw false false true true; have s2 := sw false true true false; move: s0 s1 s2 => /= s0 s1 s2.
split=> // s; move: hd; rewrite s0 s1 s2 !(mulr0, addr0, add0r).
set p := T (so false a) (so false b) (so false c) (so false d); set r := T (so false a) (so false b) (so true c) (so true d).
have -> : T (so s a) (so (~~ s) b) (so (~~ s) c) (so s d) = T (so false a) (so true b) (so true c) (so false d) by case: s.
move: (T _ _ _ _) => x hd.
have : (2%:R^-1 * 2%:R^-1) * (p + p + (r + r) + (x + x)) = p by rewrite -h2h2 -[RHS]hd; fring C.
move/(congr1 (fun z => 2%:R * 2%:R * z)); rewrite -invfM mulVKf ?mulf_neq0 ?n2 // => e.
have : x + x = (p - r) + (p - r).
  apply: (addrI (p + p + (r + r))); rewrite e (_ : 2%:R = 1 + 1 :> C) //; fring C.
by rewrite -!mulr2n => /eqP; rewrite eqr_muln2r /= => /eqP.
Qed.
End Spin.

Section SpinThms.
Variables (C : numClosedFieldType) (nb : nat) (fast : bool) (at_ : bool -> 'I_nb -> 'I_(2 * nb)).
Hypothesis hat : is_combined fast at_.
Local Notation big4 := (tensor4 C (2 * nb)).
Lemma rotates_so R (V : 'M[C]_(2 * nb)) : rotates_spin at_ R V <-> rotates_spin (@so nb fast) R V.
Proof. by split=> h s t a b; have := h s t a b; rewrite !(combined_so hat). Qed.
Lemma invariant_so (T : big4) : rotation_invariant at_ T <-> rotation_invariant (@so nb fast) T.
Proof. by split=> h R V hR /rotates_so; apply: h. Qed.
Lemma spin_unitary R (V : 'M[C]_(2 * nb)) : unitary2 R -> rotates_spin at_ R V -> unitary V.
Proof.
move=> hR /rotates_so hV i j; have [s [x ei]] := so_surj fast i; have [t [y ej]] := so_surj fast j; rewrite {}ei {}ej.
rewrite (collapse _ _ (fun l => (V (so fast t y) l)^*) hV).
under eq_bigr do rewrite hV rmorphM rmorph_nat mulrA; rewrite -mulr_suml hR so_inj -natrM mulnb [y == x]eq_sym.
by [].
Qed.
(* C108: the component form used in C14 and C15 is invariance under all rotations *)
Theorem C108_su2 (T : big4) : su2_invariant at_ T <-> rotation_invariant at_ T.
Proof.
rewrite invariant_so (su2_so _ hat); split; [exact: invariant_forward | exact: invariant_back].
Qed.
(* C108: RPA keeps the invariance *)
Theorem C108_rpa (W K Id : eqType) nranks sched (chi0 : chi_wk C (2 * nb) W K Id) (U : big4) w k :
  fair_run nranks (wmesh chi0) (kmesh chi0) sched -> w \in wmesh chi0 -> k \in kmesh chi0 ->
  rotation_invariant at_ (chi_dat chi0 w k) -> rotation_invariant at_ U -> rotation_invariant at_ (chi_dat (solve_rpa_PH nranks sched chi0 U) w k).
Proof.
move=> fs hw hk hX hU R V hR hV.
have hc : rotates_spin at_ (fun s t => (R s t)^*) (conj_matrix V) by move=> s t a b; rewrite mxE hV rmorphM rmorph_nat.
have hRc : unitary2 (fun s t => (R s t)^*).
  by move=> s t; under eq_bigr do rewrite -rmorphM; rewrite -rmorph_sum hR rmorph_nat.
have eX : eq_t4 (chi_dat chi0 w k) (rotate V (chi_dat chi0 w k)) by move=> a b c d; rewrite (hX _ _ hR hV).
have eU : eq_t4 U (rotate (conj_matrix V) U) by move=> a b c d; rewrite (hU _ _ hRc hc).
by move=> a b c d; rewrite -(C106_rpa_basis (spin_unitary hR hV) fs fs hw hk hw hk eX eU).
Qed.
(* C108: the Lindhard function of a Hamiltonian that does not act on the spin *)
Theorem C108_lindhard (K : finZmodType) (fermi cosh : C -> C) (eig : 'M[C]_(2 * nb) -> 'rV[C]_(2 * nb) * 'M[C]_(2 * nb)) (e : K -> 'M[C]_(2 * nb)) beta mu idelta w q :
  eigensolver eig -> hermitian e -> mu \is Num.real -> spin_independent at_ e ->
  rotation_invariant at_ (lindhard_chi00 fermi cosh eig e beta mu idelta w q).
Proof.
move=> he hh hm [h hs] R V hR hV a b c d.
rewrite -(C106_lindhard_basis fermi cosh (e := e) (e' := e) beta he he hh hm idelta w q (spin_unitary hR hV)) // => k.
have /unitaryE uV := spin_unitary hR hV.
suff cm : e k *m V = V *m e k by rewrite -cm -mulmxA uV mulmx1.
have hV' : rotates_spin (@so nb fast) R V by apply/rotates_so.
apply/matrixP=> i j; have [s [x ei]] := so_surj fast i; have [t [y ej]] := so_surj fast j; rewrite {}ei {}ej !mxE.
rewrite (collapse _ _ (fun l => e k l (so fast t y)) hV') (sum_so fast).
have ek s' t' x' y' : e k (so fast s' x') (so fast t' y') = (s' == t')%:R * h k x' y' by rewrite -!(combined_so hat) hs.
under eq_bigr do rewrite ek hV'; under [X in _ + X]eq_bigr do rewrite ek hV'; under [RHS]eq_bigr do rewrite ek.
have col s' : \sum_o (s == s')%:R * h k x o * (R s' t * (o == y)%:R) = (s == s')%:R * h k x y * R s' t.
  by rewrite (bigD1 y) //= eqxx mulr1 big1 ?addr0 // => o /negbTE ->; rewrite !mulr0.
rewrite !col big_bool; case: s {col}; case: t => /=; rewrite !(mulr0n, mulr1n, mul0r, mul1r, mulr0, mulr1, addr0, add0r) mulrC //.
Qed.
End SpinThms.

Section Kanamori.
Variables (C : numClosedFieldType) (nb : nat).
Add Ring Cring2 : (fld_rt C).
Local Notation t4 := (tensor4 C nb).
(* C108: the Kanamori tensor is invariant under spin rotations for all strengths *)
Theorem C108_kanamori_spin at_ (U Up J Jp : C) : is_combined false at_ -> rotation_invariant at_ (@kanamori_quartic_tensor C nb U Up J Jp).
Proof.
move=> h; apply/(C108_su2 h); rewrite /kanamori_quartic_tensor; apply: C14_built_is_invariant => //; exact: n2.
Qed.
Definition kan (v1 v2 v3 v4 : C) : t4 := fun a b c d =>
  v2 * ((a == d) && (b == c))%:R + v3 * ((a == b) && (c == d))%:R + v4 * ((a == c) && (b == d))%:R + (v1 - v2 - v3 - v4) * [&& a == b, b == c & c == d]%:R.
Lemma kanE (U Up J Jp : C) : let: (U_c, U_s) := kanamori_charge_and_spin_quartic_interaction_tensors nb U Up J Jp in
  eq_t4 U_c (kan U (- Up + 2%:R * J) (2%:R * Up - J) Jp) /\ eq_t4 U_s (kan U Up J Jp).
Proof.
have e (v1 v2 v3 v4 : C) a b c d : (let x := 0 in
    let x := if (a == b) && (a == c) && (c == d) then v1 else x in
    let x := if (a == d) && (a != c) && (b == c) then v2 else x in
    let x := if (a == b) && (a != c) && (c == d) then v3 else x in
    if (a == c) && (a != b) && (b == d) then v4 else x) = kan v1 v2 v3 v4 a b c d.
  rewrite /kan; case: (a =P b) => ab; case: (a =P c) => ac; case: (a =P d) => ad; case: (b =P c) => bc; case: (c =P d) => cd; case: (b =P d) => bd /=;
    first [by exfalso; congruence | by rewrite -[LHS]addr0 ?(mulr0n, mulr1n); fring C].
by rewrite /kanamori_charge_and_spin_quartic_interaction_tensors; split=> a b c d; apply: e.
Qed.
Lemma sum_at (g : 'I_nb -> C) x : \sum_l g l * (x == l)%:R = g x.
Proof. by rewrite (bigD1 x) //= eqxx mulr1 big1 ?addr0 // => o; rewrite eq_sym => /negbTE ->; rewrite mulr0. Qed.
Lemma rot_kan V (v1 v2 v3 v4 : C) a b c d : orthogonal V -> rotate V (kan v1 v2 v3 v4) a b c d =
  v2 * ((a == d) && (b == c))%:R + v3 * ((a == b) && (c == d))%:R + v4 * ((a == c) && (b == d))%:R +
  (v1 - v2 - v3 - v4) * \sum_i V a i * V b i * V c i * V d i.
Proof.
move=> [hr ho]; rewrite /rotate.
have hC x y : (V x y)^* = V x y by exact/CrealP.
under eq_bigr => i _ do under eq_bigr => j _ do under eq_bigr => k _ do
  (under eq_bigr => l _ do [rewrite !hC /kan -!mulnb !natrM (_ : _ * _ =
     (v2 * V a i * V b j * V c k * V d l * (j == k)%:R) * (i == l)%:R + (v3 * V a i * V b j * V c k * V d l * (i == j)%:R) * (k == l)%:R
     + (v4 * V a i * V b j * V c k * V d l * (i == k)%:R) * (j == l)%:R + ((v1 - v2 - v3 - v4) * V a i * V b j * V c k * V d l * (i == j)%:R * (j == k)%:R) * (k == l)%:R); last by fring C];
   rewrite !big_split /= !sum_at).
rewrite -!mulnb !natrM -!ho.
have e1 : \sum_i \sum_j \sum_k v2 * V a i * V b j * V c k * V d i * (j == k)%:R = v2 * (\sum_i V a i * V d i * \sum_j V b j * V c j).
  rewrite mulr_sumr; apply: eq_bigr => i _; rewrite !mulr_sumr; apply: eq_bigr => j _; rewrite (sum_at (fun k => v2 * V a i * V b j * V c k * V d i)); fring C.
have e2 : \sum_i \sum_j \sum_k v3 * V a i * V b j * V c k * V d k * (i == j)%:R = v3 * (\sum_i V a i * V b i * \sum_k V c k * V d k).
  rewrite mulr_sumr; apply: eq_bigr => i _; rewrite exchange_big !mulr_sumr; apply: eq_bigr => k _; rewrite (sum_at (fun j => v3 * V a i * V b j * V c k * V d k)); fring C.
have e3 : \sum_i \sum_j \sum_k v4 * V a i * V b j * V c k * V d j * (i == k)%:R = v4 * (\sum_i V a i * V c i * \sum_j V b j * V d j).
  rewrite mulr_sumr; apply: eq_bigr => i _; rewrite !mulr_sumr; apply: eq_bigr => j _; rewrite (sum_at (fun k => v4 * V a i * V b j * V c k * V d j)); fring C.
have e4 : \sum_i \sum_j \sum_k (v1 - v2 - v3 - v4) * V a i * V b j * V c k * V d k * (i == j)%:R * (j == k)%:R = (v1 - v2 - v3 - v4) * \sum_i V a i * V b i * V c i * V d i.
  rewrite mulr_sumr; apply: eq_bigr => i _.
  under eq_bigr => j _ do rewrite (sum_at (fun k => (v1 - v2 - v3 - v4) * V a i * V b j * V c k * V d k * (i == j)%:R)).
  rewrite (sum_at (fun j => (v1 - v2 - v3 - v4) * V a i * V b j * V c j * V d j)); fring C.
under eq_bigr => i _ do under eq_bigr => j _ do rewrite !big_split /=.
under eq_bigr => i _ do rewrite !big_split /=.
by rewrite !big_split /= e1 e2 e3 e4 !mulr_suml.
Qed.
Lemma kan_invariant (v1 v2 v3 v4 : C) : (1 < nb)%N -> orbital_invariant (kan v1 v2 v3 v4) <-> v1 = v2 + v3 + v4.
Proof.
move=> hn; split; last first.
  by move=> -> V hV a b c d; rewrite (rot_kan _ _ _ _ _ _ _ _ hV) /kan (_ : v2 + v3 + v4 - v2 - v3 - v4 = 0) ?mul0r //; fring C.
pose i0 := Ordinal (ltn_trans (ltnSn 0) hn); pose i1 := Ordinal hn.
have n01 : (i0 == i1) = false by []. have n10 : (i1 == i0) = false by [].
pose row (a c : 'I_nb) : C := if a == i0 then h2 C * ((i0 == c)%:R + (i1 == c)%:R) else if a == i1 then h2 C * ((i0 == c)%:R - (i1 == c)%:R) else (a == c)%:R.
pose V : 'M[C]_nb := \matrix_(a, c) row a c.
have hh : h2 C * h2 C + h2 C * h2 C = 1 by rewrite h2h2 -mulr2n -[_ *+ 2]mulr_natl mulfV ?n2.
have sumrow (a : 'I_nb) (g : 'I_nb -> C) : \sum_c row a c * g c = if a == i0 then h2 C * (g i0 + g i1) else if a == i1 then h2 C * (g i0 - g i1) else g a.
  rewrite /row; case: ifP => _; last case: ifP => _.
  - under eq_bigr => c _ do rewrite -mulrA mulrDl ![_%:R * _]mulrC; by rewrite -mulr_sumr big_split /= !sum_at.
  - under eq_bigr => c _ do rewrite -mulrA mulrBl ![_%:R * _]mulrC; by rewrite -mulr_sumr sumrB /= !sum_at.
  - under eq_bigr => c _ do rewrite mulrC; by rewrite sum_at.
have hV : orthogonal V.
  split=> a b.
    have h2r : h2 C \is Num.real by apply/CrealP; exact: h2C.
    by rewrite mxE /row; case: ifP => _; [|case: ifP => _]; rewrite ?rpredM ?rpredB ?rpredD ?realn.
  under eq_bigr do rewrite !mxE; rewrite sumrow.
  rewrite /row; case: (a =P i0) => [->|/eqP/negbTE na0]; last case: (a =P i1) => [->|/eqP/negbTE na1].
  - rewrite [i0 == b]eq_sym; case: (b =P i0) => [eb|/eqP/negbTE nb0]; last case: (b =P i1) => [eb|/eqP/negbTE nb1]; rewrite ?eb ?eqxx ?n01 ?n10 ?nb0 ?nb1 !(mulr0n, mulr1n) ?addr0 ?add0r ?mulr0 ?mulr1 //.
      by rewrite mulrDr hh.
    by rewrite subr0 mulr1 mulrN1 subrr mulr0.
  - rewrite [i1 == b]eq_sym; case: (b =P i0) => [eb|/eqP/negbTE nb0]; last case: (b =P i1) => [eb|/eqP/negbTE nb1]; rewrite ?eb ?eqxx ?n01 ?n10 ?nb0 ?nb1 !(mulr0n, mulr1n) ?addr0 ?add0r ?subr0 ?mulr0 ?mulr1 ?subrr ?mulr0 //.
      by rewrite mulrN1 opprK mulrDr hh.
    by rewrite oppr0 mulr0.
  - case: (b =P i0) => [eb|/eqP/negbTE nb0]; last case: (b =P i1) => [eb|/eqP/negbTE nb1]; rewrite ?eb ?na0 ?na1 ?[i0 == a]eq_sym ?[i1 == a]eq_sym ?na0 ?na1 ?addr0 ?subr0 ?mulr0 //.
    by rewrite eq_sym.
move=> inv; have := inv V hV i0 i0 i0 i0; rewrite (rot_kan _ _ _ _ _ _ _ _ hV) /kan !eqxx /=.
move/addrI => e; have {e} : (v1 - v2 - v3 - v4) * (1 - \sum_i V i0 i * V i0 i * V i0 i * V i0 i) = 0 by rewrite mulrBr e subrr.
have -> : \sum_i V i0 i * V i0 i * V i0 i * V i0 i = 2%:R^-1.
  transitivity (\sum_i row i0 i * (row i0 i * (row i0 i * row i0 i))); first by apply: eq_bigr => i _; rewrite !mxE -!mulrA.
  rewrite sumrow /= /row /= !(mulr0n, mulr1n) addr0 add0r mulr1.
  rewrite (_ : h2 C * _ = (h2 C * h2 C) * (h2 C * h2 C + h2 C * h2 C)); last by fring C. by rewrite hh mulr1 h2h2.
move/eqP; rewrite mulf_eq0 => /orP[/eqP e|].
  by rewrite -[LHS](addrNK v2) -[v1 - v2](addrNK v3) -[v1 - v2 - v3](addrNK v4) e; fring C.
by rewrite subr_eq0 eq_sym invr_eq1 (eqr_nat _ 2 1).
Qed.
(* C108: invariance under rotations of the orbitals, of the tensors that kanamori_charge_and_spin_quartic_interaction_tensors returns *)
Theorem C108_orbital (U Up J Jp : C) : (1 < nb)%N -> let: (U_c, U_s) := kanamori_charge_and_spin_quartic_interaction_tensors nb U Up J Jp in
  (orbital_invariant U_c <-> U = Up + J + Jp) /\ (orbital_invariant U_s <-> U = Up + J + Jp).
Proof.
move=> hn; have [ec es] := kanE U Up J Jp.
have tr (T T' : t4) : eq_t4 T T' -> orbital_invariant T <-> orbital_invariant T'.
  move=> eT; split=> h V hV a b c d; [rewrite -eT -(h V hV) | rewrite eT -(h V hV)]; apply: eq_bigr => ? _; apply: eq_bigr => ? _; apply: eq_bigr => ? _; apply: eq_bigr => ? _; by rewrite eT.
split; [apply: iff_trans (tr _ _ ec) _ | apply: iff_trans (tr _ _ es) _]; apply: iff_trans (kan_invariant _ _ _ _ hn) _ => //.
by have -> : - Up + 2%:R * J + (2%:R * Up - J) + Jp = Up + J + Jp by rewrite (_ : 2%:R = 1 + 1 :> C) //; fring C.
Qed.
(* C108: RPA with the Kanamori interaction on the Lindhard function of a Hamiltonian that does not act on the spin *)
Theorem C108_magnetism at_ (K : finZmodType) (fermi cosh : C -> C) eig (e : K -> 'M[C]_(2 * nb)) beta mu idelta
    (Id : eqType) nranks sched (ws : seq C) (i : Id) (U Up J Jp : C) w q : is_combined false at_ ->
  eigensolver eig -> hermitian e -> mu \is Num.real -> spin_independent at_ e -> fair_run nranks ws (enum K) sched -> w \in ws ->
  rotation_invariant at_ (chi_dat (solve_rpa_PH nranks sched (ChiWK ws (enum K) i (lindhard_chi00 fermi cosh eig e beta mu idelta)) (@kanamori_quartic_tensor C nb U Up J Jp)) w q).
Proof.
move=> hat he hh hm hs fs hw; apply: (C108_rpa hat) => //; rewrite ?mem_enum //; [exact: (C108_lindhard hat) | exact: C108_kanamori_spin].
Qed.
(* a rotation by 90 degrees that mixes up and down, and one choice of strengths of each kind *)
Theorem C108_case (nn : (1 < nb)%N) (a := Ordinal nn) : let at_ := so false in
  (exists (R : bool -> bool -> C) (V : 'M[C]_(2 * nb)), [/\ unitary2 R, rotates_spin at_ R V & V (at_ false a) (at_ true a) != 0 :> C]) /\
  let: (_, U_s) := kanamori_charge_and_spin_quartic_interaction_tensors nb (3%:R : C) 1 1 1 in
  let: (_, T_s) := kanamori_charge_and_spin_quartic_interaction_tensors nb (1 : C) 0 0 0 in
  [/\ orbital_invariant U_s, U_s a a a a = 3%:R, ~ orbital_invariant T_s & T_s a a a a = 1 :> C].
Proof.
split.
  exists (@R_had C), (@spin_mx C nb false (@R_had C)); split; [exact: had_unitary | exact: spin_mxP |].
  by rewrite spin_mxP eqxx /R_had !mulr1 invr_eq0 sqrtC_eq0 n2.
have [_ [_ h1]] := C108_orbital 3%:R 1 1 1 nn; have [_ [h2 _]] := C108_orbital 1 0 0 0 nn.
split; [apply: h1 | by rewrite /= ?eqxx | move/h2/eqP; rewrite !addr0 oner_eq0 // | by rewrite /= ?eqxx].
by rewrite !mulrS mulr0n addr0 addrA.
Qed.
End Kanamori.
Print Assumptions C108_su2.
Print Assumptions C108_rpa.
Print Assumptions C108_lindhard.
Print Assumptions C108_kanamori_spin.
Print Assumptions C108_orbital.
Print Assumptions C108_magnetism.
Print Assumptions C108_case.
