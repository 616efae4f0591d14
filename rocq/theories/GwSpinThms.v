(* C101: spinless=True in the GW solver. *)
From mathcomp Require Import all_ssreflect all_algebra.
From Verif Require Import Base MpiModel MpiProofs MpiSpec FourierModel FourierProofs BubbleModel MatsubaraModel ImtimeModel RpaModel RpaSpec RpaProofs
  MatAlg Fring DysonModel GwModel GwSpec GwProofs GwChainModel BseProofs GwSolverModel GwFullModel GwFullProofs GwRel.
Set Implicit Arguments.
Unset Strict Implicit.
Unset Printing Implicit Defensive.
Import GRing.Theory Num.Theory.
Local Open Scope ring_scope.

(* Two spins with the same orbitals: index pidx s a is orbital a of spin s. *)
Section Spec.
Variables (C : fieldType) (nb : nat).
Local Notation spin := (@pfst 2 nb).
Local Notation orb := (@psnd 2 nb).
(* the same for both spins, no spin flips *)
Definition both (g : 'M[C]_nb) : 'M[C]_(2 * nb) := \matrix_(i, j) if spin i == spin j then g (orb i) (orb j) else 0.
(* V_abcd c^+_{a s} c_{b s} c^+_{c s'} c_{d s'} for all s, s' *)
Definition spin_V (V : tensor4 C nb) : tensor4 C (2 * nb) :=
  fun i j k l => if (spin i == spin j) && (spin k == spin l) then V (orb i) (orb j) (orb k) (orb l) else 0.
(* the same with s' opposite to s only *)
Definition opposite_V (V : tensor4 C nb) : tensor4 C (2 * nb) :=
  fun i j k l => if [&& spin i == spin j, spin k == spin l & spin i != spin k] then V (orb i) (orb j) (orb k) (orb l) else 0.
(* a bubble of one spin: the propagators connect d with a and b with c *)
Definition spin_P (P : tensor4 C nb) : tensor4 C (2 * nb) :=
  fun i j k l => if (spin l == spin i) && (spin j == spin k) then P (orb i) (orb j) (orb k) (orb l) else 0.
(* the components with one spin *)
Definition same_spin (X : tensor4 C (2 * nb)) (s : 'I_2) : tensor4 C nb := fun a b c d => X (pidx s a) (pidx s b) (pidx s c) (pidx s d).
End Spec.

Section Algebra.
Variables (C : fieldType) (nb : nat).
Add Ring Cring : (fld_rt C).
Local Notation spin := (@pfst 2 nb).
Local Notation orb := (@psnd 2 nb).
Local Notation N := ((2 * nb) * (2 * nb))%N.
Definition diag (i : 'I_N) : bool := spin (pfst i) == spin (psnd i).
Definition orbs (i : 'I_N) : 'I_(nb * nb) := pidx (orb (pfst i)) (orb (psnd i)).
Definition D : 'M[C]_(N, nb * nb) := \matrix_(i, k) (diag i && (orbs i == k))%:R.
Lemma Dmul p (M : 'M[C]_(nb * nb, p)) i j : (D *m M) i j = if diag i then M (orbs i) j else 0.
Proof.
rewrite mxE (bigD1 (orbs i)) //= big1 => [|k hk]; first by rewrite mxE eqxx andbT addr0; case: diag; rewrite ?mul1r ?mul0r.
by rewrite mxE (eq_sym (orbs i)) (negbTE hk) andbF mul0r.
Qed.
Lemma DTmul p (M : 'M[C]_(N, p)) k j : (D^T *m M) k j = \sum_(s : 'I_2) M (pidx (pidx s (pfst k)) (pidx s (psnd k))) j.
Proof.
rewrite mxE (eq_bigr (fun i => if diag i && (orbs i == k) then M i j else 0)); last first.
  by move=> i _; rewrite !mxE; case: (_ && _); rewrite ?mul1r ?mul0r.
rewrite -big_mkcond /= (reindex_onto (fun s => pidx (pidx s (pfst k)) (pidx s (psnd k))) (fun i => spin (pfst i))) /=; last first.
  move=> i /andP[/eqP h /eqP <-]; rewrite /orbs pidxK1 pidxK2 pidx_eta h pidx_eta pidx_eta //.
by apply: eq_bigl => s; rewrite /diag /orbs !(pidxK1, pidxK2) pidx_eta !eqxx.
Qed.
Lemma mulD p (M : 'M[C]_(p, N)) i k : (M *m D) i k = \sum_(s : 'I_2) M i (pidx (pidx s (pfst k)) (pidx s (psnd k))).
Proof.
have -> : (M *m D) i k = (D^T *m M^T) k i by rewrite -trmx_mul [RHS]mxE.
by rewrite DTmul; apply: eq_bigr => s _; rewrite mxE.
Qed.
Lemma mulDT p (M : 'M[C]_(p, nb * nb)) i j : (M *m D^T) i j = if diag j then M i (orbs j) else 0.
Proof.
have -> : (M *m D^T) i j = (D *m M^T) j i by rewrite -[D in RHS]trmxK -trmx_mul [RHS]mxE.
by rewrite Dmul; case: ifP => // _; rewrite mxE.
Qed.
Lemma tmat_spin_V (V : tensor4 C nb) : tmat (spin_V V) = D *m tmat V *m D^T.
Proof.
apply/matrixP=> i j; rewrite mulDT Dmul mxE /spin_V /diag /orbs; case: (_ == _); case: (_ == _) => //=; by rewrite tmatE.
Qed.
Lemma DPD (P : tensor4 C nb) : D^T *m tmat (spin_P P) *m D = 2%:R *: tmat P.
Proof.
apply/matrixP=> i j; rewrite mulD.
rewrite (eq_bigr (fun=> tmat P i j)) => [|s _]; first by rewrite sumr_const card_ord [RHS]mxE mulr_natl.
rewrite DTmul (bigD1 s) //= big1 => [|t ht]; rewrite tmatE /spin_P !pidxK1 !pidxK2.
  by rewrite eqxx addr0 mxE.
by rewrite (eq_sym s) (negbTE ht).
Qed.
Lemma PD (P : tensor4 C nb) s a b k : (tmat (spin_P P) *m D) (pidx (pidx s a) (pidx s b)) k = tmat P (pidx a b) k.
Proof.
rewrite mulD (bigD1 s) //= big1 => [|t ht]; rewrite tmatE /spin_P !pidxK1 !pidxK2; last by rewrite (negbTE ht).
by rewrite eqxx addr0 mxE !pidxK1 !pidxK2.
Qed.
Lemma DP (P : tensor4 C nb) s c d k : (D^T *m tmat (spin_P P)) k (pidx (pidx s c) (pidx s d)) = tmat P k (pidx c d).
Proof.
rewrite DTmul (bigD1 s) //= big1 => [|t ht]; rewrite tmatE /spin_P !pidxK1 !pidxK2; last by rewrite (eq_sym s) (negbTE ht).
by rewrite eqxx addr0 mxE !pidxK1 !pidxK2.
Qed.
(* W of the spinful calculation, also for singular matrices *)
Lemma screened_spin (P V : tensor4 C nb) : let A := 1%:M - tmat (spin_P P) *m tmat (spin_V V) in
  tmat (spin_V V) *m invmx A = D *m (tmat V *m invmx (1%:M - (2%:R *: tmat P) *m tmat V)) *m D^T.
Proof.
move=> A; set B := 1%:M - _ *m tmat V.
have eA : A = 1%:M - (tmat (spin_P P) *m D) *m (tmat V *m D^T) by rewrite /A tmat_spin_V !mulmxA.
have eV : tmat (spin_V V) = D *m (tmat V *m D^T) by rewrite tmat_spin_V !mulmxA.
have eX : (tmat V *m D^T) *m (tmat (spin_P P) *m D) = tmat V *m (2%:R *: tmat P) by rewrite -DPD !mulmxA.
case u: (A \in unitmx).
  have u' : 1%:M - (tmat (spin_P P) *m D) *m (tmat V *m D^T) \in unitmx by rewrite -eA.
  have v := swap_unit u'; rewrite eV -mulmxA eA -(push_through v) eX.
  have w : 1%:M - tmat V *m (2%:R *: tmat P) \in unitmx by rewrite -eX.
  by rewrite -(push_through w) !mulmxA.
have nB : (B \in unitmx) = false.
  apply/negP => w; have := swap_unit w; rewrite -eX => w'; have := swap_unit w'; by rewrite -eA u.
rewrite /invmx u nB /A /B !mulmxBr !mulmxBl !mulmx1 -tmat_spin_V -DPD; congr (_ - _).
by rewrite tmat_spin_V !mulmxA.
Qed.
Lemma chi_spin (P W : tensor4 C nb) s a b c d : (tmat (spin_P P) *m tmat (spin_V W) *m tmat (spin_P P) + tmat (spin_P P)) (pidx (pidx s a) (pidx s b)) (pidx (pidx s c) (pidx s d)) =
  (tmat P *m tmat W *m tmat P + tmat P) (pidx a b) (pidx c d).
Proof.
rewrite tmat_spin_V mxE [RHS]mxE; congr (_ + _); last by rewrite !tmatE /spin_P !pidxK1 !pidxK2 !eqxx.
have -> : tmat (spin_P P) *m (D *m tmat W *m D^T) *m tmat (spin_P P) = (tmat (spin_P P) *m D) *m tmat W *m (D^T *m tmat (spin_P P)) by rewrite !mulmxA.
rewrite mxE [RHS]mxE; apply: eq_bigr => l _; rewrite DP; congr (_ * _).
by rewrite mxE [RHS]mxE; apply: eq_bigr => k _; rewrite PD.
Qed.
(* sums over the spin-orbitals *)
Lemma both_sum (F : 'I_nb -> 'I_nb -> C) (H : 'I_nb -> 'I_nb -> C) (s t : 'I_2) :
  \sum_i \sum_j (if (s == spin i) && (spin j == t) then F (orb i) (orb j) else 0) * (if spin i == spin j then H (orb i) (orb j) else 0) =
  if s == t then \sum_c \sum_d F c d * H c d else 0.
Proof.
rewrite sum_pidx (bigD1 s) //= [X in _ + X]big1 => [|x hx]; last first.
  by rewrite big1 // => a _; rewrite big1 // => j _; rewrite !pidxK1 (eq_sym s) (negbTE hx) /= mul0r.
rewrite addr0; transitivity (\sum_c \sum_d (if s == t then F c d * H c d else 0)); last by case: ifP => // _; rewrite big1 // => c _; rewrite big1.
apply: eq_bigr => c _; rewrite sum_pidx (bigD1 s) //= [X in _ + X]big1 => [|x hx]; last first.
  by rewrite big1 // => a _; rewrite !pidxK1 !pidxK2 (eq_sym s x) (negbTE hx) mulr0.
by rewrite addr0; apply: eq_bigr => d _; rewrite !pidxK1 !pidxK2 !eqxx /=; case: ifP => _; rewrite ?mul0r.
Qed.
Lemma both_sum2 (F : 'I_nb -> 'I_nb -> C) (H : 'I_nb -> 'I_nb -> C) :
  \sum_i \sum_j (if spin i == spin j then F (orb i) (orb j) else 0) * (if spin i == spin j then H (orb i) (orb j) else 0) =
  2%:R * \sum_c \sum_d F c d * H c d.
Proof.
rewrite sum_pidx mulr_natl -[in RHS](card_ord 2) -sumr_const; apply: eq_bigr => s _; apply: eq_bigr => c _.
rewrite sum_pidx (bigD1 s) //= [X in _ + X]big1 => [|x hx]; last first.
  by rewrite big1 // => a _; rewrite !pidxK1 (eq_sym s x) (negbTE hx) mulr0.
by rewrite addr0; apply: eq_bigr => d _; rewrite !pidxK1 !pidxK2 !eqxx.
Qed.
Lemma bothM (A B : 'M[C]_nb) : both A *m both B = both (A *m B).
Proof.
apply/matrixP=> i j; rewrite mxE [RHS]mxE sum_pidx (bigD1 (spin i)) //= [X in _ + X]big1 => [|x hx]; last first.
  by rewrite big1 // => a _; rewrite !mxE !pidxK1 (eq_sym _ x) (negbTE hx) mul0r.
rewrite addr0; case: ifP => hs; last by rewrite big1 // => a _; rewrite !mxE !pidxK1 hs mulr0.
by rewrite mxE; apply: eq_bigr => a _; rewrite !mxE !pidxK1 !pidxK2 eqxx hs.
Qed.
Lemma both_scalar (x : C) : both (x%:M : 'M[C]_nb) = x%:M.
Proof.
apply/matrixP=> i j; rewrite !mxE -[in RHS](pidx_eta i) -[in RHS](pidx_eta j) pidx_eq; by case: (_ == _).
Qed.
Lemma both1 : both (1%:M : 'M[C]_nb) = 1%:M. Proof. exact: both_scalar. Qed.
Lemma bothB (A B : 'M[C]_nb) : both (A - B) = both A - both B.
Proof. by apply/matrixP=> i j; rewrite !mxE; case: ifP => _; rewrite ?subr0. Qed.
Lemma bothD (A B : 'M[C]_nb) : both (A + B) = both A + both B.
Proof. by apply/matrixP=> i j; rewrite !mxE; case: ifP => _; rewrite ?addr0. Qed.
Lemma both0 : both (0 : 'M[C]_nb) = 0.
Proof. by apply/matrixP=> i j; rewrite !mxE; case: ifP. Qed.
Lemma both_inv (A : 'M[C]_nb) : invmx (both A) = both (invmx A).
Proof.
case u: (A \in unitmx); first by apply: invmx_uniq; rewrite bothM mulmxV // both1.
have v : (both A \in unitmx) = false.
  apply/negP => v; have := mulmxV v; set X := invmx _ => e.
  pose Y : 'M[C]_nb := \matrix_(a, b) X (pidx 0 a) (pidx 0 b).
  have : A *m Y = 1%:M.
    apply/matrixP=> a b; have := congr1 (fun M : 'M_(2 * nb) => M (pidx 0 a) (pidx 0 b)) e.
    rewrite mxE [X in _ = X -> _]mxE pidx_eq eqxx /= => h; rewrite [RHS]mxE -h sum_pidx (bigD1 0) //= [X in _ = _ + X]big1 => [|x hx]; last first.
      by rewrite big1 // => c _; rewrite !mxE !pidxK1 (eq_sym _ x) (negbTE hx) mul0r.
    by rewrite addr0 mxE; apply: eq_bigr => c _; rewrite !mxE !pidxK1 !pidxK2 eqxx.
  by move/unitmx_right; rewrite u.
by rewrite /invmx u v.
Qed.
End Algebra.

Section Spinless.
Variables (C : numClosedFieldType) (n1 n2 n3 nb nn L : nat) (z1 z2 z3 beta : C).
Local Notation K := (site n1 n2 n3).
Local Notation spin := (@pfst 2 nb).
Local Notation orb := (@psnd 2 nb).
Local Notation Wb := 'I_(2 * nn).-1.
Local Notation Wf := 'I_(2 * nn).
Local Notation mat nb := 'M[C]_nb.
Variables (freq : Wf -> C) (density : (int -> mat nb) -> mat nb) (wt : (int -> mat nb) -> 'I_L.+1 -> mat nb) (tw : ('I_L.+1 -> C) -> int -> C).
Variables (density2 : (int -> mat (2 * nb)) -> mat (2 * nb)) (wt2 : (int -> mat (2 * nb)) -> 'I_L.+1 -> mat (2 * nb)).
Variables (wtc : (Wb -> C) -> 'I_L.+1 -> C) (tw_plan tw_lib : ('I_L.+1 -> C) -> int -> C).
Variable brentq : (C -> C) -> C * C -> C -> option C.
Variables (nranks nranks' : nat) (sc sc' : schedules).
Variables (e_k : K -> mat nb) (V_k : K -> tensor4 C nb).
Add Ring Cring2 : (fld_rt C).
Local Notation G nb := (G C n1 n2 n3 nb nn).
Local Notation chi4 nb := (chi4 C n1 n2 n3 nb nn).
Local Notation Rho nb := (Rho C n1 n2 n3 nb).
Local Notation state nb := (solver_state C n1 n2 n3 nb nn).
(* all spin-orbitals *)
Definition e_both (k : K) : mat (2 * nb) := both (e_k k).
Definition V_both (k : K) : tensor4 C (2 * nb) := spin_V (V_k k).
Definition run1 := gw_solve_iter z1 z2 z3 beta freq density wt tw wtc tw_plan tw_lib brentq nranks sc e_k V_k.
Definition run2 := gw_solve_iter z1 z2 z3 beta freq density2 wt2 tw wtc tw_plan tw_lib brentq nranks' sc' e_both V_both.
Definition start1 := gw_init z1 z2 z3 freq density brentq nranks sc e_k.
Definition start2 := gw_init z1 z2 z3 freq density2 brentq nranks' sc' e_both.
(* the distributed loops run on all points; the time-frequency transforms are linear; those of matrices treat the two spins of a function without spin flips
   separately and alike; a root of f is a root of 2 f *)
Definition spins_ok : Prop := [/\ fair_sched nranks sc, fair_sched nranks' sc', forall n, linfun (fun x => tw x n), forall t, linfun (fun x => wtc x t) &
  forall n, linfun (fun x => tw_plan x n)] /\
  [/\ forall f f', (forall n, f' n = both (f n)) -> density2 f' = both (density f),
    forall f f' t, (forall n, f' n = both (f n)) -> wt2 f' t = both (wt f t) &
    forall f f' b t, (forall x, f' x = 2%:R * f x) -> brentq f b t = brentq f' b t].
Definition both_g (g : G nb) (g' : G (2 * nb)) : Prop := forall w k, g' (w, k) = both (g (w, k)).
Definition both_rho (r : Rho nb) (r' : Rho (2 * nb)) : Prop := forall R, r' R = both (r R).
Definition both_P (P : chi4 nb) (P' : chi4 (2 * nb)) : Prop := forall w q a b c d, P' w q a b c d = spin_P (P w q) a b c d.
Definition both_W (W : chi4 nb) (W' : chi4 (2 * nb)) : Prop := forall w q a b c d, W' w q a b c d = spin_V (W w q) a b c d.
Definition both_chi (X : chi4 nb) (X' : chi4 (2 * nb)) : Prop := forall w q s a b c d, same_spin (X' w q) s a b c d = X w q a b c d.
Definition twice (x y : C) : Prop := y = 2%:R * x.
(* chemical potentials equal, twice the particle number *)
Definition both_state : state nb -> state (2 * nb) -> Prop := same_state eq both_g both_rho twice both_P both_W both_chi.
Definition both_args (a : args C) : args C := Args (omap (fun n => 2%:R * n) (N_fix a)) (N_tol a) (mu_bracket a).
Hypothesis ok : spins_ok.
Let hs : fair_sched nranks sc. Proof. by case: ok => -[]. Qed.
Let hs' : fair_sched nranks' sc'. Proof. by case: ok => -[]. Qed.
Let twL : forall n, linfun (fun x => tw x n). Proof. by case: ok => -[]. Qed.
Let wtcL : forall t, linfun (fun x => wtc x t). Proof. by case: ok => -[]. Qed.
Let planL : forall n, linfun (fun x => tw_plan x n). Proof. by case: ok => -[]. Qed.
Let hden : forall f f', (forall n, f' n = both (f n)) -> density2 f' = both (density f). Proof. by case: ok => _ []. Qed.
Let hwt : forall f f' t, (forall n, f' n = both (f n)) -> wt2 f' t = both (wt f t). Proof. by case: ok => _ []. Qed.
Lemma k2rL r : linfun (fun f => @fourier_k_to_r C n1 n2 n3 z1 z2 z3 f r).
Proof. by split=> [x y h|c x y]; [exact: k2r_ext | exact: k2r_lin]. Qed.
Lemma r2kL r : linfun (fun f => @fourier_r_to_k C n1 n2 n3 z1 z2 z3 f r).
Proof. by split=> [x y h|c x y]; [exact: r2k_ext | exact: r2k_lin]. Qed.
Lemma lin_if (A : Type) (F : (A -> C) -> C) (b : bool) (f f' : A -> C) : linfun F -> (forall x, f' x = if b then f x else 0) -> F f' = if b then F f else 0.
Proof.
move=> hF h; case: b h => h; first by apply: hF.1.
by rewrite -(linfun0 hF); apply: hF.1.
Qed.
Lemma on_ints_both (g : G nb) g' : both_g g g' -> forall n k, on_ints g' n k = both (on_ints g n k).
Proof.
move=> h n k; rewrite /on_ints; elim/big_rec2: _ => [|p x y _ ->]; first by rewrite both0.
by rewrite h bothD.
Qed.
Lemma rho_both g g' : both_g g g' -> both_rho (calc_rho z1 z2 z3 density nranks sc g) (calc_rho z1 z2 z3 density2 nranks' sc' g').
Proof.
move=> h R; rewrite !calc_rhoE //; apply/matrixP=> a b; rewrite !mxE.
apply: (lin_if (k2rL R)) => k; rewrite (hden (f := fun n => on_ints g n k)) ?mxE // => n; exact: on_ints_both.
Qed.
Lemma trace_both r r' : both_rho r r' -> total_density r' = 2%:R * total_density r.
Proof.
move=> h; rewrite /total_density sum_pidx mulr_natl -[in RHS](card_ord 2) -sumr_const; apply: eq_bigr => s _; apply: eq_bigr => a _.
by rewrite h mxE !pidxK1 !pidxK2 eqxx.
Qed.
Lemma hartree_both r r' : both_rho r r' -> both_g (hartree_sigma nn z1 z2 z3 (fun k a b c d => 2%:R * V_k k a b c d) r) (hartree_sigma nn z1 z2 z3 V_both r').
Proof.
move=> h w k; rewrite !hartreeE; apply/matrixP=> a b; rewrite !mxE.
transitivity (\sum_c \sum_d (if spin c == spin d then (if spin a == spin b then V_k 0 (orb a) (orb b) (orb c) (orb d) else 0) else 0) * (if spin c == spin d then r 0 (orb c) (orb d) else 0)).
  by do 2!(apply: eq_bigr => ? _); rewrite h mxE /V_both /spin_V; case: (_ == _); case: (_ == _).
rewrite (both_sum2 (fun c d => if spin a == spin b then V_k 0 (orb a) (orb b) c d else 0) (r 0)); case: ifP => _; last first.
  by rewrite big1 ?mulr0 // => c _; rewrite big1 // => d _; rewrite mul0r.
by rewrite mulr_sumr; apply: eq_bigr => c _; rewrite mulr_sumr; apply: eq_bigr => d _; rewrite mulrA.
Qed.
Lemma hartree_opposite r r' : both_rho r r' -> both_g (hartree_sigma nn z1 z2 z3 V_k r) (hartree_sigma nn z1 z2 z3 (fun k => opposite_V (V_k k)) r').
Proof.
move=> h w k; rewrite !hartreeE; apply/matrixP=> a b; rewrite !mxE.
case: ifP => hab; last first.
  by rewrite big1 // => c _; rewrite big1 // => d _; rewrite /opposite_V hab mul0r.
have [s hs0] : exists s : 'I_2, forall t, (spin a != t) = (t == s).
  by exists (inord (1 - spin a)) => t; case: (spin a) t => -[|[|[]]] // ? [[|[|[]]] // ?]; apply/idP/idP; rewrite -!val_eqE /= ?inordK.
rewrite sum_pidx (bigD1 s) //= [X in _ + X]big1 => [|x hx]; last first.
  by rewrite big1 // => c _; rewrite big1 // => d _; rewrite /opposite_V !pidxK1 hs0 (negbTE hx) !andbF mul0r.
rewrite addr0; apply: eq_bigr => c _; rewrite sum_pidx (bigD1 s) //= [X in _ + X]big1 => [|x hx]; last first.
  by rewrite big1 // => d _; rewrite /opposite_V !pidxK1 (eq_sym s x) (negbTE hx) andbF mul0r.
by rewrite addr0; apply: eq_bigr => d _; rewrite /opposite_V h !mxE !pidxK1 !pidxK2 hab hs0 !eqxx.
Qed.
Lemma fock_both r r' : both_rho r r' -> both_g (fock_sigma nn z1 z2 z3 nranks sc V_k r) (fock_sigma nn z1 z2 z3 nranks' sc' V_both r').
Proof.
move=> h w k; rewrite !fockE //; apply/matrixP=> a b; rewrite !mxE /=.
apply: (lin_if (r2kL k)) => R.
rewrite -(both_sum (fun c d => - fourier_k_to_r z1 z2 z3 (fun k => V_k k (orb a) c d (orb b)) R) (fun c d => r R d c)).
apply: eq_bigr => c _; apply: eq_bigr => d _; rewrite h mxE (eq_sym (spin d)); congr (_ * _).
have -> : fourier_k_to_r z1 z2 z3 (fun k => V_both k a c d b) R = if (spin a == spin c) && (spin d == spin b) then fourier_k_to_r z1 z2 z3 (fun k => V_k k (orb a) (orb c) (orb d) (orb b)) R else 0.
  exact: (lin_if (k2rL R)).
by case: ifP => _; rewrite ?oppr0.
Qed.
Lemma g_time_both g g' t r : both_g g g' -> g_time z1 z2 z3 wt2 g' t r = both (g_time z1 z2 z3 wt g t r).
Proof.
move=> h; apply: hwt => n; apply/matrixP=> i j; rewrite !mxE; apply: (lin_if (k2rL r)) => k.
by rewrite (on_ints_both h) mxE.
Qed.
Lemma polarization_both g g' : both_g g g' ->
  both_P (polarization z1 z2 z3 beta wt tw_plan tw_lib nranks sc g) (polarization z1 z2 z3 beta wt2 tw_plan tw_lib nranks' sc' g').
Proof.
move=> h w q a b c d; rewrite polarizationE // /spin_P polarizationE //.
rewrite (lin_if (r2kL q) (b := (spin d == spin a) && (spin b == spin c))
  (f := fun r => to_freq (nn := nn) beta tw_plan w (fun t => g_time z1 z2 z3 wt g t r (orb d) (orb a) * g_time z1 z2 z3 wt g (rev_ord t) (- r) (orb b) (orb c)))).
  by case: ifP => _; rewrite ?oppr0.
move=> r; apply: (lin_if (to_freq_lin beta planL w)) => t.
by rewrite !(g_time_both _ _ h) !mxE; case: (_ == _); case: (_ == _); rewrite ?mulr0 ?mul0r.
Qed.
Lemma screened_both P P' : both_P P P' -> both_W (screened_interaction nranks sc V_k true P) (screened_interaction nranks' sc' V_both false P').
Proof.
move=> h w q a b c d; rewrite -[LHS]tmatE -[RHS]tmatE tmat_spin_V !screenedE // -screened_spin scale1r /V_both.
by have -> : tmat (P' w q) = tmat (spin_P (P w q)) by apply/tmat_ext => ? ? ? ?; exact: h.
Qed.
Lemma dynamic_both W W' : both_W W W' -> both_W (dynamic_part V_k W) (dynamic_part V_both W').
Proof. by move=> h w q a b c d; rewrite /spin_V !dynamicE h /V_both /spin_V; case: ifP => _; rewrite ?subr0. Qed.
Lemma chi_both P P' W W' : both_P P P' -> both_W W W' -> both_chi (susceptibility nranks sc P W) (susceptibility nranks' sc' P' W').
Proof.
move=> h h' w q s a b c d; rewrite /same_spin -[LHS]tmatE -[RHS]tmatE !susceptibilityE //.
have -> : tmat (P' w q) = tmat (spin_P (P w q)) by apply/tmat_ext => ? ? ? ?; exact: h.
have -> : tmat (W' w q) = tmat (spin_V (W w q)) by apply/tmat_ext => ? ? ? ?; exact: h'.
exact: chi_spin.
Qed.
Lemma sigma_both W W' g g' : both_W W W' -> both_g g g' ->
  both_g (gw_dynamic_sigma z1 z2 z3 beta wt tw wtc nranks sc W g) (gw_dynamic_sigma z1 z2 z3 beta wt2 tw wtc nranks' sc' W' g').
Proof.
move=> hW h w k; rewrite !sigma_dynE //; apply/matrixP=> a b; rewrite !mxE /=.
apply: (lin_if (r2kL k)) => r; apply: (lin_if (twL _)) => t.
rewrite -(both_sum (fun c d => - W_time z1 z2 z3 wtc W t r (orb a) c d (orb b)) (fun c d => g_time z1 z2 z3 wt g t r c d)).
apply: eq_bigr => c _; apply: eq_bigr => d _; rewrite (g_time_both _ _ h) mxE; congr (_ * _).
have -> : W_time z1 z2 z3 wtc W' t r a c d b = if (spin a == spin c) && (spin d == spin b) then W_time z1 z2 z3 wtc W t r (orb a) (orb c) (orb d) (orb b) else 0.
  by apply: (lin_if (wtcL t)) => x; apply: (lin_if (k2rL r)) => y; rewrite hW.
by case: ifP => _; rewrite ?oppr0.
Qed.
Lemma dyson_both mu s s' : both_g s s' -> both_g (lattice_dyson_g freq nranks sc e_k mu s) (lattice_dyson_g freq nranks' sc' e_both mu s').
Proof. by move=> h w k; rewrite !dysonE // [in LHS]/= h -both_scalar -!bothB both_inv. Qed.
Lemma dyson0_both mu : both_g (lattice_dyson_g0 freq nranks sc e_k mu) (lattice_dyson_g0 freq nranks' sc' e_both mu).
Proof. by move=> w k; rewrite !dyson0E // [in LHS]/= -both_scalar -!bothB both_inv. Qed.
Lemma distance_both tol x y x' y' : both_g x y -> both_g x' y' -> (distance x x' < tol) = (distance y y' < tol).
Proof.
move=> h h'; rewrite !distance_lt; case ht: (0 < tol) => //=.
apply/forallP/forallP => hp [w k]; apply/forallP => i; apply/forallP => j.
  rewrite h h' !mxE; case: ifP => _; last by rewrite subr0 normr0.
  by have /forallP/(_ (orb i))/forallP := hp (w, k); exact.
have /forallP/(_ (pidx 0 i))/forallP/(_ (pidx 0 j)) := hp (w, k).
by rewrite h h' !mxE !pidxK1 !pidxK2 eqxx.
Qed.
Lemma dyson_equation_both a mu mu' x y : mu = mu' -> orel both_g x y -> orel (same_pair eq both_g)
  (dyson_equation (calc_rho z1 z2 z3 density nranks sc) (@total_density C n1 n2 n3 nb) (lattice_dyson_g freq nranks sc e_k) (lattice_dyson_g0 freq nranks sc e_k) brentq a mu x)
  (dyson_equation (calc_rho z1 z2 z3 density2 nranks' sc') (@total_density C n1 n2 n3 (2 * nb)) (lattice_dyson_g freq nranks' sc' e_both) (lattice_dyson_g0 freq nranks' sc' e_both) brentq (both_args a) mu' y).
Proof.
have hq : forall f f' b t, (forall x, f' x = 2%:R * f x) -> brentq f b t = brentq f' b t by case: ok => _ [].
apply: (dyson_rel (RM := eq) (RRho := both_rho) (RN := twice) (Rf := twice)).
- by move=> u v; exact: rho_both.
- by move=> u v; exact: trace_both.
- by move=> ? m u v ->; exact: dyson_both.
- by move=> ? ? ->; exact: dyson0_both.
- rewrite /same_args /fixed /both_args /=; case: (N_fix a) => [m|] //=.
  by rewrite mulf_eq0 pnatr_eq0 /=; case: (m == 0) => //; split=> // u v ->; rewrite /twice mulrBr.
- by move=> f1 f2 b t h; apply: orel_eq; apply: hq => x1; exact: h.
Qed.
(* C101: spinless=True with Fock and dynamic self-energies is one spin of the calculation with both spins and spinless=False: same chemical potential and
   stopping iteration, half the particle number, and the Green function, self-energies, density matrix, polarization, screened interaction and susceptibility of one spin *)
Theorem C101_spinless (a : args C) tol fock gw n s s' : both_state s s' ->
  orel both_state (run1 a tol false fock gw true n s) (run2 (both_args a) tol false fock gw false n s').
Proof.
apply: solve_iter_rel => //.
- by move=> w k; rewrite !ffunE both0.
- by move=> x y x' y' h h' w k; rewrite !ffunE h h' bothD.
- by move=> x y; exact: rho_both.
- by move=> x y; exact: trace_both.
- by move=> _ x y; exact: fock_both.
- by move=> x y; exact: polarization_both.
- by move=> _ x y; exact: screened_both.
- by move=> _ x y; exact: dynamic_both.
- by move=> w v x y; exact: sigma_both.
- by move=> p q w v; exact: chi_both.
- by move=> mu mu' x y; exact: dyson_equation_both.
- by move=> x y x' y'; exact: distance_both.
Qed.
Theorem C101_start (a : args C) mu g g' : orel both_g g g' -> orel both_state (start1 a mu g) (start2 (both_args a) mu g').
Proof.
by move=> h; apply: init_rel => //; [move=> w k; rewrite !ffunE both0 | move=> m m' x y; exact: dyson_equation_both].
Qed.
(* the Hartree self-energy is that of one spin: with interactions between all spins the spinful calculation is the spinless one with the interaction doubled *)
Theorem C101_hartree (a : args C) tol n s s' : both_state s s' ->
  orel both_state (gw_solve_iter z1 z2 z3 beta freq density wt tw wtc tw_plan tw_lib brentq nranks sc e_k (fun k a b c d => 2%:R * V_k k a b c d) a tol true false false true n s)
    (run2 (both_args a) tol true false false false n s').
Proof.
apply: solve_iter_rel => //.
- by move=> w k; rewrite !ffunE both0.
- by move=> x y x' y' h h' w k; rewrite !ffunE h h' bothD.
- by move=> x y; exact: rho_both.
- by move=> x y; exact: trace_both.
- by move=> _ x y; exact: hartree_both.
- by move=> x y; exact: polarization_both.
- by move=> w v x y; exact: sigma_both.
- by move=> p q w v; exact: chi_both.
- by move=> mu mu' x y; exact: dyson_equation_both.
- by move=> x y x' y'; exact: distance_both.
Qed.
(* and with interactions between opposite spins only (Hubbard) it is the spinless one *)
Theorem C101_opposite (a : args C) tol n s s' : both_state s s' ->
  orel both_state (run1 a tol true false false true n s)
    (gw_solve_iter z1 z2 z3 beta freq density2 wt2 tw wtc tw_plan tw_lib brentq nranks' sc' e_both (fun k => opposite_V (V_k k)) (both_args a) tol true false false false n s').
Proof.
apply: solve_iter_rel => //.
- by move=> w k; rewrite !ffunE both0.
- by move=> x y x' y' h h' w k; rewrite !ffunE h h' bothD.
- by move=> x y; exact: rho_both.
- by move=> x y; exact: trace_both.
- by move=> _ x y; exact: hartree_opposite.
- by move=> x y; exact: polarization_both.
- by move=> w v x y; exact: sigma_both.
- by move=> p q w v; exact: chi_both.
- by move=> mu mu' x y; exact: dyson_equation_both.
- by move=> x y x' y'; exact: distance_both.
Qed.
Lemma hartree_once (a : args C) tol s t : run1 a tol true false false true 1 s = Some t -> s_sigma t = hartree_sigma nn z1 z2 z3 V_k (calc_rho z1 z2 z3 density nranks sc (s_g s)).
Proof.
rewrite /run1 /gw_solve_iter /solve_iter /= /iteration /=.
by case: (dyson_equation _ _ _ _ _ _ _ _) => [[g mu]|] //= [<-] /=; rewrite add0r.
Qed.
(* one iteration: half of the self-energy *)
Theorem C101_half (a a' : args C) tol tol' s s' t t' : both_g (s_g s) (s_g s') ->
  run1 a tol true false false true 1 s = Some t -> run2 a' tol' true false false false 1 s' = Some t' ->
  forall w k, s_sigma t' (w, k) = 2%:R *: both (s_sigma t (w, k)).
Proof.
move=> h; rewrite /run1 /run2 /gw_solve_iter /solve_iter /= /iteration /=.
case: (dyson_equation _ _ _ _ _ _ _ _) => [[g mu]|] //=.
case: (dyson_equation _ _ _ _ _ _ _ _) => [[g' mu']|] //=.
move=> -[<-] [<-] /= w k; rewrite !add0r (hartree_both (rho_both h)) !hartreeE.
apply/matrixP=> i j; rewrite !mxE; case: ifP => _; last by rewrite mulr0.
by rewrite mulr_sumr; apply: eq_bigr => c _; rewrite mulr_sumr; apply: eq_bigr => d _; rewrite mulrA.
Qed.
End Spinless.

(* one orbital, one site; the functions do not depend on frequency *)
Section Case.
Variable C : numClosedFieldType.
Let e : site 0 0 0 -> 'M[C]_1 := fun _ => 0.
Let V : site 0 0 0 -> tensor4 C 1 := fun _ _ _ _ _ => 1.
Let density nb (f : int -> 'M[C]_nb) := f 0.
Let wt nb (f : int -> 'M[C]_nb) (_ : 'I_1) := f 0.
Let tw (x : 'I_1 -> C) (_ : int) := x ord0.
Let wtc (x : 'I_(2 * 1).-1 -> C) (_ : 'I_1) := x ord0.
Let brentq (f : C -> C) (b : C * C) (_ : C) := if f b.1 == 0 then Some b.1 else None.
Let sc : schedules := fun _ F r => mpi_view (enum F) 2 r.
Let freq (_ : 'I_(2 * 1)) : C := 1.
Let a := Args None 0 (0, 0 : C).
Lemma case_ok : spins_ok (@density 1) (@wt 1) tw (@density (2 * 1)) (@wt (2 * 1)) wtc tw brentq 2 2 sc sc.
Proof.
have fs : fair_sched 2 sc by move=> i F; exact: fair_all_inorder.
split; first by split=> // n; split=> // x y h; rewrite /tw /wtc ?h.
split=> [f f' h|f f' t h|f f' b t h]; rewrite /density /wt /brentq ?h // mulf_eq0 pnatr_eq0 //.
Qed.
Theorem C101_case : exists s s', [/\ start1 1 1 1 freq (@density 1) brentq 2 sc e a None None = Some s, start2 1 1 1 freq (@density _) brentq 2 sc e a None None = Some s', both_state s s',
  run1 1 1 1 1 freq (@density _) (@wt _) tw wtc tw tw brentq 2 sc e V a 0 false true true true 3 s <> None &
  run2 1 1 1 1 freq tw (@density _) (@wt _) wtc tw tw brentq 2 sc e V a 0 false true true false 3 s' <> None].
Proof.
have h := @C101_start C 0 0 0 1 1 0 1 1 1 freq (@density _) (@wt _) tw (@density _) (@wt _) wtc tw brentq 2 2 sc sc e case_ok a None None None I.
do 2!eexists; split; [reflexivity | reflexivity | exact: h | exact: solve_iter_runs | exact: solve_iter_runs].
Qed.
(* the Hartree self-energy is 1 and 2 *)
Theorem C101_hartree_case : exists s s' t t', [/\ both_state s s', run1 1 1 1 1 freq (@density _) (@wt _) tw wtc tw tw brentq 2 sc e V a 0 true false false true 1 s = Some t,
  run2 1 1 1 1 freq tw (@density _) (@wt _) wtc tw tw brentq 2 sc e V a 0 true false false false 1 s' = Some t', forall p, s_sigma t p 0 0 = 1 & forall p, s_sigma t' p (pidx 0 0) (pidx 0 0) = 2%:R].
Proof.
have h := @C101_start C 0 0 0 1 1 0 1 1 1 freq (@density _) (@wt _) tw (@density _) (@wt _) wtc tw brentq 2 2 sc sc e case_ok a None None None I.
have h1 p : hartree_sigma 1 1 1 1 V (calc_rho 1 1 1 (@density 1) 2 sc (lattice_dyson_g0 freq 2 sc e 0)) p 0 0 = 1.
  have fs : fair_sched 2 sc by move=> i F; exact: fair_all_inorder.
  rewrite hartreeE mxE !big_ord_recl !big_ord0 mul1r !addr0 calc_rhoE // mxE /fourier_k_to_r.
  rewrite (eq_bigr (fun=> 1)) => [|k _].
    rewrite sumr_const card_prod card_prod !card_ord; exact: divr1.
  rewrite /phase !expr1n !mulr1 invr1 mul1r /density /on_ints.
  rewrite (big_pred1 (@Ordinal (2 * 1) 1 isT)) => [|x]; last by case: x => -[|[|//]] hx.
  by rewrite dyson0E // subr0 addr0 invmx1 mxE.
have [s es hs] : exists2 s, start1 1 1 1 freq (@density 1) brentq 2 sc e a None None = Some s & s_g s = lattice_dyson_g0 freq 2 sc e 0 by eexists; reflexivity.
have [s' es' hs'] : exists2 s', start2 1 1 1 freq (@density _) brentq 2 sc e a None None = Some s' & s_g s' = lattice_dyson_g0 freq 2 sc (e_both e) 0 by eexists; reflexivity.
have hss : both_state s s' by have := h; rewrite (_ : both_args a = a) // es es'.
case et: (run1 1 1 1 1 freq (@density _) (@wt _) tw wtc tw tw brentq 2 sc e V a 0 true false false true 1 s) => [t|]; last by exfalso; move: et; apply: solve_iter_runs.
case et': (run2 1 1 1 1 freq tw (@density _) (@wt _) wtc tw tw brentq 2 sc e V a 0 true false false false 1 s') => [t'|]; last by exfalso; move: et'; apply: solve_iter_runs.
exists s, s', t, t'; split=> // [p|[w k]]; first by rewrite (hartree_once et) hs h1.
have hg' : both_g (s_g s) (s_g s') by case: hss => -[].
by rewrite (C101_half case_ok hg' et et') !mxE !pidxK1 !pidxK2 eqxx (hartree_once et) hs h1 mulr1.
Qed.
End Case.
Print Assumptions C101_spinless.
Print Assumptions C101_start.
Print Assumptions C101_hartree.
Print Assumptions C101_opposite.
Print Assumptions C101_half.
Print Assumptions C101_case.
Print Assumptions C101_hartree_case.
