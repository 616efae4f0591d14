(* C118: time reversal in the GW solver. *)
From mathcomp Require Import all_ssreflect all_algebra zify.
From Verif Require Import Base MpiModel MpiProofs MpiSpec FourierModel FourierProofs BubbleModel MatsubaraModel ImtimeModel RpaModel RpaSpec RpaProofs
  MatAlg Fring DysonModel GwModel GwSpec GwProofs GwChainModel BseProofs GwSolverModel GwFullModel GwFullProofs GwRel GwHermThms.
Set Implicit Arguments.
Unset Strict Implicit.
Unset Printing Implicit Defensive.
Import GRing.Theory Num.Theory.
Local Open Scope ring_scope.

Section Algebra.
Variables (C : numClosedFieldType) (nb : nat).
Definition rev4 (M : 'M[C]_(nb * nb)) : 'M[C]_(nb * nb) := \matrix_(i, j) M (swp j) (swp i).
Lemma rev4K M : rev4 (rev4 M) = M. Proof. by apply/matrixP=> i j; rewrite !mxE !swpK. Qed.
Lemma rev4M A B : rev4 (A *m B) = rev4 B *m rev4 A.
Proof.
apply/matrixP=> i j; rewrite !mxE (reindex_inj (inv_inj (@swpK nb))) /=; apply: eq_bigr => k _.
by rewrite !mxE mulrC.
Qed.
Lemma rev4B A B : rev4 (A - B) = rev4 A - rev4 B. Proof. by apply/matrixP=> i j; rewrite !mxE. Qed.
Lemma rev4D A B : rev4 (A + B) = rev4 A + rev4 B. Proof. by apply/matrixP=> i j; rewrite !mxE. Qed.
Lemma rev4_1 : rev4 1%:M = 1%:M.
Proof. by apply/matrixP=> i j; rewrite !mxE eq_sym (inj_eq (inv_inj (@swpK nb))). Qed.
Lemma rev4Z x A : rev4 (x *: A) = x *: rev4 A. Proof. by apply/matrixP=> i j; rewrite !mxE. Qed.
Lemma rev4_unit A : (rev4 A \in unitmx) = (A \in unitmx).
Proof.
have h B : B \in unitmx -> rev4 B \in unitmx by move=> u; apply: (@unitmx_right _ _ _ (rev4 (invmx B))); rewrite -rev4M mulVmx // rev4_1.
by apply/idP/idP => [/h|/h //]; rewrite rev4K.
Qed.
Lemma rev4_inv A : rev4 (invmx A) = invmx (rev4 A).
Proof.
case u: (A \in unitmx); first by symmetry; apply: invmx_uniq; rewrite -rev4M mulVmx // rev4_1.
by rewrite /invmx rev4_unit u.
Qed.
Lemma rev4_screened (P V : 'M[C]_(nb * nb)) : rev4 (V *m invmx (1%:M - P *m V)) = rev4 V *m invmx (1%:M - rev4 P *m rev4 V).
Proof.
rewrite rev4M rev4_inv rev4B rev4_1 rev4M.
case u: (1%:M - rev4 V *m rev4 P \in unitmx); first by rewrite push_through.
have v : (1%:M - rev4 P *m rev4 V \in unitmx) = false by apply/negP => /swap_unit; rewrite u.
by rewrite /invmx u v mulmxBl mulmxBr mul1mx mulmx1 mulmxA.
Qed.
Lemma tmat_rev (X Y : tensor4 C nb) : (forall a b c d, Y a b c d = X d c b a) -> tmat Y = rev4 (tmat X).
Proof. by move=> h; apply/matrixP=> i j; rewrite !mxE h /swp !pidxK1 !pidxK2. Qed.
Lemma rev_tmat (X Y : tensor4 C nb) a b c d : tmat Y = rev4 (tmat X) -> Y a b c d = X d c b a.
Proof. by move=> h; rewrite -tmatE h mxE /swp !pidxK1 !pidxK2 tmatE. Qed.
End Algebra.

Section Reversal.
Variables (C : numClosedFieldType) (n1 n2 n3 nb nn L : nat) (z1 z2 z3 beta : C).
Local Notation K := (site n1 n2 n3).
Local Notation t4 := (tensor4 C nb).
Local Notation mat := 'M[C]_nb.
Local Notation Wb := 'I_(2 * nn).-1.
Local Notation Wf := 'I_(2 * nn).
Variables (freq : Wf -> C) (density : (int -> mat) -> mat) (wt : (int -> mat) -> 'I_L.+1 -> mat) (tw : ('I_L.+1 -> C) -> int -> C).
Variables (wtc : (Wb -> C) -> 'I_L.+1 -> C) (tw_plan tw_lib : ('I_L.+1 -> C) -> int -> C).
Variable brentq : (C -> C) -> C * C -> C -> option C.
Variables (nranks : nat) (sc : schedules).
Local Notation G := (G C n1 n2 n3 nb nn).
Local Notation chi4 := (chi4 C n1 n2 n3 nb nn).
Local Notation Rho := (Rho C n1 n2 n3 nb).
Local Notation state := (solver_state C n1 n2 n3 nb nn).
Local Notation run e V := (gw_solve_iter z1 z2 z3 beta freq density wt tw wtc tw_plan tw_lib brentq nranks sc e V).
Local Notation start e := (gw_init z1 z2 z3 freq density brentq nranks sc e).
(* the Hamiltonian with the direction of time reversed: the matrix elements of every hopping and every interaction process in the opposite direction *)
Definition reversed_input (e e' : K -> mat) (V V' : K -> t4) : Prop :=
  (forall k a b, e' k a b = e (- k) b a) /\ forall q a b c d, V' q a b c d = V (- q) d c b a.
(* the uniform interaction does not depend on the order of the two densities *)
Definition unordered (V : K -> t4) : Prop := forall a b c d, V 0 a b c d = V 0 c d a b.
(* the lattice is periodic; the loops run on all points *)
Definition lattice_ok : Prop := [/\ (n1.+1).-primitive_root z1, (n2.+1).-primitive_root z2, (n3.+1).-primitive_root z3 & fair_sched nranks sc].
(* the transforms treat all components alike and are linear; the root search depends on the values of the function only *)
Definition libraries_ok : Prop := [/\ forall n, linfun (fun x => tw x n), forall t, linfun (fun x => wtc x t) & forall n, linfun (fun x => tw_plan x n)] /\
  [/\ forall f f' : int -> mat, (forall n, f' n = (f n)^T) -> density f' = (density f)^T,
    forall (f f' : int -> mat) t, (forall n, f' n = (f n)^T) -> wt f' t = (wt f t)^T &
    forall f f' b t, f =1 f' -> brentq f b t = brentq f' b t].

(* the claim: the second object is the first one with the direction of time reversed *)
Definition rev_g (g g' : G) : Prop := forall w k a b, g' (w, k) a b = g (w, - k) b a.
Definition rev_rho (rho rho' : Rho) : Prop := forall R a b, rho' R a b = rho (- R) b a.
Definition rev_chi (X X' : chi4) : Prop := forall w q a b c d, X' w q a b c d = X w (- q) d c b a.
Definition both_or_none (A : Type) (P : A -> A -> Prop) (x y : option A) : Prop :=
  match x, y with Some u, Some v => P u v | None, None => True | _, _ => False end.
Definition reversed (s s' : state) : Prop :=
  [/\ s_mu s' = s_mu s, s_mu0 s' = s_mu0 s & rev_g (s_g s) (s_g s')] /\
  [/\ rev_g (s_g0 s) (s_g0 s'), rev_g (s_sigma s) (s_sigma s'), both_or_none rev_rho (s_rho s) (s_rho s') & s_N s' = s_N s] /\
  [/\ both_or_none rev_g (s_hartree s) (s_hartree s'), both_or_none rev_g (s_fock s) (s_fock s') & both_or_none rev_g (s_dyn s) (s_dyn s')] /\
  [/\ both_or_none rev_chi (s_W s) (s_W s'), both_or_none rev_chi (s_Wdyn s) (s_Wdyn s'), both_or_none rev_chi (s_P s) (s_P s') & both_or_none rev_chi (s_chi s) (s_chi s')].

Lemma reversedE s s' : reversed s s' <-> same_state eq rev_g rev_rho eq rev_chi rev_chi rev_chi s s'.
Proof.
have h (x y : option C) : y = x <-> orel eq x y by case: x y => [x|] [y|] //=; split=> // [[->]|->].
by rewrite /reversed /same_state; split=> -[[? ? ?] [[? ? ? ?] [[? ? ?] [? ? ? ?]]]]; (do !split) => //; apply/h.
Qed.

Variables (e_k e_k' : K -> mat) (V_k V_k' : K -> t4).
Hypothesis hin : reversed_input e_k e_k' V_k V_k'.
Hypothesis hun : unordered V_k.
Hypothesis hla : lattice_ok.
Hypothesis hli : libraries_ok.
Let hs : fair_sched nranks sc. Proof. by case: hla. Qed.
Let twL : forall n, linfun (fun x => tw x n). Proof. by case: hli => -[]. Qed.
Let wtcL : forall t, linfun (fun x => wtc x t). Proof. by case: hli => -[]. Qed.
Let planL : forall n, linfun (fun x => tw_plan x n). Proof. by case: hli => -[]. Qed.
Let revE (x y : G) : rev_g x y -> forall w k, y (w, k) = (x (w, - k))^T.
Proof. by move=> h w k; apply/matrixP=> a b; rewrite mxE. Qed.
Lemma ph_opp (k r : K) : phase z1 z2 z3 (- k) (- r) = phase z1 z2 z3 k r.
Proof. by case: hla => p1 p2 p3 _; rewrite (phase_oppr p1 p2 p3) (phase_oppl p1 p2 p3) invrK. Qed.
Lemma k2r_rev (f f' : K -> C) r : (forall k, f' k = f (- k)) -> fourier_k_to_r z1 z2 z3 f' r = fourier_k_to_r z1 z2 z3 f (- r).
Proof.
move=> h; rewrite /fourier_k_to_r [X in _ = X / _]sum_opp; congr (_ / _); apply: eq_bigr => k _.
by rewrite h ph_opp.
Qed.
Lemma r2k_rev (f f' : K -> C) k : (forall r, f' r = f (- r)) -> fourier_r_to_k z1 z2 z3 f' k = fourier_r_to_k z1 z2 z3 f (- k).
Proof.
move=> h; rewrite /fourier_r_to_k [RHS]sum_opp; apply: eq_bigr => r _.
by rewrite h ph_opp.
Qed.
Lemma on_ints_rev (x y : G) : rev_g x y -> forall n k, on_ints y n k = (on_ints x n (- k))^T.
Proof.
by move=> h n k; apply/matrixP=> a b; rewrite mxE /on_ints !summxE; apply: eq_bigr => p _; rewrite h.
Qed.
Lemma rho_rev x y : rev_g x y -> rev_rho (calc_rho z1 z2 z3 density nranks sc x) (calc_rho z1 z2 z3 density nranks sc y).
Proof.
move=> h R a b; rewrite !calc_rhoE // !mxE; apply: k2r_rev => k.
case: hli => _ [hd _ _]; rewrite (hd (fun n => on_ints x n (- k))) ?mxE // => n; exact: on_ints_rev.
Qed.
Lemma trace_rev r r' : rev_rho r r' -> total_density r = total_density r'.
Proof. by move=> h; rewrite /total_density; apply: eq_bigr => a _; rewrite h oppr0. Qed.
Lemma hartree_rev r r' : rev_rho r r' -> rev_g (hartree_sigma nn z1 z2 z3 V_k r) (hartree_sigma nn z1 z2 z3 V_k' r').
Proof.
move=> h w k a b; rewrite !hartreeE !mxE exchange_big /=; apply: eq_bigr => c _; apply: eq_bigr => d _.
by case: hin => _ ->; rewrite h oppr0 hun.
Qed.
Lemma fock_rev r r' : rev_rho r r' -> rev_g (fock_sigma nn z1 z2 z3 nranks sc V_k r) (fock_sigma nn z1 z2 z3 nranks sc V_k' r').
Proof.
move=> h w k a b; rewrite !fockE // !mxE /=; apply: r2k_rev => R.
rewrite exchange_big /=; apply: eq_bigr => c _; apply: eq_bigr => d _.
rewrite h; congr (- _ * _); apply: k2r_rev => q; by case: hin.
Qed.
Lemma g_time_rev x y t r : rev_g x y -> g_time z1 z2 z3 wt y t r = (g_time z1 z2 z3 wt x t (- r))^T.
Proof.
move=> h; case: hli => _ [_ hw _]; apply: hw => n; apply/matrixP=> a b; rewrite !mxE; apply: k2r_rev => k.
by rewrite (on_ints_rev h) mxE.
Qed.
Lemma polarization_rev x y : rev_g x y -> rev_chi (polarization z1 z2 z3 beta wt tw_plan tw_lib nranks sc x) (polarization z1 z2 z3 beta wt tw_plan tw_lib nranks sc y).
Proof.
move=> h w q a b c d; rewrite !polarizationE //; congr (- _); apply: r2k_rev => r; apply: (to_freq_lin beta planL w).1 => t.
by rewrite !(g_time_rev _ _ h) !mxE.
Qed.
Lemma revtE (x y : chi4) w q : rev_chi x y -> tmat (y w q) = rev4 (tmat (x w (- q))).
Proof. by move=> h; apply: tmat_rev => a b c d; exact: h. Qed.
Lemma screened_rev sp x y : rev_chi x y -> rev_chi (screened_interaction nranks sc V_k sp x) (screened_interaction nranks sc V_k' sp y).
Proof.
move=> h w q a b c d; apply: rev_tmat; rewrite !screenedE // rev4_screened rev4Z (revtE w q h).
have -> : tmat (V_k' q) = rev4 (tmat (V_k (- q))) by apply: tmat_rev => i j k l; case: hin.
by [].
Qed.
Lemma dynamic_rev x y : rev_chi x y -> rev_chi (dynamic_part V_k x) (dynamic_part V_k' y).
Proof. by move=> h w q a b c d; rewrite !dynamicE h; congr (_ - _); case: hin. Qed.
Lemma chi_rev p q x y : rev_chi p q -> rev_chi x y -> rev_chi (susceptibility nranks sc p x) (susceptibility nranks sc q y).
Proof.
by move=> h h' w k a b c d; apply: rev_tmat; rewrite !susceptibilityE // rev4D !rev4M (revtE _ _ h) (revtE _ _ h') !mulmxA.
Qed.
Lemma sigma_rev u v x y : rev_chi u v -> rev_g x y ->
  rev_g (gw_dynamic_sigma z1 z2 z3 beta wt tw wtc nranks sc u x) (gw_dynamic_sigma z1 z2 z3 beta wt tw wtc nranks sc v y).
Proof.
move=> hW h w k a b; rewrite !sigma_dynE // !mxE /=; apply: r2k_rev => r.
apply: (twL _).1 => t; rewrite exchange_big /=; apply: eq_bigr => c _; apply: eq_bigr => d _.
rewrite (g_time_rev _ _ h) mxE; congr (- _ * _); rewrite /W_time; apply: (wtcL _).1 => x1.
by apply: k2r_rev => q; rewrite hW.
Qed.
Let eE k : e_k' k = (e_k (- k))^T. Proof. by apply/matrixP=> a b; rewrite mxE; case: hin. Qed.
Let invT (M : mat) a b : invmx M^T a b = invmx M b a. Proof. by rewrite -trmx_inv mxE. Qed.
Lemma dyson_rev mu mu' x y : mu = mu' -> rev_g x y -> rev_g (lattice_dyson_g freq nranks sc e_k mu x) (lattice_dyson_g freq nranks sc e_k' mu' y).
Proof.
move=> <- h w k a b; rewrite !dysonE //=.
by rewrite (revE h) eE -[RHS]invT !linearB /= tr_scalar_mx.
Qed.
Lemma dyson0_rev mu mu' : mu = mu' -> rev_g (lattice_dyson_g0 freq nranks sc e_k mu) (lattice_dyson_g0 freq nranks sc e_k' mu').
Proof.
move=> <- w k a b; rewrite !dyson0E //=.
by rewrite eE -[RHS]invT linearB /= tr_scalar_mx.
Qed.
Lemma distance_rev tol x y x' y' : rev_g x y -> rev_g x' y' -> (distance x x' < tol) = (distance y y' < tol).
Proof.
move=> h h'; rewrite !distance_lt; congr (_ && _).
apply/forallP/forallP => hp [w k]; apply/forallP => i; apply/forallP => j.
  by rewrite h h'; have /forallP/(_ j)/forallP := hp (w, - k); exact.
by have /forallP/(_ j)/forallP/(_ i) := hp (w, - k); rewrite h h' opprK.
Qed.
Lemma dyson_equation_rev a mu mu' x y : mu = mu' -> orel rev_g x y -> orel (same_pair eq rev_g)
  (dyson_equation (calc_rho z1 z2 z3 density nranks sc) (@total_density C n1 n2 n3 nb) (lattice_dyson_g freq nranks sc e_k) (lattice_dyson_g0 freq nranks sc e_k) brentq a mu x)
  (dyson_equation (calc_rho z1 z2 z3 density nranks sc) (@total_density C n1 n2 n3 nb) (lattice_dyson_g freq nranks sc e_k') (lattice_dyson_g0 freq nranks sc e_k') brentq a mu' y).
Proof.
apply: (dyson_rel (RM := eq) (RRho := rev_rho) (RN := eq) (Rf := eq)).
- by move=> u v; exact: rho_rev.
- by move=> u v; exact: trace_rev.
- by move=> m m' u v; exact: dyson_rev.
- by move=> m m'; exact: dyson0_rev.
- by rewrite /same_args; case: (fixed a) => // m; split=> // u v ->.
- move=> f1 f2 b t h; case: hli => _ [_ _ hq].
  have <- : brentq f1 b t = brentq f2 b t by apply: hq => x1; apply: h.
  by case: (brentq _ _ _).
Qed.
(* C118: a solver for the reversed Hamiltonian gives the reversed results, after any number of iterations *)
Theorem C118_reversal (a : args C) tol hartree fock gw spinless n s s' : reversed s s' ->
  both_or_none reversed (run e_k V_k a tol hartree fock gw spinless n s) (run e_k' V_k' a tol hartree fock gw spinless n s').
Proof.
move=> /reversedE h.
suff : orel (same_state eq rev_g rev_rho eq rev_chi rev_chi rev_chi) (run e_k V_k a tol hartree fock gw spinless n s) (run e_k' V_k' a tol hartree fock gw spinless n s').
  by case: (run e_k V_k _ _ _ _ _ _ _ _) => [u|]; case: (run e_k' V_k' _ _ _ _ _ _ _ _) => [v|] //= /reversedE.
apply: solve_iter_rel => //.
- by move=> w k i j; rewrite !ffunE !mxE.
- by move=> x y x' y' hx hx' w k i j; rewrite !ffunE !mxE hx hx'.
- by move=> x y; exact: rho_rev.
- by move=> x y; exact: trace_rev.
- by move=> _ x y; exact: hartree_rev.
- by move=> _ x y; exact: fock_rev.
- by move=> x y; exact: polarization_rev.
- by move=> _ x y; exact: screened_rev.
- by move=> _ x y; exact: dynamic_rev.
- by move=> u v x y; exact: sigma_rev.
- by move=> p q x y; exact: chi_rev.
- by move=> mu mu' x y; exact: dyson_equation_rev.
- by move=> x y x' y'; exact: distance_rev.
Qed.
(* and so do the constructors *)
Theorem C118_start (a : args C) mu g g' : both_or_none rev_g g g' -> both_or_none reversed (start e_k a mu g) (start e_k' a mu g').
Proof.
move=> hg; suff : orel (same_state eq rev_g rev_rho eq rev_chi rev_chi rev_chi) (start e_k a mu g) (start e_k' a mu g').
  by case: (start e_k _ _ _) => [u|]; case: (start e_k' _ _ _) => [v|] //= /reversedE.
apply: init_rel => //; first by move=> w k i j; rewrite !ffunE !mxE.
by move=> m m' x y; exact: dyson_equation_rev.
Qed.
End Reversal.

Section Invariant.
Variables (C : numClosedFieldType) (n1 n2 n3 nb nn L : nat) (z1 z2 z3 beta : C).
Local Notation K := (site n1 n2 n3).
Local Notation t4 := (tensor4 C nb).
Local Notation mat := 'M[C]_nb.
Variables (freq : 'I_(2 * nn) -> C) (density : (int -> mat) -> mat) (wt : (int -> mat) -> 'I_L.+1 -> mat) (tw : ('I_L.+1 -> C) -> int -> C).
Variables (wtc : ('I_(2 * nn).-1 -> C) -> 'I_L.+1 -> C) (tw_plan tw_lib : ('I_L.+1 -> C) -> int -> C).
Variable brentq : (C -> C) -> C * C -> C -> option C.
Variables (nranks : nat) (sc : schedules) (e_k : K -> mat) (V_k : K -> t4).
Local Notation state := (solver_state C n1 n2 n3 nb nn).
Local Notation run := (gw_solve_iter z1 z2 z3 beta freq density wt tw wtc tw_plan tw_lib brentq nranks sc e_k V_k).
Local Notation start := (gw_init z1 z2 z3 freq density brentq nranks sc e_k).
Hypothesis hla : lattice_ok n1 n2 n3 z1 z2 z3 nranks sc.
Hypothesis hli : libraries_ok density wt tw wtc tw_plan brentq.
Hypothesis hin : reversed_input e_k e_k V_k V_k.
Hypothesis hun : unordered V_k.
(* C118: without a magnetic field, when the Hamiltonian is its own reversal, so are the results: the calculation never breaks time reversal *)
Theorem C118_invariant (a : args C) mu tol hartree fock gw spinless n s t : start a mu None = Some s ->
  run a tol hartree fock gw spinless n s = Some t -> reversed s s /\ reversed t t.
Proof.
move=> es et; have h := C118_start freq hin hla hli a mu (g := None) (g' := None) I; rewrite es /= in h.
split=> //; have := C118_reversal beta freq tw_lib hin hun hla hli a tol hartree fock gw spinless n h; by rewrite et.
Qed.
(* with a Hermitian Hamiltonian: real density matrices in real space, and g(-iw, -k) the conjugate of g(iw, k) *)
Theorem C118_real (a : args C) mu tol hartree fock gw spinless n s t : hermitian_input e_k V_k -> meshes_ok n1 n2 n3 z1 z2 z3 beta freq nranks sc ->
  transforms_ok density wt tw wtc tw_plan -> search_ok brentq -> odflt 0 mu \is Num.real -> start a mu None = Some s ->
  run a tol hartree fock gw spinless n s = Some t ->
  [/\ forall w k i j, s_g t (rev_ord w, - k) i j = (s_g t (w, k) i j)^*,
      forall w k i j, s_sigma t (rev_ord w, - k) i j = (s_sigma t (w, k) i j)^*,
      forall rho, s_rho t = Some rho -> forall R i j, rho R i j \is Num.real &
      forall W, s_W t = Some W -> forall w q i j k l, W (rev_ord w) (- q) i j k l = (W w q i j k l)^*].
Proof.
move=> hi hm ht hq hmu es et.
have [_ [[_ _ r1] [[_ r2 r3 _] [_ [r4 _ _ _]]]]] := C118_invariant es et.
have hs := C102_start hi hm ht hq (g := None) hmu I es.
have [[_ _ c1] [[_ c2 c3 _] [_ [c4 _ _ _]]]] := C102_hermitian hi hm ht hq hs et.
split.
- by move=> w k i j; rewrite r1 opprK c1 rev_ordK.
- by move=> w k i j; rewrite r2 opprK c2 rev_ordK.
- move=> rho e R i j; move: r3 c3; rewrite e /= => r3 c3; by apply/CrealP; rewrite {1}r3 c3 opprK conjCK.
- by move=> W e w q i j k l; move: r4 c4; rewrite e /= => r4 c4; rewrite r4 opprK c4 rev_ordK.
Qed.
End Invariant.

(* two orbitals on three sites in a row with a complex hopping to one side (a flux), whose reversal is a different Hamiltonian, and its real counterpart *)
Section Case.
Variables (C : numClosedFieldType) (z : C).
Hypothesis zP : 3.-primitive_root z.
Let e (k : site 2 0 0) : 'M[C]_2 := z ^+ (k.1.1) *: delta_mx 0 1 + z ^- (k.1.1) *: delta_mx 1 0 + 'i *: (delta_mx 0 1 - delta_mx 1 0).
Let e' (k : site 2 0 0) : 'M[C]_2 := (e (- k))^T.
Let er (k : site 2 0 0) : 'M[C]_2 := z ^+ (k.1.1) *: delta_mx 0 1 + z ^- (k.1.1) *: delta_mx 1 0.
Let V (_ : site 2 0 0) : tensor4 C 2 := fun a b c d => ((a == b) && (c == d))%:R.
Let density (f : int -> 'M[C]_2) : 'M[C]_2 := f 0 + f (-1).
Let wt (f : int -> 'M[C]_2) (_ : 'I_1) : 'M[C]_2 := f 0 + f (-1).
Let tw (x : 'I_1 -> C) (_ : int) := x ord0.
Let wtc (x : 'I_(2 * 1).-1 -> C) (_ : 'I_1) := x ord0.
Let brentq (f : C -> C) (b : C * C) (_ : C) := if (b.1 \is Num.real) && (f b.1 == 0) then Some b.1 else None.
Let sc : schedules := fun _ F r => mpi_view (enum F) 2 r.
Let freq (w : 'I_(2 * 1)) : C := if w == ord0 then - 'i else 'i.
Let a := Args None 0 (0, 0 : C).
Theorem C118_case : [/\ lattice_ok 2 0 0 z 1 1 2 sc, libraries_ok density wt tw wtc tw brentq, unordered V,
    reversed_input e e' V V /\ e' 0 <> e 0 & reversed_input er er V V] /\
  exists s t s' t', [/\ gw_init z 1 1 freq density brentq 2 sc e a None None = Some s, gw_init z 1 1 freq density brentq 2 sc e' a None None = Some s',
     reversed s s', gw_solve_iter z 1 1 1 freq density wt tw wtc tw tw brentq 2 sc e V a 0 true true true false 3 s = Some t &
     gw_solve_iter z 1 1 1 freq density wt tw wtc tw tw brentq 2 sc e' V a 0 true true true false 3 s' = Some t' /\ reversed t t'].
Proof.
have p1 : 1.-primitive_root (1 : C) by apply/andP; split=> //; apply/forallP=> -[[|//] hi1] /=; rewrite unity_rootE expr1 eqxx.
have hla : lattice_ok 2 0 0 z 1 1 2 sc by split=> //; move=> i F; exact: fair_all_inorder.
have hli : libraries_ok density wt tw wtc tw brentq.
  split; first by split=> // n; split=> // x y h; rewrite /tw /wtc ?h.
  split=> [f f' h|f f' t h|f f' b t h]; [by rewrite /density !h linearD | by rewrite /wt !h linearD | by rewrite /brentq h].
have hun : unordered V by move=> i j k l; rewrite /V andbC.
have hV q i j k l : V q i j k l = V (- q) l k j i by rewrite /V (eq_sym l) (eq_sym j) andbC.
have hin : reversed_input e e' V V by split=> // k i j; rewrite mxE.
have hne : e' 0 <> e 0.
  move/matrixP/(_ 0 1); rewrite /e' oppr0 !mxE /= expr0 invr1 !mulr1 !mulr0 ?mulr1n ?mulr0n ?subr0 ?sub0r !add0r !addr0 mulrN !mulr1.
  move/addrI/eqP; rewrite eq_sym -addr_eq0 -mulr2n mulrn_eq0 /= => /eqP h.
  by move/eqP: (neq0Ci C); rewrite h.
have her : reversed_input er er V V.
  split=> // k i j; rewrite !mxE; set x := z ^+ _; set y := z ^+ (- k).1.1.
  have hy : y = x^-1 by by have := z_oppl zP k.1.1 1; rewrite !muln1.
  rewrite hy invrK addrC; congr (_ * _ + _ * _); by rewrite andbC.
split=> //.
have [s es] : exists s, gw_init z 1 1 freq density brentq 2 sc e a None None = Some s by eexists; reflexivity.
have := C118_start freq hin hla hli a None (g := None) (g' := None) I; rewrite es.
case es': (gw_init _ _ _ _ _ _ _ _ e' _ _ _) => [s'|] //= hss.
case et: (gw_solve_iter z 1 1 1 freq density wt tw wtc tw tw brentq 2 sc e V a 0 true true true false 3 s) => [t|]; last by exfalso; move: et; apply: solve_iter_runs.
have := C118_reversal 1 freq tw hin hun hla hli a 0 true true true false 3 hss; rewrite et.
case et': (gw_solve_iter _ _ _ _ _ _ _ _ _ _ _ _ _ _ e' _ _ _ _ _ _ _ _ _) => [t'|] //= htt.
by exists s, t, s', t'.
Qed.
End Case.
Print Assumptions C118_reversal.
Print Assumptions C118_start.
Print Assumptions C118_invariant.
Print Assumptions C118_real.
Print Assumptions C118_case.
