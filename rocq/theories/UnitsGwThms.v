(* C113: the unit of energy in the GW solver, the Bethe-Salpeter equation, RPA and the Eliashberg equation. *)
From mathcomp Require Import all_ssreflect all_algebra.
From Verif Require Import Base MatAlg Fring MpiModel MpiProofs MpiSpec FourierModel FourierProofs BubbleModel BubbleProofs MatsubaraModel ImtimeModel LinalgModel LinalgProofs RpaModel RpaSpec RpaProofs
  BseModel BseProofs DysonModel GwModel GwSpec GwProofs GwChainModel GwSolverModel GwFullModel GwFullProofs GwRel GwRel2.
Set Implicit Arguments.
Unset Strict Implicit.
Unset Printing Implicit Defensive.
Import GRing.Theory Num.Theory Order.Theory.
Local Open Scope ring_scope.

(* a root finder without a preferred unit; it looks at real arguments only *)
Definition unit_free (C : numClosedFieldType) (brentq : (C -> C) -> C * C -> C -> option C) (u : C) : Prop :=
  forall f g b t, (forall x, x \is Num.real -> g (u * x) = f x) -> brentq g (u * b.1, u * b.2) t = omap (fun x => u * x) (brentq f b t).

Section Scalars.
Variable C : fieldType.
Lemma invmx_scale n (u : C) (A : 'M[C]_n) : u != 0 -> A \in unitmx -> invmx (u *: A) = u^-1 *: invmx A.
Proof. by move=> u0 uA; rewrite invmxZ // unitmxZ // unitfE. Qed.
End Scalars.

Section Gw.
Variables (C : numClosedFieldType) (n1 n2 n3 nb nn L : nat) (z1 z2 z3 beta u : C).
Local Notation K := (site n1 n2 n3).
Local Notation t4 := (tensor4 C nb).
Local Notation mat := 'M[C]_nb.
Local Notation Wb := 'I_(2 * nn).-1.
Local Notation Wf := 'I_(2 * nn).
Variables (freq : Wf -> C) (density : (int -> mat) -> mat) (wt : (int -> mat) -> 'I_L.+1 -> mat) (tw : ('I_L.+1 -> C) -> int -> C).
Variables (wtc : (Wb -> C) -> 'I_L.+1 -> C) (tw_plan tw_lib : ('I_L.+1 -> C) -> int -> C).
(* the transforms of the mesh with inverse temperature beta / u *)
Variables (density' : (int -> mat) -> mat) (wt' : (int -> mat) -> 'I_L.+1 -> mat) (tw' : ('I_L.+1 -> C) -> int -> C).
Variables (wtc' : (Wb -> C) -> 'I_L.+1 -> C) (tw_plan' tw_lib' : ('I_L.+1 -> C) -> int -> C).
Variable brentq : (C -> C) -> C * C -> C -> option C.
Variables (nranks : nat) (sc : schedules).
Variables (e_k : K -> mat) (V_k : K -> t4).
Local Notation k2r := (@fourier_k_to_r C n1 n2 n3 z1 z2 z3).
Local Notation r2k := (@fourier_r_to_k C n1 n2 n3 z1 z2 z3).
Local Notation freq' := (fun w => u * freq w).
Local Notation e_k' := (fun k => u *: e_k k).
Local Notation V_k' := (fun k a b c d => u * V_k k a b c d).
Local Notation beta' := (beta / u).
Local Notation G := (G C n1 n2 n3 nb nn).
Local Notation chi4 := (chi4 C n1 n2 n3 nb nn).
Local Notation Rho := (Rho C n1 n2 n3 nb).
Local Notation state := (solver_state C n1 n2 n3 nb nn).
Hypotheses (u0 : 0 < u) (hs : fair_sched nranks sc).
(* sums over frequencies carry the temperature, integrals over times its inverse *)
Hypothesis hT : [/\ forall f f', (forall n, f' n = u^-1 *: f n) -> density' f' = density f, forall f f' t, (forall n, f' n = u^-1 *: f n) -> wt' f' t = wt f t,
  forall x t, wtc' x t = u * wtc x t, forall x n, tw' x n = u^-1 * tw x n & forall x n, tw_plan' x n = u^-1 * tw_plan x n].
Hypotheses (twL : forall n, linfun (fun x => tw x n)) (wtcL : forall t, linfun (fun x => wtc x t)) (planL : forall n, linfun (fun x => tw_plan x n)).
Let uN : u != 0. Proof. by rewrite gt_eqF. Qed.
Let uR : u \is Num.real. Proof. exact: gtr0_real. Qed.
Let twL' n : linfun (fun x => tw' x n).
Proof. case: hT => _ _ _ h _; split=> [x y e|c x y]; rewrite !h; first by rewrite ((twL n).1 x y). by rewrite (twL n).2 mulrDr mulrCA. Qed.
Let planL' n : linfun (fun x => tw_plan' x n).
Proof. case: hT => _ _ _ _ h; split=> [x y e|c x y]; rewrite !h; first by rewrite ((planL n).1 x y). by rewrite (planL n).2 mulrDr mulrCA. Qed.
Let wtcL' t : linfun (fun x => wtc' x t).
Proof. case: hT => _ _ h _ _; split=> [x y e|c x y]; rewrite !h; first by rewrite ((wtcL t).1 x y). by rewrite (wtcL t).2 mulrDr mulrCA. Qed.
(* the quantities with their units *)
Definition mu_unit (m m' : C) : Prop := m \is Num.real /\ m' = u * m.
Definition g_unit (x y : G) : Prop := forall p, y p = u^-1 *: x p.
Definition sigma_unit (x y : G) : Prop := forall p, y p = u *: x p.
Definition rho_unit (x y : Rho) : Prop := forall r, y r = x r.
Definition P_unit (x y : chi4) : Prop := forall w k a b c d, y w k a b c d = u^-1 * x w k a b c d.
Definition W_unit (x y : chi4) : Prop := forall w k a b c d, y w k a b c d = u * x w k a b c d.
Definition state_unit (s t : state) : Prop := same_state2 mu_unit g_unit sigma_unit rho_unit eq P_unit W_unit P_unit s t.
Lemma lin_scale (A : Type) (f : (A -> C) -> C) (c : C) x y : linfun f -> (forall a, y a = c * x a) -> f y = c * f x.
Proof.
move=> [fe fl] h; have z : f (fun _ => 0) = 0.
  have := fl 1 (fun _ => 0) (fun _ => 0); rewrite (fe (fun _ => 1 * 0 + 0) (fun _ => 0)) ?mul1r; last by move=> a; rewrite ?mulr0 addr0.
  by move/eqP; rewrite -subr_eq0 opprD addrA subrr sub0r oppr_eq0 => /eqP.
by rewrite -[RHS]addr0 -[X in _ + X]z -fl; apply: fe => a; rewrite h addr0.
Qed.
Lemma k2r_scale (c : C) (x y : K -> C) r : (forall k, y k = c * x k) -> k2r y r = c * k2r x r.
Proof. by move=> h; rewrite /fourier_k_to_r mulrA mulr_sumr; congr (_ / _); apply: eq_bigr => k _; rewrite h mulrCA. Qed.
Lemma r2k_scale (c : C) (x y : K -> C) k : (forall r, y r = c * x r) -> r2k y k = c * r2k x k.
Proof. by move=> h; rewrite /fourier_r_to_k mulr_sumr; apply: eq_bigr => r _; rewrite h mulrCA. Qed.
Lemma on_ints_scale (x y : G) n k : g_unit x y -> on_ints y n k = u^-1 *: on_ints x n k.
Proof. by move=> h; rewrite /on_ints scaler_sumr; apply: eq_bigr => p _; rewrite h. Qed.
Lemma rho_scale x y : g_unit x y -> rho_unit (calc_rho z1 z2 z3 density nranks sc x) (calc_rho z1 z2 z3 density' nranks sc y).
Proof.
move=> h r; rewrite !calc_rhoE //; apply/matrixP=> a b; rewrite !mxE; apply: k2r_ext => k.
by case: hT => hd _ _ _ _; rewrite (hd (fun n => on_ints x n k)) // => n; exact: on_ints_scale.
Qed.
Lemma total_scale (x y : Rho) : rho_unit x y -> total_density x = total_density y.
Proof. by move=> h; apply: eq_bigr => a _; rewrite h. Qed.
Lemma hartree_scale (x y : Rho) : rho_unit x y -> sigma_unit (hartree_sigma nn z1 z2 z3 V_k x) (hartree_sigma nn z1 z2 z3 V_k' y).
Proof.
move=> h p; rewrite !hartreeE; apply/matrixP=> a b; rewrite !mxE mulr_sumr; apply: eq_bigr => c _; rewrite mulr_sumr; apply: eq_bigr => d _; by rewrite h mulrA.
Qed.
Lemma fock_scale (x y : Rho) : rho_unit x y -> sigma_unit (fock_sigma nn z1 z2 z3 nranks sc V_k x) (fock_sigma nn z1 z2 z3 nranks sc V_k' y).
Proof.
move=> h p; rewrite !fockE //; apply/matrixP=> a b; rewrite !mxE; apply: r2k_scale => r.
rewrite mulr_sumr; apply: eq_bigr => c _; rewrite mulr_sumr; apply: eq_bigr => d _; rewrite h (k2r_scale (x := fun k => V_k k a c d b) (c := u)) //.
by rewrite -mulrN -mulrA.
Qed.
Lemma g_time_scale (x y : G) t r : g_unit x y -> g_time z1 z2 z3 wt' y t r = g_time z1 z2 z3 wt x t r.
Proof.
move=> h; case: hT => _ hw _ _ _; apply: hw => n; apply/matrixP=> i j; rewrite !mxE; apply: k2r_scale => k; by rewrite (on_ints_scale _ _ h) mxE.
Qed.
Lemma trapz_scale (x : 'I_L.+1 -> C) : trapz beta' x = u^-1 * trapz beta x.
Proof. by rewrite /trapz [u^-1 * _]mulrC -!mulrA; congr (_ * (_ * _)); rewrite mulrC. Qed.
Lemma to_freq_scale (w : Wb) x : to_freq beta' tw_plan' w x = u^-1 * to_freq beta tw_plan w x.
Proof. by rewrite /to_freq; case: ifP => _; [exact: trapz_scale | case: hT]. Qed.
Lemma polarization_scale x y : g_unit x y -> P_unit (polarization z1 z2 z3 beta wt tw_plan tw_lib nranks sc x) (polarization z1 z2 z3 beta' wt' tw_plan' tw_lib' nranks sc y).
Proof.
move=> h w q a b c d; rewrite !polarizationE // mulrN; congr (- _); apply: r2k_scale => r; rewrite to_freq_scale; congr (_ * _).
by apply: (to_freq_lin beta planL w).1 => t; rewrite !(g_time_scale _ _ h).
Qed.
Lemma tmat_scale (c : C) (x y : t4) : (forall a b i j, y a b i j = c * x a b i j) -> tmat y = c *: tmat x.
Proof. by move=> h; apply/matrixP=> i j; rewrite !mxE h. Qed.
Lemma scale_tmat (c : C) (x y : t4) a b i j : tmat y = c *: tmat x -> y a b i j = c * x a b i j.
Proof. by move=> h; rewrite -!tmatE h mxE. Qed.
Lemma VP (A B : 'M[C]_(nb * nb)) (c : C) : (c *: (u^-1 *: A)) *m (u *: B) = (c *: A) *m B.
Proof. by rewrite scalerA -!scalemxAl -scalemxAr scalerA -mulrA mulVf // mulr1. Qed.
Lemma screened_scale sp x y : P_unit x y -> W_unit (screened_interaction nranks sc V_k sp x) (screened_interaction nranks sc V_k' sp y).
Proof.
move=> h w k a b c d; apply: scale_tmat; rewrite !screenedE // (tmat_scale (x := V_k k) (c := u)) // (tmat_scale (h w k)) VP.
by rewrite -scalemxAl.
Qed.
Lemma dynamic_scale x y : W_unit x y -> W_unit (dynamic_part V_k x) (dynamic_part V_k' y).
Proof. by move=> h w k a b c d; rewrite !dynamicE h mulrBr. Qed.
Lemma chi_scale p q x y : P_unit p q -> W_unit x y -> P_unit (susceptibility nranks sc p x) (susceptibility nranks sc q y).
Proof.
move=> hp hx w k a b c d; apply: scale_tmat; rewrite !susceptibilityE // (tmat_scale (hp w k)) (tmat_scale (hx w k)) scalerDr; congr (_ + _).
by rewrite -!scalemxAl -!scalemxAr -scalemxAl !scalerA mulrCA mulVf // mulr1.
Qed.
Lemma sigma_scale x y g h : W_unit x y -> g_unit g h ->
  sigma_unit (gw_dynamic_sigma z1 z2 z3 beta wt tw wtc nranks sc x g) (gw_dynamic_sigma z1 z2 z3 beta' wt' tw' wtc' nranks sc y h).
Proof.
move=> hx hg p; rewrite !sigma_dynE //; apply/matrixP=> a b; rewrite !mxE; apply: r2k_scale => r.
case: (hT) => _ _ hc ht _; rewrite ht.
have -> : u * tw (fun t => \sum_c \sum_d - W_time z1 z2 z3 wtc x t r a c d b * g_time z1 z2 z3 wt g t r c d) (fidx p.1) =
  u^-1 * (u ^+ 2 * tw (fun t => \sum_c \sum_d - W_time z1 z2 z3 wtc x t r a c d b * g_time z1 z2 z3 wt g t r c d) (fidx p.1)) by rewrite mulrA expr2 mulKf.
congr (_ * _); apply: (lin_scale (twL _)) => t; rewrite mulr_sumr; apply: eq_bigr => c _; rewrite mulr_sumr; apply: eq_bigr => d _.
rewrite (g_time_scale _ _ hg) mulrA; congr (_ * _); rewrite mulrN; congr (- _); rewrite /W_time hc expr2 -mulrA; congr (_ * _).
by apply: (lin_scale (wtcL t)) => w; apply: k2r_scale => k; exact: hx.
Qed.
(* the Dyson equation can be solved with this self-energy at every real chemical potential *)
Definition regular (s : option G) : Prop :=
  forall (mu : C) (p : Wf * K), mu \is Num.real -> (freq p.1 + mu)%:M - e_k p.2 - (if s is Some x then x p else 0) \in unitmx.
Lemma dyson_scale mu x y : mu \is Num.real -> sigma_unit x y -> regular (Some x) ->
  g_unit (lattice_dyson_g freq nranks sc e_k mu x) (lattice_dyson_g freq' nranks sc e_k' (u * mu) y).
Proof.
move=> rm h hr p; rewrite !dysonE // h -invmx_scale //; last exact: hr.
by congr (invmx _); rewrite !scalerBr; congr (_ - _ - _); rewrite -mulrDr -scale_scalar_mx.
Qed.
Lemma dyson0_scale mu : mu \is Num.real -> regular None ->
  g_unit (lattice_dyson_g0 freq nranks sc e_k mu) (lattice_dyson_g0 freq' nranks sc e_k' (u * mu)).
Proof.
move=> rm hr p; rewrite !dyson0E // -invmx_scale //; last by have := hr mu p rm; rewrite subr0.
by congr (invmx _); rewrite scalerBr; congr (_ - _); rewrite -mulrDr -scale_scalar_mx.
Qed.
Lemma distance_scale tol x y x' y' : g_unit x y -> g_unit x' y' -> (distance x x' < tol) = (distance y y' < u^-1 * tol).
Proof.
move=> h h'; rewrite !distance_lt pmulr_rgt0 ?invr_gt0 //; congr (_ && _); apply: eq_forallb => p; apply: eq_forallb => i; apply: eq_forallb => j.
by rewrite h h' !mxE -mulrBr normrM (gtr0_norm (x := u^-1)) ?invr_gt0 // ltr_pmul2l // invr_gt0.
Qed.
(* the arguments in the other unit *)
Definition args_unit (a : args C) : args C := Args (N_fix a) (N_tol a) (u * (mu_bracket a).1, u * (mu_bracket a).2).
Lemma dyson_equation_scale a mu mu' x y : (fixed a <> None -> unit_free brentq u /\ forall f b t m, brentq f b t = Some m -> m \is Num.real) -> mu_unit mu mu' -> orel sigma_unit x y -> regular x ->
  orel (same_pair mu_unit g_unit)
  (dyson_equation (calc_rho z1 z2 z3 density nranks sc) (@total_density C n1 n2 n3 nb) (lattice_dyson_g freq nranks sc e_k) (lattice_dyson_g0 freq nranks sc e_k) brentq a mu x)
  (dyson_equation (calc_rho z1 z2 z3 density' nranks sc) (@total_density C n1 n2 n3 nb) (lattice_dyson_g freq' nranks sc e_k') (lattice_dyson_g0 freq' nranks sc e_k') brentq (args_unit a) mu' y).
Proof.
move=> hb [rm ->] hx hr.
have hd m : m \is Num.real -> g_unit (dispatch (lattice_dyson_g freq nranks sc e_k) (lattice_dyson_g0 freq nranks sc e_k) x m)
    (dispatch (lattice_dyson_g freq' nranks sc e_k') (lattice_dyson_g0 freq' nranks sc e_k') y (u * m)).
  by move=> rm'; case: x y hx hr => [x|] [y|] //= hx hr; [exact: dyson_scale | exact: dyson0_scale].
rewrite /dyson_equation; have -> : fixed (args_unit a) = fixed a by [].
case: (fixed a) hb => [m|] hb; last by split=> //=; exact: hd.
have [hb1 hb2] : unit_free brentq u /\ forall f b t m, brentq f b t = Some m -> m \is Num.real by apply: hb.
set f := fun mu => total_density _ - m; set g := fun mu => total_density _ - m.
have fg v : v \is Num.real -> g (u * v) = f v by move=> rv; rewrite /f /g (total_scale (rho_scale (hd v rv))).
have := hb1 f g (mu_bracket a) (N_tol a) fg; have := hb2 f (mu_bracket a) (N_tol a); move: (f) (g) => f' g' hr' /= ->.
by case: (brentq f' _ _) hr' => [v|] //= /(_ _ erefl) rv; split=> //=; exact: hd.
Qed.
Local Notation run := (gw_solve_iter z1 z2 z3 beta freq density wt tw wtc tw_plan tw_lib brentq nranks sc e_k V_k).
Local Notation run' := (gw_solve_iter z1 z2 z3 beta' freq' density' wt' tw' wtc' tw_plan' tw_lib' brentq nranks sc e_k' V_k').
Local Notation start := (gw_init z1 z2 z3 freq density brentq nranks sc e_k).
Local Notation start' := (gw_init z1 z2 z3 freq' density' brentq nranks sc e_k').
(* C113: the GW solver with all energies in another unit; the tolerance is one of Green functions *)
Theorem C113_gw (a : args C) tol hartree fock gw spinless n s t s' : (fixed a <> None -> unit_free brentq u /\ forall f b t m, brentq f b t = Some m -> m \is Num.real) ->
  state_unit s t -> (forall i r, (0 < i <= n)%N -> run a tol hartree fock gw spinless i s = Some r -> regular (Some (s_sigma r))) ->
  run a tol hartree fock gw spinless n s = Some s' ->
  exists2 t', run' (args_unit a) (u^-1 * tol) hartree fock gw spinless n t = Some t' & state_unit s' t'.
Proof.
move=> hb hst hreg hr; apply: (solve_iter_rel2 _ _ _ _ _ _ _ _ _ _ _ _ _ hst hreg hr).
- by move=> p; rewrite !ffunE scaler0.
- by move=> x y x' y' h h' p; rewrite !ffunE h h' scalerDr.
- exact: rho_scale.
- exact: total_scale.
- by move=> _; exact: hartree_scale.
- by move=> _; exact: fock_scale.
- exact: polarization_scale.
- by move=> _; exact: screened_scale.
- by move=> _; exact: dynamic_scale.
- by move=> w v x y; exact: sigma_scale.
- by move=> p q w v; exact: chi_scale.
- by move=> mu mu' x y; exact: dyson_equation_scale.
- by move=> x y x' y'; exact: distance_scale.
Qed.
Theorem C113_gw_start (a : args C) mu g g' : (fixed a <> None -> unit_free brentq u /\ forall f b t m, brentq f b t = Some m -> m \is Num.real) ->
  odflt 0 mu \is Num.real -> orel g_unit g g' -> regular None -> orel state_unit (start a mu g) (start' (args_unit a) (omap (fun x => u * x) mu) g').
Proof.
move=> hb rm hg hr; apply: (init_rel2 _ _ _ _ _ _ _ _ hg hr).
- by move=> p; rewrite !ffunE scaler0.
- by move=> m m' x y; exact: dyson_equation_scale.
- by split=> //; case: (mu) => //=; rewrite mulr0.
Qed.
End Gw.
