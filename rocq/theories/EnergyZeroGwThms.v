(* C111: the zero of energy of the GW solver and of the Lindhard function. *)
From mathcomp Require Import all_ssreflect all_algebra.
From Verif Require Import HfModel HfThms HfBasisThms.
From Verif Require Import Base MpiModel MpiProofs MpiSpec FourierModel FourierProofs BubbleModel MatsubaraModel ImtimeModel RpaModel
  MatAlg BseProofs LindhardModel DysonModel GwModel GwSpec GwProofs GwChainModel GwSolverModel GwFullModel GwFullProofs GwRel GwBracketModel.
Set Implicit Arguments.
Unset Strict Implicit.
Unset Printing Implicit Defensive.
Import GRing.Theory Num.Theory Order.Theory.
Local Open Scope ring_scope.

Section Spec.
Variable C : numClosedFieldType.
(* a root finder without a preferred origin *)
Definition origin_free (brentq : (C -> C) -> C * C -> C -> option C) (c : C) : Prop :=
  forall f g b t, (forall x, g (x + c) = f x) -> brentq g (b.1 + c, b.2 + c) t = omap (fun x => x + c) (brentq f b t).
(* raises exactly when the function has the same strict sign at both ends *)
Definition needs_sign_change (brentq : (C -> C) -> C * C -> C -> option C) : Prop :=
  forall f b t, f b.1 \is Num.real -> f b.2 \is Num.real -> (brentq f b t == None) = (0 < f b.1 * f b.2).
End Spec.

Section Gw.
Variables (C : numClosedFieldType) (n1 n2 n3 nb nn L : nat) (z1 z2 z3 beta : C).
Local Notation K := (site n1 n2 n3).
Local Notation t4 := (tensor4 C nb).
Local Notation mat := 'M[C]_nb.
Local Notation Wb := 'I_(2 * nn).-1.
Local Notation Wf := 'I_(2 * nn).
Variables (freq : Wf -> C) (density : (int -> mat) -> mat) (wt : (int -> mat) -> 'I_L.+1 -> mat) (tw : ('I_L.+1 -> C) -> int -> C).
Variables (wtc : (Wb -> C) -> 'I_L.+1 -> C) (tw_plan tw_lib : ('I_L.+1 -> C) -> int -> C).
Variable brentq : (C -> C) -> C * C -> C -> option C.
Variables (nranks : nat) (sc : schedules).
Variables (e_k e_k' : K -> mat) (V_k : K -> t4) (c : C).
Hypotheses (hs : fair_sched nranks sc) (he : forall k, e_k' k = e_k k + c%:M).
Local Notation state := (solver_state C n1 n2 n3 nb nn).
Local Notation run e := (gw_solve_iter z1 z2 z3 beta freq density wt tw wtc tw_plan tw_lib brentq nranks sc e V_k).
Local Notation start e := (gw_init z1 z2 z3 freq density brentq nranks sc e).
(* the attributes and arguments of the solver with the other zero of energy *)
Definition moved_state (s : state) : state := Attr (s_mu s + c) (s_mu0 s + c) (s_g s) (s_g0 s) (s_sigma s) (s_rho s) (s_N s) (s_hartree s) (s_fock s) (s_dyn s)
  (s_W s) (s_Wdyn s) (s_P s) (s_chi s).
Definition moved_args (a : args C) : args C := Args (N_fix a) (N_tol a) ((mu_bracket a).1 + c, (mu_bracket a).2 + c).
Local Notation RM := (fun m m' : C => m' = m + c).
Local Notation rel := (same_state RM eq eq eq eq eq eq).
Lemma dyson_moved mu s : lattice_dyson_g freq nranks sc e_k' (mu + c) s = lattice_dyson_g freq nranks sc e_k mu s.
Proof. by apply/ffunP=> p; rewrite !dysonE // he addrA raddfD /= opprD [- _ - _]addrC addrA addrK. Qed.
Lemma dyson0_moved mu : lattice_dyson_g0 freq nranks sc e_k' (mu + c) = lattice_dyson_g0 freq nranks sc e_k mu.
Proof. by apply/ffunP=> p; rewrite !dyson0E // he addrA raddfD /= opprD [- _ - _]addrC addrA addrK. Qed.
Lemma orel_id (X : Type) (x y : option X) : orel eq x y <-> x = y.
Proof. by split; [case: x y => [x|] [y|] //= -> | exact: orel_eq]. Qed.
Lemma relE s t : rel s t <-> t = moved_state s.
Proof.
split; last by move=> ->; do !split=> //=; exact/orel_id.
case: s t => [? ? ? ? ? ? ? ? ? ? ? ? ? ?] [? ? ? ? ? ? ? ? ? ? ? ? ? ?].
by move=> [[/= -> -> ->] [[/= -> -> /orel_id -> /orel_id ->] [[/= /orel_id -> /orel_id -> /orel_id ->] [/= /orel_id -> /orel_id -> /orel_id -> /orel_id ->]]]].
Qed.
Lemma orelE (x y : option state) : orel rel x y <-> y = omap moved_state x.
Proof. by case: x y => [x|] [y|] //=; split=> // [/relE ->|[->]] //; exact/relE. Qed.
Lemma dys (a : args C) mu mu' x y : (fixed a <> None -> origin_free brentq c) -> mu' = mu + c -> orel eq x y -> orel (same_pair RM eq)
  (dyson_equation (calc_rho z1 z2 z3 density nranks sc) (@total_density C n1 n2 n3 nb) (lattice_dyson_g freq nranks sc e_k) (lattice_dyson_g0 freq nranks sc e_k) brentq a mu x)
  (dyson_equation (calc_rho z1 z2 z3 density nranks sc) (@total_density C n1 n2 n3 nb) (lattice_dyson_g freq nranks sc e_k') (lattice_dyson_g0 freq nranks sc e_k') brentq (moved_args a) mu' y).
Proof.
move=> hb -> /orel_id <-; have hd m : dispatch (lattice_dyson_g freq nranks sc e_k') (lattice_dyson_g0 freq nranks sc e_k') x (m + c) =
    dispatch (lattice_dyson_g freq nranks sc e_k) (lattice_dyson_g0 freq nranks sc e_k) x m by case: x => [x|] /=; [exact: dyson_moved | exact: dyson0_moved].
rewrite /dyson_equation; have -> : fixed (moved_args a) = fixed a by [].
case: (fixed a) hb => [m|] hb; last by rewrite hd.
have hb' : origin_free brentq c by apply: hb.
set f := fun mu => total_density _ - m; set g := fun mu => total_density _ - m.
have fg u : g (u + c) = f u by rewrite /f /g hd.
have := hb'  f g (mu_bracket a) (N_tol a) fg; move: (f) (g) => f' g' /= ->.
by case: (brentq f' _ _) => [u|] //=; rewrite hd.
Qed.
(* C111: the GW solver with all energies shifted by c *)
Theorem C111_gw (a : args C) tol hartree fock gw spinless n s : (fixed a <> None -> origin_free brentq c) ->
  run e_k' (moved_args a) tol hartree fock gw spinless n (moved_state s) = omap moved_state (run e_k a tol hartree fock gw spinless n s).
Proof.
move=> hb; apply/orelE; apply: solve_iter_rel.
- by [].
- by move=> x y x' y' -> ->.
- by move=> x y ->.
- by move=> x y ->.
- by move=> _ x y ->.
- by move=> _ x y ->.
- by move=> x y ->.
- by move=> _ x y ->.
- by move=> _ x y ->.
- by move=> w v x y -> ->.
- by move=> w v x y -> ->.
- by move=> mu mu' x y; apply: dys.
- by move=> x y x' y' -> ->.
- exact/relE.
Qed.
Theorem C111_gw_start (a : args C) mu g : (fixed a <> None -> origin_free brentq c) ->
  start e_k' (moved_args a) (Some (mu + c)) g = omap moved_state (start e_k a (Some mu) g).
Proof. by move=> hb; apply/orelE; apply: init_rel => //; [move=> m m' x y; apply: dys | exact/orel_id]. Qed.
End Gw.

(* C111: the Lindhard function *)
Theorem C111_lindhard (C : numClosedFieldType) nb (K : finZmodType) fermi cosh (eig : 'M[C]_nb -> 'rV[C]_nb * 'M[C]_nb) (e e' : K -> 'M[C]_nb) beta mu idelta w q a b i j (c : C) :
  (forall k, e' k = e k + c%:M) -> lindhard_chi00 fermi cosh eig e' beta (mu + c) idelta w q a b i j = lindhard_chi00 fermi cosh eig e beta mu idelta w q a b i j.
Proof.
move=> he; have h k : e' k - (mu + c)%:M = e k - mu%:M by rewrite he raddfD /= opprD addrACA subrr addr0.
by rewrite /lindhard_chi00; congr (_ / _); apply: eq_bigr => k _; rewrite !h.
Qed.

(* C111: the default of mu_bracket is the interval of the matrix elements, not of the levels: a flat dispersion with the levels 0 and 2 and with the levels -1 and 1 *)
Section Bracket.
Variables (C : numClosedFieldType) (n1 n2 n3 : nat).
Local Notation K := (site n1 n2 n3).
Definition flat (k : K) : 'M[C]_2 := const_mx 1.
Definition flat_below (k : K) : 'M[C]_2 := flat k + (- 1)%:M.
Lemma flat_elements x : x \in elements flat -> x = 1.
Proof. by move=> /mapP[p _ ->]; rewrite mxE (Creal_ReP _ (rpred1 _)). Qed.
Lemma elements_some (e : K -> 'M[C]_2) k i j : 'Re (e k i j) \in elements e.
Proof. by apply/mapP; exists (k, (i, j)); rewrite // mem_enum. Qed.
Lemma below_element k i j : 'Re (flat_below k i j) = (i != j)%:R.
Proof. by rewrite !mxE; case: (i == j); rewrite ?mulr1n ?mulr0n ?subrr ?addr0 ?raddf0 //= (Creal_ReP _ (rpred1 _)). Qed.
Lemma not_nil (T : eqType) (x : T) (l : seq T) : x \in l -> l != [::]. Proof. by case: l. Qed.
Lemma extremes01 (l : seq C) : {in l, forall x, x = 0 \/ x = 1} -> 0 \in l -> 1 \in l -> minimum l = 0 /\ maximum l = 1.
Proof.
move=> h l0 l1; have ln := not_nil l0; have rl : {in l, forall y, y \is Num.real} by move=> y /h[->|->]; rewrite ?rpred0 ?rpred1.
have lo : {in l, forall y, minimum l <= y}.
  by case: l {h l0 l1 ln} rl => // x m mR; rewrite /minimum /= => y hy; apply: (foldl_min _ _ hy) => [|t ht]; apply: mR; rewrite inE ?eqxx // ht orbT.
have hi : {in l, forall y, y <= maximum l}.
  by case: l {h l0 l1 ln lo} rl => // x m mR; rewrite /maximum /= => y hy; apply: (foldl_max _ _ hy) => [|t ht]; apply: mR; rewrite inE ?eqxx // ht orbT.
split; first by have := lo _ l0; case: (h _ (minimum_in ln)) => -> //; rewrite ler10.
by have := hi _ l1; case: (h _ (maximum_in ln)) => -> //; rewrite ler10.
Qed.
Lemma default_flat : default_bracket flat = (1, 1).
Proof.
have ln := not_nil (elements_some flat 0 0 0).
by rewrite /default_bracket (flat_elements (minimum_in ln)) (flat_elements (maximum_in ln)).
Qed.
Lemma default_below : default_bracket flat_below = (0, 1).
Proof.
have [e1 e2] : minimum (elements flat_below) = 0 /\ maximum (elements flat_below) = 1; last by rewrite /default_bracket e1 e2.
apply: extremes01.
- by move=> x /mapP[p _ ->]; rewrite below_element; case: (_ == _); [left | right].
- by have := elements_some flat_below 0 0 0; rewrite below_element eqxx.
- by have := elements_some flat_below 0 0 1; rewrite below_element.
Qed.
Variables (nn : nat) (z1 z2 z3 : C) (freq : 'I_(2 * nn) -> C) (density : (int -> 'M[C]_2) -> 'M[C]_2) (brentq : (C -> C) -> C * C -> C -> option C) (nranks : nat) (sc : schedules).
(* the density without interaction as a function of the chemical potential *)
Definition filling mu : C := total_density (calc_rho z1 z2 z3 density nranks sc (lattice_dyson_g0 freq nranks sc flat mu)).
Local Notation start e N t := (gw_init z1 z2 z3 freq density brentq nranks sc e (Args (Some N) t (bracket e None)) None None).
Theorem C111_bracket_refuted (N t : C) : fair_sched nranks sc -> needs_sign_change brentq -> N != 0 -> filling 1 < N < filling 2%:R ->
  start flat N t = None /\ start flat_below N t <> None.
Proof.
move=> hs hb N0 /andP[h1 h2].
have rf mu : filling mu \is Num.real by apply: rpred_sum => a _; apply: Creal_Re.
have rd mu : filling mu - N \is Num.real.
  have r : filling 1 - N \is Num.real by apply: ltr0_real; rewrite subr_lt0.
  by rewrite -[filling mu](subrK (filling 1)) -addrA rpredD // rpredB.
have hm mu : total_density (calc_rho z1 z2 z3 density nranks sc (lattice_dyson_g0 freq nranks sc flat_below mu)) = filling (mu + 1).
  by rewrite /filling -(@dyson0_moved C n1 n2 n3 2 nn freq nranks sc flat flat_below (- 1)) // addrK.
have fx e : fixed (Args (Some N) t e) = Some N by rewrite /fixed /= (negbTE N0).
rewrite /gw_init /init /dyson_equation !fx /bracket /= default_flat default_below; split.
  have := hb (fun mu => filling mu - N) (1, 1) t (rd _) (rd _); rewrite /= -expr2 => e.
  suff -> : brentq (fun mu => filling mu - N) (1, 1) t = None by [].
  by apply/eqP; rewrite e real_exprn_even_gt0 //= subr_eq0 lt_eqF.
set g := fun mu => _ - N.
have ge mu : g mu = filling (mu + 1) - N by rewrite /g hm.
have := hb g (0, 1) t; rewrite /= !ge add0r => /(_ (rd _) (rd _)).
have -> : 0 < (filling 1 - N) * (filling (1 + 1) - N) = false.
  apply/negbTE; rewrite -real_leNgt ?rpred0 ?rpredM ?rd //; rewrite -[1 + 1](natrD _ 1 1).
  by rewrite mulr_le0_ge0 ?subr_le0 ?subr_ge0 // ltW.
by case: (brentq g _ _).
Qed.
End Bracket.

(* a case: one momentum; the density of a Green's function is taken from its inverse *)
Section Case.
Variable C : numClosedFieldType.
Let density (f : int -> 'M[C]_2) : 'M[C]_2 := invmx (f 0).
Let sc : schedules := fun _ F r => mpi_view (enum F) 2 r.
Let freq (w : 'I_(2 * 1)) : C := if w == ord0 then - 'i else 'i.
Let brentq (f : C -> C) (b : C * C) (_ : C) : option C := if 0 < f b.1 * f b.2 then None else Some b.1.
Theorem C111_bracket_case : [/\ fair_sched 2 sc, needs_sign_change brentq & @filling C 0 0 0 1 1 1 1 freq density 2 sc 1 < 1 < @filling C 0 0 0 1 1 1 1 freq density 2 sc 2%:R].
Proof.
have fs : fair_sched 2 sc by move=> i F; exact: fair_all_inorder.
split=> //; first by move=> f b t _ _; rewrite /brentq; case: ifP.
have fE mu : mu \is Num.real -> @filling C 0 0 0 1 1 1 1 freq density 2 sc mu = mu + mu - 2%:R.
  move=> rm; rewrite /filling /total_density; under eq_bigr => a _ do rewrite calc_rhoE // mxE.
  have k0 (k : site 0 0 0) : k = 0 by case: k => [[? ?] ?]; rewrite !ord1.
  have kr (F : site 0 0 0 -> C) : fourier_k_to_r 1 1 1 F 0 = F 0.
    rewrite /fourier_k_to_r (big_pred1 (0 : site 0 0 0)); last by move=> k; rewrite (k0 k) /= eqxx.
    have -> : ncells 0 0 0 = 1%N by []. by rewrite /phase !expr1n !mulr1 invr1 mul1r mulr1.
  have oi : on_ints (lattice_dyson_g0 freq 2 sc (flat C (n1 := 0) (n2 := 0) (n3 := 0)) mu) 0 0 = invmx (('i + mu)%:M - flat C (0 : site 0 0 0)).
    rewrite /on_ints (bigD1 ord_max) //= big1 ?addr0; first by rewrite dyson0E.
    by case=> -[|[|//]] hp.
  have e a : 'Re (invmx (invmx (('i + mu)%:M - flat C (0 : site 0 0 0))) a a) = mu - 1.
    rewrite invmxK !mxE eqxx mulr1n -addrA addrC -[X in _ + X]mulr1 Re_rect // ?rpred1 //.
    by rewrite rpredB ?rpred1.
  under eq_bigr => a _ do rewrite kr /density oi e.
  by rewrite !big_ord_recl big_ord0 addr0 addrACA -opprD -[1 + 1](natrD _ 1 1).
rewrite !fE ?rpred1 ?realn //; apply/andP; split.
  by rewrite -[1 + 1](natrD _ 1 1) subrr ltr01.
by rewrite addrK ltr1n.
Qed.
End Case.
Print Assumptions C111_gw.
Print Assumptions C111_gw_start.
Print Assumptions C111_lindhard.
Print Assumptions C111_bracket_refuted.
Print Assumptions C111_bracket_case.
