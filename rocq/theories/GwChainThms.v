(* C78 (the two polarizations), C79 (susceptibility of the GW solver), C80 (interaction tensor of the GW routines). *)
From mathcomp Require Import all_ssreflect all_algebra all_field.
From Verif Require Import Base Fring MatAlg MpiModel MpiProofs MpiSpec FourierModel FourierProofs BubbleModel ImtimeModel RpaModel RpaSpec RpaProofs RpaThms BseProofs.
From Verif Require Import OperatorModel OperatorSpec OperatorProofs OperatorThms GwChainModel.
Set Implicit Arguments.
Unset Strict Implicit.
Unset Printing Implicit Defensive.
Import GRing.Theory Num.Theory.
Local Open Scope ring_scope.

Section Bubbles.
Variables (C : fieldType) (n1 n2 n3 nb L : nat) (z1 z2 z3 : C) (beta : C).
Local Notation K := (site n1 n2 n3).
Variable wt : (int -> 'M[C]_nb) -> 'I_L.+1 -> 'M[C]_nb.
Variables tw_plan tw_lib : ('I_L.+1 -> C) -> int -> C.
Hypothesis plan_ext : ext_transform tw_plan.
Hypothesis lib_ext : ext_transform tw_lib.
Variable g : gfun C n1 n2 n3 nb.
(* the Green's function at a lattice vector and the imaginary time beta t / L, and at minus that time, where it is antiperiodic *)
Definition at_time (t : 'I_L.+1) (r : K) (a b : 'I_nb) : C := wt (fun n => fourier_wk_to_wr z1 z2 z3 g n r) t a b.
Definition at_minus_time (t : 'I_L.+1) (r : K) (a b : 'I_nb) : C := - at_time (rev_ord t) r a b.
(* C78: gw.bubble_PI_wk is the documented bubble *)
Theorem C78_documented nranks sc nw w q a b c d : fair_sched nranks sc ->
  bubble_PI_wk z1 z2 z3 wt tw_plan nranks sc (nw := nw) g w q a b c d =
  fourier_r_to_k z1 z2 z3 (fun r => tw_plan (fun t => - (at_time t r d a * at_minus_time t (- r) b c)) (bidx w)) q.
Proof.
move=> fs; rewrite /bubble_PI_wk /chi_wk_from_chi_wr fair_all_map //; apply: r2k_ext => r.
rewrite /chi_wr_from_chi_tr fair_all_map //; apply: plan_ext => t.
by rewrite /chi0_tr_from_grt_PH fair_all_map // /chi0_t_kernel !grtE // /at_minus_time mulrN opprK.
Qed.
(* the polarization of the solver is minus that, whatever the distribution of the work *)
Theorem C78_agree_partial nranks sc nranks' sc' nw w q a b c d : fair_sched nranks sc -> fair_sched nranks' sc' -> nw != 1%N ->
  polarization z1 z2 z3 beta wt tw_plan tw_lib nranks sc (nw := nw) g w q a b c d =
  - bubble_PI_wk z1 z2 z3 wt tw_plan nranks' sc' (nw := nw) g w q a b c d.
Proof.
move=> fs fs' h1; rewrite C78_documented // /polarization imtimeE // (negbTE h1); congr (- _).
by apply: r2k_ext => r; apply: plan_ext => t; rewrite /chi0_tau /at_minus_time mulrN opprK.
Qed.
(* and with a mesh of two frequencies it is minus its trapezoidal sum *)
Theorem C78_one_frequency nranks sc q w a b c d : fair_sched nranks sc ->
  polarization z1 z2 z3 beta wt tw_plan tw_lib nranks sc (nw := 1) g w q a b c d =
  - fourier_r_to_k z1 z2 z3 (fun r => trapz beta (fun t => - (at_time t r d a * at_minus_time t (- r) b c))) q.
Proof.
move=> fs; rewrite /polarization imtimeE //=; congr (- _); apply: r2k_ext => r; apply: trapz_ext => t.
by rewrite /chi0_tau /at_minus_time mulrN opprK.
Qed.
End Bubbles.

Section Susceptibility.
Variables (F : fieldType) (nb : nat) (W K M : eqType).
Local Notation t4 := (tensor4 F nb).
Local Notation chiwk := (chi_wk F nb W K M).
Local Notation chik := (chi_k F nb K M).
Definition scale4 (x : F) (A : t4) : t4 := fun a b c d => x * A a b c d.
Lemma tmat_scale x A : tmat (scale4 x A) = x *: tmat A. Proof. by apply/matrixP=> i j; rewrite !mxE. Qed.
Lemma chain nranks sched (sp : bool) (P : chiwk) (V : chik) w k :
  fair_run nranks (wmesh P) (kmesh P) sched -> w \in wmesh P -> k \in kmesh P -> kmesh_id P = vkmesh_id V ->
  exists Ws X, [/\ screened_interaction nranks sched sp P V = Some Ws, susceptibiltiy nranks sched P Ws = Some X,
    tmat (chi_dat Ws w k) = tmat (W_generic_bubble (scale4 (if sp then 2%:R else 1) (chi_dat P w k)) (v_dat V k)) &
    tmat (chi_dat X w k) = tmat (chi_dat P w k) *m tmat (chi_dat Ws w k) *m tmat (chi_dat P w k) + tmat (chi_dat P w k)].
Proof.
move=> [h1 h2 h3 h4] hw hk e.
have [Ws [e1 em eW]] : exists Ws, [/\ screened_interaction nranks sched sp P V = Some Ws, kmesh_id Ws = kmesh_id P & tmat (chi_dat Ws w k) = tmat (W_generic_bubble (scale4 (if sp then 2%:R else 1) (chi_dat P w k)) (v_dat V k))].
  rewrite /screened_interaction /W_static /= e eqxx /=; case: sp; eexists; split=> //; apply/eq_tmat => a b c d /=;
    rewrite (on_meshE _ h1 h2 h3 h4) // W_opt_generic //.
  have /eq_tmat h : eq_t4 (chi_dat P w k) (scale4 1 (chi_dat P w k)) by move=> ? ? ? ?; rewrite /scale4 mul1r.
  by congr (mten _ a b c d); rewrite h.
exists Ws; rewrite /susceptibiltiy /W_from_chi_dynamic em eqxx /=; eexists; split=> //=.
rewrite -tmat_W_gen; apply/eq_tmat => a b c d /=.
move: e1; rewrite /screened_interaction /W_static /= e eqxx /=; case: sp eW => eW [hW];
  by rewrite (on_meshE _ h1 h2 h3 h4) -?hW.
Qed.
(* C79: the susceptibility is the unique solution of chi = P + P.V.chi with the polarization and interaction of the solver, and W = V + V.chi.V *)
Theorem C79_susceptibility nranks sched (P : chiwk) (V : chik) w k :
  fair_run nranks (wmesh P) (kmesh P) sched -> w \in wmesh P -> k \in kmesh P -> kmesh_id P = vkmesh_id V ->
  nonsingular (chi_dat P w k) (v_dat V k) ->
  exists Ws X, [/\ screened_interaction nranks sched false P V = Some Ws, susceptibiltiy nranks sched P Ws = Some X,
    rpa_equation (chi_dat P w k) (v_dat V k) (chi_dat X w k),
    (forall Y, rpa_equation (chi_dat P w k) (v_dat V k) Y -> eq_t4 Y (chi_dat X w k)) &
    eq_t4 (chi_dat (dynamic_part Ws V) w k) (contract (v_dat V k) (contract (chi_dat X w k) (v_dat V k)))].
Proof.
move=> fr hw hk e ns; have [Ws [X [e1 e2 eW eX]]] := chain false fr hw hk e; exists Ws, X.
have e1P : tmat (scale4 1 (chi_dat P w k)) = tmat (chi_dat P w k) by rewrite tmat_scale scale1r.
have {}eW : tmat (chi_dat Ws w k) = tmat (W_generic_bubble (chi_dat P w k) (v_dat V k)) by rewrite eW !tmat_W_bubble e1P.
have /eq_tmat := W_equation ns; rewrite tmat_add !tmat_contract -eW => h.
have hr : tmat (chi_dat X w k) = tmat (rpa_point (v_dat V k) (chi_dat P w k)).
  apply/eq_tmat; apply: rpa_unique => //; apply/eq_tmat; rewrite tmat_add !tmat_contract eX.
  by rewrite [LHS]addrC; congr (_ + _); rewrite {1}h !(mulmxDl, mulmxDr) addrC !mulmxA.
split=> //.
- have /eq_tmat := rpa_solves ns; rewrite tmat_add !tmat_contract -hr => h'.
  by apply/eq_tmat; rewrite tmat_add !tmat_contract.
- by move=> Y /(rpa_unique ns)/eq_tmat hY; apply/eq_tmat; rewrite hY hr.
- have := W_from_rpa ns => /eq_tmat; rewrite tmat_W_gen -hr -eW => hW; apply/eq_tmat; rewrite /= !tmat_contract tmat_opp -hW.
  by rewrite addrK mulmxA.
Qed.
(* with spinless=True the orbitals are taken for both spins with an interaction that does not see the spin; the susceptibility is the one between equal spins:
   with the one between opposite spins it is the unique solution of the equations X = P + P.V.(X + Y), Y = P.V.(X + Y) *)
Definition spin_equations (P V X Y : t4) : Prop :=
  eq_t4 X (add4 P (contract P (contract V (add4 X Y)))) /\ eq_t4 Y (contract P (contract V (add4 X Y))).
Theorem C79_spinless nranks sched (P : chiwk) (V : chik) w k :
  fair_run nranks (wmesh P) (kmesh P) sched -> w \in wmesh P -> k \in kmesh P -> kmesh_id P = vkmesh_id V ->
  nonsingular (scale4 2%:R (chi_dat P w k)) (v_dat V k) ->
  exists Ws X, [/\ screened_interaction nranks sched true P V = Some Ws, susceptibiltiy nranks sched P Ws = Some X,
    exists Y, spin_equations (chi_dat P w k) (v_dat V k) (chi_dat X w k) Y &
    forall X' Y', spin_equations (chi_dat P w k) (v_dat V k) X' Y' -> eq_t4 X' (chi_dat X w k)].
Proof.
move=> fr hw hk e ns; have [Ws [X [e1 e2 eW eX]]] := chain true fr hw hk e; exists Ws, X.
have /eq_tmat := W_equation ns; rewrite tmat_add !tmat_contract tmat_scale -eW => h.
set p := tmat (chi_dat P w k) in h eX *; set v := tmat (v_dat V k) in h *; set wm := tmat (chi_dat Ws w k) in h eX.
have hs : p *m (v *m (p *m wm *m p + p + p *m wm *m p)) = p *m wm *m p.
  have e' : p *m wm *m p = p *m v *m p + 2%:R *: (p *m v *m p *m wm *m p) by rewrite {1}h mulmxDr mulmxDl -scalemxAl -!scalemxAr -scalemxAl !mulmxA.
  by rewrite [RHS]e' !mulmxDr !mulmxA scaler_nat mulr2n addrAC addrC.
split=> //.
  exists (mten (p *m wm *m p)); split; apply/eq_tmat.
    by rewrite tmat_add !tmat_contract tmat_add mtenK eX hs addrC.
  by rewrite !tmat_contract tmat_add mtenK eX hs.
move=> X' Y' [/eq_tmat h1 /eq_tmat h2]; apply/eq_tmat; move: h1 h2; rewrite tmat_add !tmat_contract tmat_add.
set S := tmat X' + tmat Y' => h1 h2.
have eS : S = p + (2%:R *: p) *m v *m S.
  by rewrite {1}/S h1 h2 -addrA; congr (_ + _); rewrite -!scalemxAl scaler_nat mulr2n !mulmxA.
have u : 1%:M - (2%:R *: p) *m v \in unitmx by rewrite -tmat_scale; apply/nonsingularP.
have eS' : S = p *m wm *m p + p + p *m wm *m p.
  apply: (can_inj (mulKmx u)); rewrite !mulmxBl !mul1mx {1}eS addrK -!scalemxAl -(mulmxA p v) hs scaler_nat mulr2n.
  by rewrite [p *m wm *m p + p]addrC -[p + _ + _]addrA addrK.
by rewrite h1 eS' hs eX addrC.
Qed.
End Susceptibility.

(* one site, one orbital, a propagator that is one at all times: the bubble is one and the polarization of the solver minus one *)
Theorem C78_agree_refuted : let wt (_ : int -> 'M[algC]_1) (_ : 'I_2) : 'M[algC]_1 := 1%:M in let tw (x : 'I_2 -> algC) (_ : int) := x ord0 in
  let g : gfun [fieldType of algC] 0 0 0 1 := fun _ _ => 1%:M in
  forall nranks sc, fair_sched nranks sc -> forall w q,
    bubble_PI_wk 1 1 1 wt tw nranks sc (nw := 3) g w q ord0 ord0 ord0 ord0 = 1 /\
    polarization 1 1 1 1 wt tw tw nranks sc (nw := 3) g w q ord0 ord0 ord0 ord0 = -1.
Proof.
move=> wt tw g nranks sc fs w q.
have te : ext_transform tw by move=> x y h n; rewrite /tw h.
have e : bubble_PI_wk 1 1 1 wt tw nranks sc (nw := 3) g w q ord0 ord0 ord0 ord0 = 1.
  rewrite C78_documented // /fourier_r_to_k (bigD1 (ord0, ord0, ord0)) //= big1 ?addr0.
    by rewrite /phase !expr1n !mul1r /tw /at_minus_time /at_time /wt !mxE /= mulr1n mulrN opprK mulr1.
  by move=> [[i j] k]; rewrite (ord1 i) (ord1 j) (ord1 k) eqxx.
have h := @C78_agree_partial [fieldType of algC] 0 0 0 1 1 1 1 1 1 wt tw tw te te g nranks sc nranks sc 3%N w q ord0 ord0 ord0 ord0 fs fs erefl.
by split=> //; rewrite h e.
Qed.
Theorem C78_case : fair_sched 2 (fun _ (T : finType) r => mpi_view (enum T) 2 r).
Proof. by move=> i T; apply: fair_all_inorder. Qed.
(* one orbital, P = 1/4, V = 1: chi = 1/3, and 3/8 between equal spins *)
Theorem C79_case : let P : chi_wk rat_fieldType 1 bool_eqType bool_eqType bool_eqType := ChiWK [:: true] [:: true] true (fun _ _ _ _ _ _ => 4%:R^-1) in
  let V : chi_k rat_fieldType 1 bool_eqType bool_eqType := ChiK true (fun _ _ _ _ _ => 1) in
  [/\ fair_run 1 (wmesh P) (kmesh P) (fun _ => [:: (true, true)]), nonsingular (chi_dat P true true) (v_dat V true) & nonsingular (scale4 2%:R (chi_dat P true true)) (v_dat V true)].
Proof.
split.
- split=> // r; rewrite ltnS leqn0 => /eqP ->; exact: perm_refl.
- exists (fun _ _ _ _ => 4%:R / 3%:R) => a b c d; rewrite /contract !big_ord1 /delta4 !ord1 eqxx /=; by apply/eqP.
- exists (fun _ _ _ _ => 2%:R) => a b c d; rewrite /contract !big_ord1 /delta4 !ord1 eqxx /=; by apply/eqP.
Qed.

Section Tensor.
Variable C : numClosedFieldType.
Local Notation cdag i := (true, i).
Local Notation c i := (false, i).
(* C80: the Hamiltonian is half the sum of V_abcd c+_a c+_c c_d c_b, and V is unchanged when the two densities are exchanged *)
Theorem C80_interaction (H : operator C) (idx : seq nat) : uniq idx -> stored H -> quartic idx H ->
  exists V A, [/\ get_gw_tensor H (modes C idx) = Some V,
    operator_from_quartic_tensor (fun a c d b => 2%:R^-1 * V a b c d) (modes C idx) = Some A, same_operator A H &
    forall a b c d, V a b c d = V c d a b].
Proof.
move=> u sH qH; have [T eT hT] := quartic_read_proof false u sH (quartic_is_ok sH qH).
rewrite /get_gw_tensor eT; exists (fun a b c d => transpose_0312 T a b c d + transpose_2301 (transpose_0312 T) a b c d).
have [A [eA sA hA]] := from_quartic_proof (fun a c d b => 2%:R^-1 * (transpose_0312 T a b c d + transpose_2301 (transpose_0312 T) a b c d)) idx; exists A.
split=> //; last by move=> a b c0 d; rewrite addrC.
apply: pr_same => F; rewrite (pr_quartic F u sH qH) hA; symmetry.
pose f i j k l := K H idx i j k l * W (quart idx i j k l) F [::].
have e3 : S4 (size idx) (fun i j k l => K H idx j i l k * W (quart idx i j k l) F [::]) = S4 (size idx) f.
  rewrite S4_swap1 S4_swap2; apply: eq_S4 => i j k l _ _ _ _.
  by rewrite W4_swap2 W4_swap1 opprK.
transitivity (S4 (size idx) (fun i j k l => 2%:R^-1 * f i j k l + 2%:R^-1 * (K H idx j i l k * W (quart idx i j k l) F [::]))).
  by rewrite S4_add e3 -mulrDl half2 mul1r.
apply: eq_S4 => i j k l hi hj hk hl; rewrite /transpose_0312 /transpose_2301 !hT // /f /= mulrDr mulrDl !mulrA //.
Qed.
(* each element: what the Hamiltonian has in front of the products of creation and annihilation operators *)
Theorem C80_elements (H : operator C) (idx : seq nat) : uniq idx -> stored H -> quartic idx H ->
  exists2 V, get_gw_tensor H (modes C idx) = Some V &
    forall a b d e, (a < size idx)%N -> (b < size idx)%N -> (d < size idx)%N -> (e < size idx)%N ->
    let m := nth 0%N idx in
    V a b d e = coef H [:: cdag (m a); cdag (m d); c (m e); c (m b)] + coef H [:: cdag (m d); cdag (m a); c (m b); c (m e)].
Proof.
move=> u sH qH; have [T eT hT] := quartic_read_proof false u sH (quartic_is_ok sH qH).
rewrite /get_gw_tensor eT; eexists; first by []; move=> a b d e ha hb hd he /=.
by rewrite /transpose_0312 /transpose_2301 !hT.
Qed.
(* the docstring says antisymmetrized: for U n_1 n_2 the element 1122 is U and the one with exchanged annihilation operators 1221 vanishes *)
Theorem C80_antisymmetrized_refuted (U : C) : U != 0 -> let H := [:: ([:: cdag 1%N; cdag 2%N; c 2%N; c 1%N], U)] in
  exists2 V, get_gw_tensor H (modes C [:: 1; 2]%N) = Some V & V 0%N 0%N 1%N 1%N = U /\ V 0%N 1%N 1%N 0%N = 0.
Proof.
move=> U0 H; have sH : stored H by rewrite /stored /= U0.
have qH : quartic [:: 1; 2]%N H by move=> t; rewrite !inE => /eqP ->.
have [|V e h] := @C80_elements H [:: 1; 2]%N _ sH qH; first by [].
by exists V => //; rewrite !h //= /coef !big_cons !big_nil /= !addr0.
Qed.
End Tensor.
Print Assumptions C78_documented.
Print Assumptions C78_agree_partial.
Print Assumptions C78_agree_refuted.
Print Assumptions C79_susceptibility.
Print Assumptions C79_spinless.
Print Assumptions C80_interaction.
Print Assumptions C80_elements.
Print Assumptions C80_antisymmetrized_refuted.
