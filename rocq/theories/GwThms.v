(* C21 (Fock), C22 (Hartree), C23 (split), C55 (static limit of GW), C56 (GW self energy as a convolution),
   C57 (static G0W on eigenstates). *)
From mathcomp Require Import all_ssreflect all_algebra all_field.
From Verif Require Import Base MpiModel MpiProofs MpiSpec FourierModel FourierProofs BubbleModel MatsubaraModel ImtimeModel.
From Verif Require Import BseProofs GwModel GwSpec GwProofs.
Set Implicit Arguments.
Unset Strict Implicit.
Unset Printing Implicit Defensive.
Import GRing.Theory Num.Theory.
Local Open Scope ring_scope.

(* C23: adding the constant back restores the input, whatever the tail fit gives and however the loops run; the constant
   is the fitted tail and the dynamic part has the tail removed *)
Section C23.
Variables (C : fieldType) (nb : nat) (W K : finType) (fit_tail : (W -> C) -> C).
Lemma C23_proof nranks sched nranks' sched' (chi : W -> K -> tensor4 C nb) w k a b c d :
  fair_all nranks sched -> fair_all nranks' sched' ->
  let s := split_into_dynamic_wk_and_constant_k fit_tail nranks sched chi in
  [/\ add_dynamic_and_static nranks' sched' s.1 s.2 w k a b c d = chi w k a b c d,
      s.2 k a b c d = fit_tail (fun w => chi w k a b c d) & s.1 w k a b c d + s.2 k a b c d = chi w k a b c d].
Proof. by move=> fs fs' /=; rewrite /add_dynamic_and_static fair_all_map //= !fair_all_map // subrK; split. Qed.
Theorem C23_split_is_lossless nranks sched nranks' sched' (chi : W -> K -> tensor4 C nb) w k a b c d :
  fair_all nranks sched -> fair_all nranks' sched' ->
  let s := split_into_dynamic_wk_and_constant_k fit_tail nranks sched chi in
  [/\ add_dynamic_and_static nranks' sched' s.1 s.2 w k a b c d = chi w k a b c d,
      s.2 k a b c d = fit_tail (fun w => chi w k a b c d) & s.1 w k a b c d + s.2 k a b c d = chi w k a b c d].
Proof. exact (@C23_proof nranks sched nranks' sched' chi w k a b c d). Qed.

(* the split depends on the dynamic content only up to the fit: two functions that differ by a static tensor have the
   same dynamic part when the fit is exact on constants and linear *)
Lemma C23_static_shift_proof nranks sched (chi : W -> K -> tensor4 C nb) (v : K -> tensor4 C nb) w k a b c d :
  fair_all nranks sched -> linfun fit_tail -> (forall z, fit_tail (fun=> z) = z) ->
  let s := split_into_dynamic_wk_and_constant_k fit_tail nranks sched chi in
  let s' := split_into_dynamic_wk_and_constant_k fit_tail nranks sched (fun w k a b c d => chi w k a b c d + v k a b c d) in
  s'.1 w k a b c d = s.1 w k a b c d /\ s'.2 k a b c d = s.2 k a b c d + v k a b c d.
Proof.
move=> fs [ext lin] cst /=; rewrite !fair_all_map //.
have E : fit_tail (fun w => chi w k a b c d + v k a b c d) = fit_tail (fun w => chi w k a b c d) + v k a b c d.
  rewrite -[v k a b c d in RHS]cst -[fit_tail _ in RHS]mul1r -lin; apply: ext => x; by rewrite mul1r.
by rewrite E; split=> //; rewrite opprD addrACA subrr addr0.
Qed.
Theorem C23_static_shift nranks sched (chi : W -> K -> tensor4 C nb) (v : K -> tensor4 C nb) w k a b c d :
  fair_all nranks sched -> linfun fit_tail -> (forall z, fit_tail (fun=> z) = z) ->
  let s := split_into_dynamic_wk_and_constant_k fit_tail nranks sched chi in
  let s' := split_into_dynamic_wk_and_constant_k fit_tail nranks sched (fun w k a b c d => chi w k a b c d + v k a b c d) in
  s'.1 w k a b c d = s.1 w k a b c d /\ s'.2 k a b c d = s.2 k a b c d + v k a b c d.
Proof. exact (@C23_static_shift_proof nranks sched chi v w k a b c d). Qed.
End C23.

Section Main.
Variables (C : fieldType) (n1 n2 n3 nb : nat) (z1 z2 z3 : C).
Hypothesis z1P : n1.+1.-primitive_root z1.
Hypothesis z2P : n2.+1.-primitive_root z2.
Hypothesis z3P : n3.+1.-primitive_root z3.
Hypothesis charC : (ncells n1 n2 n3)%:R != 0 :> C.
Local Notation K := (site n1 n2 n3).
Local Notation t4 := (tensor4 C nb).
Local Notation mat := 'M[C]_nb.
Local Notation gfun := (gfun C n1 n2 n3 nb).
Variables (density : (int -> mat) -> mat) (M : eqType).

(* the momentum versions are the documented formulas, mismatching meshes are rejected *)
Lemma C21_doc_proof (vm gm : M) nranks sched (v : K -> t4) (g : gfun) : fair_all nranks sched ->
  if vm == gm then exists2 s, fock_sigma_k density vm gm nranks sched v g = Some s &
      forall k a b, s k a b = fock_doc v (fun k c d => density (fun n => g n k) c d) k a b
  else fock_sigma_k density vm gm nranks sched v g = None.
Proof.
move=> fs; rewrite /fock_sigma_k; case: eqP => //= _; eexists; first by [].
move=> k a b /=; rewrite fair_all_map // summxE /fock_doc mulr_suml -sumrN; apply: eq_bigr => q _.
rewrite mxE mulr_suml -sumrN; apply: eq_bigr => c _; rewrite mulr_suml -sumrN; apply: eq_bigr => d _.
by rewrite !mulNr.
Qed.
Theorem C21_momentum_version (vm gm : M) nranks sched (v : K -> t4) (g : gfun) : fair_all nranks sched ->
  if vm == gm then exists2 s, fock_sigma_k density vm gm nranks sched v g = Some s &
      forall k a b, s k a b = fock_doc v (fun k c d => density (fun n => g n k) c d) k a b
  else fock_sigma_k density vm gm nranks sched v g = None.
Proof. exact (@C21_doc_proof vm gm nranks sched v g). Qed.

Lemma C22_doc_proof (vm gm : M) nranks sched (v : K -> t4) (g : gfun) : fair_all nranks sched ->
  if vm == gm then exists2 s, hartree_sigma_k density vm gm nranks sched v g = Some s &
      forall k a b, s k a b = hartree_doc v (fun k c d => density (fun n => g n k) c d) k a b
  else hartree_sigma_k density vm gm nranks sched v g = None.
Proof.
move=> fs; rewrite /hartree_sigma_k; case: eqP => //= _; eexists; first by [].
move=> k a b /=; rewrite fair_all_map // summxE /hartree_doc mulr_suml; apply: eq_bigr => q _.
rewrite mxE mulr_suml; apply: eq_bigr => c _; rewrite mulr_suml; apply: eq_bigr => d _.
by [].
Qed.
Theorem C22_momentum_version (vm gm : M) nranks sched (v : K -> t4) (g : gfun) : fair_all nranks sched ->
  if vm == gm then exists2 s, hartree_sigma_k density vm gm nranks sched v g = Some s &
      forall k a b, s k a b = hartree_doc v (fun k c d => density (fun n => g n k) c d) k a b
  else hartree_sigma_k density vm gm nranks sched v g = None.
Proof. exact (@C22_doc_proof vm gm nranks sched v g). Qed.

(* the real-space version, transformed to momentum space, is the convolution *)
Lemma fock_rE (vm rm : M) nranks sched (v : K -> t4) (rho : K -> mat) s k a b : fair_all nranks sched ->
  fock_sigma_r vm rm nranks sched (t4_k_to_r z1 z2 z3 v) (mat_k_to_r z1 z2 z3 rho) = Some s ->
  mat_r_to_k z1 z2 z3 s k a b = fock_conv v (fun k c d => rho k c d) k a b.
Proof.
move=> fs; rewrite /fock_sigma_r; case: eqP => //= _ [<-]; rewrite mxE.
rewrite (r2k_ext z1 z2 z3 (g := fun r => \sum_c \sum_d - fourier_k_to_r z1 z2 z3 (fun q => v q a c d b) r
   * fourier_k_to_r z1 z2 z3 (fun q => if true then rho q d c else rho q c d) r)).
  by rewrite (contract_conv z1P z2P z3P charC v rho k a b true).
move=> r; rewrite fair_all_map // mxE; apply: eq_bigr => c _; apply: eq_bigr => d _.
by rewrite mxE.
Qed.
Lemma C21_real_proof (vm rm : M) nranks sched (v : K -> t4) (rho : K -> mat) : fair_all nranks sched ->
  if vm == rm then exists2 s, fock_sigma_r vm rm nranks sched (t4_k_to_r z1 z2 z3 v) (mat_k_to_r z1 z2 z3 rho) = Some s &
      forall k a b, mat_r_to_k z1 z2 z3 s k a b = fock_conv v (fun k c d => rho k c d) k a b
  else fock_sigma_r vm rm nranks sched (t4_k_to_r z1 z2 z3 v) (mat_k_to_r z1 z2 z3 rho) = None.
Proof.
move=> fs; case e : (vm == rm); last by rewrite /fock_sigma_r e.
case f : (fock_sigma_r vm rm nranks sched (t4_k_to_r z1 z2 z3 v) (mat_k_to_r z1 z2 z3 rho)) => [s|].
  by exists s => // k a b; apply: fock_rE fs f.
by move: f; rewrite /fock_sigma_r e.
Qed.
Theorem C21_real_space_version (vm rm : M) nranks sched (v : K -> t4) (rho : K -> mat) : fair_all nranks sched ->
  if vm == rm then exists2 s, fock_sigma_r vm rm nranks sched (t4_k_to_r z1 z2 z3 v) (mat_k_to_r z1 z2 z3 rho) = Some s &
      forall k a b, mat_r_to_k z1 z2 z3 s k a b = fock_conv v (fun k c d => rho k c d) k a b
  else fock_sigma_r vm rm nranks sched (t4_k_to_r z1 z2 z3 v) (mat_k_to_r z1 z2 z3 rho) = None.
Proof. exact (@C21_real_proof vm rm nranks sched v rho). Qed.

(* the two versions take the interaction at opposite momenta *)
Lemma fock_conv_opp (v : K -> t4) (rho : K -> 'I_nb -> 'I_nb -> C) k a b :
  fock_conv v rho k a b = fock_doc (fun q => v (- q)) rho k a b.
Proof. by rewrite /fock_conv /fock_doc sum_opp; under eq_bigr do rewrite opprK. Qed.
Lemma fock_even (v : K -> t4) (rho : K -> 'I_nb -> 'I_nb -> C) k a b : even_interaction v ->
  fock_conv v rho k a b = fock_doc v rho k a b.
Proof.
move=> ev; rewrite fock_conv_opp /fock_doc; congr (- (_ / _)); apply: eq_bigr => q _; apply: eq_bigr => c _.
by apply: eq_bigr => d _; rewrite ev.
Qed.

(* C21 for interactions even in the momentum; for others see C21_fock_refuted *)
Lemma C21_partial_proof (vm gm : M) nranks sched nranks' sched' nranks'' sched'' (v : K -> t4) (g : gfun) sr sk k a b :
  fair_all nranks sched -> fair_all nranks' sched' -> fair_all nranks'' sched'' -> even_interaction v ->
  fock_sigma_r vm gm nranks sched (t4_k_to_r z1 z2 z3 v)
     (mat_k_to_r z1 z2 z3 (rho_k_from_g_wk density nranks'' sched'' g)) = Some sr ->
  fock_sigma_k density vm gm nranks' sched' v g = Some sk ->
  mat_r_to_k z1 z2 z3 sr k a b = sk k a b.
Proof.
move=> fs fs' fs'' ev hr hk; rewrite (fock_rE _ _ _ fs hr) fock_even //.
have := C21_doc_proof vm gm v g fs'; case: eqP hk => [_|/eqP ne]; last by rewrite /fock_sigma_k ne.
move=> -> [s [<-] ->]; rewrite /fock_doc; congr (- (_ / _)); apply: eq_bigr => q _; apply: eq_bigr => c _.
by apply: eq_bigr => d _; rewrite /rho_k_from_g_wk fair_all_map.
Qed.
Theorem C21_fock_versions_agree_partial (vm gm : M) nranks sched nranks' sched' nranks'' sched'' (v : K -> t4) (g : gfun)
    sr sk k a b :
  fair_all nranks sched -> fair_all nranks' sched' -> fair_all nranks'' sched'' -> even_interaction v ->
  fock_sigma_r vm gm nranks sched (t4_k_to_r z1 z2 z3 v)
     (mat_k_to_r z1 z2 z3 (rho_k_from_g_wk density nranks'' sched'' g)) = Some sr ->
  fock_sigma_k density vm gm nranks' sched' v g = Some sk ->
  mat_r_to_k z1 z2 z3 sr k a b = sk k a b.
Proof. exact (@C21_partial_proof vm gm nranks sched nranks' sched' nranks'' sched'' v g sr sk k a b). Qed.

(* C22: the real-space version is the interaction at zero momentum times the local density at every momentum *)
Lemma C22_real_proof (v : K -> t4) (rho : K -> mat) k a b :
  mat_r_to_k z1 z2 z3 (hartree_sigma_r v (mat_k_to_r z1 z2 z3 rho)) k a b =
  hartree_local (v 0) (fun k c d => rho k c d) a b.
Proof.
rewrite mxE; set x := hartree_local _ _ _ _.
rewrite (r2k_ext z1 z2 z3 (g := fun r => if r == 0 then x else 0)) ?r2k_delta // => r.
rewrite /hartree_sigma_r; case: eqP => _; rewrite mxE //.
by apply: eq_bigr => c _; apply: eq_bigr => d _; rewrite mxE k2r_0.
Qed.
Theorem C22_real_space_version (v : K -> t4) (rho : K -> mat) k a b :
  mat_r_to_k z1 z2 z3 (hartree_sigma_r v (mat_k_to_r z1 z2 z3 rho)) k a b =
  hartree_local (v 0) (fun k c d => rho k c d) a b.
Proof. exact (@C22_real_proof v rho k a b). Qed.

(* C22 for interactions independent of the momentum; for others see C22_hartree_refuted *)
Lemma C22_partial_proof (vm gm : M) nranks sched nranks' sched' (v : K -> t4) (g : gfun) sk k a b :
  fair_all nranks sched -> fair_all nranks' sched' -> (forall q a b c d, v q a b c d = v 0 a b c d) ->
  hartree_sigma_k density vm gm nranks sched v g = Some sk ->
  mat_r_to_k z1 z2 z3 (hartree_sigma_r v (mat_k_to_r z1 z2 z3 (rho_k_from_g_wk density nranks' sched' g))) k a b = sk k a b.
Proof.
move=> fs fs' cst hk; rewrite C22_real_proof.
have := C22_doc_proof vm gm v g fs; case: eqP hk => [_|/eqP ne]; last by rewrite /hartree_sigma_k ne.
move=> -> [s [<-] ->]; rewrite /hartree_doc /hartree_local [X in _ = X / _]exchange_big mulr_suml /=; apply: eq_bigr => c _.
rewrite [X in _ = X / _]exchange_big mulr_suml /=; apply: eq_bigr => d _; rewrite (sum_shift k) mulrA mulr_sumr; congr (_ / _).
by apply: eq_bigr => q _; rewrite cst /rho_k_from_g_wk fair_all_map // addrC.
Qed.
Theorem C22_hartree_versions_agree_partial (vm gm : M) nranks sched nranks' sched' (v : K -> t4) (g : gfun) sk k a b :
  fair_all nranks sched -> fair_all nranks' sched' -> (forall q a b c d, v q a b c d = v 0 a b c d) ->
  hartree_sigma_k density vm gm nranks sched v g = Some sk ->
  mat_r_to_k z1 z2 z3 (hartree_sigma_r v (mat_k_to_r z1 z2 z3 (rho_k_from_g_wk density nranks' sched' g))) k a b = sk k a b.
Proof. exact (@C22_partial_proof vm gm nranks sched nranks' sched' v g sk k a b). Qed.
End Main.

(* On a chain of three momenta an interaction at one non-zero momentum tells the two versions apart, for every run. *)
Section Refuted.
Local Notation K := (site 2 0 0).
Let e1 : K := (1, 0, 0).
Let v : K -> tensor4 [fieldType of algC] 1 := fun q _ _ _ _ => (q == e1)%:R.
Let g : gfun [fieldType of algC] 2 0 0 1 := fun _ k => (k == 0)%:R%:M.
Let density (x : int -> 'M[algC]_1) : 'M[algC]_1 := x 0.
Let oneNN : e1 + e1 != 0. Proof. by []. Qed.

Lemma pick (h : K -> 'I_1 -> 'I_1 -> algC) (f : K -> algC) : (forall q c d, h q c d = (q == e1)%:R * f q) ->
  \sum_(q : K) \sum_(c < 1) \sum_(d < 1) h q c d = f e1.
Proof.
move=> H; rewrite (bigD1 e1) // big1 => [|q /negbTE qn]; last by rewrite !big_ord1 H qn mul0r.
by apply: etrans (addr0 _) _; rewrite !big_ord1 H eqxx mul1r.
Qed.

Lemma C21_refuted_proof : forall z1 z2 z3 : algC, 3.-primitive_root z1 -> 1.-primitive_root z2 -> 1.-primitive_root z3 ->
  forall nranks sched nranks' sched' nranks'' sched'', fair_all nranks sched -> fair_all nranks' sched' ->
  fair_all nranks'' sched'' -> exists sr sk k,
  [/\ fock_sigma_r tt tt nranks sched (t4_k_to_r z1 z2 z3 v)
        (mat_k_to_r z1 z2 z3 (rho_k_from_g_wk density nranks'' sched'' g)) = Some sr,
      fock_sigma_k density tt tt nranks' sched' v g = Some sk & mat_r_to_k z1 z2 z3 sr k ord0 ord0 <> sk k ord0 ord0].
Proof.
move=> z1 z2 z3 h1 h2 h3 nranks sched nranks' sched' nranks'' sched'' fs fs' fs''.
have n3 : (ncells 2 0 0)%:R != 0 :> algC by rewrite pnatr_eq0.
have [sr er hr] := C21_real_proof h1 h2 h3 n3 tt tt v (rho_k_from_g_wk density nranks'' sched'' g) fs.
have [sk ek hk] := C21_doc_proof density tt tt v g fs'.
exists sr, sk, e1; split=> //; rewrite hr hk /fock_conv /fock_doc /v.
rewrite (@pick _ (fun q => (e1 - q == 0)%:R)); last first.
  by move=> q c d; rewrite /rho_k_from_g_wk fair_all_map // /density /g !ord1 mxE mulr1n.
rewrite (@pick _ (fun q => (e1 + q == 0)%:R)); last by move=> q c d; rewrite /density /g !ord1 mxE mulr1n.
rewrite subrr eqxx (negbTE oneNN) mul0r oppr0 => /eqP; rewrite oppr_eq0 mul1r invr_eq0.
by rewrite pnatr_eq0.
Qed.
Theorem C21_fock_refuted : exists (v : K -> tensor4 [fieldType of algC] 1) (g : gfun [fieldType of algC] 2 0 0 1) density,
  forall z1 z2 z3 : algC, 3.-primitive_root z1 -> 1.-primitive_root z2 -> 1.-primitive_root z3 ->
  forall nranks sched nranks' sched' nranks'' sched'', fair_all nranks sched -> fair_all nranks' sched' ->
  fair_all nranks'' sched'' -> exists sr sk k,
  [/\ fock_sigma_r tt tt nranks sched (t4_k_to_r z1 z2 z3 v)
        (mat_k_to_r z1 z2 z3 (rho_k_from_g_wk density nranks'' sched'' g)) = Some sr,
      fock_sigma_k density tt tt nranks' sched' v g = Some sk & mat_r_to_k z1 z2 z3 sr k ord0 ord0 <> sk k ord0 ord0].
Proof. exists v, g, density; exact C21_refuted_proof. Qed.

Lemma C22_refuted_proof : forall z1 z2 z3 : algC, 3.-primitive_root z1 -> 1.-primitive_root z2 -> 1.-primitive_root z3 ->
  forall nranks sched nranks' sched', fair_all nranks sched -> fair_all nranks' sched' -> exists sk k,
  hartree_sigma_k density tt tt nranks sched v g = Some sk /\
  mat_r_to_k z1 z2 z3 (hartree_sigma_r v (mat_k_to_r z1 z2 z3 (rho_k_from_g_wk density nranks' sched' g))) k ord0 ord0
    <> sk k ord0 ord0.
Proof.
move=> z1 z2 z3 h1 h2 h3 nranks sched nranks' sched' fs fs'.
have n3 : (ncells 2 0 0)%:R != 0 :> algC by rewrite pnatr_eq0.
have [sk ek hk] := C22_doc_proof density tt tt v g fs.
exists sk, (- e1); split=> //; rewrite hk C22_real_proof /hartree_local /hartree_doc !big_ord1 /v.
rewrite (@pick _ (fun q => (- e1 + q == 0)%:R)); last by move=> q c d; rewrite /density /g !ord1 mxE mulr1n.
rewrite addNr eqxx /= mul0r mul1r => /eqP.
by rewrite eq_sym invr_eq0 pnatr_eq0.
Qed.
Theorem C22_hartree_refuted : exists (v : K -> tensor4 [fieldType of algC] 1) (g : gfun [fieldType of algC] 2 0 0 1) density,
  forall z1 z2 z3 : algC, 3.-primitive_root z1 -> 1.-primitive_root z2 -> 1.-primitive_root z3 ->
  forall nranks sched nranks' sched', fair_all nranks sched -> fair_all nranks' sched' -> exists sk k,
  hartree_sigma_k density tt tt nranks sched v g = Some sk /\
  mat_r_to_k z1 z2 z3 (hartree_sigma_r v (mat_k_to_r z1 z2 z3 (rho_k_from_g_wk density nranks' sched' g))) k ord0 ord0
    <> sk k ord0 ord0.
Proof. exists v, g, density; exact C22_refuted_proof. Qed.
End Refuted.

Section GwSigma.
Variables (C : fieldType) (n1 n2 n3 nb : nat) (z1 z2 z3 : C).
Hypothesis z1P : n1.+1.-primitive_root z1.
Hypothesis z2P : n2.+1.-primitive_root z2.
Hypothesis z3P : n3.+1.-primitive_root z3.
Hypothesis charC : (ncells n1 n2 n3)%:R != 0 :> C.
Local Notation K := (site n1 n2 n3).
Local Notation t4 := (tensor4 C nb).
Local Notation mat := 'M[C]_nb.
Local Notation gfun := (gfun C n1 n2 n3 nb).
Variables (density : (int -> mat) -> mat) (M : eqType) (L nw : nat).
Variables (wt : (int -> mat) -> 'I_L.+1 -> mat) (tw : ('I_L.+1 -> C) -> int -> C).
Variables (fit_tail : ('I_(2 * nw).-1 -> C) -> C) (wtc : ('I_(2 * nw).-1 -> C) -> 'I_L.+1 -> C).
Local Notation gw := (gw_sigma z1 z2 z3 density wt tw fit_tail wtc).

(* which calls of gw_sigma and of gw_dynamic_sigma are rejected *)
Lemma C56_checks_proof (wb gb : C) ws gs (wk gk : M) nranks sc W (g : gfun) :
  isSome (gw wb gb ws gs wk gk nranks sc W g) = [&& wb == gb, is_boson ws, ~~ is_boson gs & wk == gk].
Proof.
rewrite /gw_sigma /gw_dynamic_sigma /fock_sigma_r /= !eqxx /=.
by case: (wb == gb); case: (is_boson ws); case: (is_boson gs); case: (wk == gk).
Qed.
Theorem C56_accepted_calls (wb gb : C) ws gs (wk gk : M) nranks sc W (g : gfun) :
  isSome (gw wb gb ws gs wk gk nranks sc W g) = [&& wb == gb, is_boson ws, ~~ is_boson gs & wk == gk].
Proof. exact (@C56_checks_proof wb gb ws gs wk gk nranks sc W g). Qed.
(* gw_dynamic_sigma: which calls are rejected and what the others return *)
Lemma C56_dynamic_proof (Wt gt : tmesh C) (Wr gr : M) nranks sched (W : 'I_L.+1 -> K -> t4) (g : 'I_L.+1 -> K -> mat) :
  isSome (gw_dynamic_sigma Wt gt Wr gr nranks sched W g) =
    [&& tsize Wt == tsize gt, tbeta Wt == tbeta gt, is_boson (tstat Wt), ~~ is_boson (tstat gt) & Wr == gr] /\
  (fair_all nranks sched -> forall s, gw_dynamic_sigma Wt gt Wr gr nranks sched W g = Some s ->
    forall t r a b, s t r a b = - \sum_c \sum_d W t r a c d b * g t r c d).
Proof.
rewrite /gw_dynamic_sigma; split; last first.
  move=> fs s; case: ifP => // _; case: ifP => // _; case: ifP => // _ [<-] t r a b; rewrite fair_all_map // mxE /=.
  by rewrite -sumrN; apply: eq_bigr => c _; rewrite -sumrN; apply: eq_bigr => d _; rewrite mulNr.
by case: (tsize Wt == _); case: (tbeta Wt == _); case: (is_boson (tstat Wt)); case: (is_boson (tstat gt)); case: (Wr == gr).
Qed.
Theorem C56_dynamic_part (Wt gt : tmesh C) (Wr gr : M) nranks sched (W : 'I_L.+1 -> K -> t4) (g : 'I_L.+1 -> K -> mat) :
  isSome (gw_dynamic_sigma Wt gt Wr gr nranks sched W g) =
    [&& tsize Wt == tsize gt, tbeta Wt == tbeta gt, is_boson (tstat Wt), ~~ is_boson (tstat gt) & Wr == gr] /\
  (fair_all nranks sched -> forall s, gw_dynamic_sigma Wt gt Wr gr nranks sched W g = Some s ->
    forall t r a b, s t r a b = - \sum_c \sum_d W t r a c d b * g t r c d).
Proof. exact: C56_dynamic_proof. Qed.

(* the tail-free part of W in imaginary time and the tail *)
Let W_dyn (W : 'I_(2 * nw).-1 -> K -> t4) t q a b c d : C :=
  wtc (fun w => W w q a b c d - fit_tail (fun w => W w q a b c d)) t.
Let W_stat (W : 'I_(2 * nw).-1 -> K -> t4) q a b c d : C := fit_tail (fun w => W w q a b c d).

(* C56: the self energy is the transform of the momentum convolution of dynamic interaction and Green's function plus
   the momentum convolution of the static interaction with the density matrix. The time transforms are only asked to be linear. *)
Lemma C56_proof (b : C) (km : M) nranks sc W (g : gfun) s n k i j : fair_sched nranks sc ->
  (forall t i j, linfun_mx (fun x => wt x t i j)) -> (forall t, linfun (fun x => wtc x t)) ->
  (forall n x y, x =1 y -> tw x n = tw y n) ->
  gw b b Boson Fermion km km nranks sc W g = Some s ->
  s n k i j = tw (fun t => gw_conv (W_dyn W t) (fun q c d => wt (fun n => g n q) t c d) k i j) n
              + fock_conv (W_stat W) (fun q c d => density (fun n => g n q) c d) k i j.
Proof.
move=> fs lwt lwtc etw; rewrite /gw_sigma !eqxx /=.
rewrite /gw_dynamic_sigma /= !eqxx /= => -[<-]; rewrite mxE; congr (_ + _).
  rewrite mxE; apply: etw => t; rewrite mxE /gw_conv.
  rewrite -(contract_conv z1P z2P z3P charC (W_dyn W t) (fun q => wt (fun n => g n q) t) k i j false).
  apply: r2k_ext => r; rewrite (fair_all_map _ _ (fs _ _)) mxE /=.
  apply: eq_bigr => c _; apply: eq_bigr => d _; congr (- _ * _).
    rewrite (fair_all_map _ _ (fs _ _)) /fourier_k_to_r.
    transitivity (wtc (fun w => \sum_q ((phase z1 z2 z3 q r)^-1 / (ncells n1 n2 n3)%:R) *
        (W w q i c d j - fit_tail (fun w => W w q i c d j))) t).
      case: (lwtc t) => e _; apply: e => w; rewrite (fair_all_map _ _ (fs _ _)) /fourier_k_to_r mulr_suml.
      by apply: eq_bigr => q _; rewrite (fair_all_map _ _ (fs _ _)) mulrAC.
    rewrite (linfun_sum _ _ _ (lwtc t)) mulr_suml; apply: eq_bigr => q _.
    by rewrite mulrAC.
  rewrite /fourier_wr_to_tr mxE (fair_all_map _ _ (fs _ _)).
  transitivity (wt (fun n => \sum_q ((phase z1 z2 z3 q r)^-1 / (ncells n1 n2 n3)%:R) *: g n q) t c d).
    case: (lwt t c d) => e _; apply: e => m; apply/matrixP => x y; rewrite mxE /fourier_k_to_r summxE mulr_suml.
    by apply: eq_bigr => q _; rewrite mxE mulrAC.
  rewrite (linfun_mx_sum _ _ _ (lwt t c d)) /fourier_k_to_r mulr_suml; apply: eq_bigr => q _.
  by rewrite mulrAC.
apply: etrans (fock_rE (vm := tt) (rm := tt) z1P z2P z3P charC k i j (fs 66%N _) erefl) _; rewrite /fock_conv; congr (- (_ / _)).
apply: eq_bigr => q _; apply: eq_bigr => c _; apply: eq_bigr => d _; congr (_ * _).
  by rewrite (fair_all_map _ _ (fs _ _)).
by rewrite /rho_k_from_g_wk (fair_all_map _ _ (fs _ _)).
Qed.
Theorem C56_gw_is_convolution (b : C) (km : M) nranks sc W (g : gfun) s n k i j : fair_sched nranks sc ->
  (forall t i j, linfun_mx (fun x => wt x t i j)) -> (forall t, linfun (fun x => wtc x t)) ->
  (forall n x y, x =1 y -> tw x n = tw y n) ->
  gw b b Boson Fermion km km nranks sc W g = Some s ->
  s n k i j = tw (fun t => gw_conv (W_dyn W t) (fun q c d => wt (fun n => g n q) t c d) k i j) n
              + fock_conv (W_stat W) (fun q c d => density (fun n => g n q) c d) k i j.
Proof. exact (@C56_proof b km nranks sc W g s n k i j). Qed.

(* C55: a static interaction (exactly recognised by the tail fit) gives the Fock self energy at every frequency *)
Lemma C55_proof (b : C) (km : M) nranks sc (W : 'I_(2 * nw).-1 -> K -> t4) (v : K -> t4) (g : gfun) s n k i j :
  fair_sched nranks sc ->
  (forall t i j, linfun_mx (fun x => wt x t i j)) -> (forall t, linfun (fun x => wtc x t)) ->
  (forall n, linfun (fun x => tw x n)) -> linfun fit_tail -> (forall z, fit_tail (fun=> z) = z) ->
  (forall w q a b c d, W w q a b c d = v q a b c d) ->
  gw b b Boson Fermion km km nranks sc W g = Some s ->
  s n k i j = fock_conv v (fun q c d => density (fun n => g n q) c d) k i j.
Proof.
move=> fs lwt lwtc ltw lft cst hW hs.
have tail q a b' c d : fit_tail (fun w => W w q a b' c d) = v q a b' c d.
  by rewrite -[RHS]cst; apply: (proj1 lft) => w; rewrite hW.
rewrite (C56_proof n k i j fs lwt lwtc _ hs); last by move=> m; apply: (proj1 (ltw m)).
rewrite (_ : tw _ n = 0); last first.
  rewrite -(linfun0 (ltw n)); apply: (proj1 (ltw n)) => t; rewrite /gw_conv big1 ?mul0r ?oppr0 // => q _.
  apply: big1 => c _; apply: big1 => d _; rewrite /W_dyn.
  have -> : wtc (fun w => W w q i c d j - fit_tail (fun w => W w q i c d j)) t = 0.
    by rewrite -(linfun0 (lwtc t)); apply: (proj1 (lwtc t)) => w; rewrite tail hW subrr.
  by rewrite mul0r.
rewrite add0r /fock_conv; congr (- (_ / _)); apply: eq_bigr => q _; apply: eq_bigr => c _; apply: eq_bigr => d _.
by rewrite /W_stat tail.
Qed.
Theorem C55_static_limit (b : C) (km : M) nranks sc (W : 'I_(2 * nw).-1 -> K -> t4) (v : K -> t4) (g : gfun) s n k i j :
  fair_sched nranks sc ->
  (forall t i j, linfun_mx (fun x => wt x t i j)) -> (forall t, linfun (fun x => wtc x t)) ->
  (forall n, linfun (fun x => tw x n)) -> linfun fit_tail -> (forall z, fit_tail (fun=> z) = z) ->
  (forall w q a b c d, W w q a b c d = v q a b c d) ->
  gw b b Boson Fermion km km nranks sc W g = Some s ->
  s n k i j = fock_conv v (fun q c d => density (fun n => g n q) c d) k i j.
Proof. exact (@C55_proof b km nranks sc W v g s n k i j). Qed.

(* hence the dynamic and the static overload of gw_sigma agree when the interaction is even in the momentum *)
Lemma C55_partial_proof (b : C) (km : M) nranks sc nranks' sched' (W : 'I_(2 * nw).-1 -> K -> t4) (v : K -> t4) (g : gfun)
    s s' n k i j :
  fair_sched nranks sc -> fair_all nranks' sched' ->
  (forall t i j, linfun_mx (fun x => wt x t i j)) -> (forall t, linfun (fun x => wtc x t)) ->
  (forall n, linfun (fun x => tw x n)) -> linfun fit_tail -> (forall z, fit_tail (fun=> z) = z) ->
  (forall w q a b c d, W w q a b c d = v q a b c d) -> even_interaction v ->
  gw b b Boson Fermion km km nranks sc W g = Some s ->
  fock_sigma_k density km km nranks' sched' v g = Some s' -> s n k i j = s' k i j.
Proof.
move=> fs fs' lwt lwtc ltw lft cst hW ev hs hs'.
rewrite (C55_proof n k i j fs lwt lwtc ltw lft cst hW hs) fock_even //.
by have := C21_doc_proof density km km v g fs'; rewrite eqxx hs' => -[x [<-] ->].
Qed.
Theorem C55_overloads_agree_partial (b : C) (km : M) nranks sc nranks' sched' (W : 'I_(2 * nw).-1 -> K -> t4) (v : K -> t4)
    (g : gfun) s s' n k i j :
  fair_sched nranks sc -> fair_all nranks' sched' ->
  (forall t i j, linfun_mx (fun x => wt x t i j)) -> (forall t, linfun (fun x => wtc x t)) ->
  (forall n, linfun (fun x => tw x n)) -> linfun fit_tail -> (forall z, fit_tail (fun=> z) = z) ->
  (forall w q a b c d, W w q a b c d = v q a b c d) -> even_interaction v ->
  gw b b Boson Fermion km km nranks sc W g = Some s ->
  fock_sigma_k density km km nranks' sched' v g = Some s' -> s n k i j = s' k i j.
Proof. exact (@C55_partial_proof b km nranks sc nranks' sched' W v g s s' n k i j). Qed.

(* C57: with a density-density interaction the eigenstate formula of g0w_sigma is the documented Fock self energy of
   the density matrix of the free system, rho_dc = sum_l U_cl conj(U_dl) f(e_l beta) *)
Lemma C57_proof (ek : K -> 'I_nb -> C) (U Uc : K -> mat) (fermi : C -> C) (beta : C) (v : K -> t4) k a b :
  density_density v ->
  g0w_sigma ek U Uc fermi beta v k a b =
  fock_doc v (fun k d c => \sum_l U k c l * Uc k d l * fermi (ek k l * beta)) k a b.
Proof.
move=> dd; rewrite /g0w_sigma /fock_doc summxE mulr_suml -sumrN; apply: eq_bigr => q _.
rewrite summxE [in RHS](bigD1 a) //= [X in - ((_ + X) / _)]big1 ?addr0; last first.
  by move=> c ne; apply: big1 => d _; rewrite dd ?mul0r // eq_sym ne.
rewrite [in RHS](bigD1 b) //= [X in - ((_ + X) / _)]big1 ?addr0; last by move=> d ne; rewrite dd ?mul0r // ne orbT.
rewrite mulr_sumr mulr_suml -sumrN; apply: eq_bigr => l _; rewrite mxE; congr (- (_ / _)).
by rewrite -(mulrA _ (v q a a b b)) mulrCA.
Qed.
Theorem C57_g0w_static_is_fock (ek : K -> 'I_nb -> C) (U Uc : K -> mat) (fermi : C -> C) (beta : C) (v : K -> t4) k a b :
  density_density v ->
  g0w_sigma ek U Uc fermi beta v k a b =
  fock_doc v (fun k d c => \sum_l U k c l * Uc k d l * fermi (ek k l * beta)) k a b.
Proof. exact (@C57_proof ek U Uc fermi beta v k a b). Qed.
End GwSigma.

(* without evenness the two overloads differ already for a static interaction: three momenta, one orbital, and transforms
   that satisfy every hypothesis of C55_static_limit *)
Section OverloadsRefuted.
Local Notation K := (site 2 0 0).
Local Notation A := [fieldType of algC].
Let e1 : K := (1, 0, 0).
Let v : K -> tensor4 A 1 := fun q _ _ _ _ => (q == e1)%:R.
Let g : gfun A 2 0 0 1 := fun _ k => (k == 0)%:R%:M.
Let density (x : int -> 'M[A]_1) : 'M[A]_1 := x 0.
Let wt (x : int -> 'M[A]_1) : 'I_4 -> 'M[A]_1 := fun _ => x 0.
Let tw (x : 'I_4 -> A) : int -> A := fun _ => \sum_t x t.
Let tail (x : 'I_(2 * 2).-1 -> A) : A := x ord0.
Let wtc (x : 'I_(2 * 2).-1 -> A) : 'I_4 -> A := fun _ => \sum_w x w.

Lemma wt_lin t i j : linfun_mx (fun x => wt x t i j).
Proof. by split=> [x y h|c x y]; rewrite /wt ?h // !mxE. Qed.
Lemma wtc_lin t : linfun (fun x => wtc x t).
Proof.
split=> [x y h|c x y]; first by apply: eq_bigr => w _; rewrite h.
by rewrite /wtc big_split mulr_sumr.
Qed.
Lemma tw_lin n : linfun (fun x => tw x n).
Proof.
split=> [x y h|c x y]; first by apply: eq_bigr => w _; rewrite h.
by rewrite /tw big_split mulr_sumr.
Qed.
Lemma tail_lin : linfun tail. Proof. by split=> [x y h|c x y]; rewrite /tail ?h. Qed.

Lemma C55_refuted_proof (z1 z2 z3 : A) nranks sc nranks' sched' :
  3.-primitive_root z1 -> 1.-primitive_root z2 -> 1.-primitive_root z3 ->
  fair_sched nranks sc -> fair_all nranks' sched' ->
  exists s s' k, [/\ gw_sigma z1 z2 z3 density wt tw tail wtc 1 1 Boson Fermion tt tt nranks sc (fun _ => v) g = Some s,
    fock_sigma_k density tt tt nranks' sched' v g = Some s' & forall n, s n k ord0 ord0 <> s' k ord0 ord0].
Proof.
move=> h1 h2 h3 fs fs'.
have n3 : (ncells 2 0 0)%:R != 0 :> A by rewrite pnatr_eq0.
have [s' es hs] := C21_doc_proof density tt tt v g fs'.
case E : (gw_sigma z1 z2 z3 density wt tw tail wtc 1 1 Boson Fermion tt tt nranks sc (fun _ => v) g) => [s|]; last first.
  by have := C56_checks_proof z1 z2 z3 density wt tw tail wtc 1 1 Boson Fermion tt tt nranks sc (fun _ => v) g; rewrite E eqxx.
exists s, s', e1; split=> // n; rewrite hs.
rewrite (C55_proof (v := v) h1 h2 h3 n3 n e1 ord0 ord0 fs wt_lin wtc_lin tw_lin tail_lin (fun _ => erefl) (fun _ _ _ _ _ _ => erefl) E).
rewrite /fock_conv /fock_doc /v.
rewrite (@pick _ (fun q => (e1 - q == 0)%:R)); last by move=> q c d; rewrite /density /g !ord1 mxE mulr1n.
rewrite (@pick _ (fun q => (e1 + q == 0)%:R)); last by move=> q c d; rewrite /density /g !ord1 mxE mulr1n.
have ne : e1 + e1 != 0 by [].
rewrite subrr eqxx (negbTE ne) mul0r oppr0 => /eqP; rewrite oppr_eq0 mul1r invr_eq0.
by rewrite pnatr_eq0.
Qed.
Theorem C55_overloads_refuted : exists (v : K -> tensor4 A 1) (g : gfun A 2 0 0 1) density wt tw tail wtc,
  forall (z1 z2 z3 : A) nranks sc nranks' sched',
  3.-primitive_root z1 -> 1.-primitive_root z2 -> 1.-primitive_root z3 ->
  fair_sched nranks sc -> fair_all nranks' sched' ->
  exists s s' k, [/\ @gw_sigma A 2 0 0 1 z1 z2 z3 density 3 wt tw 2 tail wtc _ 1 1 Boson Fermion tt tt nranks sc (fun _ => v) g = Some s,
    fock_sigma_k density tt tt nranks' sched' v g = Some s' & forall n, s n k ord0 ord0 <> s' k ord0 ord0].
Proof. exists v, g, density, wt, tw, tail, wtc; exact C55_refuted_proof. Qed.
End OverloadsRefuted.

(* a case of C57: two orbitals, interaction between densities *)
Example C57_case : density_density (fun (q : site 1 0 0) (a c d b : 'I_2) =>
  if (a == c) && (d == b) then (1 + (a == d)%:R : algC) else 0).
Proof. by move=> q a c d b; case: eqP => //=; case: eqP. Qed.
(* an even interaction that depends on the momentum *)
Example even_case : even_interaction (fun (q : site 2 0 0) (a c d b : 'I_2) => ((q == 0)%:R : algC)).
Proof. by move=> q a b c d; rewrite oppr_eq0. Qed.

Print Assumptions C21_momentum_version.
Print Assumptions C21_fock_versions_agree_partial.
Print Assumptions C21_fock_refuted.
Print Assumptions C22_hartree_versions_agree_partial.
Print Assumptions C22_hartree_refuted.
Print Assumptions C23_split_is_lossless.
Print Assumptions C55_static_limit.
Print Assumptions C55_overloads_refuted.
Print Assumptions C56_gw_is_convolution.
Print Assumptions C57_g0w_static_is_fock.
