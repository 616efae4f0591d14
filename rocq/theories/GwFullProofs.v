(* The steps of the GW solver of GwFullModel without the distribution over ranks and threads. *)
From mathcomp Require Import all_ssreflect all_algebra.
From Verif Require Import Base MpiModel MpiProofs MpiSpec FourierModel FourierProofs BubbleModel BubbleProofs MatsubaraModel ImtimeModel RpaModel RpaSpec RpaProofs
  Fring DysonModel GwModel GwSpec GwProofs GwChainModel BseProofs GwSolverModel GwFullModel GwRel.
Set Implicit Arguments.
Unset Strict Implicit.
Unset Printing Implicit Defensive.
Import GRing.Theory Num.Theory.
Local Open Scope ring_scope.

Section Proofs.
Variables (C : numClosedFieldType) (n1 n2 n3 nb nn L : nat) (z1 z2 z3 beta : C).
Local Notation K := (site n1 n2 n3).
Local Notation t4 := (tensor4 C nb).
Local Notation mat := 'M[C]_nb.
Local Notation Wb := 'I_(2 * nn).-1.
Local Notation Wf := 'I_(2 * nn).
Variables (freq : Wf -> C) (density : (int -> mat) -> mat) (wt : (int -> mat) -> 'I_L.+1 -> mat) (tw : ('I_L.+1 -> C) -> int -> C).
Variables (wtc : (Wb -> C) -> 'I_L.+1 -> C) (tw_plan tw_lib : ('I_L.+1 -> C) -> int -> C).
Variables (nranks : nat) (sc : schedules).
Variables (e_k : K -> mat) (V_k : K -> t4).
Add Ring Cring : (fld_rt C).
Hypothesis hsc : fair_sched nranks sc.
Hypothesis twL : forall n, linfun (fun x => tw x n).
Hypothesis wtcL : forall t, linfun (fun x => wtc x t).
Hypothesis planL : forall n, linfun (fun x => tw_plan x n).
Hypothesis charC : (ncells n1 n2 n3)%:R != 0 :> C.
Local Notation k2r := (@fourier_k_to_r C n1 n2 n3 z1 z2 z3).
Local Notation r2k := (@fourier_r_to_k C n1 n2 n3 z1 z2 z3).
Local Notation G := (G C n1 n2 n3 nb nn).
Local Notation chi4 := (chi4 C n1 n2 n3 nb nn).
Local Notation Rho := (Rho C n1 n2 n3 nb).

Lemma calc_rhoE (g : G) r : calc_rho z1 z2 z3 density nranks sc g r = \matrix_(a, b) k2r (fun k => density (fun n => on_ints g n k) a b) r.
Proof.
apply/matrixP=> a b; rewrite /calc_rho /mat_k_to_r !mxE; apply: k2r_ext => k.
by rewrite /rho_k_from_g_wk (fair_all_map _ _ (hsc _ _)).
Qed.
Lemma hartreeE (rho : Rho) p : hartree_sigma nn z1 z2 z3 V_k rho p = \matrix_(a, b) \sum_c \sum_d V_k 0 a b c d * rho 0 c d.
Proof.
rewrite ffunE; apply/matrixP=> a b; rewrite /mat_r_to_k !mxE.
rewrite -[RHS](@r2k_delta C n1 n2 n3 z1 z2 z3 _ p.2); apply: r2k_ext => r; rewrite /hartree_sigma_r.
by case: ifP => _; rewrite mxE.
Qed.
Lemma fockE (rho : Rho) p : fock_sigma nn z1 z2 z3 nranks sc V_k rho p =
  \matrix_(a, b) r2k (fun r => \sum_c \sum_d - (k2r (fun k => V_k k a c d b) r) * rho r d c) p.2.
Proof.
rewrite /fock_sigma /fock_sigma_r /= ffunE; apply/matrixP=> a b; rewrite /mat_r_to_k !mxE.
by apply: r2k_ext => r; rewrite (fair_all_map _ _ (hsc _ _)) mxE.
Qed.
(* the Green's function in real space and imaginary time *)
Definition g_time (g : G) (t : 'I_L.+1) (r : K) : mat := wt (fun n => \matrix_(i, j) k2r (fun k => on_ints g n k i j) r) t.
(* time to frequency *)
Definition to_freq (w : Wb) (x : 'I_L.+1 -> C) : C := if nn == 1%N then trapz beta x else tw_plan x (bidx w).
Lemma trapz_lin : linfun (fun x : 'I_L.+1 -> C => trapz beta x).
Proof.
split=> [x y h|c x y]; rewrite /trapz !foldl_add !add0r.
  by rewrite (eq_bigr y) ?h // => i _; rewrite h.
rewrite big_split /= -mulr_sumr.
fring C.
Qed.
Lemma to_freq_lin w : linfun (to_freq w).
Proof. by rewrite /to_freq; case: (nn == 1%N); [exact: trapz_lin | exact: planL]. Qed.
Lemma polarizationE (g : G) w q a b c d : polarization z1 z2 z3 beta wt tw_plan tw_lib nranks sc g w q a b c d =
  - r2k (fun r => to_freq w (fun t => g_time g t r d a * g_time g (rev_ord t) (- r) b c)) q.
Proof.
rewrite /polarization /GwChainModel.polarization; congr (- _).
rewrite /imtime_bubble_chi0_wk /chi_wk_from_chi_wr (fair_all_map _ _ (hsc _ _)); apply: r2k_ext => r; rewrite /to_freq.
have hg t i j s : fourier_wr_to_tr wt nranks (sc 0%N [finType of K]) (fourier_wk_to_wr z1 z2 z3 (on_ints g)) t s i j = g_time g t s i j.
  by rewrite mxE (fair_all_map _ _ (hsc _ _)).
case: ifP => _.
  rewrite /chi0_w0r_from_grt_PH (fair_all_map _ _ (hsc _ _)) /chi_trapz_tau; apply: trapz_lin.1 => t; by rewrite /chi0_t_kernel !hg.
rewrite /chi_wr_from_chi_tr (fair_all_map _ _ (hsc _ _)); apply: (planL _).1 => t.
by rewrite /chi0_tr_from_grt_PH (fair_all_map _ _ (hsc _ _)) /chi0_t_kernel !hg.
Qed.
Lemma on_mesh_all (f : Wb -> K -> t4) w (k : K) a b c d : @on_mesh C nb _ _ nranks (sched_wk n1 n2 n3 nn sc) f w k a b c d = f w k a b c d :> C.
Proof. by rewrite /on_mesh /sched_wk (fair_all_map _ _ (hsc _ _)). Qed.
Lemma screenedE sp (P : chi4) w k : tmat (screened_interaction nranks sc V_k sp P w k) =
  tmat (V_k k) *m invmx (1%:M - ((if sp then 2%:R else 1) *: tmat (P w k)) *m tmat (V_k k)).
Proof.
have e (Q : chi4) : tmat (screened_interaction nranks sc V_k false Q w k) = tmat (V_k k) *m invmx (1%:M - tmat (Q w k) *m tmat (V_k k)).
  by rewrite -tmat_W_opt; apply/eq_tmat => a b c d; rewrite [LHS]on_mesh_all.
case: sp; last by rewrite scale1r.
transitivity (tmat (screened_interaction nranks sc V_k false (fun w k a b c d => 2%:R * P w k a b c d) w k)); first by apply/matrixP=> i j; rewrite !mxE.
rewrite e; have -> : tmat (fun a b c d => 2%:R * P w k a b c d) = 2%:R *: tmat (P w k) by apply/matrixP=> i j; rewrite !mxE.
by [].
Qed.
Lemma susceptibilityE (P W : chi4) w k : tmat (susceptibility nranks sc P W w k) = tmat (P w k) *m tmat (W w k) *m tmat (P w k) + tmat (P w k).
Proof. by rewrite -tmat_W_gen; apply/eq_tmat => a b c d; rewrite [LHS]on_mesh_all. Qed.
Lemma dynamicE (W : chi4) w k a b c d : dynamic_part V_k W w k a b c d = W w k a b c d - V_k k a b c d. Proof. by []. Qed.
(* the interaction in real space and imaginary time *)
Definition W_time (W : chi4) (t : 'I_L.+1) (r : K) : t4 := fun a b c d => wtc (fun w => k2r (fun k => W w k a b c d) r) t.
Lemma sigma_dynE (W : chi4) (g : G) p : gw_dynamic_sigma z1 z2 z3 beta wt tw wtc nranks sc W g p =
  \matrix_(a, b) r2k (fun r => tw (fun t => \sum_c \sum_d - W_time W t r a c d b * g_time g t r c d) (fidx p.1)) p.2.
Proof.
rewrite /gw_dynamic_sigma /GwModel.gw_dynamic_sigma /= !eqxx /= ffunE; apply/matrixP=> a b; rewrite /fourier_wr_to_wk !mxE.
apply: r2k_ext => r; rewrite mxE (fair_all_map _ _ (hsc _ _)); apply: (twL _).1 => t.
rewrite (fair_all_map _ _ (hsc _ _)) /= mxE; apply: eq_bigr => c _; apply: eq_bigr => d _.
rewrite (fair_all_map _ _ (hsc _ _)) mxE (fair_all_map _ _ (hsc _ _)); congr (- _ * _).
by apply: (wtcL _).1 => w; rewrite (fair_all_map _ _ (hsc _ _)).
Qed.
Lemma dysonE mu (s : G) p : lattice_dyson_g freq nranks sc e_k mu s p = invmx ((freq p.1 + mu)%:M - e_k p.2 - s p).
Proof. by rewrite ffunE /lattice_dyson_g_Xk (fair_all_map _ _ (hsc _ _)) /= addr0 -surjective_pairing. Qed.
Lemma dyson0E mu p : lattice_dyson_g0 freq nranks sc e_k mu p = invmx ((freq p.1 + mu)%:M - e_k p.2).
Proof. by rewrite ffunE /lattice_dyson_g0_Xk (fair_all_map _ _ (hsc _ _)). Qed.
Lemma distance_ge0 (g h : G) : 0 <= distance g h.
Proof. by rewrite /distance; do 3!(apply: bigmax_ge0 => ?). Qed.
Lemma distance_lt (g h : G) x : (distance g h < x) = (0 < x) && [forall p, [forall i, [forall j, `|g p i j - h p i j| < x]]].
Proof.
have b1 p i : 0 <= \big[Num.max/0]_j `|g p i j - h p i j| by exact: bigmax_ge0.
have b2 p : 0 <= \big[Num.max/0]_i \big[Num.max/0]_j `|g p i j - h p i j| by exact: bigmax_ge0.
rewrite /distance bigmax_lt //; case h0: (0 < x) => //=; apply: eq_forallb => p; rewrite bigmax_lt // h0; apply: eq_forallb => i; by rewrite bigmax_lt // h0.
Qed.
End Proofs.
