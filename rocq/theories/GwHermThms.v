(* C102: the results of the GW solver are Hermitian. *)
From mathcomp Require Import all_ssreflect all_algebra zify.
From Verif Require Import Base MpiModel MpiProofs MpiSpec FourierModel FourierProofs BubbleModel MatsubaraModel ImtimeModel RpaModel RpaSpec RpaProofs
  MatAlg Fring DysonModel GwModel GwSpec GwProofs GwChainModel BseProofs GwSolverModel GwFullModel GwFullProofs GwRel.
Set Implicit Arguments.
Unset Strict Implicit.
Unset Printing Implicit Defensive.
Import GRing.Theory Num.Theory.
Local Open Scope ring_scope.

Section Algebra.
Variables (C : numClosedFieldType) (nb : nat).
Add Ring Cring : (fld_rt C).
Definition adj (g : 'M[C]_nb) : 'M[C]_nb := \matrix_(a, b) (g b a)^*.
Lemma adjE g : adj g = (map_mx (fun x : C => x^*) g)^T. Proof. by apply/matrixP=> a b; rewrite !mxE. Qed.
Lemma adj_inv g : invmx (adj g) = adj (invmx g). Proof. by rewrite !adjE map_invmx trmx_inv. Qed.
Lemma adjB x y : adj (x - y) = adj x - adj y. Proof. by apply/matrixP=> a b; rewrite !mxE rmorphB. Qed.
Lemma adjD x y : adj (x + y) = adj x + adj y. Proof. by apply/matrixP=> a b; rewrite !mxE rmorphD. Qed.
Lemma adj0 : adj 0 = 0. Proof. by apply/matrixP=> a b; rewrite !mxE rmorph0. Qed.
Lemma adj_sum (I : finType) (P : pred I) (f : I -> 'M[C]_nb) : adj (\sum_(i | P i) f i) = \sum_(i | P i) adj (f i).
Proof. exact: (big_morph adj adjD adj0). Qed.
Lemma adj_scalar x : adj x%:M = (x^*)%:M. Proof. by apply/matrixP=> a b; rewrite !mxE rmorphMn eq_sym. Qed.
Lemma adjK g : adj (adj g) = g. Proof. by apply/matrixP=> a b; rewrite !mxE conjCK. Qed.

Definition swp (i : 'I_(nb * nb)) : 'I_(nb * nb) := pidx (psnd i) (pfst i).
Lemma swpK : involutive swp. Proof. by move=> i; rewrite /swp pidxK1 pidxK2 pidx_eta. Qed.
Definition adj4 (M : 'M[C]_(nb * nb)) : 'M[C]_(nb * nb) := \matrix_(i, j) (M (swp j) (swp i))^*.
Lemma adj4K M : adj4 (adj4 M) = M. Proof. by apply/matrixP=> i j; rewrite !mxE conjCK !swpK. Qed.
Lemma adj4M A B : adj4 (A *m B) = adj4 B *m adj4 A.
Proof.
apply/matrixP=> i j; rewrite !mxE rmorph_sum (reindex_inj (inv_inj swpK)) /=; apply: eq_bigr => k _.
by rewrite !mxE rmorphM mulrC.
Qed.
Lemma adj4B A B : adj4 (A - B) = adj4 A - adj4 B. Proof. by apply/matrixP=> i j; rewrite !mxE rmorphB. Qed.
Lemma adj4D A B : adj4 (A + B) = adj4 A + adj4 B. Proof. by apply/matrixP=> i j; rewrite !mxE rmorphD. Qed.
Lemma adj4_1 : adj4 1%:M = 1%:M.
Proof. by apply/matrixP=> i j; rewrite !mxE rmorph_nat eq_sym (inj_eq (inv_inj swpK)). Qed.
Lemma adj4_nat n A : adj4 (n%:R *: A) = n%:R *: adj4 A. Proof. by apply/matrixP=> i j; rewrite !mxE rmorphM rmorph_nat. Qed.
Lemma adj4_unit A : (adj4 A \in unitmx) = (A \in unitmx).
Proof.
have h B : B \in unitmx -> adj4 B \in unitmx by move=> u; apply: (@unitmx_right _ _ _ (adj4 (invmx B))); rewrite -adj4M mulVmx // adj4_1.
by apply/idP/idP => [/h|/h //]; rewrite adj4K.
Qed.
Lemma adj4_inv A : adj4 (invmx A) = invmx (adj4 A).
Proof.
case u: (A \in unitmx); first by symmetry; apply: invmx_uniq; rewrite -adj4M mulVmx // adj4_1.
by rewrite /invmx adj4_unit u.
Qed.
Lemma adj4_screened (P V : 'M[C]_(nb * nb)) : adj4 V = V -> adj4 (V *m invmx (1%:M - P *m V)) = V *m invmx (1%:M - adj4 P *m V).
Proof.
move=> hV; rewrite adj4M adj4_inv adj4B adj4_1 adj4M hV.
case u: (1%:M - V *m adj4 P \in unitmx); first by rewrite push_through.
have v : (1%:M - adj4 P *m V \in unitmx) = false by apply/negP => /swap_unit; rewrite u.
by rewrite /invmx u v mulmxBl mulmxBr mul1mx mulmx1 mulmxA.
Qed.
Lemma tmat_adj (X Y : tensor4 C nb) : (forall a b c d, Y a b c d = (X d c b a)^*) -> tmat Y = adj4 (tmat X).
Proof. by move=> h; apply/matrixP=> i j; rewrite !mxE h /swp !pidxK1 !pidxK2. Qed.
Lemma adj_tmat (X Y : tensor4 C nb) a b c d : tmat Y = adj4 (tmat X) -> Y a b c d = (X d c b a)^*.
Proof. by move=> h; rewrite -tmatE h mxE /swp !pidxK1 !pidxK2 tmatE. Qed.
End Algebra.

Section Herm.
Variables (C : numClosedFieldType) (n1 n2 n3 nb nn L : nat) (z1 z2 z3 beta : C).
Local Notation K := (site n1 n2 n3).
Local Notation t4 := (tensor4 C nb).
Local Notation mat := 'M[C]_nb.
Local Notation Wb := 'I_(2 * nn).-1.
Local Notation Wf := 'I_(2 * nn).
Variables (freq : Wf -> C) (density : (int -> mat) -> mat) (wt : (int -> mat) -> 'I_L.+1 -> mat) (tw : ('I_L.+1 -> C) -> int -> C).
Variables (wtc : (Wb -> C) -> 'I_L.+1 -> C) (tw_plan tw_lib : ('I_L.+1 -> C) -> int -> C).
Variable brentq : (C -> C) -> C * C -> C -> option C.
Variables (nranks : nat) (sc : schedules).
Variables (e_k : K -> mat) (V_k : K -> t4).
Add Ring Cring2 : (fld_rt C).
Local Notation G := (G C n1 n2 n3 nb nn).
Local Notation chi4 := (chi4 C n1 n2 n3 nb nn).
Local Notation Rho := (Rho C n1 n2 n3 nb).
Local Notation state := (solver_state C n1 n2 n3 nb nn).
Local Notation run := (gw_solve_iter z1 z2 z3 beta freq density wt tw wtc tw_plan tw_lib brentq nranks sc e_k V_k).
Local Notation start := (gw_init z1 z2 z3 freq density brentq nranks sc e_k).
(* the Hamiltonian: Hermitian one-body part, Hermitian interaction, which does not depend on the order of the two densities *)
Definition hermitian_input : Prop := [/\ forall k a b, e_k k a b = (e_k k b a)^*,
  forall q a b c d, V_k q a b c d = (V_k q d c b a)^* & forall q a b c d, V_k q a b c d = V_k (- q) c d a b].
(* the point of the mesh at minus the frequency is rev_ord; the lattice is periodic; the loops run on all points *)
Definition meshes_ok : Prop := [/\ forall w, freq (rev_ord w) = (freq w)^*, (n1.+1).-primitive_root z1, (n2.+1).-primitive_root z2, (n3.+1).-primitive_root z3 &
  beta \is Num.real] /\ fair_sched nranks sc.
(* functions with the values f(-iw) = f(iw)^+ have a Hermitian density and are Hermitian at every time, and back; the transforms are linear *)
Definition transforms_ok : Prop := [/\ forall n, linfun (fun x => tw x n), forall t, linfun (fun x => wtc x t) & forall n, linfun (fun x => tw_plan x n)] /\
  [/\ forall f f' : int -> mat, (forall n, f' n = adj (f (- n - 1))) -> density f' = adj (density f),
    forall (f f' : int -> mat) t, (forall n, f' n = adj (f (- n - 1))) -> wt f' t = adj (wt f t),
    forall (x : 'I_L.+1 -> C) n, tw (fun t => (x t)^*) n = (tw x (- n - 1))^*,
    forall (x : Wb -> C) t, wtc (fun w => (x (rev_ord w))^*) t = (wtc x t)^* &
    forall (x : 'I_L.+1 -> C) n, tw_plan (fun t => (x t)^*) n = (tw_plan x (- n))^*].
(* the root search works with real numbers *)
Definition search_ok : Prop := (forall f f' b t, {in Num.real, f =1 f'} -> brentq f b t = brentq f' b t) /\ forall f b t x, brentq f b t = Some x -> x \is Num.real.

(* the claim *)
Definition herm_g (g : G) : Prop := forall w k a b, g (w, k) a b = (g (rev_ord w, k) b a)^*.
Definition herm_rho (rho : Rho) : Prop := forall R a b, rho R a b = (rho (- R) b a)^*.
Definition herm_chi (X : chi4) : Prop := forall w q a b c d, X w q a b c d = (X (rev_ord w) q d c b a)^*.
Definition oall (A : Type) (P : A -> Prop) (x : option A) : Prop := if x is Some y then P y else True.
Definition hermitian (s : state) : Prop :=
  [/\ s_mu s \is Num.real, s_mu0 s \is Num.real & herm_g (s_g s)] /\
  [/\ herm_g (s_g0 s), herm_g (s_sigma s), oall herm_rho (s_rho s) & oall (fun N => N \is Num.real) (s_N s)] /\
  [/\ oall herm_g (s_hartree s), oall herm_g (s_fock s) & oall herm_g (s_dyn s)] /\
  [/\ oall herm_chi (s_W s), oall herm_chi (s_Wdyn s), oall herm_chi (s_P s) & oall herm_chi (s_chi s)].

Definition RG (x y : G) : Prop := forall w k, y (w, k) = adj (x (rev_ord w, k)).
Definition RRho (x y : Rho) : Prop := forall R, y R = adj (x (- R)).
Definition RX (x y : chi4) : Prop := forall w q a b c d, y w q a b c d = (x (rev_ord w) q d c b a)^*.
Definition RM (x y : C) : Prop := x = y /\ x \is Num.real.
Lemma oallE (A : Type) (P : A -> Prop) (R : A -> A -> Prop) x : (forall x, P x <-> R x x) -> oall P x <-> orel R x x.
Proof. by move=> h; case: x => /=. Qed.
Lemma hermE s : hermitian s <-> same_state RM RG RRho RM RX RX RX s s.
Proof.
have h1 g : herm_g g <-> RG g g.
  split=> h w k; first by apply/matrixP=> a b; rewrite mxE.
  by move=> a b; rewrite {1}h mxE.
have h2 g : herm_rho g <-> RRho g g.
  split=> h R; first by apply/matrixP=> a b; rewrite mxE.
  by move=> a b; rewrite {1}h mxE.
have h3 g : herm_chi g <-> RX g g by [].
have h4 x : (x \is Num.real) <-> RM x x by split=> [|[]].
rewrite /hermitian /same_state; split=> -[[? ? ?] [[? ? ? ?] [[? ? ?] [? ? ? ?]]]]; (do !split) => //;
  by [apply/h1 | apply/h4 | apply/(oallE _ h1) | apply/(oallE _ h2) | apply/(oallE _ h3) | apply/(oallE _ h4)].
Qed.

Hypothesis hin : hermitian_input.
Hypothesis hme : meshes_ok.
Hypothesis htr : transforms_ok.
Hypothesis hse : search_ok.
Let hs : fair_sched nranks sc. Proof. by case: hme. Qed.
Let twL : forall n, linfun (fun x => tw x n). Proof. by case: htr => -[]. Qed.
Let wtcL : forall t, linfun (fun x => wtc x t). Proof. by case: htr => -[]. Qed.
Let planL : forall n, linfun (fun x => tw_plan x n). Proof. by case: htr => -[]. Qed.
Lemma root_conj n (z : C) : (n.+1).-primitive_root z -> z^* = z^-1.
Proof.
move=> p; have h : `|z| = 1.
  have : `|z| ^+ n.+1 = 1 by rewrite -normrX (prim_expr_order p) normr1.
  by move/eqP; rewrite pexpr_eq1 // => /eqP.
by rewrite -[LHS]mulr1 -(mulfV (z_neq0 p)) mulrA (mulrC z^*) -normCK h expr1n mul1r.
Qed.
Lemma ph_conj (k r : K) : (phase z1 z2 z3 k r)^* = (phase z1 z2 z3 k r)^-1.
Proof.
case: hme => -[_ p1 p2 p3 _] _.
by rewrite /phase !rmorphM !rmorphX (root_conj p1) (root_conj p2) (root_conj p3) !exprVn !invfM.
Qed.
Lemma k2r_conj (f f' : K -> C) r : (forall k, f' k = (f k)^*) -> fourier_k_to_r z1 z2 z3 f' r = (fourier_k_to_r z1 z2 z3 f (- r))^*.
Proof.
case: hme => -[_ p1 p2 p3 _] _ h; rewrite /fourier_k_to_r rmorphM fmorphV rmorph_nat rmorph_sum; congr (_ / _); apply: eq_bigr => k _.
by rewrite h rmorphM fmorphV ph_conj (phase_oppr p1 p2 p3) !invrK.
Qed.
Lemma r2k_conj (f f' : K -> C) k : (forall r, f' r = (f (- r))^*) -> fourier_r_to_k z1 z2 z3 f' k = (fourier_r_to_k z1 z2 z3 f k)^*.
Proof.
case: hme => -[_ p1 p2 p3 _] _ h; rewrite /fourier_r_to_k rmorph_sum sum_opp; apply: eq_bigr => r _.
by rewrite h rmorphM ph_conj (phase_oppr p1 p2 p3) opprK.
Qed.
Lemma fidx_rev (w : Wf) : fidx (rev_ord w) = - fidx w - 1.
Proof. by rewrite /fidx /=; have := ltn_ord w; lia. Qed.
Lemma bidx_rev (w : Wb) : bidx (rev_ord w) = - bidx w.
Proof. by rewrite /bidx /=; have := ltn_ord w; lia. Qed.
Lemma on_ints_adj (x y : G) : RG x y -> forall n k, on_ints y n k = adj (on_ints x (- n - 1) k).
Proof.
move=> h n k; rewrite /on_ints (reindex_inj rev_ord_inj) adj_sum; apply: eq_big => [p|p _]; last by rewrite h rev_ordK.
by rewrite fidx_rev; apply/eqP/eqP; lia.
Qed.
Lemma rho_adj x y : RG x y -> RRho (calc_rho z1 z2 z3 density nranks sc x) (calc_rho z1 z2 z3 density nranks sc y).
Proof.
move=> h R; rewrite !calc_rhoE //; apply/matrixP=> a b; rewrite !mxE; apply: k2r_conj => k.
case: htr => _ [hd _ _ _ _]; rewrite (hd (fun n => on_ints x n k)) ?mxE // => n; exact: on_ints_adj.
Qed.
Lemma trace_adj r r' : RRho r r' -> RM (total_density r) (total_density r').
Proof.
move=> h; split; last by apply: rpred_sum => a _; exact: Creal_Re.
by rewrite /total_density; apply: eq_bigr => a _; rewrite h mxE oppr0 Re_conj.
Qed.
Lemma V0 a b c d : V_k 0 a b c d = (V_k 0 b a d c)^*.
Proof. by case: hin => _ h h'; rewrite h h' oppr0. Qed.
Lemma hartree_adj r r' : RRho r r' -> RG (hartree_sigma nn z1 z2 z3 V_k r) (hartree_sigma nn z1 z2 z3 V_k r').
Proof.
move=> h w k; rewrite !hartreeE; apply/matrixP=> a b; rewrite !mxE rmorph_sum exchange_big /=; apply: eq_bigr => c _.
rewrite rmorph_sum; apply: eq_bigr => d _; by rewrite V0 h mxE oppr0 rmorphM.
Qed.
Lemma fock_adj r r' : RRho r r' -> RG (fock_sigma nn z1 z2 z3 nranks sc V_k r) (fock_sigma nn z1 z2 z3 nranks sc V_k r').
Proof.
move=> h w k; rewrite !fockE //; apply/matrixP=> a b; rewrite !mxE /=; apply: r2k_conj => R.
rewrite rmorph_sum exchange_big /=; apply: eq_bigr => c _; rewrite rmorph_sum; apply: eq_bigr => d _.
rewrite rmorphM rmorphN h mxE; congr (- _ * _); apply: k2r_conj => q; by case: hin => _ -> _.
Qed.
Lemma g_time_adj x y t r : RG x y -> g_time z1 z2 z3 wt y t r = adj (g_time z1 z2 z3 wt x t (- r)).
Proof.
move=> h; case: htr => _ [_ hw _ _ _]; apply: hw => n; apply/matrixP=> a b; rewrite !mxE; apply: k2r_conj => k.
by rewrite (on_ints_adj h) mxE.
Qed.
Lemma trapz_conj (x : 'I_L.+1 -> C) : trapz beta (fun t => (x t)^*) = (trapz beta x)^*.
Proof.
case: hme => -[_ _ _ _ /CrealP hb] _; rewrite /trapz rmorphM !rmorphB !rmorphM fmorphV rmorph_nat fmorphV hb rmorph_nat; congr ((_ - _ - _) * _).
have h (s : seq 'I_L.+1) u : foldl (fun acc t => acc + (x t)^*) (u^*) s = (foldl (fun acc t => acc + x t) u s)^*.
  by elim: s u => //= t s IH u; rewrite -rmorphD IH.
by rewrite -h rmorph0.
Qed.
Lemma to_freq_conj (w : Wb) (x x' : 'I_L.+1 -> C) : (forall t, x' t = (x t)^*) -> to_freq beta tw_plan w x' = (to_freq beta tw_plan (rev_ord w) x)^*.
Proof.
move=> h; rewrite ((to_freq_lin beta planL w).1 _ _ h) /to_freq; case: ifP => _; first exact: trapz_conj.
by case: htr => _ [_ _ _ _ hp]; rewrite hp bidx_rev.
Qed.
Lemma polarization_adj x y : RG x y -> RX (polarization z1 z2 z3 beta wt tw_plan tw_lib nranks sc x) (polarization z1 z2 z3 beta wt tw_plan tw_lib nranks sc y).
Proof.
move=> h w q a b c d; rewrite !polarizationE // rmorphN; congr (- _); apply: r2k_conj => r; apply: to_freq_conj => t.
by rewrite !(g_time_adj _ _ h) !mxE rmorphM opprK.
Qed.
Lemma VE q : adj4 (tmat (V_k q)) = tmat (V_k q).
Proof. by symmetry; apply: tmat_adj => a b c d; case: hin. Qed.
Lemma RXE x y w q : RX x y -> tmat (y w q) = adj4 (tmat (x (rev_ord w) q)).
Proof. by move=> h; apply: tmat_adj => a b c d; exact: h. Qed.
Lemma screened_adj sp x y : RX x y -> RX (screened_interaction nranks sc V_k sp x) (screened_interaction nranks sc V_k sp y).
Proof.
move=> h w q a b c d; apply: adj_tmat; rewrite !screenedE //.
have hx := RXE w q h; have -> : (if sp then 2%:R else 1) *: tmat (y w q) = adj4 ((if sp then 2%:R else 1) *: tmat (x (rev_ord w) q)).
  by rewrite hx; case: sp; [rewrite adj4_nat | rewrite !scale1r].
by symmetry; exact: (adj4_screened _ (VE q)).
Qed.
Lemma dynamic_adj x y : RX x y -> RX (dynamic_part V_k x) (dynamic_part V_k y).
Proof. by move=> h w q a b c d; rewrite !dynamicE h rmorphB; congr (_ - _); case: hin => _ -> _. Qed.
Lemma chi_adj p q x y : RX p q -> RX x y -> RX (susceptibility nranks sc p x) (susceptibility nranks sc q y).
Proof.
by move=> h h' w k a b c d; apply: adj_tmat; rewrite !susceptibilityE // adj4D !adj4M (RXE _ _ h) (RXE _ _ h') !mulmxA.
Qed.
Lemma sigma_adj u v x y : RX u v -> RG x y -> RG (gw_dynamic_sigma z1 z2 z3 beta wt tw wtc nranks sc u x) (gw_dynamic_sigma z1 z2 z3 beta wt tw wtc nranks sc v y).
Proof.
move=> hW h w k; rewrite !sigma_dynE //; apply/matrixP=> a b; rewrite !mxE /=; apply: r2k_conj => r.
case: htr => _ [_ _ ht hc _]; rewrite fidx_rev -ht; apply: (twL _).1 => t.
rewrite rmorph_sum exchange_big /=; apply: eq_bigr => c _; rewrite rmorph_sum; apply: eq_bigr => d _.
rewrite rmorphM rmorphN (g_time_adj _ _ h) mxE; congr (- _ * _); rewrite /W_time -hc; apply: (wtcL _).1 => x1.
by apply: k2r_conj => q; rewrite hW.
Qed.
Lemma dyson_adj mu mu' x y : RM mu mu' -> RG x y -> RG (lattice_dyson_g freq nranks sc e_k mu x) (lattice_dyson_g freq nranks sc e_k mu' y).
Proof.
case=> <- /CrealP hm h w k; rewrite !dysonE // -adj_inv; congr (invmx _); rewrite !adjB adj_scalar h /= rmorphD hm; congr (_%:M - _ - _).
  by case: hme => -[-> _ _ _ _] _; rewrite conjCK.
by apply/matrixP=> a b; rewrite mxE; case: hin.
Qed.
Lemma dyson0_adj mu mu' : RM mu mu' -> RG (lattice_dyson_g0 freq nranks sc e_k mu) (lattice_dyson_g0 freq nranks sc e_k mu').
Proof.
case=> <- /CrealP hm w k; rewrite !dyson0E // -adj_inv; congr (invmx _); rewrite !adjB adj_scalar /= rmorphD hm; congr (_%:M - _).
  by case: hme => -[-> _ _ _ _] _; rewrite conjCK.
by apply/matrixP=> a b; rewrite mxE; case: hin.
Qed.
Lemma distance_adj tol x y x' y' : RG x y -> RG x' y' -> (distance x x' < tol) = (distance y y' < tol).
Proof.
move=> h h'; rewrite !distance_lt; congr (_ && _).
apply/forallP/forallP => hp [w k]; apply/forallP => i; apply/forallP => j.
  by rewrite h h' !mxE -rmorphB norm_conjC; have /forallP/(_ j)/forallP := hp (rev_ord w, k); exact.
have /forallP/(_ j)/forallP/(_ i) := hp (rev_ord w, k).
by rewrite h h' !mxE rev_ordK -rmorphB norm_conjC.
Qed.
Lemma dyson_equation_adj a mu mu' x y : RM mu mu' -> orel RG x y -> orel (same_pair RM RG)
  (dyson_equation (calc_rho z1 z2 z3 density nranks sc) (@total_density C n1 n2 n3 nb) (lattice_dyson_g freq nranks sc e_k) (lattice_dyson_g0 freq nranks sc e_k) brentq a mu x)
  (dyson_equation (calc_rho z1 z2 z3 density nranks sc) (@total_density C n1 n2 n3 nb) (lattice_dyson_g freq nranks sc e_k) (lattice_dyson_g0 freq nranks sc e_k) brentq a mu' y).
Proof.
apply: (dyson_rel (RM := RM) (RRho := RRho) (RN := RM) (Rf := eq)).
- by move=> u v; exact: rho_adj.
- by move=> u v; exact: trace_adj.
- by move=> m m' u v; exact: dyson_adj.
- by move=> m m'; exact: dyson0_adj.
- by rewrite /same_args; case: (fixed a) => // m; split=> // u v [->].
- move=> f1 f2 b t h; case: hse => hq hr.
  have <- : brentq f1 b t = brentq f2 b t by apply: hq => x1 hx; apply: h.
  by case e: (brentq _ _ _) => [m|] //=; split=> //; exact: hr e.
Qed.
(* C102: the results of any number of iterations from a Hermitian start are Hermitian: real chemical potential and density, g(-iw) = g(iw)^+ for the Green's
   function and all self-energies, Hermitian density matrix, and W, P, chi at minus the frequency the conjugates with the operators in the opposite order *)
Theorem C102_hermitian (a : args C) tol hartree fock gw spinless n s t : hermitian s -> run a tol hartree fock gw spinless n s = Some t -> hermitian t.
Proof.
move=> /hermE h e; apply/hermE.
suff : orel (same_state RM RG RRho RM RX RX RX) (run a tol hartree fock gw spinless n s) (run a tol hartree fock gw spinless n s) by rewrite e.
apply: solve_iter_rel => //.
- by move=> w k; rewrite !ffunE adj0.
- by move=> x y x' y' hx hx' w k; rewrite !ffunE hx hx' adjD.
- by move=> x y; exact: rho_adj.
- by move=> x y; exact: trace_adj.
- by move=> _ x y; exact: hartree_adj.
- by move=> _ x y; exact: fock_adj.
- by move=> x y; exact: polarization_adj.
- by move=> _ x y; exact: screened_adj.
- by move=> _ x y; exact: dynamic_adj.
- by move=> u v x y; exact: sigma_adj.
- by move=> p q x y; exact: chi_adj.
- by move=> mu mu' x y; exact: dyson_equation_adj.
- by move=> x y x' y'; exact: distance_adj.
Qed.
(* the constructor *)
Theorem C102_start (a : args C) mu g s : odflt 0 mu \is Num.real -> oall herm_g g -> start a mu g = Some s -> hermitian s.
Proof.
move=> hm hg e; apply/hermE; suff : orel (same_state RM RG RRho RM RX RX RX) (start a mu g) (start a mu g) by rewrite e.
apply: init_rel => //; first by move=> w k; rewrite !ffunE adj0.
- by move=> m m' x y; exact: dyson_equation_adj.
- case: g hg {e} => //= g hg w k; by apply/matrixP=> i j; rewrite mxE.
Qed.
End Herm.

(* two orbitals with a complex hybridization on three sites in a row, two frequencies; the functions of time are constant and real *)
Section Case.
Variables (C : numClosedFieldType) (z : C).
Hypothesis zP : 3.-primitive_root z.
Let e (_ : site 2 0 0) : 'M[C]_2 := 'i *: (delta_mx 0 1 - delta_mx 1 0).
Let V (_ : site 2 0 0) : tensor4 C 2 := fun a b c d => ((a == b) && (c == d))%:R.
Let density (f : int -> 'M[C]_2) : 'M[C]_2 := f 0 + f (-1).
Let wt (f : int -> 'M[C]_2) (_ : 'I_1) : 'M[C]_2 := f 0 + f (-1).
Let tw (x : 'I_1 -> C) (_ : int) := x ord0.
Let wtc (x : 'I_(2 * 1).-1 -> C) (_ : 'I_1) := x ord0.
Let brentq (f : C -> C) (b : C * C) (_ : C) := if (b.1 \is Num.real) && (f b.1 == 0) then Some b.1 else None.
Let sc : schedules := fun _ F r => mpi_view (enum F) 2 r.
Let freq (w : 'I_(2 * 1)) : C := if w == ord0 then - 'i else 'i.
Let a := Args None 0 (0, 0 : C).
Theorem C102_case : [/\ hermitian_input e V, meshes_ok 2 0 0 z 1 1 1 freq 2 sc, transforms_ok density wt tw wtc tw, search_ok brentq & exists s t,
  [/\ gw_init z 1 1 freq density brentq 2 sc e a None None = Some s, hermitian s & gw_solve_iter z 1 1 1 freq density wt tw wtc tw tw brentq 2 sc e V a 0 true true true false 3 s = Some t]].
Proof.
have hi : hermitian_input e V.
  split=> [k i j|q i j k l|q i j k l].
  - rewrite !mxE rmorphM conjCi rmorphB !rmorph_nat mulNr -mulrN opprB andbC; congr (_ * (_ - _)); by rewrite andbC.
  - by rewrite /V rmorph_nat (eq_sym l) (eq_sym j) andbC.
  - by rewrite /V andbC.
have hm : meshes_ok 2 0 0 z 1 1 1 freq 2 sc.
  split; last by move=> i F; exact: fair_all_inorder.
  have p1 : 1.-primitive_root (1 : C) by apply/andP; split=> //; apply/forallP=> -[[|//] hi1] /=; rewrite unity_rootE expr1 eqxx.
  split=> //; last exact: real1.
  by move=> w; rewrite /freq; case: w => -[|[|//]] hw; rewrite -!val_eqE /= ?rmorphN conjCi ?opprK.
have ht : transforms_ok density wt tw wtc tw.
  split; first by split=> // n; split=> // x y h; rewrite /tw /wtc ?h.
  have hd (f f' : int -> 'M[C]_2) : (forall n, f' n = adj (f (- n - 1))) -> f' 0 + f' (-1) = adj (f 0 + f (-1)).
    by move=> h; rewrite !h adjD addrC.
  split=> //; [by move=> f f' t; exact: hd | by move=> x t; rewrite /wtc; congr ((x _)^*); apply/val_inj].
have hq : search_ok brentq.
  split=> [f f' b t h|f b t x]; rewrite /brentq; first by case hb: (_ \is _) => //=; rewrite (h _ hb).
  by case: andP => // -[hb _] [<-].
split=> //.
have [s es] : exists s, gw_init z 1 1 freq density brentq 2 sc e a None None = Some s by eexists; reflexivity.
have hs := C102_start hi hm ht hq _ _ es.
case et: (gw_solve_iter z 1 1 1 freq density wt tw wtc tw tw brentq 2 sc e V a 0 true true true false 3 s) => [t|]; last by exfalso; move: et; apply: solve_iter_runs.
exists s, t; split=> //; apply: hs => //; exact: real0.
Qed.
End Case.
Print Assumptions C102_hermitian.
Print Assumptions C102_start.
Print Assumptions C102_case.
