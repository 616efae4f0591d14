(* C113: the unit of energy in the Bethe-Salpeter equation, RPA and the Eliashberg equation. *)
From mathcomp Require Import all_ssreflect all_algebra.
From Verif Require Import Base MatAlg Fring MpiModel MpiProofs MpiSpec FourierModel FourierProofs BubbleModel BubbleSpec BubbleProofs ImtimeModel LinalgModel LinalgSpec LinalgProofs
  RpaModel RpaSpec RpaProofs RpaThms BseModel BseSpec BseProofs EliashbergModel GwSpec GwProofs GwFullProofs GwRel BseSymThms UnitsGwThms.
Set Implicit Arguments.
Unset Strict Implicit.
Unset Printing Implicit Defensive.
Import GRing.Theory Num.Theory Order.Theory.
Local Open Scope ring_scope.

Section Point.
Variables (C : fieldType) (nn nb : nat) (u : C).
Local Notation g2 := (g2nn C nn nb).
Local Notation g1 := (g2n C nn nb).
Local Notation cm := (@chmat C nn nb PH).
Add Ring Cring0 : (fld_rt C).
Hypothesis uN : u != 0.
Definition times2 (c : C) (X Y : g2) : Prop := forall n n' i j k l, Y n n' i j k l = c * X n n' i j k l.
Definition times1 (c : C) (x y : g1) : Prop := forall n i j k l, y n i j k l = c * x n i j k l.
Lemma times2E c X Y : times2 c X Y <-> cm Y = c *: cm X.
Proof.
split=> [h|/matrixP h n n' a b i j]; first by apply/matrixP=> i j; rewrite !mxE h.
by have := h (tidx n a b) (tidx n' j i); rewrite !mxE !tidxE.
Qed.
Lemma times_diag c x y : times1 c x y -> times2 c (on_diag x) (on_diag y).
Proof. by move=> h n n' i j k l; rewrite /on_diag; case: eqP => _; rewrite ?mulr0. Qed.
Lemma times_bse c d x y G H : c * d = 1 -> times1 c x y -> times2 d G H -> times2 c (bse_point x G) (bse_point y H).
Proof.
move=> cd /times_diag/times2E hx /times2E hG; apply/times2E; rewrite !bse_point_mat hx hG -scalemxAr; congr (_ *: (invmx (_ - _) *m _)).
by rewrite -scalemxAl -scalemxAr scalerA cd scale1r.
Qed.
Lemma times_product c d X Y X' Y' : times2 c X X' -> times2 d Y Y' -> times2 (c * d) (product PH X Y) (product PH X' Y').
Proof. by move=> /times2E h /times2E h'; apply/times2E; rewrite !product_mat h h' -scalemxAl -scalemxAr scalerA. Qed.
Lemma times_inverse c X Y : c != 0 -> cm X \in unitmx -> times2 c X Y -> times2 c^-1 (inverse PH X) (inverse PH Y).
Proof. by move=> c0 ux /times2E h; apply/times2E; rewrite !inverse_mat h invmx_scale. Qed.
Lemma times_sub c X Y X' Y' : times2 c X X' -> times2 c Y Y' ->
  times2 c (fun n n' i j k l => X n n' i j k l - Y n n' i j k l) (fun n n' i j k l => X' n n' i j k l - Y' n n' i j k l).
Proof. by move=> h h' n n' i j k l; rewrite h h' mulrBr. Qed.
Lemma times_scalar c d x y x' y' X X' i j k l : times1 c x x' -> times1 c y y' -> times2 d X X' ->
  scalar_product_PH x' X' y' i j k l = c * (d * (c * scalar_product_PH x X y i j k l)).
Proof.
move=> hx hy /times2E hX; have e z z' : times1 c z z' -> ph_col z' = c *: ph_col z by move=> h; apply/matrixP=> p q; rewrite !mxE h.
rewrite !scalar_product_PH_grouping (e _ _ hx) (e _ _ hy) hX.
have -> : (c *: ph_col x)^T = c *: (ph_col x)^T by rewrite linearZ.
by rewrite -!(scalemxAl, scalemxAr) !mxE mulrCA [d * _]mulrCA; congr (_ * _); rewrite mulrCA.
Qed.
Lemma times_trace beta c X Y i j k l : times2 c X Y -> freq_trace (beta / u) Y i j k l = c * u ^+ 2 * freq_trace beta X i j k l.
Proof.
move=> h; rewrite /freq_trace.
have -> : \sum_n \sum_n' Y n n' i j k l = c * \sum_n \sum_n' X n n' i j k l.
  by rewrite mulr_sumr; apply: eq_bigr => n _; rewrite mulr_sumr; apply: eq_bigr => n' _; exact: h.
rewrite expr_div_n invf_div; fring C.
Qed.
End Point.

Section Bse.
Variables (C : numClosedFieldType) (n1 n2 n3 nb nw nn L : nat) (z1 z2 z3 beta u : C).
Local Notation K := (site n1 n2 n3).
Local Notation t4 := (tensor4 C nb).
Local Notation mat := 'M[C]_nb.
Local Notation W := 'I_(2 * nw).-1.
Local Notation wnn := (g2iw C (2 * nn) nb (2 * nw).-1).
Local Notation gfun := (gfun C n1 n2 n3 nb).
Variables (wt wt' : (int -> mat) -> 'I_L.+1 -> mat) (tw_plan tw_plan' tw_lib tw_lib' : ('I_L.+1 -> C) -> int -> C).
Hypothesis u0 : 0 < u.
Add Ring Cring : (fld_rt C).
Let uN : u != 0. Proof. by rewrite gt_eqF. Qed.
Local Notation r2k := (fourier_r_to_k z1 z2 z3).
(* the transforms of the two meshes: Green's functions in time have no unit, integrals over time the inverse unit *)
Definition unit_transforms : Prop := [/\ ext_transform tw_plan, forall f f' t, (forall n, f' n = u^-1 *: f n) -> wt' f' t = wt f t &
  forall x n, tw_plan' x n = u^-1 * tw_plan x n].
Lemma k2r_times (g g' : gfun) n r : (forall n k, g' n k = u^-1 *: g n k) -> fourier_wk_to_wr z1 z2 z3 g' n r = u^-1 *: fourier_wk_to_wr z1 z2 z3 g n r.
Proof. by move=> h; apply/matrixP=> i j; rewrite !mxE; apply: k2r_scale => k; rewrite h mxE. Qed.
Lemma u3 : u^-1 * u^-1 * u^-1 = u ^- 3. Proof. by rewrite -!invfM -!expr2 -exprSr. Qed.
Lemma bubble_times (f f' : gfun) w n r a b c d : (forall n r, f' n r = u^-1 *: f n r) ->
  chi0r_kernel (beta / u) f' w n r a b c d = u ^- 3 * chi0r_kernel beta f w n r a b c d.
Proof.
by move=> h; rewrite /chi0r_kernel !h !mxE -u3; fring C.
Qed.
Lemma imtime_times nranks sc nranks' sc' (g g' : gfun) (w : W) k a b c d : unit_transforms -> fair_sched nranks sc -> fair_sched nranks' sc' ->
  (forall n k, g' n k = u^-1 *: g n k) ->
  imtime_bubble_chi0_wk z1 z2 z3 (beta / u) wt' tw_plan' tw_lib' nranks' sc' (nw := nw) false g' w k a b c d =
  u^-1 * imtime_bubble_chi0_wk z1 z2 z3 beta wt tw_plan tw_lib nranks sc (nw := nw) false g w k a b c d.
Proof.
move=> [pe hw hp] fs fs' h; have pe' : ext_transform tw_plan' by move=> x y e n; rewrite !hp (pe x y e).
rewrite !imbE //.
apply: r2k_scale => r.
have e t : chi0_tau z1 z2 z3 wt' g' r a b c d t = chi0_tau z1 z2 z3 wt g r a b c d t.
  by rewrite /chi0_tau; congr (_ * _); congr (fun_of_matrix _ _ _); apply: hw => n; exact: k2r_times.
rewrite /to_w; case: ifP => _.
  rewrite trapz_scale; congr (_ * _); exact: (trapz_lin L beta).1.
by rewrite hp; congr (_ * _); exact: pe.
Qed.
(* C113: the susceptibilities of the Bethe-Salpeter equation are inverse energies, the vertex is the third power of an energy *)
Theorem C113_bse nranks sc nranks' sc' (g g' : gfun) (gamma gamma' : wnn) k w a b c d : unit_transforms -> fair_sched nranks sc -> fair_sched nranks' sc' ->
  (forall n k, g' n k = u^-1 *: g n k) -> (forall w n n' a b c d, gamma' w n n' a b c d = u ^+ 3 * gamma w n n' a b c d) ->
  (solve_lattice_bse z1 z2 z3 (beta / u) wt' tw_plan' tw_lib' nranks' sc' g' gamma').1 k w a b c d =
    u^-1 * (solve_lattice_bse z1 z2 z3 beta wt tw_plan tw_lib nranks sc g gamma).1 k w a b c d /\
  (solve_lattice_bse z1 z2 z3 (beta / u) wt' tw_plan' tw_lib' nranks' sc' g' gamma').2 k w a b c d =
    u^-1 * (solve_lattice_bse z1 z2 z3 beta wt tw_plan tw_lib nranks sc g gamma).2 k w a b c d.
Proof.
move=> ht fs fs' hg hG; split; last exact: imtime_times.
have [-> _] := @solve_lattice_bseE C n1 n2 n3 nb z1 z2 z3 (beta / u) L wt' tw_plan' tw_lib' nranks' sc' nw nn g' gamma' k w a b c d fs'.
have [-> _] := @solve_lattice_bseE C n1 n2 n3 nb z1 z2 z3 beta L wt tw_plan tw_lib nranks sc nw nn g gamma k w a b c d fs.
have hx : times1 (u ^- 3) (fun n a b c d => r2k (fun r => chi0r_kernel beta (fourier_wk_to_wr z1 z2 z3 g) (bidx w) (fidx (n : 'I_(2 * nn))) r a b c d) k)
    (fun n a b c d => r2k (fun r => chi0r_kernel (beta / u) (fourier_wk_to_wr z1 z2 z3 g') (bidx w) (fidx n) r a b c d) k).
  by move=> n x y i j; apply: r2k_scale => r; apply: bubble_times => m r'; exact: k2r_times.
have uu : u ^- 3 * u ^+ 2 = u^-1 by rewrite exprSr invfM mulrAC mulVf ?mul1r // expf_neq0.
rewrite mulrDr mulrBr; congr (_ + (_ - _)).
- by rewrite -[in RHS]uu; apply: times_trace => //; apply: (times_bse (d := u ^+ 3)); [rewrite mulVf // expf_neq0 | exact: hx | exact: hG].
- exact: imtime_times.
rewrite -[in RHS]uu expr_div_n invf_div.
have -> : \sum_(n < 2 * nn) r2k (fun r => chi0r_kernel (beta / u) (fourier_wk_to_wr z1 z2 z3 g') (bidx w) (fidx n) r a b c d) k =
  u ^- 3 * \sum_(n < 2 * nn) r2k (fun r => chi0r_kernel beta (fourier_wk_to_wr z1 z2 z3 g) (bidx w) (fidx n) r a b c d) k.
  by rewrite mulr_sumr; apply: eq_bigr => n _; exact: hx.
fring C.
Qed.
(* C113: the vertices of the impurity; two-particle Green's functions are the inverse third power of an energy *)
Theorem C113_vertex (g g' : int -> mat) (g2 g2' : wnn) w : (forall n, g' n = u^-1 *: g n) -> (forall w n n' a b c d, g2' w n n' a b c d = u ^- 3 * g2 w n n' a b c d) ->
  invertible_PH (chi0_from_gg2_PH beta (nw := nw) (nn := nn) g w) ->
  (invertible_PH (chi_from_gg2_PH beta g g2 w) -> forall n n' a b c d,
    impurity_irreducible_vertex_Gamma (beta / u) g' g2' w n n' a b c d = u ^+ 3 * impurity_irreducible_vertex_Gamma beta g g2 w n n' a b c d) /\
  forall n n' a b c d, impurity_reducible_vertex_F (beta / u) g' g2' w n n' a b c d = u ^+ 3 * impurity_reducible_vertex_F beta g g2 w n n' a b c d.
Proof.
move=> hg hg2 /invertibleP i0; have u3N : u ^- 3 != 0 by rewrite invr_neq0 // expf_neq0.
have h0 : times2 (u ^- 3) (chi0_from_gg2_PH beta (nw := nw) (nn := nn) g w) (chi0_from_gg2_PH (beta / u) (nw := nw) (nn := nn) g' w).
  by move=> n n' a b c d; rewrite /chi0_from_gg2_PH !hg !mxE -u3; fring C.
have h1 : times2 (u ^- 3) (chi_from_gg2_PH beta g g2 w) (chi_from_gg2_PH (beta / u) g' g2' w).
  by move=> n n' a b c d; rewrite /chi_from_gg2_PH !hg hg2 !mxE -u3; fring C.
have k0 := times_inverse u3N i0 h0; rewrite invrK in k0.
split=> [/invertibleP i1|].
  by apply: times_sub => //; have := times_inverse u3N i1 h1; rewrite invrK.
by have := times_product k0 (times_product (times_sub h1 h0) k0); rewrite mulVf ?mulr1 // expf_neq0.
Qed.
(* C113: the dual equation; triangular vertices are energies *)
Theorem C113_dual nranks sc nranks' sc' (g g' : gfun) (F F' : wnn) (Lv Lv' : int -> int -> t4) (chi_imp chi_imp' : int -> t4) k w a b c d : fair_sched nranks sc -> fair_sched nranks' sc' ->
  (forall n k, g' n k = u^-1 *: g n k) -> (forall w n n' a b c d, F' w n n' a b c d = u ^+ 3 * F w n n' a b c d) ->
  (forall w n a b c d, Lv' w n a b c d = u * Lv w n a b c d) -> (forall w a b c d, chi_imp' w a b c d = u^-1 * chi_imp w a b c d) ->
  solve_lattice_dbse z1 z2 z3 (beta / u) nranks' sc' g' F' Lv' chi_imp' k w a b c d = u^-1 * solve_lattice_dbse z1 z2 z3 beta nranks sc g F Lv chi_imp k w a b c d.
Proof.
move=> fs fs' hg hF hL hi; rewrite !dualE // hi mulrDr; congr (_ + _).
have u3N : u ^+ 3 != 0 by rewrite expf_neq0.
rewrite (times_scalar (c := u) (d := u ^- 3) (x := fun n : 'I_(2 * nn) => Lv (bidx w) (fidx n)) (y := fun n : 'I_(2 * nn) => Lv (bidx w) (fidx n))
  (X := bse_point (bub_nl z1 z2 z3 beta g w k) (F w))) //.
  have e : u * u ^- 3 * u = u^-1 by rewrite !exprS expr0 mulr1 !invfM !mulrA divff // mul1r mulfVK.
  by rewrite -[in RHS]e !mulrA.
apply: (times_bse (d := u ^+ 3)); [by rewrite mulVf | move=> n x y i j | exact: hF].
apply: r2k_scale => r; apply: bubble_times => m r'; rewrite /nonlocal; case: eqP => _; first by rewrite scaler0.
exact: k2r_times.
Qed.
End Bse.

Section Rpa.
Variables (C : numClosedFieldType) (nb : nat) (u : C) (W K Id : eqType).
Local Notation t4 := (tensor4 C nb).
Hypothesis u0 : 0 < u.
Let uN : u != 0. Proof. by rewrite gt_eqF. Qed.
Lemma rpa_times (U U' X X' : t4) a b c d : (forall a b c d, X' a b c d = u^-1 * X a b c d) -> (forall a b c d, U' a b c d = u * U a b c d) ->
  rpa_point U' X' a b c d = u^-1 * rpa_point U X a b c d.
Proof.
move=> /tmat_scale hX /tmat_scale hU; rewrite /rpa_point; apply: scale_tmat; rewrite !mtenK hX hU -scalemxAr; congr (_ *: (invmx (_ - _) *m _)).
by rewrite -scalemxAl -scalemxAr scalerA mulVf // scale1r.
Qed.
Lemma phi_times (U U' X X' : t4) a b c d : (forall a b c d, X' a b c d = u^-1 * X a b c d) -> (forall a b c d, U' a b c d = u * U a b c d) ->
  phi_point U' X' a b c d = u * phi_point U X a b c d.
Proof.
move=> /tmat_scale hX /tmat_scale hU; rewrite /phi_point; apply: scale_tmat; rewrite !mtenK hX hU.
by rewrite -!(scalemxAl, scalemxAr) !scalerA mulfK.
Qed.
Local Notation chi_wk := (chi_wk C nb W K Id).
(* C113: the RPA susceptibility is an inverse energy and the ladder that enters the pairing vertex an energy *)
Theorem C113_rpa nranks sched (chi0 chi0' : chi_wk) (U U' : t4) w k a b c d : fair_run nranks (wmesh chi0) (kmesh chi0) sched -> w \in wmesh chi0 -> k \in kmesh chi0 ->
  (forall w k a b c d, chi_dat chi0' w k a b c d = u^-1 * chi_dat chi0 w k a b c d) -> (forall a b c d, U' a b c d = u * U a b c d) ->
  let chi := solve_rpa_PH nranks sched chi0 U in let chi' := solve_rpa_PH nranks sched chi0' U' in
  chi_dat chi' w k a b c d = u^-1 * chi_dat chi w k a b c d /\
  chi_dat (construct_phi_wk nranks sched chi' U') w k a b c d = u * chi_dat (construct_phi_wk nranks sched chi U) w k a b c d.
Proof.
move=> [h1 h2 h3 h4] hw hk hX hU /=.
have e a' b' c' d' : on_mesh nranks sched (fun w k => rpa_point U' (chi_dat chi0' w k)) w k a' b' c' d' =
    u^-1 * on_mesh nranks sched (fun w k => rpa_point U (chi_dat chi0 w k)) w k a' b' c' d'.
  by rewrite !(on_meshE _ h1 h2 h3 h4) //; apply: rpa_times.
split=> //; rewrite !(on_meshE _ h1 h2 h3 h4) //; exact: phi_times.
Qed.
(* C113: the screened interaction is an energy *)
Theorem C113_screened nranks sched (chi chi' : chi_wk) (V V' : chi_k C nb K Id) Wr w k : fair_run nranks (wmesh chi) (kmesh chi) sched -> w \in wmesh chi -> k \in kmesh chi ->
  kmesh_id chi' = kmesh_id chi -> vkmesh_id V' = vkmesh_id V ->
  (forall w k a b c d, chi_dat chi' w k a b c d = u^-1 * chi_dat chi w k a b c d) -> (forall k a b c d, v_dat V' k a b c d = u * v_dat V k a b c d) ->
  (W_static nranks sched chi V = Some Wr -> exists2 Wr', W_static nranks sched chi' V' = Some Wr' & forall a b c d, chi_dat Wr' w k a b c d = u * chi_dat Wr w k a b c d) /\
  (W_from_chi_static nranks sched chi V = Some Wr -> exists2 Wr', W_from_chi_static nranks sched chi' V' = Some Wr' & forall a b c d, chi_dat Wr' w k a b c d = u * chi_dat Wr w k a b c d).
Proof.
move=> [h1 h2 h3 h4] hw hk e1 e2 hX hV.
have hx := tmat_scale (hX w k); have hv := tmat_scale (hV k).
rewrite /W_static /W_from_chi_static e1 e2; case: ifP => // _; split=> -[<-]; eexists; first by [].
- move=> a b c d; rewrite /= !(on_meshE _ h1 h2 h3 h4) // !W_opt_generic /W_generic_bubble; apply: scale_tmat; rewrite !mtenK hx hv -scalemxAl; congr (_ *: (_ *m invmx (_ - _))).
  by rewrite -scalemxAl -scalemxAr scalerA mulVf // scale1r.
- by [].
move=> a b c d; rewrite /= !(on_meshE _ h1 h2 h3 h4) // /W_generic_generalized; apply: scale_tmat; rewrite !mtenK hx hv scalerDr; congr (_ + _).
by rewrite -!(scalemxAl, scalemxAr) !scalerA mulfK.
Qed.
End Rpa.

Section Eliashberg.
Variables (C : numClosedFieldType) (n1 n2 n3 nb nw : nat) (z1 z2 z3 beta u : C).
Local Notation K := (site n1 n2 n3).
Local Notation t4 := (tensor4 C nb).
Local Notation mat := 'M[C]_nb.
Local Notation gfun := (gfun C n1 n2 n3 nb).
Local Notation wk := ('I_(2 * nw) -> K -> mat).
Add Ring Cring2 : (fld_rt C).
Hypothesis u0 : 0 < u.
Let uN : u != 0. Proof. by rewrite gt_eqF. Qed.
Let uC : u^* = u. Proof. by apply/CrealP; exact: gtr0_real. Qed.
(* C113: the pairing vertices are energies *)
Theorem C113_pairing_vertex (W Kt : Type) (U_d U_m U_d' U_m' : t4) (phi_d phi_m phi_d' phi_m' : W -> Kt -> t4) w k a b c d :
  (forall a b c d, U_d' a b c d = u * U_d a b c d) -> (forall a b c d, U_m' a b c d = u * U_m a b c d) ->
  (forall w k a b c d, phi_d' w k a b c d = u * phi_d w k a b c d) -> (forall w k a b c d, phi_m' w k a b c d = u * phi_m w k a b c d) ->
  construct_gamma_singlet_rpa conjC U_d' U_m' phi_d' phi_m' w k a b c d = u * construct_gamma_singlet_rpa conjC U_d U_m phi_d phi_m w k a b c d /\
  construct_gamma_triplet_rpa conjC U_d' U_m' phi_d' phi_m' w k a b c d = u * construct_gamma_triplet_rpa conjC U_d U_m phi_d phi_m w k a b c d.
Proof.
move=> h1 h2 h3 h4; rewrite /construct_gamma_singlet_rpa /construct_gamma_triplet_rpa /transpose_ac !h1 !h2 !h3 !h4 !rmorphM /= uC.
by split; fring C.
Qed.
Lemma pair_times ng nranks sched (g g' : gfun) (delta : wk) : fair_all nranks sched -> (forall n k, g' n k = u^-1 *: g n k) ->
  orel (fun F F' : wk => forall w k, F' w k = u ^- 2 *: F w k) (eliashberg_g_delta_g_product conjC ng nranks sched g delta) (eliashberg_g_delta_g_product conjC ng nranks sched g' delta).
Proof.
move=> fs hg; rewrite /eliashberg_g_delta_g_product; case: ifP => // _ w k; rewrite !fair_all_map //; apply/matrixP=> d c.
rewrite !mxE mulr_sumr; apply: eq_bigr => e _; rewrite mulr_sumr; apply: eq_bigr => f _.
by rewrite !hg !mxE rmorphM fmorphV /= uC expr2 invfM; fring C.
Qed.
(* C113: the Eliashberg product has no unit; so its eigenvalues do not depend on the unit of energy *)
Theorem C113_eliashberg ng gsize nranks sched ksched (gamma gamma' : int -> K -> t4) (g g' : gfun) (delta : wk) : fair_all nranks sched -> fair_all nranks ksched ->
  (forall n k, g' n k = u^-1 *: g n k) -> (forall n k a b c d, gamma' n k a b c d = u * gamma n k a b c d) ->
  orel (fun D D' : wk => forall w k, D' w k = D w k) (eliashberg_product beta conjC ng gsize nranks sched ksched gamma g delta)
    (eliashberg_product (beta / u) conjC ng gsize nranks sched ksched gamma' g' delta).
Proof.
move=> fs fks hg hG; rewrite /eliashberg_product; case: ifP => // _.
have := pair_times ng delta fs hg; case: (eliashberg_g_delta_g_product _ _ _ _ _ _) => [F|]; case: (eliashberg_g_delta_g_product _ _ _ _ _ _) => [F'|] //= hF w k.
rewrite !fair_all_map //; apply/matrixP=> a b; rewrite !mxE !summxE !mulr_sumr; apply: eq_bigr => p _; rewrite !mxE !mulr_sumr; apply: eq_bigr => c _.
rewrite !mulr_sumr; apply: eq_bigr => d _; rewrite hG hF !mxE !invfM !invrK.
transitivity ((u * u^-1) * (u * u^-1) * (beta^-1 / (ncells n1 n2 n3)%:R * (- 2%:R^-1 * gamma (fidx w - fidx p.1) (k - p.2) c a d b * F p.1 p.2 d c))); first by fring C.
by rewrite !divff // !mul1r.
Qed.
Variables (L : nat) (wt wt' : ('I_(2 * nw) -> mat) -> 'I_L.+1 -> mat) (tw tw' : ('I_L.+1 -> C) -> 'I_(2 * nw) -> C).
(* sums over frequencies carry the temperature, integrals over times its inverse *)
Definition unit_fft : Prop := [/\ forall f f' c t, (forall w, f' w = c *: f w) -> wt' f' t = (u * c) *: wt f t, forall n, linfun (fun x => tw x n) & forall x n, tw' x n = u^-1 * tw x n].
Theorem C113_eliashberg_fft ng Lg nranks sched tsched (gamma_tr gamma_tr' : 'I_L.+1 -> K -> t4) (gamma_r gamma_r' : K -> t4) (g g' : gfun) (delta : wk) : unit_fft ->
  fair_all nranks sched -> fair_all nranks tsched -> (forall n k, g' n k = u^-1 *: g n k) ->
  (forall t r a b c d, gamma_tr' t r a b c d = u ^+ 2 * gamma_tr t r a b c d) -> (forall r a b c d, gamma_r' r a b c d = u * gamma_r r a b c d) ->
  orel (fun D D' : wk => forall w k, D' w k = D w k) (eliashberg_product_fft z1 z2 z3 conjC wt tw ng Lg nranks sched tsched gamma_tr gamma_r g delta)
    (eliashberg_product_fft z1 z2 z3 conjC wt' tw' ng Lg nranks sched tsched gamma_tr' gamma_r' g' delta).
Proof.
move=> [hw lt ht] fs fts hg hG hr; rewrite /eliashberg_product_fft.
have := pair_times ng delta fs hg; case: (eliashberg_g_delta_g_product _ _ _ _ _ _) => [F|]; case: (eliashberg_g_delta_g_product _ _ _ _ _ _) => [F'|] //= hF.
have hFt t r : wk_to_tr z1 z2 z3 wt' F' t r = u^-1 *: wk_to_tr z1 z2 z3 wt F t r.
  have -> : u^-1 = u * u ^- 2 by rewrite expr2 invfM mulrA divff // mul1r.
  by apply: hw => w; apply/matrixP=> i j; rewrite !mxE; apply: k2r_scale => k; rewrite hF mxE.
rewrite /eliashberg_dynamic_gamma_f_product; case: ifP => // _ w k; apply/matrixP=> a b; rewrite !mxE.
apply: r2k_ext => r; rewrite !mxE; congr (_ + _).
  rewrite ht (lin_scale (lt w) (c := u) (x := fun t => mpi_map nranks tsched (fun p : 'I_L.+1 * K => \matrix_(a, b) \sum_c \sum_d (- 2%:R^-1) * gamma_tr p.1 p.2 c a d b * wk_to_tr z1 z2 z3 wt F p.1 p.2 d c) (t, r) a b)); first by rewrite mulKf.
  move=> t; rewrite !fair_all_map // !mxE mulr_sumr; apply: eq_bigr => c _; rewrite mulr_sumr; apply: eq_bigr => d _; rewrite /= hG hFt mxE expr2.
  by rewrite -[in RHS](mulfK uN u); fring C.
apply: eq_bigr => c _; apply: eq_bigr => d _; rewrite hr hFt mxE.
set X := gamma_r r c a d b; set Y := wk_to_tr z1 z2 z3 wt F ord0 r d c.
transitivity ((u / u) * (- 2%:R^-1 * X * Y)); first by fring C.
by rewrite divff // mul1r.
Qed.
End Eliashberg.
