(* C06 (local equation), C07 (dual equation), C08 (vanishing vertex), C11 (constant vertex = RPA), C44 (one bosonic
   frequency), C45 (memory-saving bubble). *)
From mathcomp Require Import all_ssreflect all_algebra all_field zify.
From Verif Require Import Base LinalgModel LinalgSpec LinalgProofs MatAlg MpiModel MpiProofs MpiSpec.
From Verif Require Import FourierModel FourierProofs BubbleModel BubbleSpec BubbleProofs ImtimeModel.
From Verif Require Import RpaModel RpaSpec RpaProofs BseModel BseSpec BseProofs MatsubaraModel MatsubaraProofs.
Set Implicit Arguments.
Unset Strict Implicit.
Unset Printing Implicit Defensive.
Import GRing.Theory Num.Theory.
Local Open Scope ring_scope.

Section Main.
Variables (C : fieldType) (n1 n2 n3 nb : nat) (z1 z2 z3 : C) (beta : C).
Local Notation K := (site n1 n2 n3).
Local Notation t4 := (tensor4 C nb).
Local Notation gfun := (gfun C n1 n2 n3 nb).
Local Notation "A =t B" := (eq_g2 A B) (at level 70).

(* ---------------- C06 ---------------- *)
(* the lattice routine solves the Bethe-Salpeter equation at every point, and nothing else does *)
Lemma C06_solves_proof nw nn (order : seq K) (chi0 : chi_wn C n1 n2 n3 nb nw nn) (gamma : g2iw C (2 * nn) nb (2 * nw).-1) k w :
  k \in order -> nonsingular_PH (on_diag (slice_wk chi0 w k)) (gamma w) ->
  let chi := chiq_from_chi0q_and_gamma_PH order chi0 gamma k w in
  bse_equation (on_diag (slice_wk chi0 w k)) (gamma w) chi /\
  (forall X, bse_equation (on_diag (slice_wk chi0 w k)) (gamma w) X -> X =t chi).
Proof.
move=> hk ns chi.
have e : chi =t bse_point (slice_wk chi0 w k) (gamma w).
  by move=> n n' a b c d; rewrite /chi /chiq_from_chi0q_and_gamma_PH fillE hk.
split=> [|X hX].
  move=> n n' a b c d; rewrite e (bse_solves ns); congr (_ + _).
  by do 3 (apply: eq_bigr => ? _); congr (_ * _); do 3 (apply: eq_bigr => ? _); rewrite e.
by move=> n n' a b c d; rewrite e (bse_unique ns hX).
Qed.
Theorem C06_lattice_bse_solves nw nn (order : seq K) (chi0 : chi_wn C n1 n2 n3 nb nw nn)
    (gamma : g2iw C (2 * nn) nb (2 * nw).-1) k w :
  k \in order -> nonsingular_PH (on_diag (slice_wk chi0 w k)) (gamma w) ->
  let chi := chiq_from_chi0q_and_gamma_PH order chi0 gamma k w in
  bse_equation (on_diag (slice_wk chi0 w k)) (gamma w) chi /\
  (forall X, bse_equation (on_diag (slice_wk chi0 w k)) (gamma w) X -> X =t chi).
Proof. exact (@C06_solves_proof nw nn order chi0 gamma k w). Qed.

(* vertex from (chi0, chi), then lattice equation with the same bubble: chi again *)
Lemma C06_inverts_proof nw nn (order : seq K) (chi0l : chi_wn C n1 n2 n3 nb nw nn) (chi0 chi : g2iw C (2 * nn) nb (2 * nw).-1) k w :
  k \in order -> freq_diagonal (chi0 w) -> invertible_PH (chi0 w) -> invertible_PH (chi w) ->
  (forall n a b c d, chi0l w n k a b c d = chi0 w n n a b c d) ->
  chiq_from_chi0q_and_gamma_PH order chi0l (solve_local_bse chi0 chi) k w =t chi w.
Proof.
move=> hk fd /invertibleP u0 /invertibleP u1 hl.
have e : chiq_from_chi0q_and_gamma_PH order chi0l (solve_local_bse chi0 chi) k w =t
         bse_point (fun n => chi0 w n n) (solve_local_bse chi0 chi w).
  move=> n n' a b c d; rewrite /chiq_from_chi0q_and_gamma_PH fillE hk.
  by apply: bse_point_ext.
move=> n n' a b c d; rewrite e; move: n n' a b c d; apply/(chmat_inj PH).
have -> : chmat PH (bse_point (fun n => chi0 w n n) (solve_local_bse chi0 chi w)) =
   invmx (1%:M - chmat PH (chi0 w) *m (invmx (chmat PH (chi0 w)) - invmx (chmat PH (chi w)))) *m chmat PH (chi0 w).
  have h : chmat PH (on_diag (fun n => chi0 w n n)) = chmat PH (chi0 w) by apply/(chmat_inj PH)/diag_of.
  by rewrite bse_point_mat h cm_sub !inverse_mat.
exact: local_identity.
Qed.
Theorem C06_local_bse_inverts_lattice_bse nw nn (order : seq K) (chi0l : chi_wn C n1 n2 n3 nb nw nn)
    (chi0 chi : g2iw C (2 * nn) nb (2 * nw).-1) k w :
  k \in order -> freq_diagonal (chi0 w) -> invertible_PH (chi0 w) -> invertible_PH (chi w) ->
  (forall n a b c d, chi0l w n k a b c d = chi0 w n n a b c d) ->
  chiq_from_chi0q_and_gamma_PH order chi0l (solve_local_bse chi0 chi) k w =t chi w.
Proof. exact (@C06_inverts_proof nw nn order chi0l chi0 chi k w). Qed.

(* conversely the vertex put into the equation is recovered from its solution *)
Lemma C06_recovers_proof nw nn (chi0 chi gamma : g2iw C (2 * nn) nb (2 * nw).-1) w :
  freq_diagonal (chi0 w) -> invertible_PH (chi0 w) -> nonsingular_PH (chi0 w) (gamma w) ->
  bse_equation (chi0 w) (gamma w) (chi w) -> solve_local_bse chi0 chi w =t gamma w.
Proof.
move=> fd /invertibleP u0 /nonsingular_PHP u /(chmat_inj PH) h; apply/(chmat_inj PH).
rewrite cm_add !spec_prod_mat mulmxA in h.
by rewrite cm_sub !inverse_mat (dyson_unique u h); apply: local_converse.
Qed.
Theorem C06_vertex_is_recovered nw nn (chi0 chi gamma : g2iw C (2 * nn) nb (2 * nw).-1) w :
  freq_diagonal (chi0 w) -> invertible_PH (chi0 w) -> nonsingular_PH (chi0 w) (gamma w) ->
  bse_equation (chi0 w) (gamma w) (chi w) -> solve_local_bse chi0 chi w =t gamma w.
Proof. exact (@C06_recovers_proof nw nn chi0 chi gamma w). Qed.

(* the whole route: impurity functions -> vertex -> lattice equation with a bubble equal to the impurity bubble *)
Lemma C06_impurity_proof nw nn (order : seq K) (chi0l : chi_wn C n1 n2 n3 nb nw nn) (g : int -> 'M[C]_nb)
    (g2 : g2iw C (2 * nn) nb (2 * nw).-1) k w :
  k \in order -> invertible_PH (chi0_from_gg2_PH beta (nw := nw) (nn := nn) g w) ->
  invertible_PH (chi_from_gg2_PH beta g g2 w) ->
  (forall n a b c d, chi0l w n k a b c d = - beta * g (fidx n) d a * g (fidx n + bidx w) b c) ->
  chiq_from_chi0q_and_gamma_PH order chi0l (impurity_irreducible_vertex_Gamma beta g g2) k w =t chi_from_gg2_PH beta g g2 w.
Proof.
move=> hk u0 u1 hl; apply: (@C06_inverts_proof nw nn order chi0l (chi0_from_gg2_PH beta (nw := nw) (nn := nn) g)) => //.
  by move=> n n' a b c d /negbTE ne; rewrite /chi0_from_gg2_PH ne mulr0 !mul0r.
by move=> n a b c d; rewrite hl /chi0_from_gg2_PH eqxx mulr1 [bidx w + _]addrC.
Qed.
Theorem C06_impurity_route nw nn (order : seq K) (chi0l : chi_wn C n1 n2 n3 nb nw nn) (g : int -> 'M[C]_nb)
    (g2 : g2iw C (2 * nn) nb (2 * nw).-1) k w :
  k \in order -> invertible_PH (chi0_from_gg2_PH beta (nw := nw) (nn := nn) g w) ->
  invertible_PH (chi_from_gg2_PH beta g g2 w) ->
  (forall n a b c d, chi0l w n k a b c d = - beta * g (fidx n) d a * g (fidx n + bidx w) b c) ->
  chiq_from_chi0q_and_gamma_PH order chi0l (impurity_irreducible_vertex_Gamma beta g g2) k w =t chi_from_gg2_PH beta g g2 w.
Proof. exact (@C06_impurity_proof nw nn order chi0l g g2 k w). Qed.

(* ---------------- C07 ---------------- *)
Theorem C07_dual_bse_is_bse nranks sc nranks' sc' nw nn (g : gfun) (gl : int -> 'M[C]_nb)
    (g2 : g2iw C (2 * nn) nb (2 * nw).-1) (chi0' : g2iw C (2 * nn) nb (2 * nw).-1)
    (Lv : int -> int -> tensor4 C nb) (chi_imp : int -> tensor4 C nb) k w a b c d :
  fair_sched nranks sc -> fair_sched nranks' sc' ->
  (forall n, gl n = fourier_wk_to_wr z1 z2 z3 g n 0) ->
  let chi0 := chi0_from_gg2_PH beta (nw := nw) (nn := nn) gl in
  let chi := chi_from_gg2_PH beta gl g2 in
  let Gamma := impurity_irreducible_vertex_Gamma beta gl g2 in
  let Fv := impurity_reducible_vertex_F beta gl g2 in
  spec_prod_PH (chi0' w) (chi0 w) =t @spec_id_PH C (2 * nn) nb ->
  invertible_PH (chi w) ->
  (forall n a b c d, Lv (bidx w) (fidx n) a b c d = triangle_right beta (chi0' w) (chi w) n a b c d) ->
  reciprocal (triangle_left beta (chi0' w) (chi w)) (triangle_right beta (chi0' w) (chi w)) ->
  (forall a b c d, chi_imp (bidx w) a b c d = freq_trace beta (chi w) a b c d) ->
  let chi0_wnk := get_chi0_wnk z1 z2 z3 beta nranks' sc' (nw := nw) (nn := nn) g in
  nonsingular_PH (on_diag (slice_wk chi0_wnk w k)) (Gamma w) ->
  solve_lattice_dbse z1 z2 z3 beta nranks sc g Fv Lv chi_imp k w a b c d =
  chiq_sum_nu_from_chi0q_and_gamma_PH beta nranks' (sc' 31%N [finType of K * 'I_(2 * nw).-1]) chi0_wnk Gamma k w a b c d.
Proof. exact (@dual_lattice C n1 n2 n3 nb z1 z2 z3 beta nranks sc nranks' sc' nw nn g gl g2 chi0' Lv chi_imp k w a b c d). Qed.

(* the condition on the triangles holds whenever bubble and susceptibility have the transposition symmetry *)
Theorem C07_reciprocal_if_symmetric nn (A A' X : g2nn C nn nb) :
  spec_prod_PH A' A =t @spec_id_PH C nn nb -> ph_symmetric A -> ph_symmetric X ->
  reciprocal (triangle_left beta A' X) (triangle_right beta A' X).
Proof. exact (@symmetric_reciprocal C nn nb beta A A' X). Qed.

(* ---------------- C08 ---------------- *)
Section Transforms.
Variables (L : nat) (wt : (int -> 'M[C]_nb) -> 'I_L.+1 -> 'M[C]_nb) (tw_plan tw_lib : ('I_L.+1 -> C) -> int -> C).
Hypothesis plan_ext : ext_transform tw_plan.
Hypothesis lib_ext : ext_transform tw_lib.

Lemma C08_proof nranks sc nw nn (g : gfun) (gamma : g2iw C (2 * nn) nb (2 * nw).-1) k w a b c d :
  fair_sched nranks sc -> gamma w =t (fun _ _ _ _ _ _ => 0) ->
  (solve_lattice_bse z1 z2 z3 beta wt tw_plan tw_lib nranks sc g gamma).1 k w a b c d =
  imtime_bubble_chi0_wk z1 z2 z3 beta wt tw_plan tw_lib nranks sc (nw := nw) false g w k a b c d.
Proof.
move=> fs g0; have [-> _] := solve_lattice_bseE z1 z2 z3 beta wt tw_plan tw_lib g gamma k w a b c d fs.
by rewrite (freq_trace_ext _ _ _ _ _ (bse_zero _ g0)) freq_trace_diag addrC subrK.
Qed.
Theorem C08_zero_vertex_is_bubble nranks sc nw nn (g : gfun) (gamma : g2iw C (2 * nn) nb (2 * nw).-1) k w a b c d :
  fair_sched nranks sc -> gamma w =t (fun _ _ _ _ _ _ => 0) ->
  (solve_lattice_bse z1 z2 z3 beta wt tw_plan tw_lib nranks sc g gamma).1 k w a b c d =
  imtime_bubble_chi0_wk z1 z2 z3 beta wt tw_plan tw_lib nranks sc (nw := nw) false g w k a b c d.
Proof. exact (@C08_proof nranks sc nw nn g gamma k w a b c d). Qed.

(* the one-frequency variant *)
Lemma C08_specific_proof nranks sc nw nn (g : gfun) (gamma : g2iw C (2 * nn) nb (2 * nw).-1) (w : 'I_(2 * nw).-1) k a b c d :
  fair_sched nranks sc -> gamma w =t (fun _ _ _ _ _ _ => 0) ->
  let R := solve_lattice_bse_at_specific_w z1 z2 z3 beta wt tw_plan tw_lib nranks sc g gamma w in
  R.1 k a b c d = R.2 k a b c d.
Proof.
move=> fs g0 R; rewrite /R.
have [-> ->] := specific_wE z1 z2 z3 beta wt plan_ext lib_ext g gamma w k a b c d fs.
by rewrite (freq_trace_ext _ _ _ _ _ (bse_zero _ g0)) freq_trace_diag addrC subrK.
Qed.
Theorem C08_zero_vertex_at_specific_w nranks sc nw nn (g : gfun) (gamma : g2iw C (2 * nn) nb (2 * nw).-1) (w : 'I_(2 * nw).-1) k a b c d :
  fair_sched nranks sc -> gamma w =t (fun _ _ _ _ _ _ => 0) ->
  let R := solve_lattice_bse_at_specific_w z1 z2 z3 beta wt tw_plan tw_lib nranks sc g gamma w in
  R.1 k a b c d = R.2 k a b c d.
Proof. exact (@C08_specific_proof nranks sc nw nn g gamma w k a b c d). Qed.

(* ---------------- C44 ---------------- *)
Lemma C44_proof nranks sc nranks' sc' nw nn (g : gfun) (gamma : g2iw C (2 * nn) nb (2 * nw).-1) (w : 'I_(2 * nw).-1) k a b c d :
  fair_sched nranks sc -> fair_sched nranks' sc' -> (forall x, tw_plan x =1 tw_lib x) ->
  (bidx w != 0) || (nw == 1%N) ->
  let S := solve_lattice_bse_at_specific_w z1 z2 z3 beta wt tw_plan tw_lib nranks sc g gamma w in
  let R := solve_lattice_bse z1 z2 z3 beta wt tw_plan tw_lib nranks' sc' g gamma in
  S.1 k a b c d = R.1 k w a b c d /\ S.2 k a b c d = R.2 k w a b c d.
Proof.
move=> fs fs' tt hw S R.
have [-> ->] := specific_wE z1 z2 z3 beta wt plan_ext lib_ext g gamma w k a b c d fs.
have [-> ->] := solve_lattice_bseE z1 z2 z3 beta wt tw_plan tw_lib g gamma k w a b c d fs'.
have -> : imtime_bubble_chi0_wk z1 z2 z3 beta wt tw_plan tw_lib nranks' sc' (nw := nw) false g w k a b c d =
  fourier_r_to_k z1 z2 z3 (fun r => if bidx w == 0 then trapz beta (chi0_tau z1 z2 z3 wt g r a b c d)
     else tw_lib (chi0_tau z1 z2 z3 wt g r a b c d) (bidx w)) k.
  rewrite imtimeE //; apply: r2k_ext => r; rewrite tt.
  case/orP: hw => [/negbTE hw|/eqP hw]; last first.
    have -> : bidx w = 0 by rewrite /bidx; have := ltn_ord w; lia.
    by rewrite hw eqxx.
  rewrite hw; case: eqP => // hn; move/eqP: hw; rewrite /bidx; have := ltn_ord w; lia.
by [].
Qed.
(* at every non-zero bosonic frequency (and on the one-point mesh); missing: frequency zero on larger meshes, see next *)
Theorem C44_specific_w_partial nranks sc nranks' sc' nw nn (g : gfun) (gamma : g2iw C (2 * nn) nb (2 * nw).-1) (w : 'I_(2 * nw).-1) k a b c d :
  fair_sched nranks sc -> fair_sched nranks' sc' -> (forall x, tw_plan x =1 tw_lib x) ->
  (bidx w != 0) || (nw == 1%N) ->
  let S := solve_lattice_bse_at_specific_w z1 z2 z3 beta wt tw_plan tw_lib nranks sc g gamma w in
  let R := solve_lattice_bse z1 z2 z3 beta wt tw_plan tw_lib nranks' sc' g gamma in
  S.1 k a b c d = R.1 k w a b c d /\ S.2 k a b c d = R.2 k w a b c d.
Proof. exact (@C44_proof nranks sc nranks' sc' nw nn g gamma w k a b c d). Qed.

(* at frequency zero on a mesh with several frequencies the two differ by exactly the difference between the
   trapezoidal rule and the Fourier transform of the bubble *)
Lemma C44_zero_proof nranks sc nranks' sc' nw nn (g : gfun) (gamma : g2iw C (2 * nn) nb (2 * nw).-1) (w : 'I_(2 * nw).-1) k a b c d :
  fair_sched nranks sc -> fair_sched nranks' sc' -> bidx w = 0 -> nw != 1%N ->
  let S := solve_lattice_bse_at_specific_w z1 z2 z3 beta wt tw_plan tw_lib nranks sc g gamma w in
  let R := solve_lattice_bse z1 z2 z3 beta wt tw_plan tw_lib nranks' sc' g gamma in
  let x r := chi0_tau z1 z2 z3 wt g r a b c d in
  S.1 k a b c d - R.1 k w a b c d = fourier_r_to_k z1 z2 z3 (fun r => trapz beta (x r)  - tw_plan (x r) 0) k.
Proof.
move=> fs fs' hw hn S R x.
have [-> _] := specific_wE z1 z2 z3 beta wt plan_ext lib_ext g gamma w k a b c d fs.
have [-> _] := solve_lattice_bseE z1 z2 z3 beta wt tw_plan tw_lib g gamma k w a b c d fs'.
rewrite imtimeE // hw eqxx (negbTE hn) opprD addrACA subrr add0r opprB addrA subrK -/x.
rewrite /fourier_r_to_k -sumrB; apply: eq_bigr => r _; by rewrite mulrBr.
Qed.
Theorem C44_zero_frequency_difference nranks sc nranks' sc' nw nn (g : gfun) (gamma : g2iw C (2 * nn) nb (2 * nw).-1) (w : 'I_(2 * nw).-1) k a b c d :
  fair_sched nranks sc -> fair_sched nranks' sc' -> bidx w = 0 -> nw != 1%N ->
  let S := solve_lattice_bse_at_specific_w z1 z2 z3 beta wt tw_plan tw_lib nranks sc g gamma w in
  let R := solve_lattice_bse z1 z2 z3 beta wt tw_plan tw_lib nranks' sc' g gamma in
  let x r := chi0_tau z1 z2 z3 wt g r a b c d in
  S.1 k a b c d - R.1 k w a b c d = fourier_r_to_k z1 z2 z3 (fun r => trapz beta (x r)  - tw_plan (x r) 0) k.
Proof. exact (@C44_zero_proof nranks sc nranks' sc' nw nn g gamma w k a b c d). Qed.

(* ---------------- C45 ---------------- *)
Lemma C45_proof nranks sc nranks' sc' nw (g : gfun) w q a b c d :
  fair_sched nranks sc -> fair_sched nranks' sc' -> (forall x, tw_plan x =1 tw_lib x) ->
  imtime_bubble_chi0_wk z1 z2 z3 beta wt tw_plan tw_lib nranks sc (nw := nw) true g w q a b c d =
  imtime_bubble_chi0_wk z1 z2 z3 beta wt tw_plan tw_lib nranks' sc' (nw := nw) false g w q a b c d.
Proof. by move=> fs fs' tt; rewrite !imtimeE //; apply: r2k_ext => r; rewrite tt. Qed.
Theorem C45_memory_saving_bubble nranks sc nranks' sc' nw (g : gfun) w q a b c d :
  fair_sched nranks sc -> fair_sched nranks' sc' -> (forall x, tw_plan x =1 tw_lib x) ->
  imtime_bubble_chi0_wk z1 z2 z3 beta wt tw_plan tw_lib nranks sc (nw := nw) true g w q a b c d =
  imtime_bubble_chi0_wk z1 z2 z3 beta wt tw_plan tw_lib nranks' sc' (nw := nw) false g w q a b c d.
Proof. exact (@C45_proof nranks sc nranks' sc' nw g w q a b c d). Qed.

(* the trapezoidal paths: per-r accumulation equals integrating the stored bubble *)
Lemma C45_static_proof nranks sched nranks' sched' nranks'' sched'' (g : gtr C n1 n2 n3 nb L) w r a b c d :
  fair_all nranks sched -> fair_all nranks' sched' -> fair_all nranks'' sched'' ->
  chi0_w0r_from_grt_PH beta nranks sched g w r a b c d =
  chi_w0r_from_chi_tr beta nranks' sched' (chi0_tr_from_grt_PH nranks'' sched'' g) w r a b c d.
Proof.
move=> f1 f2 f3; rewrite /chi0_w0r_from_grt_PH /chi_w0r_from_chi_tr !fair_all_map //.
by apply: trapz_ext => t; rewrite /chi0_tr_from_grt_PH fair_all_map.
Qed.
Theorem C45_static_bubble nranks sched nranks' sched' nranks'' sched'' (g : gtr C n1 n2 n3 nb L) w r a b c d :
  fair_all nranks sched -> fair_all nranks' sched' -> fair_all nranks'' sched'' ->
  chi0_w0r_from_grt_PH beta nranks sched g w r a b c d =
  chi_w0r_from_chi_tr beta nranks' sched' (chi0_tr_from_grt_PH nranks'' sched'' g) w r a b c d.
Proof. exact (@C45_static_proof nranks sched nranks' sched' nranks'' sched'' g w r a b c d). Qed.
End Transforms.

(* C08, routine with tail correction from the Green's function: the reused array is invisible, and without vertex
   the result is the tail-corrected sum of the bubble, whatever the window nn *)

Lemma C08_tail_proof nw nn density nranks (g : gfun) (gamma : g2iw C (2 * nn) nb (2 * nw).-1) tail R k w a b c d :
  (0 < nranks)%N -> gamma w =t (fun _ _ _ _ _ _ => 0) ->
  (forall nt x y, x =1 y -> density nt x = density nt y) ->
  chiq_sum_nu_from_g_wk_and_gamma_PH beta density nranks g gamma tail = Some R ->
  R k w a b c d = density (tail_nwf nn tail) (fun n => bubble_spec beta g (bidx w) (fidx n) k a b c d) / beta.
Proof.
move=> n0 g0 dext /chiq_tailE e; rewrite e // /tail_value.
rewrite (freq_trace_ext _ _ _ _ _ (bse_zero _ g0)) freq_trace_diag addrC subrK.
by congr (_ / _); apply: dext => n; rewrite chi0_n_E.
Qed.
Theorem C08_zero_vertex_tail_routine nw nn density nranks (g : gfun) (gamma : g2iw C (2 * nn) nb (2 * nw).-1) tail R k w a b c d :
  (0 < nranks)%N -> gamma w =t (fun _ _ _ _ _ _ => 0) ->
  (forall nt x y, x =1 y -> density nt x = density nt y) ->
  chiq_sum_nu_from_g_wk_and_gamma_PH beta density nranks g gamma tail = Some R ->
  R k w a b c d = density (tail_nwf nn tail) (fun n => bubble_spec beta g (bidx w) (fidx n) k a b c d) / beta.
Proof. exact (@C08_tail_proof nw nn density nranks g gamma tail R k w a b c d). Qed.

(* with any vertex, the routine returns at each point the Bethe-Salpeter trace plus the tail correction of the bubble
   (the array that all points of a rank share is invisible) *)
Lemma C08_tail_general_proof nw nn density nranks (g : gfun) (gamma : g2iw C (2 * nn) nb (2 * nw).-1) tail R k w a b c d :
  (0 < nranks)%N ->
  (forall nt x y, x =1 y -> density nt x = density nt y) ->
  let x : g2n C (2 * nn) nb := fun n => bubble_spec beta g (bidx w) (fidx n) k in
  nonsingular_PH (on_diag x) (gamma w) ->
  chiq_sum_nu_from_g_wk_and_gamma_PH beta density nranks g gamma tail = Some R ->
  exists2 chi, bse_equation (on_diag x) (gamma w) chi &
  R k w a b c d = freq_trace beta chi a b c d +
    (density (tail_nwf nn tail) (fun n => bubble_spec beta g (bidx w) (fidx n) k a b c d) / beta
     - (\sum_n x n a b c d) / beta ^+ 2).
Proof.
move=> n0 dext x ns /chiq_tailE e; exists (bse_point x (gamma w)); first exact: bse_solves.
rewrite e // /tail_value; congr (_ + (_ / _ - _ / _)).
- by apply: freq_trace_ext; apply: bse_point_ext => // n a' b' c' d'; rewrite chi0_n_E.
- by apply: dext => n; rewrite chi0_n_E.
- by apply: eq_bigr => n _; rewrite chi0_n_E.
Qed.
Theorem C08_tail_routine nw nn density nranks (g : gfun) (gamma : g2iw C (2 * nn) nb (2 * nw).-1) tail R k w a b c d :
  (0 < nranks)%N ->
  (forall nt x y, x =1 y -> density nt x = density nt y) ->
  let x : g2n C (2 * nn) nb := fun n => bubble_spec beta g (bidx w) (fidx n) k in
  nonsingular_PH (on_diag x) (gamma w) ->
  chiq_sum_nu_from_g_wk_and_gamma_PH beta density nranks g gamma tail = Some R ->
  exists2 chi, bse_equation (on_diag x) (gamma w) chi &
  R k w a b c d = freq_trace beta chi a b c d +
    (density (tail_nwf nn tail) (fun n => bubble_spec beta g (bidx w) (fidx n) k a b c d) / beta
     - (\sum_n x n a b c d) / beta ^+ 2).
Proof. exact (@C08_tail_general_proof nw nn density nranks g gamma tail R k w a b c d). Qed.

(* ---------------- C11 ---------------- *)
Lemma C11_proof nw nn nranks sched nranks' sched' (chi0 : chi_wn C n1 n2 n3 nb nw nn) (gamma : g2iw C (2 * nn) nb (2 * nw).-1)
    (U : t4) k w a b c d :
  fair_all nranks sched -> fair_all nranks' sched' -> beta != 0 ->
  (forall n n' a b c d, gamma w n n' a b c d = U a b c d / beta ^+ 2) ->
  eq_t4 (swap_pairs U) U ->
  nonsingular_PH (on_diag (slice_wk chi0 w k)) (gamma w) ->
  chiq_sum_nu_from_chi0q_and_gamma_PH beta nranks sched chi0 gamma k w a b c d =
  rpa_point U (chi0q_sum_nu beta nranks' sched' chi0 w k) a b c d.
Proof.
move=> fs fs' b0 hg hU ns; rewrite chiq_sum_nuE //.
pose U' : t4 := fun a b c d => U a b c d / beta ^+ 2.
have eG : gamma w =t (fun _ _ => U') by move=> n n' a' b' c' d'; rewrite hg.
have ns' : nonsingular_PH (on_diag (slice_wk chi0 w k)) (fun _ _ => U').
  by apply/nonsingular_PHP; move/(chmat_inj PH): eG => <-; apply/nonsingular_PHP.
rewrite (freq_trace_ext _ _ _ _ _ (bse_point_ext (fun _ _ _ _ _ => erefl) eG)) /freq_trace.
rewrite (const_vertex ns'); set S := (fun _ _ _ _ => _).
rewrite -!tmatE !tmat_rpa.
have e1 : tmat (chi0q_sum_nu beta nranks' sched' chi0 w k) = beta ^- 2 *: tmat S.
  by apply/matrixP=> i j; rewrite !mxE chi0q_sum_nuE // mulrC.
have e2 : tmat (swap_pairs U') = beta ^- 2 *: tmat U.
  by apply/matrixP=> i j; rewrite !mxE /swap_pairs /U' -[in RHS]hU mulrC.
by rewrite e1 e2 -scalemxAl -!scalemxAr !mxE mulrC.
Qed.
Theorem C11_rpa_is_bse_with_constant_vertex nw nn nranks sched nranks' sched' (chi0 : chi_wn C n1 n2 n3 nb nw nn)
    (gamma : g2iw C (2 * nn) nb (2 * nw).-1) (U : t4) k w a b c d :
  fair_all nranks sched -> fair_all nranks' sched' -> beta != 0 ->
  (forall n n' a b c d, gamma w n n' a b c d = U a b c d / beta ^+ 2) ->
  eq_t4 (swap_pairs U) U ->
  nonsingular_PH (on_diag (slice_wk chi0 w k)) (gamma w) ->
  chiq_sum_nu_from_chi0q_and_gamma_PH beta nranks sched chi0 gamma k w a b c d =
  rpa_point U (chi0q_sum_nu beta nranks' sched' chi0 w k) a b c d.
Proof. exact (@C11_proof nw nn nranks sched nranks' sched' chi0 gamma U k w a b c d). Qed.
End Main.

(* C44 at frequency zero with the transform of the repository: the difference is the error the trapezoidal rule makes
   on the three-pole tail *)
Section ZeroFrequency.
Variables (C : numClosedFieldType) (n1 n2 n3 nb M : nat) (z1 z2 z3 : C) (beta zh : C) (ex : C -> C).
Variables (freq : statistic -> int -> C) (V0 V1 : 'I_8 -> C).
Local Notation CF := (Num.ClosedField.fieldType C).
Local Notation L := M.+1.
Variable wt : (int -> 'M[C]_nb) -> 'I_L.+1 -> 'M[C]_nb.
Let tw := tau_to_w (L := L) beta zh ex freq V0 V1 Boson.
(* the coefficients of the tail fitted to a function of time *)
Definition fitted_tail (x : 'I_L.+1 -> C) : C * C * C :=
  let m := fit_derivatives (L := L) beta V0 V1 Boson x in coefs Boson (- (x ord0 - x ord_max)) m.1 m.2.

Lemma tw_ext : ext_transform (C := CF) tw.
Proof. by move=> x y h w; apply: tau_to_w_ext. Qed.

Lemma C44_tail_proof nranks sc nranks' sc' nw nn (g : gfun CF n1 n2 n3 nb) (gamma : g2iw CF (2 * nn) nb (2 * nw).-1)
    (w : 'I_(2 * nw).-1) k a b c d :
  fair_sched nranks sc -> fair_sched nranks' sc' -> bidx w = 0 -> nw != 1%N ->
  ex 0 = 1 -> freq Boson 0 = 0 ->
  (forall p, (p == (poles C Boson).1.1) || (p == (poles C Boson).1.2) || (p == (poles C Boson).2) -> jump_ok beta ex Boson p) ->
  let S := solve_lattice_bse_at_specific_w (C := CF) z1 z2 z3 beta wt tw tw nranks sc g gamma w in
  let R := solve_lattice_bse (C := CF) z1 z2 z3 beta wt tw tw nranks' sc' g gamma in
  let x r := chi0_tau (C := CF) z1 z2 z3 wt g r a b c d in
  let tail r := fitted_tail (x r) in
  S.1 k a b c d - R.1 k w a b c d = fourier_r_to_k (C := CF) z1 z2 z3 (fun r =>
    trapz (C := CF) (L := L) beta (tail_t (L := L) beta ex Boson (tail r)) - tail_w freq Boson (tail r) 0) k.
Proof.
move=> fs fs' hw hn ex0 f0 jo S R x tail.
rewrite /S /R (C44_zero_frequency_difference (C := CF) z1 z2 z3 beta wt tw_ext tw_ext g gamma k a b c d fs fs' hw hn).
apply: r2k_ext => r; rewrite /tw /tau_to_w -/(x r) (@zero_frequency C M beta zh ex freq ex0 _ (x r) f0 jo).
have gen (V : zmodType) (p q s : V) : p - (p + (q - s)) = s - q by rewrite opprD addrA subrr add0r opprB.
exact: (gen CF).
Qed.
Theorem C44_zero_frequency_tail_error nranks sc nranks' sc' nw nn (g : gfun CF n1 n2 n3 nb) (gamma : g2iw CF (2 * nn) nb (2 * nw).-1)
    (w : 'I_(2 * nw).-1) k a b c d :
  fair_sched nranks sc -> fair_sched nranks' sc' -> bidx w = 0 -> nw != 1%N ->
  ex 0 = 1 -> freq Boson 0 = 0 ->
  (forall p, (p == (poles C Boson).1.1) || (p == (poles C Boson).1.2) || (p == (poles C Boson).2) -> jump_ok beta ex Boson p) ->
  let S := solve_lattice_bse_at_specific_w (C := CF) z1 z2 z3 beta wt tw tw nranks sc g gamma w in
  let R := solve_lattice_bse (C := CF) z1 z2 z3 beta wt tw tw nranks' sc' g gamma in
  let x r := chi0_tau (C := CF) z1 z2 z3 wt g r a b c d in
  let tail r := fitted_tail (x r) in
  S.1 k a b c d - R.1 k w a b c d = fourier_r_to_k (C := CF) z1 z2 z3 (fun r =>
    trapz (C := CF) (L := L) beta (tail_t (L := L) beta ex Boson (tail r)) - tail_w freq Boson (tail r) 0) k.
Proof. exact (@C44_tail_proof nranks sc nranks' sc' nw nn g gamma w k a b c d). Qed.
End ZeroFrequency.

(* ---------------- concrete cases ---------------- *)
Section Cases.
Local Notation Q := rat_fieldType.
Local Notation "A =t B" := (eq_g2 A B) (at level 70).
Definition in_order nranks : schedules := fun _ T r => mpi_view (enum T) nranks r.
Lemma in_order_fair nranks : (0 < nranks)%N -> fair_sched nranks (in_order nranks).
Proof. by move=> h i T; apply: fair_all_inorder. Qed.

(* one site, one orbital, one positive fermionic frequency: numbers on the frequency diagonal *)
Definition dnum (c : rat) : g2nn Q 2 1 := fun n n' _ _ _ _ => c * (n == n')%:R.
Lemma dnum_mat c : chmat PH (dnum c) = c%:M.
Proof.
apply/matrixP=> i j; rewrite !mxE /dnum mulr_natr; congr (_ *+ (_ : bool)).
by rewrite -{2}(tidx_eta i) -{2}(tidx_eta j) tidx_eq !ord1 !eqxx !andbT.
Qed.
Lemma scalar_unit m (c : rat) : c != 0 -> (c%:M : 'M[rat]_m) \in unitmx.
Proof. by move=> h; rewrite unitmxE det_scalar unitfE expf_neq0. Qed.
Lemma dnum_unit c : c != 0 -> invertible_PH (dnum c).
Proof. by move=> h; apply/invertibleP; rewrite dnum_mat; apply: scalar_unit. Qed.
Lemma dnum_prod x y : spec_prod_PH (dnum x) (dnum y) =t dnum (x * y).
Proof. by apply/(chmat_inj PH); rewrite spec_prod_mat !dnum_mat -scalar_mxM. Qed.
Lemma sum_dnum (x : rat) (n : 'I_2) : \sum_n' x * (n == n')%:R = x.
Proof.
rewrite (bigD1 n) //= eqxx mulr1 big1 ?addr0 // => m /negbTE; rewrite eq_sym => ->.
by rewrite mulr0.
Qed.

(* C06: chi0 = -2, chi = 3 *)
Example C06_case : chiq_from_chi0q_and_gamma_PH (C := Q) (n1 := 0) (n2 := 0) (n3 := 0) (nb := 1) (nw := 1) (nn := 1) (enum [finType of site 0 0 0])
   (fun _ _ _ _ _ _ _ => - 2%:R)
   (solve_local_bse (C := Q) (nw := 1) (nn := 1) (fun _ => dnum (- 2%:R)) (fun _ => dnum 3%:R)) (0 : site 0 0 0) ord0 =t dnum 3%:R.
Proof.
apply: (C06_local_bse_inverts_lattice_bse (C := Q) (nw := 1) (nn := 1) (chi0 := fun _ => dnum (- 2%:R)) (chi := fun _ => dnum 3%:R)).
- by rewrite mem_enum.
- by move=> n n' a b c d /negbTE ne; rewrite /dnum ne mulr0.
- exact: dnum_unit.
- exact: dnum_unit.
- by move=> n a b c d; rewrite /dnum eqxx mulr1.
Qed.

(* C07: G = 1 on one site and a two-particle function such that chi = 2 on the diagonal; every hypothesis holds *)
Let g1 : gfun Q 0 0 0 1 := fun _ _ => 1%:M.
Let gl1 : int -> 'M[rat]_1 := fun _ => 1%:M.
Let g2one : g2iw Q (2 * 1) 1 (2 * 1).-1 := fun _ n n' _ _ _ _ => 1 + 2%:R * (n == n')%:R.
Lemma K1all (k : site 0 0 0) : k = 0.
Proof. by case: k => [[k1 k2] k3]; rewrite !ord1. Qed.
Lemma K1sum (f : site 0 0 0 -> rat) : \sum_(k : site 0 0 0) f k = f 0.
Proof.
rewrite (bigD1 (0 : site 0 0 0)) //= big1 ?addr0 // => k.
by case/negP; rewrite (K1all k).
Qed.
Lemma phase1 (k r : site 0 0 0) : phase (C := Q) 1 1 1 k r = 1.
Proof. by rewrite /phase !expr1n !mulr1. Qed.
Lemma g1r n r : fourier_wk_to_wr (C := Q) 1 1 1 g1 n r = 1%:M.
Proof.
apply/matrixP=> i j; rewrite mxE /fourier_k_to_r K1sum phase1 invr1 mul1r /g1.
by rewrite mulr1.
Qed.
Lemma one_site_chi0 w : chi0_from_gg2_PH (C := Q) (nw := 1) (nn := 1) 1 gl1 w =t dnum (-1).
Proof. by move=> n n' a b c d; rewrite /chi0_from_gg2_PH /gl1 !mxE !ord1 !eqxx !mulr1. Qed.
Lemma one_site_chi w : chi_from_gg2_PH (C := Q) (nw := 1) (nn := 1) 1 gl1 g2one w =t dnum 2%:R.
Proof.
move=> n n' a b c d; rewrite /chi_from_gg2_PH /gl1 !mxE (ord1 w) (ord1 a) (ord1 b) (ord1 c) (ord1 d) !eqxx !mulr1 /g2one /dnum.
by rewrite addrAC subrr add0r.
Qed.
Lemma one_site_bubble nranks w k : (0 < nranks)%N ->
  on_diag (slice_wk (get_chi0_wnk (C := Q) 1 1 1 1 nranks (in_order nranks) (nw := 1) (nn := 1) g1) w k) =t dnum (-1).
Proof.
move=> h n n' a b c d; rewrite /on_diag /slice_wk /dnum.
case: eqP => e; last by rewrite mulr0.
rewrite get_chi0_wnkE; last exact: in_order_fair.
rewrite /fourier_r_to_k K1sum phase1 mul1r /chi0r_kernel.
by rewrite !g1r !mxE (ord1 a) (ord1 b) (ord1 c) (ord1 d).
Qed.
Example C07_case k w a b c d :
  solve_lattice_dbse (C := Q) (n1 := 0) (n2 := 0) (n3 := 0) (nw := 1) (nn := 1) 1 1 1 1 1 (in_order 1) g1
    (impurity_reducible_vertex_F (nw := 1) (nn := 1) 1 gl1 g2one)
    (fun _ _ _ _ _ _ => - 2%:R) (fun _ _ _ _ _ => 4%:R) k w a b c d =
  chiq_sum_nu_from_chi0q_and_gamma_PH 1 1 (in_order 1 31%N [finType of site 0 0 0 * 'I_(2 * 1).-1])
    (get_chi0_wnk (C := Q) 1 1 1 1 1 (in_order 1) (nw := 1) (nn := 1) g1)
    (impurity_irreducible_vertex_Gamma (nw := 1) (nn := 1) 1 gl1 g2one) k w a b c d.
Proof.
have fs := in_order_fair (ltn0Sn 0).
have e0 : chmat PH (chi0_from_gg2_PH (C := Q) (nw := 1) (nn := 1) 1 gl1 w) = (-1)%:M.
  by rewrite -dnum_mat; apply/(chmat_inj PH)/one_site_chi0.
have e1 : chmat PH (chi_from_gg2_PH (C := Q) (nw := 1) (nn := 1) 1 gl1 g2one w) = (2%:R)%:M.
  by rewrite -dnum_mat; apply/(chmat_inj PH)/one_site_chi.
have pr : spec_prod_PH (dnum (-1)) (chi_from_gg2_PH (C := Q) (nw := 1) (nn := 1) 1 gl1 g2one w) =t dnum (- 2%:R).
  by apply/(chmat_inj PH); rewrite spec_prod_mat !dnum_mat e1 -scalar_mxM mulN1r.
have pl : spec_prod_PH (chi_from_gg2_PH (C := Q) (nw := 1) (nn := 1) 1 gl1 g2one w) (dnum (-1)) =t dnum (- 2%:R).
  by apply/(chmat_inj PH); rewrite spec_prod_mat !dnum_mat e1 -scalar_mxM mulrN1.
have tr n a' b' c' d' : triangle_right (1 : Q) (dnum (-1)) (chi_from_gg2_PH (C := Q) (nw := 1) (nn := 1) 1 gl1 g2one w) n a' b' c' d' = - 2%:R.
  rewrite /triangle_right invr1 mul1r -[RHS](sum_dnum _ n); apply: eq_bigr => n' _; exact: pr.
have tl n a' b' c' d' : triangle_left (1 : Q) (dnum (-1)) (chi_from_gg2_PH (C := Q) (nw := 1) (nn := 1) 1 gl1 g2one w) n a' b' c' d' = - 2%:R.
  rewrite /triangle_left invr1 mul1r -[RHS](sum_dnum _ n); apply: eq_bigr => n' _; rewrite eq_sym; exact: pl.
apply: (@C07_dual_bse_is_bse Q 0 0 0 1 1 1 1 1 1 _ 1 _ 1 1 g1 gl1 g2one (fun _ => dnum (-1)) _ _ k w a b c d fs fs).
- by move=> n; rewrite g1r.
- by apply/(chmat_inj PH); rewrite spec_prod_mat spec_id_mat dnum_mat e0 -scalar_mxM mulrNN mulr1.
- by apply/invertibleP; rewrite e1; apply: scalar_unit.
- by move=> n a' b' c' d'; rewrite tr.
- by move=> n a' b' c' d'; rewrite tl tr.
- move=> a' b' c' d'; rewrite /freq_trace expr1n divr1.
  under eq_bigr => n _ do (under eq_bigr => n' _ do rewrite one_site_chi); under eq_bigr do rewrite sum_dnum.
  by rewrite big_ord_recl big_ord1.
- apply/nonsingular_PHP; have /(chmat_inj PH) -> := one_site_bubble w k (ltn0Sn 0).
  rewrite dnum_mat cm_sub !inverse_mat e0 e1 !invmx_scalar.
  rewrite -raddfB -scalar_mxM -raddfB; exact: scalar_unit.
Qed.

(* C11: one orbital, constant vertex U = 3, beta = 1, bubble -1 at both frequencies: the denominator is invertible *)
Example C11_case : nonsingular_PH (on_diag (fun (_ : 'I_2) (_ _ _ _ : 'I_1) => -1 : Q)) (fun _ _ _ _ _ _ => 3%:R).
Proof.
exists (fun n n' _ _ _ _ => (n == n')%:R - 3%:R / 7%:R) => n n' a b c d.
rewrite /spec_prod_PH /spec_id_PH /on_diag; do 3 (rewrite ?big_ord_recl ?big_ord0 /=).
rewrite !(ord1 a) !(ord1 b) !(ord1 c) !(ord1 d).
by case: n n' => [[|[|//]] hn] [[|[|//]] hn']; rewrite ?big_ord_recl ?big_ord0 /=; apply/eqP; vm_compute.
Qed.

(* C44: the conditions on exponential and frequencies are satisfiable *)
Example C44_case : let ex (x : algC) : algC := if x == 0 then 1 else 2%:R in
  ex 0 = 1 /\ (forall p, (p == (poles _ Boson).1.1) || (p == (poles _ Boson).1.2) || (p == (poles _ Boson).2) -> jump_ok 1 ex Boson p).
Proof.
split; first by rewrite eqxx.
have one : (2%:R - 1 : algC) = 1 by rewrite (natrD _ 1 1) addrK.
have one' : (1 - 2%:R : algC) = - 1 by rewrite -opprB one.
move=> p hp; have p0 : p != 0.
  case/orP: hp => [/orP [] |] /eqP -> /=; rewrite ?oppr_eq0 ?invr_eq0 ?oner_eq0 ?pnatr_eq0 //.
by rewrite /jump_ok !mulr1 mulN1r oppr_eq0 (negbTE p0) one one' oppr_eq0 oner_eq0.
Qed.
End Cases.

Print Assumptions C06_lattice_bse_solves.
Print Assumptions C06_local_bse_inverts_lattice_bse.
Print Assumptions C06_vertex_is_recovered.
Print Assumptions C06_impurity_route.
Print Assumptions C07_dual_bse_is_bse.
Print Assumptions C07_reciprocal_if_symmetric.
Print Assumptions C08_zero_vertex_is_bubble.
Print Assumptions C08_zero_vertex_at_specific_w.
Print Assumptions C44_specific_w_partial.
Print Assumptions C44_zero_frequency_difference.
Print Assumptions C45_memory_saving_bubble.
Print Assumptions C45_static_bubble.
Print Assumptions C08_zero_vertex_tail_routine.
Print Assumptions C08_tail_routine.
Print Assumptions C11_rpa_is_bse_with_constant_vertex.
Print Assumptions C44_zero_frequency_tail_error.
