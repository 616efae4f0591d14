(* C10 (RPA), C16/C17 (screened interaction), C51 (ladder vertex). *)
From mathcomp Require Import all_ssreflect all_algebra.
From Verif Require Import Base MatAlg MpiModel MpiProofs RpaModel RpaSpec RpaProofs.
Set Implicit Arguments.
Unset Strict Implicit.
Unset Printing Implicit Defensive.
Import GRing.Theory.
Local Open Scope ring_scope.

(* a distributed run: at least one rank, meshes without repetition, every thread schedule *)
Definition fair_run (W K : eqType) (nranks : nat) (wm : seq W) (km : seq K) (sched : nat -> seq (W * K)) :=
  [/\ (0 < nranks)%N, uniq wm, uniq km &
   forall r, (r < nranks)%N -> perm_eq (sched r) (mpi_view (allpairs pair wm km) nranks r)].

Section Main.
Variables (F : fieldType) (nb : nat) (W K M : eqType).
Local Notation t4 := (tensor4 F nb).
Local Notation chiwk := (chi_wk F nb W K M).
Local Notation chik := (chi_k F nb K M).

Lemma C10_proof nranks sched (chi0 : chiwk) (U : t4) w k :
  fair_run nranks (wmesh chi0) (kmesh chi0) sched -> w \in wmesh chi0 -> k \in kmesh chi0 ->
  nonsingular (chi_dat chi0 w k) U ->
  let chi := chi_dat (solve_rpa_PH nranks sched chi0 U) w k in
  rpa_equation (chi_dat chi0 w k) U chi /\
  (forall X, rpa_equation (chi_dat chi0 w k) U X -> eq_t4 X chi).
Proof.
move=> [h1 h2 h3 h4] hw hk ns chi.
have e : eq_t4 chi (rpa_point U (chi_dat chi0 w k)).
  by move=> a b c d; apply: (on_meshE _ h1 h2 h3 h4).
split.
  have := rpa_solves ns; rewrite /rpa_equation => /eq_tmat h; apply/eq_tmat.
  by move/eq_tmat: e => e; move: h; rewrite !tmat_add !tmat_contract -e.
by move=> X /(rpa_unique ns) h a b c d; rewrite h e.
Qed.

(* C10: solve_rpa_PH returns, at every mesh point and for every distribution of the work, the unique
   solution of chi = chi0 + chi0.U.chi *)
Theorem C10_rpa_dyson nranks sched (chi0 : chiwk) (U : t4) w k :
  fair_run nranks (wmesh chi0) (kmesh chi0) sched -> w \in wmesh chi0 -> k \in kmesh chi0 ->
  nonsingular (chi_dat chi0 w k) U ->
  let chi := chi_dat (solve_rpa_PH nranks sched chi0 U) w k in
  rpa_equation (chi_dat chi0 w k) U chi /\
  (forall X, rpa_equation (chi_dat chi0 w k) U X -> eq_t4 X chi).
Proof. exact (@C10_proof nranks sched chi0 U w k). Qed.

Theorem C10_rpa_zero_interaction (X : t4) : eq_t4 (rpa_point (fun _ _ _ _ => 0) X) X.
Proof. exact (rpa_zero X). Qed.

(* C10/C11: with an interaction invariant under exchange inside both pairs the particle-hole grouping of
   the two-particle algebra is obtained as well *)
Theorem C10_rpa_PH_grouping_if_symmetric (U X : t4) :
  eq_t4 (swap_pairs U) U -> nonsingular X U -> rpa_equation_PH X U (rpa_point U X).
Proof. exact (@rpa_PH_if_symmetric F nb U X). Qed.

Lemma C16_proof nranks sched (PI : chiwk) (V : chik) (Vd : chiwk) w k :
  fair_run nranks (wmesh PI) (kmesh PI) sched -> w \in wmesh PI -> k \in kmesh PI ->
  kmesh_id PI = vkmesh_id V -> kmesh_id PI = kmesh_id Vd ->
  (forall w', eq_t4 (chi_dat Vd w' k) (v_dat V k)) ->
  nonsingular (chi_dat PI w k) (v_dat V k) ->
  exists W1 W2 W3, [/\ W_static nranks sched PI V = Some W1,
    W_static_generic nranks sched PI V = Some W2,
    W_dynamic nranks sched PI Vd = Some W3
  & let Wf := chi_dat W1 w k in
    [/\ eq_t4 (chi_dat W2 w k) Wf, eq_t4 (chi_dat W3 w k) Wf,
        eq_t4 Wf (add4 (v_dat V k) (contract (v_dat V k) (contract (chi_dat PI w k) Wf)))
      & forall Y, eq_t4 Y (add4 (v_dat V k) (contract (v_dat V k) (contract (chi_dat PI w k) Y))) ->
          eq_t4 Y Wf ]].
Proof.
move=> [h1 h2 h3 h4] hw hk e1 e2 hV ns.
have e3 : kmesh_id Vd = vkmesh_id V by rewrite -e1 -e2.
rewrite /W_static /W_static_generic /W_dynamic e1 e3 eqxx /=; do 3 eexists; split; [by []|by []|by []|] => /=.
pose Wf := on_mesh nranks sched (fun w k => W_opt_bubble (chi_dat PI w k) (v_dat V k)) w k.
rewrite -/Wf.
have eW : eq_t4 Wf (W_generic_bubble (chi_dat PI w k) (v_dat V k)).
  by move=> a b c d; rewrite /Wf /= (on_meshE _ h1 h2 h3 h4) // W_opt_generic.
split.
- by move=> a b c d; rewrite eW /= (on_meshE _ h1 h2 h3 h4).
- move=> a b c d; rewrite eW /= (on_meshE _ h1 h2 h3 h4) //.
  have /eq_tmat e : eq_t4 (chi_dat Vd w k) (v_dat V k) by exact: hV.
  by rewrite /W_generic_bubble e.
- have := W_equation ns => /eq_tmat h; apply/eq_tmat; move/eq_tmat: eW => eW.
  by move: h; rewrite !tmat_add !tmat_contract -eW.
- by move=> Y /(W_unique ns) h a b c d; rewrite h eW.
Qed.

(* C16: all overloads agree and return the unique solution of W = V + V.Pi.W *)
Theorem C16_W_overloads nranks sched (PI : chiwk) (V : chik) (Vd : chiwk) w k :
  fair_run nranks (wmesh PI) (kmesh PI) sched -> w \in wmesh PI -> k \in kmesh PI ->
  kmesh_id PI = vkmesh_id V -> kmesh_id PI = kmesh_id Vd ->
  (forall w', eq_t4 (chi_dat Vd w' k) (v_dat V k)) ->
  nonsingular (chi_dat PI w k) (v_dat V k) ->
  exists W1 W2 W3, [/\ W_static nranks sched PI V = Some W1,
    W_static_generic nranks sched PI V = Some W2,
    W_dynamic nranks sched PI Vd = Some W3
  & let Wf := chi_dat W1 w k in
    [/\ eq_t4 (chi_dat W2 w k) Wf, eq_t4 (chi_dat W3 w k) Wf,
        eq_t4 Wf (add4 (v_dat V k) (contract (v_dat V k) (contract (chi_dat PI w k) Wf)))
      & forall Y, eq_t4 Y (add4 (v_dat V k) (contract (v_dat V k) (contract (chi_dat PI w k) Y))) ->
          eq_t4 Y Wf ]].
Proof. exact (@C16_proof nranks sched PI V Vd w k). Qed.

(* C16: momentum meshes that differ are rejected by every overload, and only then *)
Theorem C16_mesh_mismatch nranks sched (PI Vd : chiwk) (V : chik) :
  (W_static nranks sched PI V = None <-> kmesh_id PI <> vkmesh_id V) /\
  (W_static_generic nranks sched PI V = None <-> kmesh_id PI <> vkmesh_id V) /\
  (W_dynamic nranks sched PI Vd = None <-> kmesh_id PI <> kmesh_id Vd) /\
  (W_from_chi_static nranks sched PI V = None <-> kmesh_id PI <> vkmesh_id V) /\
  (W_from_chi_dynamic nranks sched PI Vd = None <-> kmesh_id PI <> kmesh_id Vd).
Proof.
by rewrite /W_static /W_static_generic /W_dynamic /W_from_chi_static /W_from_chi_dynamic; do !split;
  case: eqP.
Qed.

(* without screening W is the bare interaction *)
Theorem C16_W_no_screening (V : t4) : eq_t4 (W_generic_bubble (fun _ _ _ _ => 0) V) V.
Proof. exact (W_zero_pi V). Qed.

(* C17: W from the bubble = W from the RPA susceptibility *)
Theorem C17_W_from_susceptibility (PI V : t4) : nonsingular PI V ->
  eq_t4 (W_generic_generalized (rpa_point V PI) V) (W_generic_bubble PI V).
Proof. exact (@W_from_rpa F nb PI V). Qed.

(* C51: the ladder vertex is U.chi.U, and with the RPA susceptibility it is W - V *)
Theorem C51_phi_formula (U X : t4) : eq_t4 (phi_point U X) (contract U (contract X U)).
Proof. exact (phi_formula U X). Qed.
Theorem C51_phi_is_W_minus_V (X V : t4) : nonsingular X V ->
  eq_t4 (W_generic_bubble X V) (add4 V (phi_point V (rpa_point V X))).
Proof. exact (@W_minus_V_is_phi F nb X V). Qed.

End Main.
Print Assumptions C10_rpa_dyson.
Print Assumptions C10_rpa_zero_interaction.
Print Assumptions C10_rpa_PH_grouping_if_symmetric.
Print Assumptions C16_W_overloads.
Print Assumptions C16_mesh_mismatch.
Print Assumptions C16_W_no_screening.
Print Assumptions C17_W_from_susceptibility.
Print Assumptions C51_phi_formula.
Print Assumptions C51_phi_is_W_minus_V.

(* ---- concrete data: two orbitals over the rationals ---- *)
Section Example.
Local Notation q := rat_fieldType.
Local Notation i2 := ('I_2).
Let E (a b c d : i2) : 'M[q]_(2 * 2) := delta_mx (pidx a b) (pidx c d).
(* chi0 = |00><01| + |11><11|, U = |01><11| *)
Let X : tensor4 q 2 := mten (E 0 0 0 1 + E 1 1 1 1).
Let U : tensor4 q 2 := mten (E 0 1 1 1).

Let tX : tmat X = E 0 0 0 1 + E 1 1 1 1. Proof. exact: mtenK. Qed.
Let tU : tmat U = E 0 1 1 1. Proof. exact: mtenK. Qed.
Let mulE a b c d e f g h : E a b c d *m E e f g h = if (c == e) && (d == f) then E a b g h else 0.
Proof.
by rewrite /E mul_delta_mx_cond pidx_eq; case: (_ && _); rewrite ?mulr1n ?mulr0n.
Qed.
Let XU : tmat X *m tmat U = E 0 0 1 1.
Proof. by rewrite tX tU mulmxDl !mulE /= addr0. Qed.
Let inv : (1%:M - E 0 0 1 1) *m (1%:M + E 0 0 1 1) = 1%:M.
Proof. by rewrite mulmxDr mulmx1 mulmxBl mul1mx mulE /= subr0 subrK. Qed.

(* hypotheses of C10 hold and the result differs from chi0 *)
Example C10_instance :
  nonsingular X U /\ tmat (rpa_point U X) = E 0 0 0 1 + E 1 1 1 1 + E 0 0 1 1.
Proof.
split; first by apply/nonsingularP; rewrite XU; apply: (unitmx_right inv).
rewrite tmat_rpa XU (invmx_uniq inv) tX mulmxDl mul1mx mulmxDr !mulE /= add0r.
by [].
Qed.

(* C10, refuted reading: the comments announce the particle-hole grouping ("permuting last two indices");
   for an interaction without the pair-exchange symmetry the returned function does not solve the
   equation of that grouping. *)
Theorem C10_rpa_PH_grouping_refuted :
  exists (U X : tensor4 q 2), nonsingular X U /\ nonsingular X (swap_pairs U) /\
    ~ rpa_equation_PH X U (rpa_point U X).
Proof.
exists U, X; split; first by apply/nonsingularP; rewrite XU; apply: (unitmx_right inv).
have tS : tmat (swap_pairs U) = E 1 0 1 1.
  apply/matrixP=> i j; rewrite !mxE /swap_pairs /U /mten /E mxE.
  by rewrite -{3}(pidx_eta i) -{3}(pidx_eta j) !pidx_eq; do ?rewrite [(psnd _ == _) && _]andbC.
have XS : tmat X *m tmat (swap_pairs U) = 0.
  by rewrite tX tS mulmxDl !mulE /= addr0.
split; first by apply/nonsingularP; rewrite XS subr0 unitmx1.
rewrite /rpa_equation_PH => /eq_tmat.
rewrite tmat_add !tmat_contract_PH !mulmxA -(mulmxA (tmat X)) -(mulmxA (tmat X)) Smx_conj XS mul0mx addr0.
rewrite (proj2 C10_instance) tX => /matrixP /(_ (pidx 0 0) (pidx 1 1)).
by rewrite !mxE !pidx_eq /= => /eqP.
Qed.
Print Assumptions C10_rpa_PH_grouping_refuted.

Example C16_instance : nonsingular X U /\
  fair_run 2 [:: 0; 1; 2]%N [:: 5; 6]%N (mpi_view (allpairs pair [:: 0; 1; 2] [:: 5; 6])%N 2).
Proof. by split; [case: C10_instance | split]. Qed.
End Example.
