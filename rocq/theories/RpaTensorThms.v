(* C12 (matrix RPA), C13 (spin-charge decoupling), C14 and C15 (charge/spin splitting), C62 (spin projection). *)
From mathcomp Require Import all_ssreflect all_algebra.
From Verif Require Import Base MatAlg MpiModel MpiProofs RpaModel RpaSpec RpaProofs RpaThms RpaTensorModel RpaTensorSpec RpaTensorProofs.
Set Implicit Arguments.
Unset Strict Implicit.
Unset Printing Implicit Defensive.
Import GRing.Theory.
Local Open Scope ring_scope.

Section Matrix.
Variables (F : fieldType) (nb : nat).
Local Notation t4 := (tensor4 F nb).
(* any iteration order of python sets *)
Variable set_order : seq 'I_(nb * nb) -> seq 'I_(nb * nb).
Hypothesis set_orderP : forall s, perm_eq (set_order s) s.
Local Notation reorder := (@tprf_order_to_matrix_rpa_order F nb).

Lemma C12_flat_proof (T : t4) : eq_t4 (matrix_to_tensor set_order (tensor_to_matrix set_order T)) T.
Proof. move=> a b c d; rewrite (back' set_orderP (tmat T)); exact: tmatK. Qed.
Theorem C12_flattening_round_trip (T : t4) : eq_t4 (matrix_to_tensor set_order (tensor_to_matrix set_order T)) T.
Proof. exact (C12_flat_proof T). Qed.

Lemma C12_proof (W K M : eqType) nranks sched (chi0 : chi_wk F nb W K M) (U : t4) w k :
  fair_run nranks (wmesh chi0) (kmesh chi0) sched -> w \in wmesh chi0 -> k \in kmesh chi0 -> eq_t4 (swap_pairs U) U ->
  let neg : t4 := fun a b c d => - U a b c d in
  (nonsingular (chi_dat chi0 w k) U -> eq_t4 (chi_rpa_spin set_order (reorder (chi_dat chi0 w k)) (reorder U))
    (reorder (chi_dat (solve_rpa_PH nranks sched chi0 U) w k))) /\
  (nonsingular (chi_dat chi0 w k) neg -> eq_t4 (chi_rpa_charge set_order (reorder (chi_dat chi0 w k)) (reorder U))
    (reorder (chi_dat (solve_rpa_PH nranks sched chi0 neg) w k))).
Proof.
move=> [h1 h2 h3 h4] hw hk s neg; split=> ns a b c d.
  by rewrite spin_rpa // /tprf_order_to_matrix_rpa_order /= (on_meshE _ h1 h2 h3 h4).
by rewrite charge_rpa // /tprf_order_to_matrix_rpa_order /= (on_meshE _ h1 h2 h3 h4).
Qed.
Theorem C12_matrix_rpa_is_tensor_rpa (W K M : eqType) nranks sched (chi0 : chi_wk F nb W K M) (U : t4) w k :
  fair_run nranks (wmesh chi0) (kmesh chi0) sched -> w \in wmesh chi0 -> k \in kmesh chi0 -> eq_t4 (swap_pairs U) U ->
  let neg : t4 := fun a b c d => - U a b c d in
  (nonsingular (chi_dat chi0 w k) U -> eq_t4 (chi_rpa_spin set_order (reorder (chi_dat chi0 w k)) (reorder U))
    (reorder (chi_dat (solve_rpa_PH nranks sched chi0 U) w k))) /\
  (nonsingular (chi_dat chi0 w k) neg -> eq_t4 (chi_rpa_charge set_order (reorder (chi_dat chi0 w k)) (reorder U))
    (reorder (chi_dat (solve_rpa_PH nranks sched chi0 neg) w k))).
Proof. exact (@C12_proof W K M nranks sched chi0 U w k). Qed.

(* the Kanamori tensors of the two modules are reorderings of each other and have the symmetry *)
Theorem C12_kanamori_tensors (U Up J Jp : F) :
  let: (U_c, U_s) := kanamori_charge_and_spin_quartic_interaction_tensors nb U Up J Jp in
  [/\ eq_t4 (reorder U_c) (get_rpa_uc_tensor U Up J Jp), eq_t4 (reorder U_s) (get_rpa_us_tensor U Up J Jp),
      eq_t4 (swap_pairs U_c) U_c & eq_t4 (swap_pairs U_s) U_s].
Proof. by have [h1 h2] := kanamori_order nb U Up J Jp; have [h3 h4] := kanamori_swap nb U Up J Jp; split. Qed.
End Matrix.

Section Spin.
Variables (F : fieldType) (nb : nat) (near0 : F -> bool).
Hypothesis near00 : near0 0.
Hypothesis two : 2%:R != 0 :> F.
Local Notation t4 := (tensor4 F nb).
Local Notation big4 := (tensor4 F (2 * nb)).

(* C13 *)
Lemma C13_proof (W K M : eqType) nranks sched (chi0 : chi_wk F nb W K M) (chi0_spin : chi_wk F (2 * nb) W K M) (U_c U_s : t4)
    (Xc Xs : t4) check w k :
  fair_run nranks (wmesh chi0_spin) (kmesh chi0_spin) sched -> w \in wmesh chi0_spin -> k \in kmesh chi0_spin ->
  eq_t4 (chi_dat chi0_spin w k) (general_susceptibility_from_charge_and_spin false (chi_dat chi0 w k) (chi_dat chi0 w k)) ->
  let neg_U_c : t4 := fun a b c d => - U_c a b c d in
  nonsingular (chi_dat chi0 w k) neg_U_c -> nonsingular (chi_dat chi0 w k) U_s ->
  rpa_equation (chi_dat chi0 w k) neg_U_c Xc -> rpa_equation (chi_dat chi0 w k) U_s Xs ->
  let chi := chi_dat (solve_rpa_PH nranks sched chi0_spin (quartic_tensor_from_charge_and_spin U_c U_s)) w k in
  eq_t4 chi (general_susceptibility_from_charge_and_spin false Xc Xs) /\
  exists cs, charge_and_spin_susceptibility_from_general near0 false check chi = Some cs /\ eq_t4 cs.1 Xc /\ eq_t4 cs.2 Xs.
Proof.
move=> [h1 h2 h3 h4] hw hk e neg nc ns ec es chi.
have hT : has_gs false true (chi_dat chi0_spin w k) (chi_dat chi0 w k) (chi_dat chi0 w k).
  by move=> s1 s2 s3 s4 a b c d; rewrite e; apply: gs_general.
have main : eq_t4 chi (general_susceptibility_from_charge_and_spin false Xc Xs).
  move=> a b c d; rewrite -(rpa_spin two hT (gs_build U_c U_s) nc ns ec es).
  exact: (on_meshE _ h1 h2 h3 h4).
split=> //; apply: readsplit => // s1 s2 s3 s4 a b c d; rewrite main; exact: gs_general.
Qed.
Theorem C13_spin_charge_decoupling (W K M : eqType) nranks sched (chi0 : chi_wk F nb W K M)
    (chi0_spin : chi_wk F (2 * nb) W K M) (U_c U_s : t4) (Xc Xs : t4) check w k :
  fair_run nranks (wmesh chi0_spin) (kmesh chi0_spin) sched -> w \in wmesh chi0_spin -> k \in kmesh chi0_spin ->
  eq_t4 (chi_dat chi0_spin w k) (general_susceptibility_from_charge_and_spin false (chi_dat chi0 w k) (chi_dat chi0 w k)) ->
  let neg_U_c : t4 := fun a b c d => - U_c a b c d in
  nonsingular (chi_dat chi0 w k) neg_U_c -> nonsingular (chi_dat chi0 w k) U_s ->
  rpa_equation (chi_dat chi0 w k) neg_U_c Xc -> rpa_equation (chi_dat chi0 w k) U_s Xs ->
  let chi := chi_dat (solve_rpa_PH nranks sched chi0_spin (quartic_tensor_from_charge_and_spin U_c U_s)) w k in
  eq_t4 chi (general_susceptibility_from_charge_and_spin false Xc Xs) /\
  exists cs, charge_and_spin_susceptibility_from_general near0 false check chi = Some cs /\ eq_t4 cs.1 Xc /\ eq_t4 cs.2 Xs.
Proof. exact (@C13_proof W K M nranks sched chi0 chi0_spin U_c U_s Xc Xs check w k). Qed.

(* the combined index of a spin and an orbital *)
Definition is_combined fast (at_ : bool -> 'I_nb -> 'I_(2 * nb)) := forall s o, at_ s o = combined_value nb fast s o :> nat.
Lemma combined_so fast at_ : is_combined fast at_ -> forall s o, at_ s o = so fast s o.
Proof. by move=> h s o; apply: ord_inj; rewrite h so_value. Qed.
Lemma su2_so fast at_ (T : big4) : is_combined fast at_ -> su2_invariant at_ T <-> su2_invariant (so fast) T.
Proof.
move=> /combined_so h; split=> H a b c d; have [h0 h1 h2 h3] := H a b c d; rewrite !h in h1 h2 *.
  by split=> // [s1 s2 s3 s4 n|s]; [have := h0 _ _ _ _ n; rewrite !h | have := h3 s; rewrite !h].
by split=> // [s1 s2 s3 s4 n|s]; [have := h0 _ _ _ _ n; rewrite !h | have := h3 s; rewrite !h].
Qed.
Lemma splitE (U : big4) (A B : t4) : has_gs false true U A B ->
  exists cs, split_quartic_tensor_in_charge_and_spin near0 U = Some cs /\
  eq_t4 cs.1 (fun a b c d => - A a b c d) /\ eq_t4 cs.2 B.
Proof.
move=> h; have z s1 s2 s3 s4 : ~~ conserves_spin s1 s2 s3 s4 ->
    all_near0 near0 (spin_first U (if s1 then s_dn else s_up) (if s2 then s_dn else s_up) (if s3 then s_dn else s_up)
    (if s4 then s_dn else s_up)).
  move=> n; have := gs_zero near00 h n; rewrite /read4 /spin_first.
  by move=> H; move: H; rewrite /all_near0 => H; apply: etrans H; do 4 (apply: eq_forallb => ?); rewrite !so_pidx.
rewrite /split_quartic_tensor_in_charge_and_spin.
rewrite (z false false false true) // (z false false true false) // (z false true false false) // (z true false false false) //.
rewrite (z true true true false) // (z true true false true) // (z true false true true) // (z false true true true) //.
rewrite (z true false true false) // (z false true false true) //=.
have uu a b c d : spin_first U s_up s_up s_up s_up a b c d = 2%:R^-1 * (A a b c d + B a b c d).
  by have := h false false false false a b c d; rewrite !so_pidx.
have ud a b c d : spin_first U s_up s_up s_dn s_dn a b c d = 2%:R^-1 * (A a b c d - B a b c d).
  by have := h false false true true a b c d; rewrite !so_pidx.
eexists; split; first by [].
split=> a b c d; rewrite /= uu ud.
  rewrite -opprD -mulrDr (_ : _ + _ = A a b c d + A a b c d) ?half2 //; exact: halves_add.
rewrite -mulrBr (_ : _ - _ = B a b c d + B a b c d) ?half2 //; exact: halves_sub.
Qed.

(* C14 *)
Lemma C14_proof (U_c U_s : t4) : exists cs,
  split_quartic_tensor_in_charge_and_spin near0 (quartic_tensor_from_charge_and_spin U_c U_s) = Some cs /\
  eq_t4 cs.1 U_c /\ eq_t4 cs.2 U_s.
Proof.
have [cs [e [h1 h2]]] := splitE (gs_build U_c U_s); exists cs; split=> //; split=> // a b c d.
by rewrite h1 opprK.
Qed.
Theorem C14_split_of_built (U_c U_s : t4) : exists cs,
  split_quartic_tensor_in_charge_and_spin near0 (quartic_tensor_from_charge_and_spin U_c U_s) = Some cs /\
  eq_t4 cs.1 U_c /\ eq_t4 cs.2 U_s.
Proof. exact (C14_proof U_c U_s). Qed.
Lemma C14_back_proof at_ (U : big4) : is_combined false at_ -> su2_invariant at_ U ->
  exists cs, split_quartic_tensor_in_charge_and_spin near0 U = Some cs /\ eq_t4 (quartic_tensor_from_charge_and_spin cs.1 cs.2) U.
Proof.
move=> /su2_so s /s /(su2_gs two) h; have [cs [e [h1 h2]]] := splitE h; exists cs; split=> //.
apply: (gs_ext (gs_build _ _) h) => // a b c d; by rewrite h1 opprK.
Qed.
(* every spin-rotation invariant tensor is split, and the built tensor is the original one; built tensors are invariant *)
Theorem C14_built_of_split at_ (U : big4) : is_combined false at_ -> su2_invariant at_ U ->
  exists cs, split_quartic_tensor_in_charge_and_spin near0 U = Some cs /\ eq_t4 (quartic_tensor_from_charge_and_spin cs.1 cs.2) U.
Proof. exact (@C14_back_proof at_ U). Qed.
Theorem C14_built_is_invariant at_ (U_c U_s : t4) : is_combined false at_ ->
  su2_invariant at_ (quartic_tensor_from_charge_and_spin U_c U_s).
Proof. move=> h; apply/(su2_so _ h); exact: (gs_su2 two (gs_build U_c U_s)). Qed.

(* C15, for both spin orders, with or without the check *)
Theorem C15_split_of_general fast check (chi_c chi_s : t4) : exists cs,
  charge_and_spin_susceptibility_from_general near0 fast check (general_susceptibility_from_charge_and_spin fast chi_c chi_s) = Some cs /\
  eq_t4 cs.1 chi_c /\ eq_t4 cs.2 chi_s.
Proof. exact (readsplit two near00 check (gs_general fast chi_c chi_s)). Qed.
Lemma C15_back_proof fast check at_ (chi : big4) : is_combined fast at_ -> su2_invariant at_ chi ->
  exists cs, charge_and_spin_susceptibility_from_general near0 fast check chi = Some cs /\
    eq_t4 (general_susceptibility_from_charge_and_spin fast cs.1 cs.2) chi.
Proof.
move=> /su2_so s /s /(su2_gs two) h; have [cs [e [h1 h2]]] := readsplit two near00 check h; exists cs; split=> //.
exact: (gs_ext (gs_general fast _ _) h).
Qed.
Theorem C15_general_of_split fast check at_ (chi : big4) : is_combined fast at_ -> su2_invariant at_ chi ->
  exists cs, charge_and_spin_susceptibility_from_general near0 fast check chi = Some cs /\
    eq_t4 (general_susceptibility_from_charge_and_spin fast cs.1 cs.2) chi.
Proof. exact (@C15_back_proof fast check at_ chi). Qed.
Theorem C15_general_is_invariant fast at_ (chi_c chi_s : t4) : is_combined fast at_ ->
  su2_invariant at_ (general_susceptibility_from_charge_and_spin fast chi_c chi_s).
Proof. move=> h; apply/(su2_so _ h); exact: (gs_su2 two (gs_general fast chi_c chi_s)). Qed.
(* without the check the remaining blocks are ignored; with it a tensor that breaks spin conservation is rejected *)
Lemma C15_reject_proof fast at_ (chi : big4) s1 s2 s3 s4 a b c d : is_combined fast at_ -> ~~ conserves_spin s1 s2 s3 s4 ->
  ~~ near0 (chi (at_ s1 a) (at_ s2 b) (at_ s3 c) (at_ s4 d)) ->
  charge_and_spin_susceptibility_from_general near0 fast true chi = None.
Proof.
move=> /combined_so h n z; rewrite /charge_and_spin_susceptibility_from_general !(upE, downE).
have bad : all_near0 near0 (read4 (so fast s1) (so fast s2) (so fast s3) (so fast s4) chi) = false.
  apply/negbTE/negP => /'forall_'forall_'forall_forallP /(_ a b c d); rewrite /read4 -!h; exact/negP.
by move: n bad; case: s1 {z}; case: s2; case: s3; case: s4 => // _ ->; rewrite ?andbF.
Qed.
Theorem C15_rejects_broken_spin fast at_ (chi : big4) s1 s2 s3 s4 a b c d : is_combined fast at_ -> ~~ conserves_spin s1 s2 s3 s4 ->
  ~~ near0 (chi (at_ s1 a) (at_ s2 b) (at_ s3 c) (at_ s4 d)) ->
  charge_and_spin_susceptibility_from_general near0 fast true chi = None.
Proof. exact (@C15_reject_proof fast at_ chi s1 s2 s3 s4 a b c d). Qed.

(* C62: documented is "only keep the up spin elements" *)
Lemma C62_proof at_ (g : 'M[F]_(2 * nb)) a b : is_combined true at_ ->
  lose_spin_degree_of_freedom true g a b = g (at_ false a) (at_ false b).
Proof. by move=> /combined_so h; rewrite mxE !h. Qed.
(* missing: spin as the slow index *)
Theorem C62_keeps_up_partial at_ (g : 'M[F]_(2 * nb)) a b : is_combined true at_ ->
  lose_spin_degree_of_freedom true g a b = g (at_ false a) (at_ false b).
Proof. exact (@C62_proof at_ g a b). Qed.
(* with spin as the slow index the down elements are returned *)
Lemma C62_down_proof at_ (g : 'M[F]_(2 * nb)) a b : is_combined false at_ ->
  lose_spin_degree_of_freedom false g a b = g (at_ true a) (at_ true b).
Proof. by move=> /combined_so h; rewrite mxE !h. Qed.
Theorem C62_slow_spin_keeps_down at_ (g : 'M[F]_(2 * nb)) a b : is_combined false at_ ->
  lose_spin_degree_of_freedom false g a b = g (at_ true a) (at_ true b).
Proof. exact (@C62_down_proof at_ g a b). Qed.
Theorem C62_keeps_up_refuted : (0 < nb)%N -> exists g : 'M[F]_(2 * nb), forall at_, is_combined false at_ ->
  exists a b, lose_spin_degree_of_freedom false g a b <> g (at_ false a) (at_ false b).
Proof.
move=> nb0; pose o := Ordinal nb0; exists (\matrix_(i, j) (i < nb)%:R) => at_ h; exists o, o.
rewrite (C62_down_proof _ _ _ h) !mxE !h /combined_value /= mul0n mul1n add0n nb0 ltnNge leq_addr => /eqP.
by rewrite eq_sym oner_eq0.
Qed.
End Spin.

(* a case of C12 and C13: two orbitals, Kanamori interaction, diagonal bubble *)
Section Case.
Local Notation q := rat_fieldType.
Let X0 : tensor4 q 2 := fun a b c d => ((a == c) && (b == d))%:R.
Let U_s : tensor4 q 2 := (@kanamori_charge_and_spin_quartic_interaction_tensors q 2 3%:R 0 0 0).2.
Let U_c : tensor4 q 2 := (@kanamori_charge_and_spin_quartic_interaction_tensors q 2 3%:R 0 0 0).1.
Let inv (u : q) : tensor4 q 2 := fun a b c d => if (a == c) && (b == d) then (if a == b then u else 1) else 0.
Example C13_case : [/\ nonsingular X0 U_s, nonsingular X0 (fun a b c d => - U_c a b c d), eq_t4 (swap_pairs U_s) U_s &
  U_s ord0 ord0 ord0 ord0 <> 0].
Proof.
split.
- exists (inv (- 2%:R^-1)) => a b c d; apply/eqP; move: a b c d.
  by case=> [[|[|]] //] ?; case=> [[|[|]] //] ?; case=> [[|[|]] //] ?; case=> [[|[|]] //] ?; rewrite /contract !big_ord_recl !big_ord0.
- exists (inv (4%:R^-1)) => a b c d; apply/eqP; move: a b c d.
  by case=> [[|[|]] //] ?; case=> [[|[|]] //] ?; case=> [[|[|]] //] ?; case=> [[|[|]] //] ?; rewrite /contract !big_ord_recl !big_ord0.
- by case: (kanamori_swap 2 (3%:R : q) 0 0 0).
- by [].
Qed.
(* python's set order: any rearrangement, for example the increasing one *)
Example C12_case : forall s : seq 'I_(2 * 2), perm_eq (sort (fun i j : 'I_(2 * 2) => (i <= j)%N) s) s.
Proof. by move=> s; rewrite perm_sort. Qed.
End Case.

Print Assumptions C12_flattening_round_trip.
Print Assumptions C12_matrix_rpa_is_tensor_rpa.
Print Assumptions C12_kanamori_tensors.
Print Assumptions C13_spin_charge_decoupling.
Print Assumptions C14_split_of_built.
Print Assumptions C14_built_of_split.
Print Assumptions C14_built_is_invariant.
Print Assumptions C15_split_of_general.
Print Assumptions C15_general_of_split.
Print Assumptions C15_general_is_invariant.
Print Assumptions C15_rejects_broken_spin.
Print Assumptions C62_keeps_up_partial.
Print Assumptions C62_slow_spin_keeps_down.
Print Assumptions C62_keeps_up_refuted.
