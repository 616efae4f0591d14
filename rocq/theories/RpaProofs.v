From mathcomp Require Import all_ssreflect all_algebra.
From Verif Require Import Base MatAlg MpiModel MpiProofs RpaModel RpaSpec.
Set Implicit Arguments.
Unset Strict Implicit.
Unset Printing Implicit Defensive.
Import GRing.Theory.
Local Open Scope ring_scope.

Section P.
Variables (F : fieldType) (nb : nat).
Local Notation t4 := (tensor4 F nb).
Implicit Types (A B U V X : t4).

Lemma tmat_contract A B : tmat (contract A B) = tmat A *m tmat B.
Proof.
apply/matrixP=> i j; rewrite !mxE sum_pidx; do 2 (apply: eq_bigr => ? _).
by rewrite !mxE !pidxK1 !pidxK2.
Qed.
Lemma tmat_add A B : tmat (add4 A B) = tmat A + tmat B.
Proof. by apply/matrixP=> i j; rewrite !mxE. Qed.
Lemma tmat_delta : tmat (@delta4 F nb) = 1%:M.
Proof.
apply/matrixP=> i j; rewrite !mxE /delta4 -{3}(pidx_eta i) -{3}(pidx_eta j) pidx_eq //.
Qed.
Lemma tmat_opp A B : tmat (fun a b c d => A a b c d - B a b c d) = tmat A - tmat B.
Proof. by apply/matrixP=> i j; rewrite !mxE. Qed.
Lemma eq_tmat A B : eq_t4 A B <-> tmat A = tmat B.
Proof. exact: tmat_ext. Qed.

Lemma nonsingularP A B : nonsingular A B <-> 1%:M - tmat A *m tmat B \in unitmx.
Proof.
split.
  case=> D /eq_tmat; rewrite tmat_contract tmat_opp tmat_delta tmat_contract.
  exact: unitmx_left.
move=> u; exists (mten (invmx (1%:M - tmat A *m tmat B))); apply/eq_tmat.
by rewrite tmat_contract tmat_opp tmat_delta tmat_contract mtenK mulVmx.
Qed.

Lemma tmat_rpa U X : tmat (rpa_point U X) = invmx (1%:M - tmat X *m tmat U) *m tmat X.
Proof. exact: mtenK. Qed.

Lemma rpa_solves U X : nonsingular X U -> rpa_equation X U (rpa_point U X).
Proof.
move/nonsingularP=> u; apply/eq_tmat.
by rewrite tmat_add !tmat_contract mulmxA tmat_rpa; apply: dyson_solution.
Qed.
Lemma rpa_unique U X0 X : nonsingular X0 U -> rpa_equation X0 U X -> eq_t4 X (rpa_point U X0).
Proof.
move/nonsingularP=> u /eq_tmat h; apply/eq_tmat; rewrite tmat_rpa.
by apply: dyson_unique => //; move: h; rewrite tmat_add !tmat_contract mulmxA.
Qed.
Lemma rpa_zero X : eq_t4 (rpa_point (fun _ _ _ _ => 0) X) X.
Proof.
apply/eq_tmat; rewrite tmat_rpa.
have -> : tmat (fun _ _ _ _ : 'I_nb => 0 : F) = 0 by apply/matrixP=> i j; rewrite !mxE.
by rewrite mulmx0 subr0 invmx1 mul1mx.
Qed.

(* pair exchange as a permutation matrix *)
Definition Smx : 'M[F]_(nb * nb) := tmat (fun a b c d => ((a == d) && (b == c))%:R).
Lemma Smx_l A : Smx *m tmat A = tmat (fun a b c d => A b a c d).
Proof.
rewrite /Smx -tmat_contract; apply/eq_tmat => a b c d; rewrite /contract.
rewrite (bigD1 b) //= (bigD1 a) //= !eqxx mul1r.
rewrite big1 ?addr0; last by move=> i; rewrite eq_sym => /negbTE ->; rewrite mul0r.
rewrite big1 ?addr0 // => i; rewrite eq_sym => /negbTE h.
by rewrite big1 // => j _; rewrite h andbF mul0r.
Qed.
Lemma Smx_r A : tmat A *m Smx = tmat (fun a b c d => A a b d c).
Proof.
rewrite /Smx -tmat_contract; apply/eq_tmat => a b c d; rewrite /contract.
rewrite (bigD1 d) //= (bigD1 c) //= !eqxx mulr1.
rewrite big1 ?addr0; last by move=> i /negbTE ->; rewrite andbF mulr0.
rewrite big1 ?addr0 // => i /negbTE h.
by rewrite big1 // => j _; rewrite h mulr0.
Qed.
Lemma SmxK : Smx *m Smx = 1%:M.
Proof.
by rewrite -tmat_delta {2}/Smx Smx_l; apply/eq_tmat => a b c d; rewrite /delta4 andbC.
Qed.
Lemma Smx_conj A : Smx *m tmat A *m Smx = tmat (swap_pairs A).
Proof. by rewrite Smx_l Smx_r. Qed.

Lemma tmat_contract_PH A B : tmat (contract_PH A B) = tmat A *m Smx *m tmat B.
Proof. by rewrite Smx_r -tmat_contract. Qed.

Lemma rpa_solves_PH U X : nonsingular X (swap_pairs U) ->
  rpa_equation_PH X U (rpa_point (swap_pairs U) X).
Proof.
move=> /nonsingularP u; apply/eq_tmat.
rewrite tmat_add !tmat_contract_PH tmat_rpa -!(Smx_conj U) !mulmxA.
by have := dyson_solution u; rewrite /= -(Smx_conj U) !mulmxA.
Qed.
Lemma rpa_PH_if_symmetric U X :
  eq_t4 (swap_pairs U) U -> nonsingular X U -> rpa_equation_PH X U (rpa_point U X).
Proof.
move=> s ns.
have e : tmat (swap_pairs U) = tmat U by apply/eq_tmat.
have ns' : nonsingular X (swap_pairs U) by apply/nonsingularP; rewrite e; apply/nonsingularP.
have := rpa_solves_PH ns'; rewrite /rpa_equation_PH => /eq_tmat h; apply/eq_tmat.
have e2 : tmat (rpa_point (swap_pairs U) X) = tmat (rpa_point U X) by rewrite !tmat_rpa e.
by move: h; rewrite !tmat_add !tmat_contract_PH e2.
Qed.

(* ---- screened interaction ---- *)
Lemma tmat_W_bubble X V : tmat (W_generic_bubble X V) = tmat V *m invmx (1%:M - tmat X *m tmat V).
Proof. exact: mtenK. Qed.
Lemma tmat_W_gen X V : tmat (W_generic_generalized X V) = tmat V *m tmat X *m tmat V + tmat V.
Proof. exact: mtenK. Qed.
Lemma tmat_W_opt X V : tmat (W_opt_bubble X V) = tmat V *m invmx (1%:M - tmat X *m tmat V).
Proof.
have e : tmat (W_opt_denom X V) = 1%:M - tmat X *m tmat V.
  by rewrite -tmat_contract -[X in X - _]mtenK -tmat_opp.
by rewrite -e -[invmx _]mtenK -tmat_contract.
Qed.

Lemma W_opt_generic X V : eq_t4 (W_opt_bubble X V) (W_generic_bubble X V).
Proof. by apply/eq_tmat; rewrite tmat_W_opt tmat_W_bubble. Qed.

(* W = V + V.Pi.W *)
Lemma W_equation X V : nonsingular X V ->
  eq_t4 (W_generic_bubble X V) (add4 V (contract V (contract X (W_generic_bubble X V)))).
Proof.
move/nonsingularP=> u; apply/eq_tmat; rewrite tmat_add !tmat_contract tmat_W_bubble.
have v := swap_unit u.
rewrite -(push_through v) !mulmxA.
have h := dyson_solution v; rewrite /= in h; rewrite {1}h !mulmxA.
by rewrite -!mulmxA.
Qed.
Lemma W_unique X V Y : nonsingular X V ->
  eq_t4 Y (add4 V (contract V (contract X Y))) -> eq_t4 Y (W_generic_bubble X V).
Proof.
move/nonsingularP=> u /eq_tmat h; apply/eq_tmat; rewrite tmat_W_bubble.
have v := swap_unit u; rewrite -(push_through v); apply: dyson_unique => //.
by move: h; rewrite tmat_add !tmat_contract mulmxA.
Qed.

Lemma W_from_rpa X V : nonsingular X V ->
  eq_t4 (W_generic_generalized (rpa_point V X) V) (W_generic_bubble X V).
Proof.
move=> ns; apply: W_unique => //; have /nonsingularP u := ns.
apply/eq_tmat; rewrite tmat_add !tmat_contract tmat_W_gen tmat_rpa.
have h := dyson_solution u; rewrite /= in h.
rewrite [LHS]addrC; congr (_ + _); rewrite mulmxDr -mulmxDr.
rewrite -[in LHS]mulmxA; congr (_ *m _).
by rewrite {1}h mulmxDl mulmxDr addrC !mulmxA.
Qed.

Lemma W_zero_pi V : eq_t4 (W_generic_bubble (fun _ _ _ _ => 0) V) V.
Proof.
apply/eq_tmat; rewrite tmat_W_bubble.
have -> : tmat (fun _ _ _ _ : 'I_nb => 0 : F) = 0 by apply/matrixP=> i j; rewrite !mxE.
by rewrite mul0mx subr0 invmx1 mulmx1.
Qed.

Lemma phi_formula U X : eq_t4 (phi_point U X) (contract U (contract X U)).
Proof. by apply/eq_tmat; rewrite !tmat_contract mtenK mulmxA. Qed.

(* W - V = phi of the RPA susceptibility *)
Lemma W_minus_V_is_phi X V : nonsingular X V ->
  eq_t4 (W_generic_bubble X V) (add4 V (phi_point V (rpa_point V X))).
Proof.
move=> ns a b c d; rewrite -(W_from_rpa ns).
rewrite /W_generic_generalized /phi_point /add4 /mten mxE addrC; congr (_ + _).
by rewrite -{1}(tmatE V).
Qed.

End P.

Section Mesh.
Variables (F : fieldType) (nb : nat) (W K M : eqType).
Lemma on_meshE nranks (wm : seq W) (km : seq K) sched (f : W -> K -> tensor4 F nb) :
  (0 < nranks)%N -> uniq wm -> uniq km ->
  (forall r, (r < nranks)%N -> perm_eq (sched r) (mpi_view (allpairs pair wm km) nranks r)) ->
  forall w k, w \in wm -> k \in km -> forall a b c d,
  on_mesh nranks sched f w k a b c d = f w k a b c d.
Proof.
move=> n0 uw uk hs w k hw hk a b c d; rewrite /on_mesh.
rewrite (@mpi_map_correct _ _ (allpairs pair wm km)) //=.
  by rewrite allpairs_f.
by apply: allpairs_uniq => // -[? ?] [? ?] _ _ /= [-> ->].
Qed.
End Mesh.
