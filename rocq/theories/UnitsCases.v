(* C113: transforms, dispersions and energies that meet the hypotheses. *)
From mathcomp Require Import all_ssreflect all_algebra.
From Verif Require Import Base MatAlg Fring MpiModel MpiProofs MpiSpec FourierModel FourierProofs BubbleModel MatsubaraModel ImtimeModel LinalgModel BseModel BseProofs DysonModel GwModel GwSpec GwProofs
  GwChainModel GwSolverModel GwFullModel GwFullProofs GwRel GwRel2 LindhardModel LindhardThms UnitsGwThms UnitsBseThms UnitsLindhardThms.
Set Implicit Arguments.
Unset Strict Implicit.
Unset Printing Implicit Defensive.
Import Order.Theory GRing.Theory Num.Theory.
Local Open Scope ring_scope.

Section Cases.
Variables (C : numClosedFieldType) (nb nn L : nat) (u beta : C).
Local Notation mat := 'M[C]_nb.
Hypothesis u0 : 0 < u.
Let uN : u != 0. Proof. by rewrite gt_eqF. Qed.
(* discrete Fourier transforms with any phases: a sum over a window of frequencies times the temperature, a Riemann sum over the times *)
Variables (ph : int -> 'I_L.+1 -> C) (phb : 'I_(2 * nn).-1 -> 'I_L.+1 -> C).
Definition sum_w (b : C) (f : int -> mat) (t : 'I_L.+1) : mat := b^-1 *: \sum_(p < 2 * nn) ph (fidx p) t *: f (fidx p).
Definition sum_wf (b : C) (f : 'I_(2 * nn) -> mat) (t : 'I_L.+1) : mat := b^-1 *: \sum_(p < 2 * nn) ph (fidx p) t *: f p.
Definition sum_wb (b : C) (f : 'I_(2 * nn).-1 -> C) (t : 'I_L.+1) : C := b^-1 * \sum_p phb p t * f p.
Definition sum_t (b : C) (x : 'I_L.+1 -> C) (n : int) : C := b / L.+1%:R * \sum_t ph n t * x t.
Definition dens (b : C) (f : int -> mat) : mat := sum_w b f ord0.
Lemma sum_t_lin b n : linfun (fun x => sum_t b x n).
Proof.
split=> [x y h|c x y]; first by rewrite /sum_t; congr (_ * _); apply: eq_bigr => t _; rewrite h.
rewrite /sum_t [c * _]mulrCA -mulrDr; congr (_ * _); rewrite mulr_sumr -big_split; apply: eq_bigr => t _ /=; by rewrite mulrDr mulrCA.
Qed.
Lemma sum_wb_lin b t : linfun (fun x => sum_wb b x t).
Proof.
split=> [x y h|c x y]; first by rewrite /sum_wb; congr (_ * _); apply: eq_bigr => p _; rewrite h.
rewrite /sum_wb [c * _]mulrCA -mulrDr; congr (_ * _); rewrite mulr_sumr -big_split; apply: eq_bigr => p _ /=; by rewrite mulrDr mulrCA.
Qed.
Lemma sum_wf_scale f f' c t : (forall w, f' w = c *: f w) -> sum_wf (beta / u) f' t = (u * c) *: sum_wf beta f t.
Proof.
move=> h; rewrite /sum_wf invf_div.
have -> : \sum_(p < 2 * nn) ph (fidx p) t *: f' p = c *: \sum_(p < 2 * nn) ph (fidx p) t *: f p.
  by rewrite scaler_sumr; apply: eq_bigr => p _; rewrite h scalerA mulrC -scalerA.
by rewrite !scalerA; congr (_ *: _); rewrite mulrAC.
Qed.
Lemma sum_w_scale f f' t : (forall n, f' n = u^-1 *: f n) -> sum_w (beta / u) f' t = sum_w beta f t.
Proof. by move=> h; rewrite /sum_w -[LHS]/(sum_wf (beta / u) (fun p => f' (fidx p)) t) (@sum_wf_scale (fun p => f (fidx p)) _ u^-1) ?divff ?scale1r. Qed.
Lemma sum_t_scale x n : sum_t (beta / u) x n = u^-1 * sum_t beta x n.
Proof. by rewrite /sum_t mulrA; congr (_ * _); rewrite mulrAC [RHS]mulrC mulrAC. Qed.
Lemma sum_wb_scale x t : sum_wb (beta / u) x t = u * sum_wb beta x t.
Proof. by rewrite /sum_wb invf_div mulrA. Qed.
Theorem C113_transforms_case (v : 'I_(2 * nn) -> C) (K : finType) (l : K -> C) : (forall w, v w \is Num.real /\ v w != 0) -> (forall k, l k \is Num.real) ->
  [/\ [/\ forall f f', (forall n, f' n = u^-1 *: f n) -> dens (beta / u) f' = dens beta f, forall f f' t, (forall n, f' n = u^-1 *: f n) -> sum_w (beta / u) f' t = sum_w beta f t,
      forall x t, sum_wb (beta / u) x t = u * sum_wb beta x t, forall x n, sum_t (beta / u) x n = u^-1 * sum_t beta x n & forall n, linfun (fun x => sum_t beta x n)],
    forall t, linfun (fun x => sum_wb beta x t), unit_transforms u (sum_w beta) (sum_w (beta / u)) (sum_t beta) (sum_t (beta / u)),
    unit_fft u (sum_wf beta) (sum_wf (beta / u)) (fun x p => sum_t beta x (fidx p)) (fun x p => sum_t (beta / u) x (fidx p)) &
    forall (mu : C) w k, mu \is Num.real -> ('i * v w + mu)%:M - (l k)%:M - 0 \in @unitmx (Num.ClosedField.comUnitRingType C) nb].
Proof.
move=> hv hl; split.
- split; [by move=> f f' h; exact: sum_w_scale | exact: sum_w_scale | exact: sum_wb_scale | exact: sum_t_scale | exact: sum_t_lin].
- exact: sum_wb_lin.
- split; [by move=> x y e n; exact: (sum_t_lin beta n).1 | exact: sum_w_scale | exact: sum_t_scale].
- split; [exact: sum_wf_scale | by move=> n; exact: sum_t_lin | by move=> x n; exact: sum_t_scale].
move=> mu w k rm; rewrite subr0 -raddfB /= unitmxE det_scalar unitrX // unitfE -addrA addrC.
have [rv vN] := hv w; apply: contra vN => /eqP/(congr1 (fun z => 'Im z)) /=; rewrite Im_rect // ?rpredB //.
by move=> ->; rewrite raddf0.
Qed.
(* levels at 0 and 1 are resolved in the units 1 and 2 at zero frequency and in the static limit *)
Theorem C113_lindhard_case : [/\ @resolved C 2%:R 0, resolved (2%:R : C) 1 & eigensolver (@eig1 C)].
Proof.
split; [by left | right; split | exact: eig1_solves].
- by rewrite normr1 ltW // tol_lt1.
by rewrite mulr1 normr_nat (le_trans (ltW (tol_lt1 C))) // ler1n.
Qed.
End Cases.
Print Assumptions C113_gw.
Print Assumptions C113_gw_start.
Print Assumptions C113_bse.
Print Assumptions C113_vertex.
Print Assumptions C113_dual.
Print Assumptions C113_rpa.
Print Assumptions C113_screened.
Print Assumptions C113_pairing_vertex.
Print Assumptions C113_eliashberg.
Print Assumptions C113_eliashberg_fft.
Print Assumptions C113_transforms_case.
Print Assumptions C113_lindhard_case.
