(* C125: the bubbles in imaginary time are reflected at beta/2, Hermitian and positive. *)
From mathcomp Require Import all_ssreflect all_algebra.
From Verif Require Import Base MpiModel MpiProofs MpiSpec FourierModel BubbleModel ImtimeModel Spectral RpaStabThms Fring ImpBubbleModel.
Set Implicit Arguments.
Unset Strict Implicit.
Unset Printing Implicit Defensive.
Import GRing.Theory Num.Theory Order.Theory.
Local Open Scope ring_scope.

Section Spec.
Variables (C : numClosedFieldType) (nb : nat).
Definition hermitian_at (m : 'M[C]_nb) : Prop := forall a b, m a b = (m b a)^*.
(* <v| m |v> is never negative *)
Definition never_negative (m : 'M[C]_nb) : Prop := forall v : 'I_nb -> C, 0 <= \sum_i \sum_j (v i)^* * m i j * v j.
(* the response of O^+ to O, with O = sum_ab x_ab c^+_a c_b and O^+ = sum_cd (x_dc)^* c^+_c c_d *)
Definition response (x : 'I_nb -> 'I_nb -> C) (chi : tensor4 C nb) : C := \sum_a \sum_b \sum_c \sum_d x a b * chi a b c d * (x d c)^*.
End Spec.

Section Impurity.
Variables (C : numClosedFieldType) (nb L : nat) (g : 'I_L.+1 -> 'M[C]_nb).
Local Notation chi0 := (chi0_tau_from_g_tau_PH g).
(* C125: the bubble at beta - tau is the one at tau with the pairs exchanged *)
Theorem C125_reflection t a b c d : chi0 (rev_ord t) a b c d = chi0 t c d a b.
Proof. by rewrite /chi0_tau_from_g_tau_PH rev_ordK mulrC. Qed.
(* C125: Hermitian Green's functions give a Hermitian bubble *)
Theorem C125_hermitian t a b c d : (forall t, hermitian_at (g t)) -> chi0 t a b c d = (chi0 t d c b a)^*.
Proof. by move=> h; rewrite /chi0_tau_from_g_tau_PH rmorphM -!h. Qed.

Lemma nn_psd (m : 'M[C]_nb) : never_negative m -> psd m.
Proof.
move=> h v; have -> : qf m v = \sum_i \sum_j (v i 0)^* * m i j * v j 0; last exact: h (fun i => v i 0).
rewrite /qf -mulmxA mxE; apply: eq_bigr => i _; rewrite !mxE mulr_sumr; apply: eq_bigr => j _; by rewrite mulrA.
Qed.
Lemma tr_psd (A B X : 'M[C]_nb) : psd A -> psd B -> 0 <= \tr (hc X *m A *m X *m B).
Proof.
move=> pA pB; have [l [W [_ u eB]]] := spectral (psd_hc pB).
have u' : hc W *m W = 1%:M by exact: mulmx1C.
have lE : diag_mx l = hc W *m B *m W by rewrite eB -!mulmxA u' mulmx1 !mulmxA u' mul1mx.
rewrite eB !mulmxA mxtrace_mulC !mulmxA /mxtrace; apply: sumr_ge0 => j _; rewrite mul_mx_diag mxE mulr_ge0 //.
  have -> : (hc W *m hc X *m A *m X *m W) j j = qf A (col j (X *m W)); last exact: pA.
  rewrite /qf -!mulmxA mulmxA -hcM !mulmxA -[_ *m A *m X *m W]mulmxA mxE [RHS]mxE; apply: eq_bigr => i _; rewrite !mxE; congr (_ * _).
  by apply: eq_bigr => k _; rewrite !mxE.
have -> : l 0 j = qf B (col j W); last exact: pB.
have := congr1 (fun M : 'M_nb => M j j) lE; rewrite !mxE eqxx mulr1n => ->; rewrite /qf mxE; apply: eq_bigr => i _; rewrite !mxE; congr (_ * _).
by apply: eq_bigr => k _; rewrite !mxE.
Qed.
(* C125: no operator has a negative response at any imaginary time *)
Theorem C125_positive t x : (forall t, never_negative (- g t)) -> 0 <= response x (chi0 t).
Proof.
move=> h; pose X : 'M[C]_nb := \matrix_(a, b) x a b.
have := tr_psd X (nn_psd (h t)) (nn_psd (h (rev_ord t))).
have -> // : \tr (hc X *m - g t *m X *m - g (rev_ord t)) = response x (chi0 t).
rewrite mulmxN mulmxN !mulNmx opprK /mxtrace /response.
rewrite (eq_bigr (fun c => \sum_b \sum_a \sum_d (x d c)^* * g t d a * x a b * g (rev_ord t) b c)); last first.
  move=> c _; rewrite mxE; apply: eq_bigr => b _; rewrite mxE mulr_suml; apply: eq_bigr => a _; rewrite mxE !mulr_suml.
  by apply: eq_bigr => d _; rewrite !mxE.
rewrite exchange_big /= [RHS]exchange_big /=; apply: eq_bigr => b _; rewrite exchange_big /=; apply: eq_bigr => a _; apply: eq_bigr => c _; apply: eq_bigr => d _.
by rewrite /chi0_tau_from_g_tau_PH [x a b * _]mulrC -!mulrA mulrC -!mulrA; congr (_ * _); rewrite mulrCA.
Qed.
End Impurity.

Section Lattice.
Variables (C : numClosedFieldType) (n1 n2 n3 nb L : nat) (beta : C).
Local Notation K := (site n1 n2 n3).
Variables (nranks nranks' : nat) (sched sched' : nat -> seq K) (fs : fair_all nranks sched) (fs' : fair_all nranks' sched').
Variable g : gtr C n1 n2 n3 nb L.
(* C125: the lattice bubble at beta - tau and -r is the one at tau and r with the pairs exchanged *)
Theorem C125_lattice_reflection t r a b c d :
  chi0_tr_from_grt_PH nranks sched g (rev_ord t) (- r) a b c d = chi0_tr_from_grt_PH nranks' sched' g t r c d a b.
Proof. by rewrite /chi0_tr_from_grt_PH !fair_all_map // /chi0_t_kernel rev_ordK opprK mulrC. Qed.
(* C125: a Green's function that does not leave the unit cell has the bubble of the impurity, and none between cells *)
Theorem C125_local t r a b c d : (forall t r, r != 0 -> g t r = 0) ->
  chi0_tr_from_grt_PH nranks sched g t r a b c d = if r == 0 then chi0_tau_from_g_tau_PH (fun t => g t 0) t a b c d else 0.
Proof.
move=> h; rewrite /chi0_tr_from_grt_PH fair_all_map // /chi0_t_kernel /chi0_tau_from_g_tau_PH.
by case: ifP => [/eqP -> | /negbT/h ->]; rewrite ?oppr0 // mxE mul0r.
Qed.
Definition tweight (t : 'I_L.+1) : C := (1 - 2%:R^-1 * (t == ord0)%:R - 2%:R^-1 * (t == ord_max)%:R) * (beta / L%:R).
Lemma trapz_sum (x : 'I_L.+1 -> C) : trapz beta x = \sum_t tweight t * x t.
Proof.
have D (u : 'I_L.+1) : \sum_t (t == u)%:R * x t = x u.
  by rewrite (bigD1 u) //= eqxx mul1r big1 ?addr0 // => t /negbTE ->; rewrite mul0r.
rewrite /trapz -[x ord0]D -[x ord_max]D.
have -> : foldl (fun acc t => acc + x t) 0 (index_enum _) = \sum_t x t.
  have F (s : seq 'I_L.+1) z : foldl (fun acc t => acc + x t) z s = z + \sum_(t <- s) x t.
    by elim: s z => [|t s ih] z /=; rewrite ?big_nil ?addr0 // ih big_cons addrA.
  by rewrite F add0r.
rewrite !mulr_sumr -!sumrB mulr_suml; apply: eq_bigr => t _; rewrite /tweight mulrAC; congr (_ * _).
by rewrite !mulrBl mul1r !mulrA.
Qed.
Lemma tweight_rev t : tweight (rev_ord t) = tweight t.
Proof.
have e1 : (rev_ord t == ord0) = (t == ord_max) by rewrite -(inj_eq rev_ord_inj) rev_ordK; congr (_ == _); apply: val_inj; rewrite /= subn1.
have e2 : (rev_ord t == ord_max) = (t == ord0) by rewrite -(inj_eq rev_ord_inj) rev_ordK; congr (_ == _); apply: val_inj; rewrite /= subnn.
by rewrite /tweight e1 e2 addrAC.
Qed.
Lemma tweight_ge0 t : 0 <= beta -> 0 <= tweight t.
Proof.
move=> b0; case: (posnP L) => [l0|l0]; first by rewrite /tweight (_ : beta / L%:R = 0) ?mulr0 // l0 invr0 mulr0.
rewrite /tweight mulr_ge0 ?divr_ge0 ?ler0n //.
have ne : (t == ord0) && (t == ord_max) = false by apply/negP => /andP[/eqP -> /eqP /(congr1 val) /= e]; move: l0; rewrite -e.
have h1 : 0 <= 1 - 2%:R^-1 :> C by rewrite subr_ge0 invf_le1 ?ler1n ?ltr0n.
by move: ne; case: (t == ord0); case: (t == ord_max) => //= _; rewrite ?mulr1 ?mulr0 ?subr0 ?ler01.
Qed.
(* C125: the static susceptibility does not change if the pairs are exchanged with the direction *)
Theorem C125_static_reflection w r a b c d :
  chi0_w0r_from_grt_PH beta nranks sched g w (- r) a b c d = chi0_w0r_from_grt_PH beta nranks' sched' g w r c d a b.
Proof.
rewrite /chi0_w0r_from_grt_PH !fair_all_map // /chi_trapz_tau !trapz_sum (reindex_inj rev_ord_inj); apply: eq_bigr => t _.
by rewrite tweight_rev /chi0_t_kernel rev_ordK opprK; congr (_ * _); rewrite mulrC.
Qed.
(* C125: no operator of one unit cell has a negative static response *)
Theorem C125_static_positive w x : 0 <= beta -> (forall t, never_negative (- g t 0)) -> 0 <= response x (chi0_w0r_from_grt_PH beta nranks sched g w 0).
Proof.
move=> b0 h.
have -> : response x (chi0_w0r_from_grt_PH beta nranks sched g w 0) = \sum_t tweight t * response x (chi0_tau_from_g_tau_PH (fun t => g t 0) t).
  rewrite /response; under [RHS]eq_bigr do rewrite mulr_sumr.
  rewrite [RHS]exchange_big /=; apply: eq_bigr => a _; under [RHS]eq_bigr do rewrite mulr_sumr.
  rewrite [RHS]exchange_big /=; apply: eq_bigr => b _; under [RHS]eq_bigr do rewrite mulr_sumr.
  rewrite [RHS]exchange_big /=; apply: eq_bigr => c _; under [RHS]eq_bigr do rewrite mulr_sumr.
  rewrite [RHS]exchange_big /=; apply: eq_bigr => d _.
  rewrite /chi0_w0r_from_grt_PH fair_all_map // /chi_trapz_tau trapz_sum mulr_sumr mulr_suml; apply: eq_bigr => t _.
  by rewrite /chi0_t_kernel /chi0_tau_from_g_tau_PH oppr0 mulrCA -!mulrA.
apply: sumr_ge0 => t _; apply: mulr_ge0; first exact: tweight_ge0.
exact: (@C125_positive C nb L (fun t => g t 0)).
Qed.
End Lattice.

(* two coupled orbitals on three points of time *)
Section Case.
Variables (C : numClosedFieldType).
Add Ring Cring : (fld_rt C).
Definition case_g (t : 'I_3) : 'M[C]_2 := \matrix_(i, j) - (t.+1 * (i == j).+1)%:R.
Theorem C125_case : [/\ forall t, hermitian_at (case_g t), forall t, never_negative (- case_g t) &
  chi0_tau_from_g_tau_PH case_g ord0 0 1 1 0 <> chi0_tau_from_g_tau_PH case_g ord0 0 0 1 0].
Proof.
split=> [t a b|t v|].
- by rewrite !mxE rmorphN rmorph_nat eq_sym.
- rewrite (_ : \sum_i _ = t.+1%:R * (`|v 0| ^+ 2 + `|v 1| ^+ 2 + `|v 0 + v 1| ^+ 2)).
    by rewrite mulr_ge0 ?ler0n // !addr_ge0 // exprn_ge0.
  rewrite !big_ord_recl !big_ord0 !addr0 !normCK rmorphD !mxE /= !opprK !natrM mulr1.
  rewrite (_ : lift ord0 ord0 = 1); last exact: val_inj.
  move: (v 0)^* (v 1)^* (v 0) (v 1) (t.+1%:R : C) => p q y z w; rewrite (_ : 2%:R = 1 + 1) ?natrD //; fring C.
- rewrite /chi0_tau_from_g_tau_PH !mxE !mulrNN -!natrM => /eqP; by rewrite eqr_nat.
Qed.
(* the same orbitals in every cell of a grid of 2 x 3 x 1 cells, on two ranks *)
Definition case_lattice : gtr C 1 2 0 2 2 := fun t r => if r == 0 then case_g t else 0.
Theorem C125_lattice_case : [/\ fair_all 2 (mpi_view (enum [finType of site 1 2 0]) 2), forall t r, r != 0 -> case_lattice t r = 0,
  forall t, never_negative (- case_lattice t 0) & response (fun a b => (a == b)%:R) (chi0_tau_from_g_tau_PH (fun t => case_lattice t 0) ord0) <> 0].
Proof.
have [_ h _] := C125_case; split=> [|t r /negbTE|t|].
- exact: fair_all_inorder.
- by rewrite /case_lattice => ->.
- by rewrite /case_lattice eqxx.
rewrite /response !big_ord_recl !big_ord0 /chi0_tau_from_g_tau_PH /case_lattice eqxx !mxE -!val_eqE /= !mul0r !mul1r ?rmorph1 ?rmorph0 ?mulr0 ?mulr1 ?addr0 ?add0r !mulrNN -!natrM -!natrD.
by move/eqP; rewrite pnatr_eq0.
Qed.
End Case.
Print Assumptions C125_reflection.
Print Assumptions C125_hermitian.
Print Assumptions C125_positive.
Print Assumptions C125_lattice_reflection.
Print Assumptions C125_local.
Print Assumptions C125_static_reflection.
Print Assumptions C125_static_positive.
Print Assumptions C125_case.
Print Assumptions C125_lattice_case.
