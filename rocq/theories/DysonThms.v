(* C18 (lattice Dyson equation) and C54 (positive spectral function). *)
From mathcomp Require Import all_ssreflect all_algebra all_field.
From Verif Require Import MpiModel MpiProofs MpiSpec MatAlg DysonModel DysonSpec DysonProofs.
Set Implicit Arguments.
Unset Strict Implicit.
Unset Printing Implicit Defensive.
Import Order.Theory GRing.Theory Num.Theory.
Local Open Scope ring_scope.

Section Main.
Variables (C : fieldType) (nb : nat) (W K : finType) (freq : W -> C).
Local Notation mat := 'M[C]_nb.

(* the returned function is the one and only solution at every mesh point, for every run *)
Lemma C18_dyson_proof nranks sched (mu idelta : C) (e : K -> mat) (s : self_energy C nb W K) w k :
  fair_all nranks sched -> dyson_solvable (freq w + idelta + mu) (e k) (sigmaterm s w k) ->
  let g := lattice_dyson_g_Xk freq nranks sched mu e s idelta w k in
  dyson_eq (freq w + idelta + mu) (e k) (sigmaterm s w k) g /\
  (forall X, dyson_eq (freq w + idelta + mu) (e k) (sigmaterm s w k) X -> X = g).
Proof. by move=> fs h; rewrite /lattice_dyson_g_Xk fair_all_map //=; apply: dyson_inverse. Qed.
Theorem C18_dyson_equation nranks sched (mu idelta : C) (e : K -> mat) (s : self_energy C nb W K) w k :
  fair_all nranks sched -> dyson_solvable (freq w + idelta + mu) (e k) (sigmaterm s w k) ->
  let g := lattice_dyson_g_Xk freq nranks sched mu e s idelta w k in
  dyson_eq (freq w + idelta + mu) (e k) (sigmaterm s w k) g /\
  (forall X, dyson_eq (freq w + idelta + mu) (e k) (sigmaterm s w k) X -> X = g).
Proof. exact (@C18_dyson_proof nranks sched mu idelta e s w k). Qed.

(* a self energy without momentum dependence may be passed in either form *)
Remark local_self_energy_form nranks sched (mu idelta : C) (e : K -> mat) (f : W -> mat) w k :
  lattice_dyson_g_Xk freq nranks sched mu e (SigmaW f) idelta w k =
  lattice_dyson_g_Xk freq nranks sched mu e (SigmaWK (fun w _ => f w)) idelta w k.
Proof. by []. Qed.

(* vanishing self energy: the non-interacting functions of both kinds, whatever the schedules *)
Lemma C18_g0_proof nranks sched nranks' sched' (mu idelta : C) (e : K -> mat) (s : self_energy C nb W K) w k :
  fair_all nranks sched -> fair_all nranks' sched' -> sigmaterm s w k = 0 ->
  lattice_dyson_g_Xk freq nranks sched mu e s 0 w k = lattice_dyson_g0_Xk freq nranks' sched' mu e w k /\
  lattice_dyson_g_Xk freq nranks sched mu e s idelta w k = lattice_dyson_g0_fk freq nranks' sched' mu e idelta w k.
Proof.
move=> fs fs' h; rewrite /lattice_dyson_g_Xk /lattice_dyson_g0_Xk /lattice_dyson_g0_fk !fair_all_map //= h.
by rewrite !subr0 addr0.
Qed.
Theorem C18_noninteracting nranks sched nranks' sched' (mu idelta : C) (e : K -> mat) (s : self_energy C nb W K) w k :
  fair_all nranks sched -> fair_all nranks' sched' -> sigmaterm s w k = 0 ->
  lattice_dyson_g_Xk freq nranks sched mu e s 0 w k = lattice_dyson_g0_Xk freq nranks' sched' mu e w k /\
  lattice_dyson_g_Xk freq nranks sched mu e s idelta w k = lattice_dyson_g0_fk freq nranks' sched' mu e idelta w k.
Proof. exact (@C18_g0_proof nranks sched nranks' sched' mu idelta e s w k). Qed.

(* the local function is the momentum average of the momentum-resolved one *)
Lemma C18_average_proof nranks wsched nranks' sched (mu idelta : C) (e : K -> mat) (s : self_energy C nb W K) w a b :
  (0 < nranks)%N -> (forall r k, (r < nranks)%N -> perm_eq (wsched r k) (enum W)) -> fair_all nranks' sched ->
  lattice_dyson_g_X freq nranks wsched mu e s idelta w a b =
  (\sum_k lattice_dyson_g_Xk freq nranks' sched mu e s idelta w k a b) / #|K|%:R.
Proof.
move=> n0 hs fs; rewrite /lattice_dyson_g_X dyson_average // !mxE summxE mulrC; congr (_ / _).
by apply: eq_bigr => k _; rewrite /lattice_dyson_g_Xk fair_all_map.
Qed.
Theorem C18_local_is_average nranks wsched nranks' sched (mu idelta : C) (e : K -> mat) (s : self_energy C nb W K) w a b :
  (0 < nranks)%N -> (forall r k, (r < nranks)%N -> perm_eq (wsched r k) (enum W)) -> fair_all nranks' sched ->
  lattice_dyson_g_X freq nranks wsched mu e s idelta w a b =
  (\sum_k lattice_dyson_g_Xk freq nranks' sched mu e s idelta w k a b) / #|K|%:R.
Proof. exact (@C18_average_proof nranks wsched nranks' sched mu idelta e s w a b). Qed.
End Main.

Section Hermitian.
Variables (C : numClosedFieldType) (nb : nat) (W K : finType) (freq : W -> C).
Local Notation mat := 'M[C]_nb.

(* conjugating the frequency (and the broadening) gives the Hermitian conjugate *)
Lemma C18_conj_proof nranks sched nranks' sched' (mu idelta : C) (e : K -> mat) (s : self_energy C nb W K) w w' k :
  fair_all nranks sched -> fair_all nranks' sched' ->
  mu^* = mu -> hermitian (e k) -> freq w' = (freq w)^* -> hconj (sigmaterm s w k) (sigmaterm s w' k) ->
  dyson_solvable (freq w + idelta + mu) (e k) (sigmaterm s w k) ->
  hconj (lattice_dyson_g_Xk freq nranks sched mu e s idelta w k)
        (lattice_dyson_g_Xk freq nranks' sched' mu e s idelta^* w' k).
Proof.
move=> fs fs' hmu /hermitianP he hw /hconjP hs /dyson_solvableP u; apply/hconjP.
rewrite /lattice_dyson_g_Xk !fair_all_map //= adj_inv // !adjB adj_scalar he -hs hw; congr (invmx (_%:M - _ - _)).
by rewrite !rmorphD hmu.
Qed.
Theorem C18_conjugate_frequency nranks sched nranks' sched' (mu idelta : C) (e : K -> mat) (s : self_energy C nb W K) w w' k :
  fair_all nranks sched -> fair_all nranks' sched' ->
  mu^* = mu -> hermitian (e k) -> freq w' = (freq w)^* -> hconj (sigmaterm s w k) (sigmaterm s w' k) ->
  dyson_solvable (freq w + idelta + mu) (e k) (sigmaterm s w k) ->
  hconj (lattice_dyson_g_Xk freq nranks sched mu e s idelta w k)
        (lattice_dyson_g_Xk freq nranks' sched' mu e s idelta^* w' k).
Proof. exact (@C18_conj_proof nranks sched nranks' sched' mu idelta e s w w' k). Qed.

(* C54. On the real axis, with Hermitian dispersion and Hermitian (static) self energy and positive broadening delta,
   i (G - G^+) is positive semi-definite; the value is 2 delta |G^+ x|^2 *)
Lemma C54_proof nranks sched (mu delta : C) (e : K -> mat) (s : self_energy C nb W K) w k (x : 'I_nb -> C) :
  fair_all nranks sched -> mu^* = mu -> 0 < delta -> (freq w)^* = freq w ->
  hermitian (e k) -> hermitian (sigmaterm s w k) ->
  let g := lattice_dyson_g_Xk freq nranks sched mu e s ('i * delta) w k in
  let spec : mat := \matrix_(a, b) ('i * (g a b - (g b a)^*)) in
  quadform x spec = 2%:R * delta * (\sum_c `|\sum_a (x a * (g a c)^*)| ^+ 2) /\ 0 <= quadform x spec.
Proof.
move=> fs hmu dp hf /hermitianP he /hermitianP hs g spec.
have hd : delta^* = delta by apply: CrealP; apply: gtr0_real.
have d0 : 0 <= delta by apply: ltW.
pose A : mat := (freq w + 'i * delta + mu)%:M - e k - sigmaterm s w k.
have gE : g = invmx A by rewrite /g /lattice_dyson_g_Xk fair_all_map.
have adA : adj A = A - (2%:R * 'i * delta)%:M.
  have zc : (freq w + 'i * delta + mu)^* = freq w + 'i * delta + mu - 2%:R * 'i * delta.
    rewrite !rmorphD rmorphM conjCi hmu hd hf mulNr; apply/eqP; rewrite eq_sym subr_eq.
    rewrite -mulrA mulr_natl mulr2n; set d := 'i * delta.
    by rewrite [X in _ == X]addrA (addrAC _ mu d) subrK (addrAC _ mu d).
  rewrite /A !adjB adj_scalar he hs zc raddfB /=; set z := _%:M; set c := _%:M.
  by rewrite [z - c - _]addrAC [LHS]addrAC.
have u : A \in unitmx.
  rewrite -row_free_unit -kermx_eq0; set v := kermx A; have vA : v *m A = 0 by apply: mulmx_ker.
  have : v *m A *m adj v - v *m (adj A *m adj v) = 0 by rewrite -adj_mul vA adj0 mul0mx mulmx0 subrr.
  rewrite mulmxA -mulmxBl -mulmxBr adA opprB addrCA subrr addr0 mul_mx_scalar -scalemxAl => /eqP.
  rewrite scaler_eq0 !mulf_eq0 pnatr_eq0 (negPf (neq0Ci C)) (gt_eqF dp) orbF /= => /eqP h.
  by apply/eqP; apply: adj_norm0.
have key : g - adj g = - (2%:R * 'i * delta) *: (g *m adj g).
  have h1 : g *m A = 1%:M by rewrite gE mulVmx.
  have h2 : adj A *m adj g = 1%:M by rewrite -adj_mul h1 adj1.
  have : g *m (adj A *m adj g) = g *m (A - (2%:R * 'i * delta)%:M) *m adj g by rewrite adA mulmxA.
  rewrite h2 mulmx1 mulmxBr h1 mulmxBl mul1mx => {1}->.
  by rewrite addrAC subrr add0r mul_mx_scalar -scalemxAl scaleNr.
have specE a b : spec a b = 2%:R * delta * \sum_c g a c * (g b c)^*.
  have -> : spec a b = 'i * (g - adj g) a b by rewrite !mxE.
  rewrite key mxE mulrA mxE; congr (_ * _); last by apply: eq_bigr => c _; rewrite mxE.
  by rewrite mulrN -mulrA (mulrCA 'i) (mulrA 'i 'i) -expr2 sqrCi mulN1r mulrN opprK.
have E : quadform x spec = 2%:R * delta * (\sum_c `|\sum_a (x a * (g a c)^*)| ^+ 2).
  rewrite /quadform mulr_sumr.
  transitivity (\sum_a \sum_b \sum_c 2%:R * delta * (((x a)^* * g a c) * (x b * (g b c)^*))).
    apply: eq_bigr => a _; apply: eq_bigr => b _; rewrite specE !mulr_sumr mulr_suml; apply: eq_bigr => c _.
    rewrite (mulrCA (x a)^*) -[LHS]mulrA; congr (_ * _).
    by rewrite -!mulrA; congr (_ * (_ * _)); rewrite mulrC.
  under eq_bigr do rewrite exchange_big /=.
  rewrite exchange_big /=; apply: eq_bigr => c _.
  rewrite normCK rmorph_sum mulr_sumr mulr_sumr; apply: eq_bigr => a _ /=.
  rewrite mulr_suml mulr_sumr; apply: eq_bigr => b _.
  by rewrite rmorphM conjCK; congr (_ * _); rewrite mulrC.
split=> //; rewrite E mulr_ge0 ?mulr_ge0 ?ler0n //.
by apply: sumr_ge0 => c _; rewrite exprn_ge0 // normr_ge0.
Qed.
Theorem C54_spectral_function_positive nranks sched (mu delta : C) (e : K -> mat) (s : self_energy C nb W K) w k (x : 'I_nb -> C) :
  fair_all nranks sched -> mu^* = mu -> 0 < delta -> (freq w)^* = freq w ->
  hermitian (e k) -> hermitian (sigmaterm s w k) ->
  let g := lattice_dyson_g_Xk freq nranks sched mu e s ('i * delta) w k in
  let spec : mat := \matrix_(a, b) ('i * (g a b - (g b a)^*)) in
  quadform x spec = 2%:R * delta * (\sum_c `|\sum_a (x a * (g a c)^*)| ^+ 2) /\ 0 <= quadform x spec.
Proof. exact (@C54_proof nranks sched mu delta e s w k x). Qed.
End Hermitian.

(* a two-orbital, two-momentum case: real frequency 0, broadening 1, chemical potential 0, e_k Hermitian and complex *)
Section Case.
Let e (k : 'I_2) : 'M[algC]_2 := \matrix_(i, j) (if i == j then 0 else if (i < j)%N then 'i else - 'i).
Lemma e_herm k : hermitian (e k).
Proof.
move=> a b; rewrite !mxE eq_sym; case: eqP => [_|/eqP ne]; first by rewrite rmorph0.
case: a b ne => [[|[|//]] ha] [[|[|//]] hb] //= _; rewrite ?rmorphN ?conjCi ?opprK //.
Qed.
Example C54_case_solvable : dyson_solvable (0 + 'i * 1 + 0 : algC) (e ord0) 0.
Proof.
exists (\matrix_(i, j) (if i == j then - 'i / 2%:R else if (i < j)%N then - 'i / 2%:R else 'i / 2%:R)) => a b.
have ii : 'i * ('i / 2%:R) = - 2%:R^-1 :> algC by rewrite mulrA -expr2 sqrCi mulN1r.
have half : 2%:R^-1 + 2%:R^-1 = 1 :> algC by rewrite -mulr2n -[X in X *+ 2]mulr1 -mulrnAr mulVf ?pnatr_eq0.
rewrite !big_ord_recl big_ord0 !mxE addr0 add0r mulr1 addr0.
case: a b => [[|[|//]] ha] [[|[|//]] hb]; rewrite /= ?mulr1 ?mulr0 ?subr0 ?sub0r ?opprK ?mulNr ?mulrN ?ii ?opprK //.
- by rewrite subrr.
- by rewrite subrr.
Qed.
End Case.

Print Assumptions C18_dyson_equation.
Print Assumptions C18_noninteracting.
Print Assumptions C18_local_is_average.
Print Assumptions C18_conjugate_frequency.
Print Assumptions C54_spectral_function_positive.
