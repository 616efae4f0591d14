(* C92 (real frequency GW self energy by the spectral representation). *)
From mathcomp Require Import all_ssreflect all_algebra all_field.
From mathcomp Require Import zify.
From Verif Require Import Fring MatsubaraSum HubbardAtomModel HubbardAtomThms LindhardModel LindhardThms G0wModel.
Set Implicit Arguments.
Unset Strict Implicit.
Unset Printing Implicit Defensive.
Import Order.TTheory GRing.Theory Num.Theory.
Local Open Scope ring_scope.

Section Thms.
Variables (C : numClosedFieldType) (nb nf : nat) (K : finZmodType).
Add Ring Cring : (fld_rt C).
Add Field Cfield : (fld_ft (Num.ClosedField.fieldType C)).
Local Notation M := 'M[C]_nb.
Local Notation t4 := ('I_nb -> 'I_nb -> 'I_nb -> 'I_nb -> C).
Variables (exp : C -> C) (pi : C) (fmesh : 'I_nf -> C) (dw : C).
Local Notation sigma eig := (g0w_dynamic_sigma exp pi eig fmesh dw).
Local Notation value eig := (g0w_value exp pi eig fmesh dw).
Local Notation ker := (kernel exp fmesh).
Local Notation Ws := (W_spec pi).
Lemma valueE eig (e : K -> M) mu beta W v z k a b : value eig e mu beta W v z k a b =
  \sum_(q : K) \sum_fp func (ker beta z fp) (eig (e (k + q) - mu%:M)).1 (eig (e (k + q) - mu%:M)).2 a b * (Ws W v fp q a b * dw / #|K|%:R).
Proof.
apply: eq_bigr => q _; case: (eig _) => l U; rewrite exchange_big; apply: eq_bigr => fp _.
by rewrite funcE mulr_suml; apply: eq_bigr => i _ /=; fring C.
Qed.
(* the exponential function on the real numbers *)
Definition exp_real : Prop := (exp 0 = 1) /\ (forall x y, x \is Num.real -> y \is Num.real -> x < y -> 0 < exp x < exp y).
Hypothesis ex : exp_real.
Lemma exp_eq1 x : x \is Num.real -> (exp x - 1 == 0) = (x == 0).
Proof.
case: ex => e0 h hx; rewrite subr_eq0; case: (x =P 0) => [->|/eqP n]; first by rewrite e0 eqxx.
have r0 : 0 \is @Num.real C by rewrite real0.
have /orP[l|l] : (x < 0) || (0 < x) by rewrite -real_neqr_lt.
  by have /andP[_] := h _ _ hx r0 l; rewrite e0 => /lt_eqF.
by have /andP[_] := h _ _ r0 hx l; rewrite e0 => /gt_eqF.
Qed.
Definition real_mesh : Prop := forall f, fmesh f \is Num.real.
Definition no_zero : Prop := forall f, fmesh f != 0.
Hypothesis rm : real_mesh.
Lemma broadened (x y delta : C) : x \is Num.real -> y \is Num.real -> 0 < delta -> x + 'i * delta + y != 0.
Proof.
move=> hx hy hd; apply/eqP => h; have : 'Im (x + y + 'i * delta) = 0 by rewrite -[x + y + _]addrAC h raddf0.
by have rd := gtr0_real hd; rewrite Im_rect ?realD // => hd0; move: hd; rewrite hd0 ltxx.
Qed.
(* C92: with a positive broadening the result is finite unless the mesh contains the frequency zero ... *)
Theorem C92_finite eig (e : K -> M) mu beta W v delta f k a b : eigensolver eig -> hermitian e -> mu \is Num.real -> 0 < beta -> 0 < delta -> no_zero ->
  sigma eig e mu beta W v delta f k a b = Some (value eig e mu beta W v (fmesh f + 'i * delta) k a b).
Proof.
move=> he hh hm hb hd nz; rewrite /g0w_dynamic_sigma ifT //; apply/forallP => q; apply/forallP => l; apply/forallP => fp.
have [rl _ _] := he _ (hermitian_mu hh hm (k + q)); apply/andP; split.
  by have rb := gtr0_real hb; rewrite exp_eq1 ?realM // mulf_neq0 ?nz // lt0r_neq0.
by rewrite -addrA broadened // realB.
Qed.
(* ... and then it never is *)
Theorem C92_zero_frequency_refuted eig (e : K -> M) mu beta W v delta f k (a b : 'I_nb) f0 : fmesh f0 = 0 -> sigma eig e mu beta W v delta f k a b = None.
Proof.
move=> h; rewrite /g0w_dynamic_sigma ifF //; apply/negbTE/forallPn; exists 0; apply/forallPn; exists a; apply/forallPn; exists f0.
by rewrite /regular h mul0r; case: ex => -> _; rewrite subrr eqxx.
Qed.
(* C92: the result does not depend on the eigenvectors that the solver chooses *)
Theorem C92_gauge eig eig' (e : K -> M) mu beta W v z k a b : eigensolver eig -> eigensolver eig' -> hermitian e -> mu \is Num.real ->
  value eig e mu beta W v z k a b = value eig' e mu beta W v z k a b.
Proof.
move=> h h' he hm; rewrite !valueE; apply: eq_bigr => q _; apply: eq_bigr => fp _; congr (_ * _).
have hk := hermitian_mu he hm (k + q); by rewrite (func_gauge _ (h _ hk) (h' _ hk)).
Qed.
(* C92: without dynamical screening the total self energy is the exchange with the occupation matrix *)
Theorem C92_static eig eig' (e : K -> M) mu beta W v delta f k a b : eigensolver eig -> eigensolver eig' -> hermitian e -> mu \is Num.real -> 0 < beta -> 0 < delta -> no_zero ->
  (forall fp, W fp = v) ->
  g0w_total_sigma exp pi eig fmesh dw e mu beta W v delta f k a b =
  Some (- (\sum_(q : K) v q a a b b * func (fun x => g0w_fermi exp (x * beta)) (eig' (e (k + q) - mu%:M)).1 (eig' (e (k + q) - mu%:M)).2 a b) / #|K|%:R).
Proof.
move=> h h' he hm hb hd nz hW; rewrite /g0w_total_sigma C92_finite //; congr Some.
have -> : value eig e mu beta W v (fmesh f + 'i * delta) k a b = 0.
  rewrite valueE; apply: big1 => q _; apply: big1 => fp _; by rewrite /W_spec hW subrr raddf0 mulr0 !mul0r mulr0.
rewrite addr0 mulNr mulr_suml -sumrN; apply: eq_bigr => q _; have hk := hermitian_mu he hm (k + q).
rewrite -(func_gauge _ (h _ hk) (h' _ hk)) funcE; case: (eig _) => l U /=.
rewrite mulr_sumr mulr_suml -sumrN; apply: eq_bigr => i _; congr (- _); move: (g0w_fermi _ _) (v _ _ _ _ _) => x y; fring C.
Qed.
(* the weights *)
Lemma fermi_range x : x \is Num.real -> 0 < g0w_fermi exp x < 1.
Proof.
case: ex => e0 h rx; have p y : y \is Num.real -> 0 < exp y.
  by move=> ry; have /andP[] := h y (y + 1) ry (realD ry (real1 _)) (ltr_spaddr ltr01 (lexx y)).
rewrite /g0w_fermi; case: ifP => _.
  have px := p x rx; rewrite divr_gt0 ?addr_gt0 ?ltr01 //= ltr_pdivr_mulr ?addr_gt0 ?ltr01 // mul1r ltr_addr //.
have px : 0 < exp (- x) by apply: p; rewrite realN.
by rewrite divr_gt0 ?addr_gt0 ?ltr01 //= ltr_pdivr_mulr ?addr_gt0 ?ltr01 // mul1r ltr_addr ltr01.
Qed.
Lemma weight_sign (beta x y : C) : 0 < beta -> x \is Num.real -> y \is Num.real -> x != 0 -> 0 < x * (g0w_bose exp (x * beta) + g0w_fermi exp (y * beta)).
Proof.
move=> hb rx ry nx; have rb := gtr0_real hb; have /andP[f0 f1] := fermi_range (realM ry rb); case: (ex) => e0 h; have r0 : 0 \is @Num.real C by rewrite real0.
have rxb := realM rx rb; have /orP[l|l] : (x < 0) || (0 < x) by rewrite -real_neqr_lt.
  have lb : x * beta < 0 by rewrite pmulr_llt0.
  have /andP[p1 p2] := h _ _ rxb r0 lb; rewrite e0 in p2.
  rewrite nmulr_rgt0 // /g0w_bose -[exp _ - 1]opprB invrN mulrN mul1r addrC subr_lt0; apply: lt_trans f1 _.
  by rewrite invf_gt1 ?subr_gt0 // ltr_subl_addr ltr_addl.
have lb : 0 < x * beta by rewrite pmulr_lgt0.
have /andP[p1 p2] := h _ _ r0 rxb lb; rewrite e0 in p2.
by rewrite mulr_gt0 // addr_gt0 // /g0w_bose divr_gt0 ?ltr01 // subr_gt0.
Qed.
Lemma kernel_im beta (f fp : 'I_nf) (y delta : C) : 0 < beta -> y \is Num.real -> 0 < delta -> no_zero ->
  fmesh fp * ('Im (ker beta (fmesh f + 'i * delta) fp y)) < 0.
Proof.
move=> hb ry hd nz; have rb := gtr0_real hb; have w := weight_sign hb (rm fp) ry (nz fp).
have rn : g0w_bose exp (fmesh fp * beta) + g0w_fermi exp (y * beta) \is Num.real.
  have /andP[f0 f1] := fermi_range (realM ry rb); rewrite realD ?(gtr0_real f0) // /g0w_bose realM ?real1 ?realV // realB ?real1 //.
  have re z : z \is Num.real -> exp z \is Num.real.
    move=> rz; case: ex => _ h; have /andP[p _] := h z (z + 1) rz (realD rz (real1 _)) (ltr_spaddr ltr01 (lexx z)); exact: gtr0_real.
  by rewrite re // realM.
rewrite /kernel; set num := g0w_bose _ _ + _ in w rn *; set d := _ - y.
have dE : d = (fmesh f + fmesh fp - y) + 'i * delta by rewrite /d; fring C.
have rx : fmesh f + fmesh fp - y \is Num.real by rewrite realB ?realD.
have d0 : d != 0 by rewrite /d -addrA broadened // realB.
have -> : 'Im (num / d) = - (num * (delta / `|d| ^+ 2)).
  have -> : num / d = num * (fmesh f + fmesh fp - y) / `|d| ^+ 2 + 'i * (- (num * (delta / `|d| ^+ 2))).
    rewrite invC_norm dE rmorphD rmorphM conjCi (CrealP rx) (CrealP (gtr0_real hd)); fring C.
  have rd : (`|d| ^+ 2)^-1 \is Num.real by rewrite realV rpredX ?normr_real.
  have rdel := gtr0_real hd; by rewrite Im_rect // ?realN !realM.
rewrite mulrN mulrA oppr_lt0 mulr_gt0 // divr_gt0 // exprn_gt0 // normr_gt0 //.
Qed.
Lemma sum_le0 (I : finType) (F : I -> C) : (forall i, true -> F i <= 0) -> \sum_i F i <= 0.
Proof. by move=> h; rewrite -oppr_ge0 -sumrN sumr_ge0 // => i _; rewrite oppr_ge0 h. Qed.
(* C92: the self energy is causal: its anti-Hermitian part is negative semidefinite *)
Definition dissipative (W : 'I_nf -> K -> t4) v : Prop := forall fp q,
  (forall a b, Ws W v fp q a b = Ws W v fp q b a) /\ forall y : 'I_nb -> C, 0 <= fmesh fp * \sum_a \sum_b (y a)^* * Ws W v fp q a b * y b.
Theorem C92_causal eig (e : K -> M) mu beta W v delta f k (x : 'I_nb -> C) : eigensolver eig -> hermitian e -> mu \is Num.real -> 0 < beta -> 0 < delta -> 0 <= dw -> no_zero ->
  pi \is Num.real -> dissipative W v ->
  let S := value eig e mu beta W v (fmesh f + 'i * delta) k in
  \sum_a \sum_b (x a)^* * ((S a b - (S b a)^*) / (2%:R * 'i)) * x b <= 0.
Proof.
move=> he hh hm hb hd hw nz rp dis; cbv zeta; set z := fmesh f + 'i * delta; set S := value eig e mu beta W v z k.
pose u q := (eig (e (k + q) - mu%:M)).2; pose l q := (eig (e (k + q) - mu%:M)).1.
have n0 : 0 < #|K|%:R :> C by rewrite ltr0n; apply/card_gt0P; exists 0.
have rW fp q a b : Ws W v fp q a b \is Num.real by rewrite /W_spec !realM ?realN ?real1 ?realV // Creal_Im.
have anti a b : (S a b - (S b a)^*) / (2%:R * 'i) = \sum_q \sum_fp \sum_i u q a i * (u q b i)^* * Ws W v fp q a b * ('Im (ker beta z fp (l q 0 i)) * (dw / #|K|%:R)).
  have -> : (S b a)^* = \sum_q \sum_fp \sum_i u q a i * (u q b i)^* * Ws W v fp q a b * ((ker beta z fp (l q 0 i))^* * (dw / #|K|%:R)).
    rewrite /S valueE rmorph_sum; apply: eq_bigr => q _; rewrite rmorph_sum; apply: eq_bigr => fp _; rewrite rmorphM funcE rmorph_sum mulr_suml; apply: eq_bigr => i _.
    have := rW fp q a b; rewrite (proj1 (dis fp q) b a) [dagger _ _ _]mxE -/(u q) -/(l q); move: (Ws _ _ _ _ _ _) (ker _ _ _ _) (u q a i) (u q b i) => w c ua ub rw.
    rewrite !rmorphM fmorphV (CrealP rw) conjCK (CrealP (gtr0_real n0)) (CrealP (ger0_real hw)); fring C.
  rewrite {1}/S valueE -sumrB mulr_suml; apply: eq_bigr => q _; rewrite -sumrB mulr_suml; apply: eq_bigr => fp _; rewrite funcE mulr_suml -sumrB mulr_suml; apply: eq_bigr => i _.
  rewrite -/(u q) -/(l q) [dagger _ _ _]mxE; set c := ker _ _ _ _.
  have -> : (2%:R * 'i)^-1 = - 'i / 2%:R :> C by rewrite invfM invCi mulrC.
  rewrite ImE; fring C.
have quad : \sum_a \sum_b (x a)^* * ((S a b - (S b a)^*) / (2%:R * 'i)) * x b =
  \sum_q \sum_fp \sum_i (\sum_a \sum_b ((u q a i)^* * x a)^* * Ws W v fp q a b * ((u q b i)^* * x b)) * ('Im (ker beta z fp (l q 0 i)) * (dw / #|K|%:R)).
  transitivity (\sum_a \sum_b \sum_q \sum_fp \sum_i ((u q a i)^* * x a)^* * Ws W v fp q a b * ((u q b i)^* * x b) * ('Im (ker beta z fp (l q 0 i)) * (dw / #|K|%:R))).
    apply: eq_bigr => a _; apply: eq_bigr => b _; rewrite anti mulr_sumr mulr_suml; apply: eq_bigr => q _; rewrite mulr_sumr mulr_suml; apply: eq_bigr => fp _.
    rewrite mulr_sumr mulr_suml; apply: eq_bigr => i _; rewrite rmorphM conjCK; fring C.
  under eq_bigr do rewrite exchange_big; rewrite exchange_big; apply: eq_bigr => q _.
  under eq_bigr do rewrite exchange_big; rewrite exchange_big; apply: eq_bigr => fp _.
  under eq_bigr do rewrite exchange_big; rewrite exchange_big; apply: eq_bigr => i _.
  by rewrite mulr_suml; apply: eq_bigr => a _; rewrite mulr_suml.
rewrite quad; apply: sum_le0 => q _; apply: sum_le0 => fp _; apply: sum_le0 => i _.
have [rl _ _] := he _ (hermitian_mu hh hm (k + q)).
have ki := kernel_im f fp hb (rl i) hd nz.
have qi := proj2 (dis fp q) (fun a => (u q a i)^* * x a).
set Q := \sum_a _ in qi *.
rewrite mulrA mulr_le0_ge0 ?divr_ge0 ?(ltW n0) //.
have f2 : 0 < fmesh fp ^+ 2 by rewrite lt_neqAle eq_sym expf_neq0 ?nz //= real_exprn_even_ge0.
rewrite -(pmulr_rle0 _ f2); move: ki qi; rewrite -/z -/(l q); move: Q ('Im _) (fmesh fp) => Q c w ki qi.
have -> : w ^+ 2 * (Q * c) = (w * Q) * (w * c) by rewrite expr2 mulrACA.
by rewrite mulr_ge0_le0 // ltW.
Qed.
(* C92: the value at the Matsubara frequencies is the convolution of propagator and screened interaction *)
Variable beta : C.
Local Notation nu := (fermion pi beta).
Local Notation om := (boson pi beta).
(* the Matsubara sums of simple poles *)
Definition fermi_sum : Prop := forall x, x \is Num.real -> lim (win^~ (fun n => 1 / (nu n - x))) (beta * (g0w_fermi exp (x * beta) - 2%:R^-1)).
Definition bose_sum : Prop := forall x, x \is Num.real -> x != 0 -> lim (win^~ (fun m => 1 / (om m - x))) (- beta * (g0w_bose exp (x * beta) + 2%:R^-1)).
Definition propagator (e : K -> M) (mu z : C) (k : K) : M := invmx (z%:M - (e k - mu%:M)).
Definition W_dyn (W : 'I_nf -> K -> t4) v (w : C) q a b : C := \sum_fp Ws W v fp q a b * dw / (w - fmesh fp).
Definition archimedes : Prop := forall x : C, 0 <= x -> exists N : nat, x <= N%:R.
Hypotheses (ppos : 0 < pi) (bpos : 0 < beta) (arch : archimedes) (fs : fermi_sum) (bs : bose_sum) (nz : no_zero).
Lemma nu_real_neq n x : x \is Num.real -> nu n - x != 0.
Proof.
move=> rx; apply/eqP => h; have [y ry ny] := im_nu ppos bpos n.
have : 'Im (- x + nu n) = 0 by rewrite addrC h raddf0.
rewrite ny Im_rect ?realN // => y0; have := nu_neq0 ppos bpos n; by rewrite ny y0 mulr0 eqxx.
Qed.
Lemma om_real_neq m x : x \is Num.real -> x != 0 -> om m - x != 0.
Proof.
move=> rx nx; apply/eqP => h; have [y ry ny] := im_om ppos bpos m.
have : 'Re (- x + om m) = 0 by rewrite addrC h raddf0.
rewrite ny Re_rect ?realN // => /eqP; by rewrite oppr_eq0 (negbTE nx).
Qed.
Lemma ends_pole x : x \is Num.real -> ends (fun n => 1 / (nu n - x)).
Proof.
move=> rx j; have [h1 h2] := ends_inv0 ppos bpos arch (- 1) rx j.
by split; [apply: lim_ext h1 | apply: lim_ext h2] => N; rewrite -[nu _ - x]opprB invrN mulrN mulNr.
Qed.
Lemma pole_pair n x y : x \is Num.real -> x != 0 -> y \is Num.real ->
  lim (win^~ (fun m => 1 / (nu n + om m - y) * (1 / (om m - x)))) (- beta * ((g0w_bose exp (x * beta) + g0w_fermi exp (y * beta)) / (nu n + x - y))).
Proof.
move=> rx nx ry; have d0 : nu n + x - y <> 0.
  by move/eqP; rewrite -addrA -opprB subr_eq0 => /eqP h; have /eqP := nu_real_neq n (realB ry rx); rewrite h subrr.
have shift : lim (win^~ (fun m => 1 / (nu (m + n) - y))) (beta * (g0w_fermi exp (y * beta) - 2%:R^-1)).
  exact: (lim_shift (f := fun m => 1 / (nu m - y)) _ (ends_pole ry) (fs ry)).
have H := lim_wscale (nu n + x - y)^-1 (lim_wadd (bs rx nx) (lim_wscale (- 1) shift)).
apply: lim_eq (lim_wext _ H) _ => [m|].
  have /eqP h1 := om_real_neq m rx nx; have sE : nu (m + n) = nu n + om m by rewrite nu_shift addrC.
  have /eqP := nu_real_neq (m + n) ry; rewrite sE => h2.
  move: (nu n) (om m) h1 h2 d0 => a b h1 h2 d0; ffield C; by do ?split.
move: (g0w_bose _ _) (g0w_fermi _ _) (2%:R^-1) => B F h; fring C.
Qed.
Lemma lim_sum (I : finType) (f : I -> nat -> C) (l : I -> C) : (forall i, lim (f i) (l i)) -> lim (fun N => \sum_i f i N) (\sum_i l i).
Proof.
move=> h; elim: (index_enum I) => [|i s ih]; first by rewrite big_nil; apply: lim_ext (lim_const 0) => N; rewrite big_nil.
by rewrite big_cons; apply: lim_ext (lim_add (h i) ih) => N; rewrite big_cons.
Qed.
Lemma win_sum (I : finType) (f : I -> int -> C) N : win N (fun n => \sum_i f i n) = \sum_i win N (f i).
Proof. by rewrite /win exchange_big; apply: eq_bigr => k _; rewrite big_split. Qed.
Lemma resolvent (m : M) l U z : decomposes m l U -> (forall i, z - l 0 i != 0) -> invmx (z%:M - m) = func (fun x => 1 / (z - x)) l U.
Proof.
move=> [rl u e] nz'; have v := unitary_l u.
have E : (z%:M - m) *m func (fun x => 1 / (z - x)) l U = 1%:M.
  have -> : z%:M - m = U *m diag_mx (map_mx (fun x => z - x) l) *m dagger U.
    have zE : z%:M = U *m z%:M *m dagger U by rewrite scalar_mxC -mulmxA u mulmx1.
    rewrite e {1}zE -mulmxBl -mulmxBr; congr (_ *m _ *m _).
    by apply/matrixP => i j; rewrite !mxE; case: eqP => [->|]; rewrite ?mulr1n ?mulr0n ?subr0.
  rewrite /func -!mulmxA (mulmxA (dagger U) U) v mul1mx (mulmxA (diag_mx _) (diag_mx _)) mulmx_diag.
  have -> : \row_j (map_mx (fun x => z - x) l 0 j * map_mx (fun x => 1 / (z - x)) l 0 j) = const_mx 1.
    by apply/matrixP => i j; rewrite !mxE mul1r divff.
  by rewrite diag_const_mx mul1mx u.
have [un _] := mulmx1_unit E; by rewrite -[LHS]mulmx1 -E mulKmx.
Qed.
Theorem C92_matsubara eig (e : K -> M) mu W v n k a b : eigensolver eig -> hermitian e -> mu \is Num.real ->
  lim (fun N => - (1 / (beta * #|K|%:R)) * \sum_(q : K) win N (fun m => propagator e mu (nu n + om m) (k + q) a b * W_dyn W v (om m) q a b))
    (value eig e mu beta W v (nu n) k a b).
Proof.
move=> he hh hm; rewrite valueE; apply: lim_eq (lim_scale _ (lim_sum (l := fun q => \sum_fp \sum_l
    (eig (e (k + q) - mu%:M)).2 a l * dagger (eig (e (k + q) - mu%:M)).2 l b * (Ws W v fp q a b * dw) *
    (- beta * ((g0w_bose exp (fmesh fp * beta) + g0w_fermi exp ((eig (e (k + q) - mu%:M)).1 0 l * beta)) / (nu n + fmesh fp - (eig (e (k + q) - mu%:M)).1 0 l)))) _)) _.
  move=> q; have hk := hermitian_mu hh hm (k + q); have [rl u E] := he _ hk.
  have P m : propagator e mu (nu n + om m) (k + q) a b * W_dyn W v (om m) q a b = \sum_fp \sum_l
    (eig (e (k + q) - mu%:M)).2 a l * dagger (eig (e (k + q) - mu%:M)).2 l b * (Ws W v fp q a b * dw) *
    (1 / (nu n + om m - (eig (e (k + q) - mu%:M)).1 0 l) * (1 / (om m - fmesh fp))).
    rewrite /propagator (resolvent (he _ hk)) => [|i]; last by rewrite nu_shift nu_real_neq.
    rewrite funcE /W_dyn mulr_sumr; apply: eq_bigr => fp _; rewrite mulr_suml; apply: eq_bigr => l _.
    by move: (om m - _)^-1 (_ - _)^-1 => x y; fring C.
  apply: lim_ext (_ : lim (fun N => \sum_fp \sum_l win N (fun m => (eig (e (k + q) - mu%:M)).2 a l * dagger (eig (e (k + q) - mu%:M)).2 l b * (Ws W v fp q a b * dw) *
    (1 / (nu n + om m - (eig (e (k + q) - mu%:M)).1 0 l) * (1 / (om m - fmesh fp))))) _) => [N|].
    rewrite (win_ext N P) win_sum; apply: eq_bigr => fp _; exact: win_sum.
  apply: lim_sum => fp; apply: lim_sum => l; apply: lim_wscale; apply: pole_pair => //.
rewrite mulr_sumr; apply: eq_bigr => q _; rewrite mulr_sumr; apply: eq_bigr => fp _; rewrite funcE mulr_suml mulr_sumr; apply: eq_bigr => l _.
have /eqP b0 := lt0r_neq0 bpos; have k0 : #|K|%:R <> 0 :> C by apply/eqP; rewrite pnatr_eq0 -lt0n; apply/card_gt0P; exists 0.
rewrite /kernel; move: (g0w_bose _ _ + _) (_ - _)^-1 (Ws _ _ _ _ _ _) (#|K|%:R) k0 (_ a l) (dagger _ l b) => x y w c k0 u1 u2; ffield C; by do ?split.
Qed.
End Thms.
(* one band with energy 0, two momenta, one frequency: the hypotheses hold and the self energy is (3/2) / (2 + i) *)
Section Case.
Local Notation C := [numClosedFieldType of algC].
Local Notation c := algC.
Definition exp1 (x : c) : c := if x < 0 then 1 / (1 - x) else 1 + x.
Lemma exp1_real : @exp_real C exp1.
Proof.
have r0 : 0 \is @Num.real C by rewrite real0.
split=> [|x y rx ry l]; first by rewrite /exp1 ltxx addr0.
rewrite /exp1; case: (real_leP r0 rx) => [x0|x0]; case: (real_leP r0 ry) => [y0|y0].
- by rewrite ltr_spaddl ?ltr01 //= ltr_add2l.
- by have := lt_trans (le_lt_trans x0 l) y0; rewrite ltxx.
- have p : 1 < 1 - x by rewrite ltr_addl oppr_gt0.
  rewrite divr_gt0 ?(lt_trans _ p) ?ltr01 //=; apply: lt_le_trans (_ : 1 <= _); last by rewrite ler_addl.
  by rewrite mul1r invf_lt1 // (lt_trans _ p) ?ltr01.
- have p : 0 < 1 - x by rewrite subr_gt0 (lt_trans x0) ?ltr01.
  have p' : 0 < 1 - y by rewrite subr_gt0 (lt_trans y0) ?ltr01.
  by rewrite !mul1r invr_gt0 p ltf_pinv ?posrE // ltr_add2l ltr_opp2.
Qed.
Let fm (i : 'I_1) : c := 1.
Let W1 (fp : 'I_1) (q : 'Z_2) (a b d h : 'I_1) : c := - 'i.
Let v1 (q : 'Z_2) (a b d h : 'I_1) : c := 0.
Let e1 (k : 'Z_2) : 'M[c]_1 := 0.
Theorem C92_case : eigensolver (C := C) (@eig1 C) /\ hermitian (C := C) e1 /\ real_mesh (C := C) fm /\ no_zero (C := C) fm /\ dissipative (C := C) (1 : c) fm W1 v1 /\
  g0w_dynamic_sigma (C := C) exp1 1 (@eig1 C) fm 1 e1 0 1 W1 v1 1 0 0 0 0 = Some (3%:R / 2%:R / (2%:R + 'i)).
Proof.
have h1 := @eig1_solves C. 
have h2 : hermitian (C := C) e1.
  by move=> k; apply/matrixP => i j; rewrite !mxE conjC0.
have h3 : real_mesh (C := C) fm by move=> f; rewrite real1.
have h4 : no_zero (C := C) fm by move=> f; rewrite oner_eq0.
have wE fp q a b : W_spec (C := C) 1 W1 v1 fp q a b = 1.
  have imi : 'Im (- 'i : c) = - 1 by rewrite raddfN /= Im_i.
  by rewrite /W_spec /W1 /v1 subr0 imi divr1 mulrNN mulr1.
split=> //; split=> //; split=> //; split=> //; split.
  move=> fp q; split=> [a b|y]; first by rewrite !wE.
  rewrite mul1r !big_ord1 wE mulr1 mulrC; exact: mul_conjC_ge0.
rewrite (C92_finite (C := C) _ _ exp1_real h3) ?ltr01 ?real0 // valueE.
have t q : \sum_fp func (C := C) (kernel exp1 fm 1 (fm 0 + 'i * 1) fp) (eig1 (C := C) (e1 (0 + q) - 0%:M)).1 (eig1 (C := C) (e1 (0 + q) - 0%:M)).2 0 0 * (W_spec (C := C) 1 W1 v1 fp q 0 0 * 1 / #|[finType of 'Z_2]|%:R)
   = 3%:R / 2%:R / (2%:R + 'i) / 2%:R.
  rewrite big_ord1 funcE big_ord1 wE !mxE /= card_ord !mulr1n conjC1 subrr !mulr1 !mul1r.
  rewrite /kernel /fm !mul0r subr0 !mulr1 /g0w_bose /g0w_fermi ltxx oppr0 /exp1 ltxx addr0 ltr10 addrK invr1 mul1r.
  have -> : 1 + 'i + 1 = 2%:R + 'i :> c by rewrite addrAC.
  have n2 : 2%:R != 0 :> c by rewrite pnatr_eq0.
  by congr (_ / _ / _); apply: (mulIf n2); rewrite mulrDl !mul1r mulVf // mulfVK // (natrD _ 2 1).
rewrite (eq_bigr _ (fun q _ => t q)) big_const card_ord /= addr0.
by rewrite -mulr2n -mulr_natr mulfVK // pnatr_eq0.
Qed.
End Case.
Print Assumptions C92_finite.
Print Assumptions C92_zero_frequency_refuted.
Print Assumptions C92_gauge.
Print Assumptions C92_static.
Print Assumptions C92_causal.
Print Assumptions C92_matsubara.
Print Assumptions C92_case.
