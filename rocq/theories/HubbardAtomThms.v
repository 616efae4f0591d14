(* C89 (Green function and observables of the Hubbard atom), C90 (magnetic susceptibility of the Hubbard atom), C91 (vertex of the Hubbard atom). *)
From mathcomp Require Import all_ssreflect all_algebra all_field.
From mathcomp Require Import zify.
From Verif Require Import Fring MatsubaraSum HubbardAtomModel.
Set Implicit Arguments.
Unset Strict Implicit.
Unset Printing Implicit Defensive.
Import Order.TTheory GRing.Theory Num.Theory.
Local Open Scope ring_scope.

Section Frequencies.
Variables (C : numClosedFieldType) (pi beta : C).
Add Ring CringF : (fld_rt C).
Add Field CfieldF : (fld_ft (Num.ClosedField.fieldType C)).
Local Notation nu := (fermion pi beta).
Local Notation om := (boson pi beta).
Lemma nu_shift n m : nu n + om m = nu (n + m).
Proof. by rewrite /fermion /boson -mulrDl -mulrDr -rmorphD; congr (_ * _%:~R / _); lia. Qed.
Lemma nu_reflect n : nu (- n - 1) = - nu n.
Proof. by rewrite /fermion -mulNr -mulrN -rmorphN; congr (_ * _%:~R / _); lia. Qed.
(* frequencies are imaginary *)
Hypotheses (ppos : 0 < pi) (bpos : 0 < beta).
Definition im (z : C) : Prop := exists2 y, y \is Num.real & z = 'i * y.
Lemma im_nu n : im (nu n).
Proof.
exists (pi * (n + n + 1)%:~R / beta); last by rewrite /fermion !mulrA.
by rewrite !realM ?realV ?realz ?gtr0_real.
Qed.
Lemma im_om n : im (om n).
Proof.
exists (pi * (n + n)%:~R / beta); last by rewrite /boson !mulrA.
by rewrite !realM ?realV ?realz ?gtr0_real.
Qed.
Lemma nu_inj : injective nu.
Proof.
move=> n n'; rewrite /fermion => /(divIf (lt0r_neq0 bpos)) /(mulfI _) e.
have : (n + n + 1)%:~R = (n' + n' + 1)%:~R :> C by apply: e; rewrite mulf_neq0 ?neq0Ci ?lt0r_neq0.
by move/intr_inj; lia.
Qed.
Lemma om_eq0 m : (om m == 0) = (m == 0).
Proof.
rewrite /boson !mulf_eq0 invr_eq0 !(negbTE (neq0Ci C)) (gt_eqF ppos) (gt_eqF bpos) orbF /= intr_eq0; lia.
Qed.
Lemma nu_neq0 n : nu n != 0.
Proof.
rewrite /fermion !mulf_eq0 invr_eq0 !(negbTE (neq0Ci C)) (gt_eqF ppos) (gt_eqF bpos) orbF /= intr_eq0; lia.
Qed.
(* the terms 1 / (a - nu) of a real number a vanish at both ends *)
Hypothesis arch : forall M : C, 0 <= M -> exists N : nat, M <= N%:R.
Lemma norm_im (a y : C) : a \is Num.real -> y \is Num.real -> `|y| <= `|a - 'i * y|.
Proof.
move=> ra ry; rewrite -(@ler_pexpn2r _ 2) ?nnegrE // [X in _ <= X]normC2_Re_Im.
have -> : 'Im (a - 'i * y) = - y by rewrite -mulrN Im_rect ?realN.
by rewrite sqrrN (real_normK ry) ler_addr -realEsqr Creal_Re.
Qed.
Lemma ends_inv0 a c : a \is Num.real -> ends (fun n => c / (a - nu n)).
Proof.
move=> ra; have q0 : 0 < pi / beta by rewrite divr_gt0.
have nE n : nu n = 'i * (pi / beta * (n + n + 1)%:~R) by rewrite /fermion -!mulrA [_ * beta^-1]mulrC.
have key (n : nat -> int) : (forall K : nat, exists N0, forall N, (N0 <= N)%N -> (K <= absz (n N + n N + 1)%R)%N) -> lim (fun N => c / (a - nu (n N))) 0.
  move=> hn eps he; have M0 : 0 <= (`|c| + 1) / eps / (pi / beta).
    by apply: divr_ge0; [apply: divr_ge0; [rewrite addr_ge0 ?ler01 | exact: ltW] | exact: ltW].
  have [K hK] := arch M0.
  have [N0 h0] := hn K; exists N0 => N /h0 {}h0; rewrite subr0 normrM normfV.
  have rr : pi / beta * (n N + n N + 1)%:~R \is Num.real by rewrite realM ?realz ?gtr0_real.
  have := norm_im ra rr; rewrite -nE; set d := `|a - _| => hd.
  have hd' : pi / beta * K%:R <= d.
    apply: le_trans hd; rewrite normrM (gtr0_norm q0) ler_pmul2l // -intr_norm -[K%:R]/((Posz K)%:~R) ler_int; lia.
  have h1 : (`|c| + 1) / eps <= d by apply: le_trans hd'; rewrite [X in _ <= X]mulrC -ler_pdivr_mulr.
  have d0 : 0 < d by apply: lt_le_trans h1; rewrite divr_gt0 // ltr_spaddr ?ltr01.
  rewrite ltr_pdivr_mulr //; apply: lt_le_trans (_ : `|c| + 1 <= _); first by rewrite ltr_addl ltr01.
  by rewrite [X in _ <= X]mulrC -ler_pdivr_mulr.
move=> j; split; apply: key => K; exists (K + absz j + 1)%N => N hN; lia.
Qed.
Lemma ends_inv a c : a \is Num.real -> a != 0 -> ends (fun n => c / (a - nu n)).
Proof. by move=> ra _; apply: ends_inv0. Qed.
End Frequencies.

Section Sums.
Variables (C : numClosedFieldType) (pi beta U : C).
Add Ring CringS : (fld_rt C).
Add Field CfieldS : (fld_ft (Num.ClosedField.fieldType C)).
Hypotheses (ppos : 0 < pi) (bpos : 0 < beta) (Upos : 0 < U) (arch : forall M : C, 0 <= M -> exists N : nat, M <= N%:R).
Local Notation nu := (fermion pi beta).
Local Notation om := (boson pi beta).
Local Notation aa := (U * U * 4%:R^-1).
Local Notation a := (U / 2%:R).
Lemma two_neq0 : 2%:R <> 0 :> C.
Proof. by apply/eqP; rewrite pnatr_eq0. Qed.
Lemma aaE : aa = a * a.
Proof. by rewrite -[4%N]/(2 * 2)%N natrM invfM; fring C. Qed.
Lemma im_sq (z : C) : im z -> z * z <= 0.
Proof. by case=> y ry ->; rewrite mulrACA -expr2 sqrCi mulN1r oppr_le0 -expr2 -realEsqr. Qed.
Lemma gap n : 0 < - (nu n * nu n) + aa.
Proof. by rewrite ltr_spaddr ?oppr_ge0 ?im_sq ?mulr_gt0 ?invr_gt0 ?ltr0n //; apply: im_nu. Qed.
Lemma den_neq0 m n : denominator U (om m) (nu n) != 0.
Proof. by rewrite /denominator nu_shift mulf_neq0 ?lt0r_neq0 ?gap. Qed.
Lemma gap_om m : 0 < U * U - om m * om m.
Proof. by rewrite ltr_spaddl ?mulr_gt0 ?oppr_ge0 ?im_sq //; apply: im_om. Qed.
Lemma ra : a \is Num.real.
Proof. by rewrite realM ?realV ?gtr0_real ?ltr0n. Qed.
Lemma na : a != 0.
Proof. by rewrite mulf_neq0 ?invr_eq0 ?pnatr_eq0 ?lt0r_neq0. Qed.
Lemma XY n : (a - nu n) * (a + nu n) = - (nu n * nu n) + aa.
Proof. by rewrite aaE; fring C. Qed.
Lemma X_neq0 n : a - nu n != 0.
Proof. by have := lt0r_neq0 (gap n); rewrite -XY mulf_eq0 => /norP[]. Qed.
Lemma Y_neq0 n : a + nu n != 0.
Proof. by have := lt0r_neq0 (gap n); rewrite -XY mulf_eq0 => /norP[]. Qed.
(* the sum of 1 / (U^2/4 - nu^2) over all frequencies *)
Variable T : C.
Hypothesis sumT : lim (win^~ (fun n => 1 / (- (nu n * nu n) + aa))) T.
Lemma sumX : lim (win^~ (fun n => 1 / (a - nu n))) (a * T).
Proof.
apply: lim_ext (lim_scale a sumT) => N; rewrite -win_scale.
have odd : win N (fun n => nu n / (- (nu n * nu n) + aa)) = 0.
  apply/eqP; have : win N (fun n => nu n / (- (nu n * nu n) + aa)) = - win N (fun n => nu n / (- (nu n * nu n) + aa)).
    by rewrite -[LHS]win_reflect -[RHS]mulN1r -win_scale; apply: win_ext => n; rewrite nu_reflect mulrNN mulN1r mulNr.
  by move/eqP; rewrite -addr_eq0 -mulr2n mulrn_eq0.
rewrite -[RHS]addr0 -odd -win_add; apply: win_ext => n; rewrite -XY; have := X_neq0 n; have := Y_neq0 n => /eqP hy /eqP hx.
by rewrite mul1r [in RHS]mulrA mulr1 -mulrDl invfM mulrCA divff ?mulr1 //; apply/eqP.
Qed.
Lemma sumY : lim (win^~ (fun n => 1 / (a + nu n))) (a * T).
Proof. by apply: lim_ext sumX => N; rewrite -win_reflect; apply: win_ext => n; rewrite nu_reflect. Qed.
Lemma sumX' m : lim (win^~ (fun n => 1 / (a - nu (n + m)))) (a * T).
Proof. by apply: (lim_shift (f := fun n => 1 / (a - nu n))); [apply: ends_inv => //; [exact: ra | exact: na] | exact: sumX]. Qed.
Lemma sumY' m : lim (win^~ (fun n => 1 / (a + nu (n + m)))) (a * T).
Proof.
apply: (lim_shift (f := fun n => 1 / (a + nu n))); last exact: sumY.
move=> j; have e : ends (fun n => 1 / (a - nu n)) by apply: ends_inv => //; [exact: ra | exact: na].
have [h1 h2] := e (- j - 1); split; [apply: lim_ext h2 | apply: lim_ext h1] => N; rewrite -[X in a + X]opprK -nu_reflect; congr (_ / (_ - nu _)); lia.
Qed.
Lemma fractions (b x w : C) : w <> 0 -> b + b <> 0 -> b + b + w <> 0 -> b + b - w <> 0 -> b - x <> 0 -> b + x <> 0 -> b - (x + w) <> 0 -> b + (x + w) <> 0 ->
  1 / ((b - x) * (b + x) * ((b - (x + w)) * (b + (x + w)))) =
   ((b + b) * (b + b))^-1 * (w^-1 * (1 / (b - (x + w))) + - w^-1 * (1 / (b - x)) + (b + b + w)^-1 * (1 / (b - x)) + (b + b + w)^-1 * (1 / (b + (x + w))) +
    (b + b - w)^-1 * (1 / (b + x)) + (b + b - w)^-1 * (1 / (b - (x + w))) + w^-1 * (1 / (b + x)) + - w^-1 * (1 / (b + (x + w)))).
Proof. move=> h1 h2 h3 h4 h5 h6 h7 h8; ffield C; by do ?split. Qed.
Lemma UE : a + a = U.
Proof. by rewrite -mulrDl -mulr2n -mulr_natr mulfK ?pnatr_eq0. Qed.
(* sums over one pair of propagators at a finite bosonic frequency *)
Lemma sum0 m : m != 0 -> lim (win^~ (fun n => 1 / denominator U (om m) (nu n))) (2%:R * T / (U * U - om m * om m)).
Proof.
move=> hm; have w0 : om m <> 0 by apply/eqP; rewrite om_eq0.
have UU : U * U - om m * om m = (U - om m) * (U + om m) by fring C.
have := lt0r_neq0 (gap_om m); rewrite UU mulf_eq0 => /norP[/eqP u1 /eqP u2].
have u0 : U <> 0 by apply/eqP; rewrite lt0r_neq0.
pose f n := (U * U)^-1 * ((om m)^-1 * (1 / (a - nu (n + m))) + - (om m)^-1 * (1 / (a - nu n)) + (U + om m)^-1 * (1 / (a - nu n)) + (U + om m)^-1 * (1 / (a + nu (n + m))) +
    (U - om m)^-1 * (1 / (a + nu n)) + (U - om m)^-1 * (1 / (a - nu (n + m))) + (om m)^-1 * (1 / (a + nu n)) + - (om m)^-1 * (1 / (a + nu (n + m)))).
have fE n : 1 / denominator U (om m) (nu n) = f n.
  rewrite /denominator aaE; have -> : - (nu n * nu n) + a * a = (a - nu n) * (a + nu n) by fring C.
  have -> : - ((nu n + om m) * (nu n + om m)) + a * a = (a - (nu n + om m)) * (a + (nu n + om m)) by fring C.
  rewrite fractions ?UE // ?nu_shift //; apply/eqP; rewrite ?X_neq0 ?Y_neq0 //.
apply: lim_ext (fun N => win_ext N fE) _; rewrite /f.
apply: lim_eq (_ : lim _ ((U * U)^-1 * ((om m)^-1 * (a * T) + - (om m)^-1 * (a * T) + (U + om m)^-1 * (a * T) + (U + om m)^-1 * (a * T) +
    (U - om m)^-1 * (a * T) + (U - om m)^-1 * (a * T) + (om m)^-1 * (a * T) + - (om m)^-1 * (a * T)))) _.
  apply: lim_ext (fun N => win_scale N _ _) _; apply: lim_scale.
  have l1 := sumX' m; have l2 := sumY' m; have l3 := sumX; have l4 := sumY.
  have k1 := lim_wscale (om m)^-1 l1; have k2 := lim_wscale (- (om m)^-1) l3; have k3 := lim_wscale (U + om m)^-1 l3; have k4 := lim_wscale (U + om m)^-1 l2.
  have k5 := lim_wscale (U - om m)^-1 l4; have k6 := lim_wscale (U - om m)^-1 l1; have k7 := lim_wscale (om m)^-1 l4; have k8 := lim_wscale (- (om m)^-1) l2.
  exact: lim_wadd (lim_wadd (lim_wadd (lim_wadd (lim_wadd (lim_wadd (lim_wadd k1 k2) k3) k4) k5) k6) k7) k8.
have n2 := two_neq0; rewrite (mulr2n 1) in n2 *; ffield C; by do ?split.
Qed.
Lemma gap2 m n : - (nu n * (nu n + om m)) = (om m * om m / 2%:R - aa) + 2%:R^-1 * ((- (nu n * nu n) + aa) + (- ((nu n + om m) * (nu n + om m)) + aa)).
Proof.
have n2 := two_neq0; rewrite aaE (mulr2n 1) in n2 *; move: (nu n) (om m) => x w; ffield C; by do ?split.
Qed.
Lemma ends_gap : ends (fun n => 1 / (- (nu n * nu n) + aa)).
Proof.
have e : ends (fun n => 1 / (a - nu n)) by apply: ends_inv => //; [exact: ra | exact: na].
have gE n : 1 / (- (nu n * nu n) + aa) = 1 / (a - nu n) * (1 / (a - nu (- n - 1))) by rewrite nu_reflect opprK -XY !mul1r invfM.
move=> j; have [h1 h2] := e j; have [h3 h4] := e (- j - 1); split.
  apply: lim_eq (lim_ext _ (lim_mul h1 h4)) _ => [N|]; last by rewrite mulr0.
  by rewrite gE; congr (_ * (1 / (a - nu _))); lia.
apply: lim_eq (lim_ext _ (lim_mul h2 h3)) _ => [N|]; last by rewrite mulr0.
by rewrite gE; congr (_ * (1 / (a - nu _))); lia.
Qed.
Lemma sum1 m : m != 0 -> lim (win^~ (fun n => - (nu n * (nu n + om m)) / denominator U (om m) (nu n))) (aa * (2%:R * T / (U * U - om m * om m))).
Proof.
move=> hm; have s0 := sum0 hm; have sT' : lim (win^~ (fun n => 1 / (- (nu (n + m) * nu (n + m)) + aa))) T.
  exact: (lim_shift (f := fun n => 1 / (- (nu n * nu n) + aa)) _ ends_gap).
apply: lim_eq (lim_ext _ (lim_add (lim_scale (om m * om m / 2%:R - aa) s0) (lim_scale 2%:R^-1 (lim_add sumT sT')))) _ => [N|].
  have F (p q c d : C) : p <> 0 -> q <> 0 -> (c + d * (p + q)) / (p * q) = c * (1 / (p * q)) + d * (1 / p + 1 / q).
    by move=> hp hq; ffield C; do ?split.
  rewrite -win_add -!win_scale -win_add; apply: win_ext => n; rewrite gap2 /denominator -nu_shift; apply: F.
    exact/eqP/lt0r_neq0/gap.
  by have := lt0r_neq0 (gap (n + m)); rewrite -nu_shift => /eqP.
have n2 := two_neq0; have /eqP := lt0r_neq0 (gap_om m); rewrite aaE (mulr2n 1) in n2 *; move: (om m) => w h; ffield C; by do ?split.
Qed.
End Sums.

Section Susceptibility.
Variables (C : numClosedFieldType) (exp tan : C -> C) (pi beta U : C).
Add Ring CringQ : (fld_rt C).
Add Field CfieldQ : (fld_ft (Num.ClosedField.fieldType C)).
Local Notation nu := (fermion pi beta).
Local Notation om := (boson pi beta).
Local Notation aa := (U * U * 4%:R^-1).
Local Notation e := (exp (beta * U * 2%:R^-1)).
Local Notation G := (single_particle_greens_function U).
Local Notation chi := (chi_ph_magnetic exp beta U).
Local Notation B2 := (cB exp beta U * cB exp beta U).
(* numbers beta, U, pi of the model: positive, below some natural number; the value of the exponential function is positive *)
Definition parameters : Prop := [/\ 0 < pi, 0 < beta, 0 < U, 0 < e & forall M : C, 0 <= M -> exists N : nat, M <= N%:R].
(* the Matsubara sum of 1 / (U^2/4 - nu^2), that is beta/U tanh(beta U / 4) *)
Definition tanh_sum : Prop := lim (win^~ (fun n => 1 / (- (nu n * nu n) + aa))) (beta / U * ((e - 1) / (1 + e))).
Hypotheses (par : parameters) (sumT : tanh_sum).
Lemma B2E : B2 = - (aa * (`|3%:R - e| / (1 + e))).
Proof.
rewrite /cB; set s := sqrtC _; have hs : s * s = `|3%:R - e| / (1 + e) by rewrite -expr2 sqrtCK.
have -> : aa = U * 2%:R^-1 * (U * 2%:R^-1) by rewrite -[4%N]/(2 * 2)%N natrM invfM; fring C.
have i2 : 'i * 'i = -1 :> C by rewrite -expr2 sqrCi.
have -> : 'i * U * 2%:R^-1 * s * ('i * U * 2%:R^-1 * s) = ('i * 'i) * (U * 2%:R^-1 * (U * 2%:R^-1) * (s * s)) by fring C.
by rewrite i2 hs mulN1r.
Qed.
Lemma kron n n' : kronecker (nu n) (nu n') = if n' == n then 1 else 0.
Proof. by case: par => p b _ _ _; rewrite /kronecker (inj_eq (nu_inj p b)) eq_sym. Qed.
Lemma kron' m n n' : kronecker (nu n) (- om m - nu n') = if n' == - n - m - 1 then 1 else 0.
Proof.
case: par => p b _ _ _; rewrite /kronecker; have -> : - om m - nu n' = nu (- n' - m - 1).
  by rewrite -opprD addrC nu_shift -nu_reflect; congr nu; lia.
rewrite (inj_eq (nu_inj p b)); by have -> : (n == - n' - m - 1) = (n' == - n - m - 1) by lia.
Qed.
Lemma ward_lim m n : m != 0 -> lim (win^~ (fun n' => chi (om m) (nu n) (nu n')))
  (beta * (- (nu n * (nu n + om m)) - B2 - 2%:R * aa * ((e - 1) / (1 + e))) / denominator U (om m) (nu n)).
Proof.
case: par => p b u ep ar hm; have s0 := sum0 p b u ar sumT hm; have s1 := sum1 p b u ar sumT hm.
have w0 : om m == 0 = false by apply/negbTE; rewrite om_eq0.
have cC0 : cC exp beta U (om m) = 0 by rewrite /cC w0.
set b1 := chi_b1 exp beta U (om m); set b2 := chi_b2 exp beta U (om m); set b0 := chi_b0 exp beta U (om m) (nu n); set a0 := chi_a0 beta U (om m) (nu n).
have cE : sqrtC U * sqrtC U = U by rewrite -expr2 sqrtCK.
have b1E x : b1 x = sqrtC U * (- (x * (x + om m)) / denominator U (om m) x) + - (sqrtC U * aa) * (1 / denominator U (om m) x).
  by rewrite /b1 /chi_b1 /cD cC0 subr0 !mulr1 addr0 divr1 mulNr; fring C.
have b2E x : b2 x = 'i * sqrtC (U * U * U * 4%:R^-1) * sqrtC (U * U - om m * om m) * (1 / denominator U (om m) x).
  by rewrite /b2 /chi_b2 cC0 subr0 divr1; fring C.
have l1 : lim (win^~ (fun n' => b1 (nu n'))) 0.
  apply: lim_eq (lim_wext (fun n' => b1E (nu n')) (lim_wadd (lim_wscale _ s1) (lim_wscale _ s0))) _; fring C.
have l2 := lim_wext (fun n' => b2E (nu n')) (lim_wscale _ s0).
have := lim_wadd (lim_wadd (lim_wadd (lim_at n (fun _ => b0 + a0)) (lim_at (- n - m - 1) (fun _ => b0 - a0))) (lim_wscale (b1 (nu n)) l1)) (lim_wscale (b2 (nu n)) l2).
move=> H; apply: lim_eq (lim_wext _ H) _ => [n'|]; first by rewrite /chi_ph_magnetic kron kron'.
rewrite mulr0 addr0 b2E /b0 /a0 /chi_b0 /chi_a0.
have hq : sqrtC (U * U * U * 4%:R^-1) * sqrtC (U * U * U * 4%:R^-1) = U * aa by rewrite -expr2 sqrtCK; fring C.
have hr : sqrtC (U * U - om m * om m) * sqrtC (U * U - om m * om m) = U * U - om m * om m by rewrite -expr2 sqrtCK.
have i2 : 'i * 'i = -1 :> C by rewrite -expr2 sqrCi.
have /eqP g0 := lt0r_neq0 (gap_om p b u m); have /eqP d0 := den_neq0 p b u m n; have u0 : U <> 0 by apply/eqP; rewrite lt0r_neq0.
have n2 : 2%:R <> 0 :> C by exact: two_neq0.
have e0 : 1 + e <> 0 by apply/eqP; rewrite lt0r_neq0 // addr_gt0 ?ltr01.
set q := sqrtC _ in hq *; set r := sqrtC _ in hr *.
have -> (x y : C) : 'i * q * r * (1 / x) * ('i * q * r * y) = ('i * 'i) * (q * q) * (r * r) * (1 / x) * y by fring C.
rewrite i2 hq hr; move: (denominator _ _ _) (B2) (cA U * cA U) (U * U - _) (aa) d0 g0 => d x y g c d0 g0.
rewrite (mulr2n 1) in n2 *; move: e e0 => E e0; ffield C; by do ?split.
Qed.
(* C90: conservation of the spin. The sum over one frequency of the susceptibility is fixed by the Green function *)
Definition ward_identity : Prop := forall m n, m != 0 ->
  lim (win^~ (fun n' => om m * chi (om m) (nu n) (nu n'))) (beta * (G (nu (n + m)) - G (nu n))).
Lemma GE n : G (nu n) = - nu n / (- (nu n * nu n) + aa).
Proof.
case: par => p b u _ _; rewrite /single_particle_greens_function.
have /eqP x0 := nu_neq0 p b n; have /eqP d0 := lt0r_neq0 (gap p b u n); have n4 : 4%:R <> 0 :> C by apply/eqP; rewrite pnatr_eq0.
move: (nu n) (4%:R) x0 n4 d0 => x f x0 f0 d0.
have d1 : x * x * f - U * U <> 0.
  by move=> h; apply: d0; apply/eqP; rewrite -oppr_eq0 -(mulIr_eq0 _ (mulIf (introN eqP f0))) opprD opprK mulrBl mulfVK ?h //; apply/eqP.
ffield C; do ?split=> //.
- move=> h; apply: d1; have {}h : - (x * x) * f + U * U = 0 := h; by rewrite -[RHS]oppr0 -[in RHS]h; fring C.
- move=> h; apply: d1; have {}h : x * (f * x) - U * U = 0 := h; by rewrite -[RHS]h; fring C.
Qed.
Lemma GdiffE m n : beta * (G (nu (n + m)) - G (nu n)) = om m * (beta * (- (nu n * (nu n + om m)) - aa) / denominator U (om m) (nu n)).
Proof.
case: par => p b u _ _; rewrite !GE /denominator -nu_shift.
have /eqP := lt0r_neq0 (gap p b u (n + m)); have /eqP := lt0r_neq0 (gap p b u n); rewrite -nu_shift.
move: (nu n) (om m) aa => x w c h1 h2; ffield C; by do ?split.
Qed.
Lemma ward_iff m n : m != 0 -> (lim (win^~ (fun n' => om m * chi (om m) (nu n) (nu n'))) (beta * (G (nu (n + m)) - G (nu n))) <-> 3%:R <= e).
Proof.
move=> hm; have L := lim_wscale (om m) (ward_lim n hm); case: par => p b u ep _.
have e0 : 1 + e != 0 by rewrite lt0r_neq0 // addr_gt0 ?ltr01.
have aa0 : aa != 0 by rewrite lt0r_neq0 // !mulr_gt0 ?invr_gt0 ?ltr0n.
have key : (B2 + 2%:R * aa * ((e - 1) / (1 + e)) == aa) = (3%:R <= e).
  rewrite B2E; have -> : - (aa * (`|3%:R - e| / (1 + e))) + 2%:R * aa * ((e - 1) / (1 + e)) = aa / (1 + e) * (2%:R * (e - 1) - `|3%:R - e|) by fring C.
  rewrite -subr_eq0; have -> (y : C) : aa / (1 + e) * y - aa = aa / (1 + e) * (y - (1 + e)).
    by rewrite mulrBr mulfVK.
  rewrite mulf_eq0 mulf_eq0 invr_eq0 (negbTE aa0) (negbTE e0) /= subr_eq0.
  have er : 3%:R - e \is Num.real by rewrite realB ?realn ?gtr0_real.
  have -> : (2%:R * (e - 1) - `|3%:R - e| == 1 + e) = (`|3%:R - e| == - (3%:R - e)).
    rewrite -[RHS]subr_eq0 -[LHS]subr_eq0 -[LHS]oppr_eq0; congr (_ == 0); rewrite (_ : 3%:R = 1 + 1 + 1) ?(mulr2n 1); last by rewrite -[3%N]/(1 + 1 + 1)%N !natrD.
    fring C.
  by rewrite eqr_normN subr_le0.
have /eqP w0 : om m != 0 by rewrite om_eq0.
have /eqP d0 := den_neq0 p b u m n; have /eqP b0 := lt0r_neq0 b.
rewrite -key GdiffE; split=> [H|/eqP H].
  have := lim_uniq L H; move/(mulfI (introN eqP w0))/(divIf (introN eqP d0))/(mulfI (introN eqP b0)) => h.
  by apply/eqP; rewrite -[LHS]opprK opprD -[RHS]opprK; congr (- _); apply: (addrI (- (nu n * (nu n + om m)))); rewrite addrA.
by rewrite -{1}H opprD addrA.
Qed.
Theorem C90_ward : 3%:R <= e -> ward_identity.
Proof. by move=> h m n hm; apply/ward_iff. Qed.
(* below beta U = 2 log 3 it is violated at every frequency *)
Theorem C90_ward_refuted : ~ (3%:R <= e) -> forall m n, m != 0 ->
  ~ lim (win^~ (fun n' => om m * chi (om m) (nu n) (nu n'))) (beta * (G (nu (n + m)) - G (nu n))).
Proof. by move=> h m n hm /(ward_iff n hm). Qed.
(* C90: the static susceptibility. The second Matsubara sum is minus the derivative of the first with respect to U^2/4 *)
Definition tanh_sum2 : Prop := lim (win^~ (fun n => 1 / (- (nu n * nu n) + aa) ^+ 2))
  (2%:R * beta / (U * U * U) * ((e - 1) / (1 + e)) - 2%:R * beta * beta / (U * U) * (e / (1 + e) ^+ 2)).
Definition exp_inverse : Prop := exp (- beta * U * 2%:R^-1) = e^-1 /\ exp (- beta * 2%:R^-1 * U) = e^-1.
Theorem C90_static : tanh_sum2 -> exp_inverse -> 3%:R <= e ->
  lim (fun N => win N (fun n => win N (fun n' => chi 0 (nu n) (nu n'))) / (beta * beta)) (chi_m_static exp beta U).
Proof.
move=> sumT2 [ex1 ex2] he; case: par => p b u ep ar.
have e0 : 1 + e <> 0 by apply/eqP; rewrite lt0r_neq0 // addr_gt0 ?ltr01.
have e1 : e <> 0 by apply/eqP; rewrite lt0r_neq0.
have u0 : U <> 0 by apply/eqP; rewrite lt0r_neq0.
have b0 : beta <> 0 by apply/eqP; rewrite lt0r_neq0.
have n2 : 2%:R <> 0 :> C by exact: two_neq0.
have aE : aa = U * U / (2%:R * 2%:R) by rewrite -natrM.
have c1 : 0 < 1 - cC exp beta U 0.
  rewrite /cC eqxx ex1 !mulNr opprK addr_gt0 ?ltr01 // divr_gt0 ?mulr_gt0 ?invr_gt0 ?ltr0n // addr_gt0 ?ltr01 ?invr_gt0 //.
have B2' : B2 = aa * ((3%:R - e) / (1 + e)).
  by rewrite B2E ler0_norm ?subr_le0 // mulNr mulrN opprK.
have om0 : om 0 = 0 by rewrite /boson addr0 mulr0 mul0r.
have z0 x : denominator U 0 x = (- (x * x) + aa) ^+ 2 by rewrite /denominator addr0 expr2.
set c := cC exp beta U 0 in c1 *; set d := cD exp beta U 0.
have sumz s y : lim (win^~ (fun n => s * (- nu n * (nu n + 0) - y) / denominator U 0 (nu n)))
   (s * (beta / U * ((e - 1) / (1 + e))) + - (s * (aa + y)) * (2%:R * beta / (U * U * U) * ((e - 1) / (1 + e)) - 2%:R * beta * beta / (U * U) * (e / (1 + e) ^+ 2))).
  apply: lim_wext _ (lim_wadd (lim_wscale s sumT) (lim_wscale (- (s * (aa + y))) sumT2)) => n.
  rewrite z0 addr0; have /eqP := lt0r_neq0 (gap p b u n); move: aa (nu n) => k x h; rewrite expr2; ffield C; by do ?split.
have sumc s : lim (win^~ (fun n => s / denominator U 0 (nu n))) (s * (2%:R * beta / (U * U * U) * ((e - 1) / (1 + e)) - 2%:R * beta * beta / (U * U) * (e / (1 + e) ^+ 2))).
  by apply: lim_wext _ (lim_wscale s sumT2) => n; rewrite z0 mul1r.
pose b1 n := chi_b1 exp beta U 0 (nu n); pose b2 n := chi_b2 exp beta U 0 (nu n); pose b0' n := chi_b0 exp beta U 0 (nu n).
have wE N : win N (fun n => win N (fun n' => chi 0 (nu n) (nu n'))) = win N (fun n => 2%:R * b0' n) + win N b1 * win N b1 + win N b2 * win N b2.
  rewrite -!win_scale -!win_add; apply: win_cong => n hn.
  have hn' : in_win N (- n - 0 - 1).
    move: hn; rewrite subr0; case: n => k hk; first by have -> : - Posz k - 1 = Negz k by lia.
    by have -> : - Negz k - 1 = Posz k by lia.
  have -> : win N (fun n' => chi 0 (nu n) (nu n')) = win N (fun k => (if k == n then 1 else 0) * (b0' n + chi_a0 beta U 0 (nu n))) +
      win N (fun k => (if k == - n - 0 - 1 then 1 else 0) * (b0' n - chi_a0 beta U 0 (nu n))) + b1 n * win N b1 + b2 n * win N b2.
    rewrite -!win_scale -!win_add; apply: win_ext => n'; by rewrite /chi_ph_magnetic kron; have := kron' 0 n n'; rewrite om0 => ->.
  rewrite (win_in (fun _ => _) hn) (win_in (fun _ => _) hn') (mulr2n 1); fring C.
have L0 := lim_wscale 2%:R (sumz (beta * 2%:R^-1) B2); have L1 := sumz (sqrtC (U * (1 - c))) d; have L2 := sumc ('i * sqrtC (U * U * U * 4%:R^-1) * sqrtC (U * U / (1 - c) - 0 * 0)).
apply: lim_eq (lim_ext _ (lim_scale (beta * beta)^-1 (lim_add (lim_add L0 (lim_mul L1 L1)) (lim_mul L2 L2)))) _ => [N|].
  by rewrite wE mulrC.
have cE : c = - (beta * U / 2%:R / (1 + e^-1)) by rewrite /c /cC eqxx ex1 !mulNr.
have hs : sqrtC (U * (1 - c)) * sqrtC (U * (1 - c)) = U * (1 - c) by rewrite -expr2 sqrtCK.
have hq : sqrtC (U * U * U * 4%:R^-1) * sqrtC (U * U * U * 4%:R^-1) = U * aa by rewrite -expr2 sqrtCK; fring C.
have hr : sqrtC (U * U / (1 - c) - 0 * 0) * sqrtC (U * U / (1 - c) - 0 * 0) = U * U / (1 - c) by rewrite -expr2 sqrtCK mul0r subr0.
have i2 : 'i * 'i = -1 :> C by rewrite -expr2 sqrCi.
have F (s q r i x y k : C) : (s * x + - (s * k) * y) * (s * x + - (s * k) * y) + i * q * r * y * (i * q * r * y) =
   s * s * ((x - k * y) * (x - k * y)) + i * i * (q * q) * (r * r) * (y * y) by fring C.
rewrite -addrA F i2 hs hq hr B2' {F hs hq hr L0 L1 L2 sumz sumc} /d /cD -/c /chi_m_static /hubbard_m2 /hubbard_Z ex2.
have E1 : 1 + e^-1 <> 0 by apply/eqP; rewrite lt0r_neq0 // addr_gt0 ?ltr01 ?invr_gt0.
have /eqP C1 := lt0r_neq0 c1; have -> : 4%:R = 2%:R * 2%:R :> C by rewrite -natrM.
have -> : 3%:R = 2%:R + 1 :> C by rewrite -[3%N]/(2 + 1)%N natrD.
have C2 : 2%:R * (1 + e) + beta * U * e <> 0 by apply/eqP; rewrite lt0r_neq0 // addr_gt0 ?mulr_gt0 ?addr_gt0 ?ltr01 ?ltr0n.
rewrite cE {cE C1 c1} !expr2; move: C2 n2 E1 e1 e0; rewrite !(mulr2n 1); move: e => E C2 n2 E1 e1 e0; have h2 : (1 + 1) * E + (1 + 1) <> 0.
  have -> : (1 + 1) * E + (1 + 1) = (1 + 1) * (1 + E) by fring C.
  by move/eqP; rewrite mulf_eq0 => /orP[] /eqP.
have h3 : (1 + 1) * (1 + 1) <> 0 :> C by move/eqP; rewrite mulf_eq0 => /orP[] /eqP.
have h4 : (1 + 1) * (E + 1) - - (beta * U * E) <> 0 by rewrite opprK (addrC E).
by ffield C; do ?split.
Qed.
End Susceptibility.

(* C89: the exact atom. Its four states are the occupations of the two spins *)
Section Lehmann.
Variables (C : numClosedFieldType) (exp : C -> C) (beta U : C).
Add Ring CringL : (fld_rt C).
Add Field CfieldL : (fld_ft (Num.ClosedField.fieldType C)).
Definition state : finType := [finType of bool * bool].
(* H = U n_up n_do - U/2 (n_up + n_do), half filling *)
Definition energy (s : state) : C := U * (s.1 && s.2)%:R - U / 2%:R * (s.1%:R + s.2%:R).
Definition weight (s : state) : C := exp (- beta * energy s).
Definition thermal (O : state -> C) : C := (\sum_s weight s * O s) / \sum_s weight s.
(* |<s| c_up |t>|^2: c_up empties the level of spin up and leaves the other one *)
Definition annihilates (s t : state) : C := [&& ~~ s.1, t.1 & s.2 == t.2]%:R.
(* Lehmann representation of the Green function *)
Definition lehmann (iw : C) : C :=
  (\sum_s \sum_t annihilates s t * (weight s + weight t) / (iw + energy s - energy t)) / \sum_s weight s.
(* what is used of the exponential function *)
Definition exponential : Prop := [/\ exp 0 = 1, forall x, exp (- x) = (exp x)^-1 & forall x, x \is Num.real -> 0 < exp x].
Hypotheses (ex : exponential) (br : beta \is Num.real) (ur : U \is Num.real).
Lemma exp0 : exp 0 = 1.
Proof. by case: ex. Qed.
Lemma expN x : exp (- x) = (exp x)^-1.
Proof. by case: ex. Qed.
Lemma exp_inverse_of : exp_inverse exp beta U.
Proof. by split; rewrite -expN; congr exp; fring C. Qed.
Lemma states (f : state -> C) : \sum_s f s = f (false, false) + f (true, false) + f (false, true) + f (true, true).
Proof.
rewrite (eq_bigr (fun s => f (s.1, s.2))) => [|[] //]; rewrite -(pair_bigA _ (fun a b => f (a, b))) /=.
rewrite !big_bool /=; have F (a b c d : C) : d + b + (c + a) = a + b + c + d by fring C.
exact: F.
Qed.
Lemma weights : [/\ weight (false, false) = 1, weight (true, true) = 1, weight (true, false) = exp (beta * U * 2%:R^-1) & weight (false, true) = exp (beta * U * 2%:R^-1)].
Proof.
have h : 2%:R^-1 + 2%:R^-1 = 1 :> C by rewrite -mulr2n -(mulr_natl 2%:R^-1) divff ?pnatr_eq0.
split; rewrite /weight /energy /= ?mulr1n ?mulr0n ?mulr0 ?mulr1 ?addr0 ?add0r ?sub0r ?subr0 ?mulr0 ?exp0 //.
- by rewrite oppr0 mulr0 exp0.
- have -> : - beta * (U - U / 2%:R * (1 + 1)) = - beta * (U * (1 - (2%:R^-1 + 2%:R^-1))) by fring C.
  by rewrite h subrr !mulr0 exp0.
- by congr exp; fring C.
- by congr exp; fring C.
Qed.
Let E := exp (beta * U * 2%:R^-1).
Lemma E_gt0 : 0 < E.
Proof. by case: ex => _ _; apply; rewrite !realM ?realV ?realn. Qed.
Lemma partition : \sum_s weight s = 2%:R * (1 + E).
Proof. by rewrite states; case: weights => -> -> -> ->; rewrite -/E (mulr2n 1); fring C. Qed.
(* C89: the Green function of the code is the one of the atom *)
Theorem C89_lehmann iw : iw <> 0 -> iw + U / 2%:R <> 0 -> iw - U / 2%:R <> 0 -> single_particle_greens_function U iw = lehmann iw.
Proof.
move=> i0 i1 i2; have e0 : 1 + E <> 0 by apply/eqP; rewrite lt0r_neq0 // addr_gt0 ?ltr01 ?E_gt0.
have t2 := @two_neq0 C; have f4 : 4%:R = 2%:R * 2%:R :> C by rewrite -natrM.
rewrite /lehmann partition states !states /annihilates /= ?mulr1n ?mulr0n !mul0r !addr0 !add0r.
case: weights => -> -> -> ->; rewrite -/E /energy /= ?mulr1n ?mulr0n ?mulr0 ?mulr1 ?mul1r ?addr0 ?add0r ?sub0r ?subr0.
rewrite /single_particle_greens_function f4; have UE : U = 2%:R * (U / 2%:R) by rewrite mulrC mulfVK //; apply/eqP.
rewrite mulr0 mulr1 subr0 opprK; have -> : iw - U / 2%:R - (U - U / 2%:R * (1 + 1)) = iw - U / 2%:R.
  by rewrite -(mulr2n 1) [U / 2%:R * _]mulfVK ?subrr ?subr0 //; apply/eqP.
rewrite {1 2}UE; move: (U / 2%:R) i1 i2 t2 => h; rewrite (mulr2n 1) => i1 i2 t2.
have i3 : iw * iw - h * h <> 0.
  have -> : iw * iw - h * h = (iw - h) * (iw + h) by fring C.
  by move/eqP; rewrite mulf_eq0 => /orP[] /eqP.
have t4 : (1 + 1) * (1 + 1) <> 0 :> C by move/eqP; rewrite mulf_eq0 => /orP[] /eqP.
have i4 : iw * ((1 + 1) * (1 + 1) * iw) - (1 + 1) * h * ((1 + 1) * h) <> 0.
  have -> : iw * ((1 + 1) * (1 + 1) * iw) - (1 + 1) * h * ((1 + 1) * h) = (1 + 1) * (1 + 1) * (iw * iw - h * h) by fring C.
  by move/eqP; rewrite mulf_eq0 => /orP[] /eqP.
by ffield C; do ?split.
Qed.
Definition spin_z (s : state) : C := (s.1%:R - s.2%:R) / 2%:R.
(* the value of <S_z^2> *)
Theorem C89_moment : hubbard_m2 exp beta U = thermal (fun s => spin_z s * spin_z s).
Proof.
have e0 : 1 + E <> 0 by apply/eqP; rewrite lt0r_neq0 // addr_gt0 ?ltr01 ?E_gt0.
have e1 : E <> 0 by apply/eqP; rewrite lt0r_neq0 // E_gt0.
have t2 := @two_neq0 C; have f4 : 4%:R = 2%:R * 2%:R :> C by rewrite -natrM.
rewrite /thermal partition states /spin_z /= /hubbard_m2 /hubbard_Z (proj2 exp_inverse_of) -/E.
case: weights => -> -> -> ->; rewrite -/E ?mulr1n ?mulr0n ?subrr ?subr0 ?sub0r f4; move: (E) e0 e1 t2 => X e0 e1; rewrite (mulr2n 1) => t2.
have t4 : (1 + 1) * (1 + 1) <> 0 :> C by move/eqP; rewrite mulf_eq0 => /orP[] /eqP.
have h2 : (1 + 1) * X + (1 + 1) <> 0.
  have -> : (1 + 1) * X + (1 + 1) = (1 + 1) * (1 + X) by fring C.
  by move/eqP; rewrite mulf_eq0 => /orP[] /eqP.
by ffield C; do ?split.
Qed.
(* the static susceptibility of a conserved quantity is beta times its connected correlation *)
Theorem C89_static : chi_m_static exp beta U = beta *
  ((thermal (fun s => s.1%:R * s.1%:R) - thermal (fun s => s.1%:R) * thermal (fun s => s.1%:R)) -
   (thermal (fun s => s.1%:R * s.2%:R) - thermal (fun s => s.1%:R) * thermal (fun s => s.2%:R))).
Proof.
have e0 : 1 + E <> 0 by apply/eqP; rewrite lt0r_neq0 // addr_gt0 ?ltr01 ?E_gt0.
have e1 : E <> 0 by apply/eqP; rewrite lt0r_neq0 // E_gt0.
have t2 := @two_neq0 C; have f4 : 4%:R = 2%:R * 2%:R :> C by rewrite -natrM.
rewrite /chi_m_static /thermal partition !states /= /hubbard_m2 /hubbard_Z (proj2 exp_inverse_of) -/E.
case: weights => -> -> -> ->; rewrite -/E ?mulr1n ?mulr0n f4; move: (E) e0 e1 t2 => X e0 e1; rewrite (mulr2n 1) => t2.
have t4 : (1 + 1) * (1 + 1) <> 0 :> C by move/eqP; rewrite mulf_eq0 => /orP[] /eqP.
have h2 : (1 + 1) * X + (1 + 1) <> 0.
  have -> : (1 + 1) * X + (1 + 1) = (1 + 1) * (1 + X) by fring C.
  by move/eqP; rewrite mulf_eq0 => /orP[] /eqP.
by ffield C; do ?split.
Qed.
End Lehmann.

(* a case: beta = 2, U = 1 and a function with exp 1 = 2; the double occupation is 1/6, <S_z^2> = 1/6, G(i) = -4i/5 *)
Section Case.
Local Notation C := [numClosedFieldType of algC].
Definition exp_case (x : C) : C := if x == 1 then 2%:R else if x == -1 then 2%:R^-1 else 1.
Lemma two_half : 2%:R * 1 * 2%:R^-1 = 1 :> C.
Proof. by rewrite mulr1 divff // pnatr_eq0. Qed.
Lemma exp_case_ok : exponential exp_case.
Proof.
have n1 : (1 == -1 :> C) = false by apply/negbTE; rewrite -subr_eq0 opprK -mulr2n pnatr_eq0.
split.
- by rewrite /exp_case eq_sym oner_eq0 eq_sym oppr_eq0 oner_eq0.
- move=> x; rewrite /exp_case eqr_opp eqr_oppLR; case: (x =P 1) => [->|_]; first by rewrite n1.
  by case: (x =P -1) => _; rewrite ?invrK ?invr1.
- by move=> x _; rewrite /exp_case; case: ifP => _; [rewrite ltr0n | case: ifP => _; rewrite ?invr_gt0 ?ltr0n ?ltr01].
Qed.
Theorem C89_case : thermal exp_case 2%:R 1 (fun s => s.1%:R * s.2%:R) = 6%:R^-1 /\ hubbard_m2 exp_case 2%:R 1 = 6%:R^-1 /\
  lehmann exp_case 2%:R 1 'i = - (4%:R / 5%:R * 'i).
Proof.
have r2 : 2%:R \is @Num.real C by rewrite realn.
have r1 : 1 \is @Num.real C by rewrite real1.
have e2 : exp_case 1 = 2%:R by rewrite /exp_case eqxx.
have wE := @weights C exp_case 2%:R 1 exp_case_ok; have pE := @partition C exp_case 2%:R 1 exp_case_ok; rewrite two_half e2 in wE pE.
split; first (rewrite /thermal pE states; case: wE => -> -> -> ->; rewrite /= !mulr0 !mul0r !mulr0 !add0r !mulr1).
  by rewrite div1r -(natrD _ 1 2) -natrM.
split.
  rewrite /hubbard_m2 /hubbard_Z; have -> : - 2%:R * 2%:R^-1 * 1 = -1 :> C by rewrite mulr1 mulNr divff ?pnatr_eq0.
  case: exp_case_ok => _ -> _; rewrite e2 divff ?pnatr_eq0 // -(natrD _ 2 1) mulrCA -invfM -natrM.
  by rewrite -[(4 * 3)%N]/(2 * 6)%N natrM invfM mulVKf ?pnatr_eq0.
have i2 : 'i * 'i = -1 :> C by rewrite -expr2 sqrCi.
have n0 : forall x : C, x * x != -1 -> 'i + x <> 0.
  by move=> x h e; move: h; rewrite -i2 -(subr0 x) -e opprD addrCA addrN addr0 mulrNN eqxx.
have hx : (2%:R^-1 * 2%:R^-1 != -1 :> C).
  by rewrite -subr_eq0 opprK lt0r_neq0 // addr_gt0 ?ltr01 // mulr_gt0 ?invr_gt0 ?ltr0n.
have i0 : 'i <> 0 :> C by apply/eqP; exact: neq0Ci.
have i1 : 'i + 1 / 2%:R <> 0 :> C by apply: n0; rewrite div1r.
have i3 : 'i - 1 / 2%:R <> 0 :> C by apply: n0; rewrite div1r mulrNN.
rewrite -(C89_lehmann exp_case_ok r2 r1 i0 i1 i3) /single_particle_greens_function mulr1.
have iV : 'i^-1 = - 'i :> C by apply: (mulfI (neq0Ci C)); rewrite divff ?neq0Ci // mulrN i2 opprK.
have -> : 'i - 1 / (4%:R * 'i) = 5%:R / 4%:R * 'i :> C.
  rewrite div1r invfM iV mulrN opprK -{1}['i]mul1r -mulrDl; congr (_ * _).
  by rewrite -[5%N]/(4 + 1)%N natrD mulrDl divff ?pnatr_eq0 // mul1r.
by rewrite div1r invfM iV invf_div mulrN.
Qed.
End Case.
Print Assumptions C90_ward.
Print Assumptions C90_ward_refuted.
Print Assumptions C90_static.
Print Assumptions C89_lehmann.
Print Assumptions C89_moment.
Print Assumptions C89_static.
Print Assumptions C89_case.
