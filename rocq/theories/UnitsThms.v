(* C113: the unit of energy in the Hartree-Fock solver. *)
From mathcomp Require Import all_ssreflect all_algebra.
From Verif Require Import OperatorModel KanamoriModel SymmetryModel HfModel HfSpec HfThms HfBasisThms EnergyZeroThms Spectral Fring.
Set Implicit Arguments.
Unset Strict Implicit.
Unset Printing Implicit Defensive.
Import GRing.Theory Num.Theory Order.Theory.
Local Open Scope ring_scope.

(* a root finder without a preferred unit *)
Definition no_unit (C : numClosedFieldType) (brentq : (C -> C) -> C -> C -> option C) (u : C) : Prop :=
  forall f g a b, (forall x, g (u * x) = f x) -> brentq g (u * a) (u * b) = omap (fun x => u * x) (brentq f a b).

Section Extremes.
Variable C : numClosedFieldType.
Lemma foldl_min_scale u x (l : seq C) : 0 < u -> x \is Num.real -> reals l -> foldl Order.min (u * x) (map (fun y => u * y) l) = u * foldl Order.min x l.
Proof.
move=> u0; elim: l x => //= y l IH x rx rl; have ry : y \is Num.real by apply: rl; rewrite inE eqxx.
have rl' : reals l by move=> z hz; apply: rl; rewrite inE hz orbT.
have -> : Order.min (u * x) (u * y) = u * Order.min x y by rewrite !minEle ler_pmul2l //; case: ifP.
by apply: IH => //; rewrite minEle; case: ifP.
Qed.
Lemma foldl_max_scale u x (l : seq C) : 0 < u -> x \is Num.real -> reals l -> foldl Order.max (u * x) (map (fun y => u * y) l) = u * foldl Order.max x l.
Proof.
move=> u0; elim: l x => //= y l IH x rx rl; have ry : y \is Num.real by apply: rl; rewrite inE eqxx.
have rl' : reals l by move=> z hz; apply: rl; rewrite inE hz orbT.
have -> : Order.max (u * x) (u * y) = u * Order.max x y by rewrite !maxEle ler_pmul2l //; case: ifP.
by apply: IH => //; rewrite maxEle; case: ifP.
Qed.
Lemma extremes_scale u (l : seq C) : 0 < u -> reals l -> l != [::] ->
  minimum (map (fun y => u * y) l) = u * minimum l /\ maximum (map (fun y => u * y) l) = u * maximum l.
Proof.
case: l => // x l u0 rl _; have rx : x \is Num.real by apply: rl; rewrite inE eqxx.
have rl' : reals l by move=> z hz; apply: rl; rewrite inE hz orbT.
by split; [apply: foldl_min_scale | apply: foldl_max_scale].
Qed.
End Extremes.

Section Scale.
Variables (C : numClosedFieldType) (n : nat) (K : finType).
Local Notation mx := 'M[C]_n.
Variables (eigh : mx -> 'rV[C]_n * mx) (exp log : C -> C) (brentq : (C -> C) -> C -> C -> option C) (beta u : C).
Hypotheses (hE : forall m, hermitian_mx m -> eigh_at eigh m) (u0 : 0 < u) (bS : no_unit brentq u).
Hypotheses (betaR : beta \is Num.real) (expP : forall x, x \is Num.real -> 0 < exp x) (bR : forall f a b x, brentq f a b = Some x -> x \is Num.real).
Hypotheses (n0 : (0 < n)%N) (K0 : (0 < #|K|)%N).
Local Notation beta' := (beta / u).
Let uN : u != 0. Proof. by rewrite gt_eqF. Qed.
Let uR : u \is Num.real. Proof. exact: gtr0_real. Qed.
Lemma fermi_scale x mu : fermi exp beta' (u * x - u * mu) = fermi exp beta (x - mu).
Proof. by rewrite /fermi -mulrBr mulrA divfK. Qed.
Section Dispersion.
Variables (e e' : K -> mx).
Hypotheses (he : forall k, hermitian_mx (e k)) (he' : forall k, e' k = u *: e k).
Lemma herm_scaled k : hermitian_mx (e' k). Proof. by rewrite he'; apply: hermZ. Qed.
Lemma function_scale (f : C -> C) k : let (l, U1) := eigh (e k) in let (l', U2) := eigh (e' k) in
  U2 *m diag_mx (map_mx f l') *m adjoint U2 = U1 *m diag_mx (map_mx (fun x => f (u * x)) l) *m adjoint U1 /\ \sum_i f (l' 0 i) = \sum_i f (u * l 0 i).
Proof.
have := hE (he k); have := hE (herm_scaled k); rewrite /eigh_at; case: (eigh (e k)) => l U1; case: (eigh (e' k)) => l' U2 [_ u2 e2] [_ u1 e1].
have h : U2 *m diag_mx l' *m adjoint U2 = in_basis 1%:M (U1 *m diag_mx (map_mx (fun x => u * x) l) *m adjoint U1).
  rewrite in_basis1 -e2 he' e1; have -> : diag_mx (map_mx (fun x => u * x) l) = u *: diag_mx l by apply/matrixP=> i j; rewrite !mxE; case: (i == j); rewrite ?mulr0n ?mulr0.
  by rewrite -scalemxAr -scalemxAl.
have [h1 h2] := same_function f (unitary1 C n) u1 u2 h; split.
  by rewrite h1 in_basis1; congr (_ *m diag_mx _ *m _); apply/matrixP=> i j; rewrite !mxE.
by rewrite h2; apply: eq_bigr => i _; rewrite !mxE.
Qed.
Lemma levels_scale : perm_eq (levels eigh e') (map (fun x => u * x) (levels eigh e)).
Proof.
apply/allP=> x _ /=; rewrite -(eqr_nat C) -!sum1_count !natr_sum big_mkcond [X in _ == X]big_mkcond /= big_map.
rewrite !(levels_sum eigh _ (fun y => if y == x then 1 else 0)) (levels_sum eigh _ (fun y => if u * y == x then 1 else 0)); apply/eqP; apply: eq_bigr => k _.
by have := function_scale (fun y => if y == x then 1 else 0) k; case: (eigh (e k)) => l U1; case: (eigh (e' k)) => l' U2 [].
Qed.
Lemma mu_scale mu_min mu_max N : update_chemical_potential eigh exp brentq beta' (omap (fun x => u * x) mu_min) (omap (fun x => u * x) mu_max) e' N =
  omap (fun x => u * x) (update_chemical_potential eigh exp brentq beta mu_min mu_max e N).
Proof.
have p := levels_scale; have lr : reals (levels eigh e) by exact: levels_real.
have rl : reals (map (fun x => u * x) (levels eigh e)) by move=> x /mapP[y hy ->]; rewrite rpredM // lr.
have ln : levels eigh e != [::].
  have [k _] : exists k : K, k \in K by apply/card_gt0P.
  have : (eigh (e k)).1 ord0 (Ordinal n0) \in levels eigh e by apply/allpairsPdep; exists k, (Ordinal n0); rewrite !mem_enum.
  by case: (levels eigh e).
have [e1 e2] : minimum (levels eigh e') = u * minimum (levels eigh e) /\ maximum (levels eigh e') = u * maximum (levels eigh e).
  have [<- <-] := extremes_scale u0 lr ln.
  by apply: perm_extremes => // x; rewrite (perm_mem p); apply: rl.
rewrite /update_chemical_potential e1 e2.
have od m x : odflt (u * x) (omap (fun x => u * x) m) = u * odflt x m by case: m.
rewrite !od; apply: bS => mu; rewrite /target_function (perm_big _ p) big_map; congr (_ / _ - _); apply: eq_bigr => x _.
exact: fermi_scale.
Qed.
Lemma density_k_scale mu k : update_momentum_density_matrix eigh exp beta' e' (u * mu) k = update_momentum_density_matrix eigh exp beta e mu k.
Proof.
rewrite !density_kE; have := function_scale (fun x => fermi exp beta' (x - u * mu)) k; case: (eigh (e k)) => l U1; case: (eigh (e' k)) => l' U2 [-> _] /=.
by congr (_ *m diag_mx _ *m _); apply/matrixP=> i j; rewrite !mxE fermi_scale.
Qed.
Lemma density_scale mu : update_density_matrix eigh exp beta' e' (u * mu) = update_density_matrix eigh exp beta e mu.
Proof. by rewrite /update_density_matrix; congr (_ *: _); apply: eq_bigr => k _; apply: density_k_scale. Qed.
Lemma free_scale mu : update_non_int_free_energy eigh exp log beta' e' (u * mu) = u * update_non_int_free_energy eigh exp log beta e mu.
Proof.
rewrite /update_non_int_free_energy (perm_big _ levels_scale) big_map invf_div !mulrA; congr (_ / _).
have -> : u * -1 / beta = -1 * u / beta by rewrite [u * _]mulrC.
congr (_ * _); apply: eq_bigr => x _.
by rewrite -mulrBr mulrA mulNr divfK.
Qed.
End Dispersion.
Variables (e_k e_k' : K -> mx) (U U' : arr4 C) (mu_min mu_max : option C) (pack : mx -> seq C) (unpack : seq C -> option mx).
Hypotheses (hk : forall k, hermitian_mx (e_k k)) (hk' : forall k, e_k' k = u *: e_k k) (hU : hermitian_tensor n U) (hU' : forall a b c d, U' a b c d = u * U a b c d) (hp : packing pack unpack).
Local Notation up := (fun x => u * x).
Local Notation step := (density_matrix_step eigh exp brentq beta e_k U mu_min mu_max pack unpack).
Local Notation step' := (density_matrix_step eigh exp brentq beta' e_k' U' (omap up mu_min) (omap up mu_max) pack unpack).
Local Notation setup := (solve_setup eigh exp brentq beta e_k mu_min mu_max pack).
Local Notation setup' := (solve_setup eigh exp brentq beta' e_k' (omap up mu_min) (omap up mu_max) pack).
Local Notation solve := (solve_iter eigh exp brentq beta e_k U mu_min mu_max pack unpack).
Local Notation solve' := (solve_iter eigh exp brentq beta' e_k' U' (omap up mu_min) (omap up mu_max) pack unpack).
(* the attributes of the solver in the other unit *)
Definition scaled (s : solver C n) : solver C n := Solver (u * s_mu s) (u *: s_M s) (s_rho s).
Definition scaled_with (T : Type) (r : solver C n * T) : solver C n * T := (scaled r.1, r.2).
Lemma field_scale rho : update_mean_field U' rho = u *: update_mean_field U rho :> mx.
Proof.
apply/matrixP=> b a; rewrite !mxE mulr_sumr; apply: eq_bigr => c _; rewrite mulr_sumr; apply: eq_bigr => d _; by rewrite hU' -mulrN -mulrA.
Qed.
Lemma disp_scale M k : update_mean_field_dispersion e_k' (u *: M) k = u *: update_mean_field_dispersion e_k M k.
Proof. by rewrite /update_mean_field_dispersion hk' scalerDr. Qed.
Let disp_herm M : hermitian_mx M -> forall k, hermitian_mx (update_mean_field_dispersion e_k M k).
Proof. by move=> hM k; apply: hermD. Qed.
Lemma step_scale s v N : reals v -> step' (scaled s) v (Some N) = omap (@scaled_with _) (step s v (Some N)).
Proof.
move=> rv; rewrite /density_matrix_step; case eu : (unpack v) => [rho|] //; rewrite field_scale.
have hM := mean_field_herm hU (hp.2 _ _ rv eu); rewrite (mu_scale (disp_herm hM) (disp_scale _)).
by case: update_chemical_potential => [mu|] //=; rewrite (density_scale (disp_herm hM) (disp_scale _)).
Qed.
Let step_reals s v N s' w : reals v -> step s v (Some N) = Some (s', w) -> reals w.
Proof.
move=> rv; rewrite /density_matrix_step; case eu : (unpack v) => [rho|] //; have hM := mean_field_herm hU (hp.2 _ _ rv eu).
case em : update_chemical_potential => [mu|] //= [_ <-]; apply: hp.1; apply: rho_hermitian => // [k|]; [apply: hE; exact: disp_herm | apply: bR em].
Qed.
Lemma setup_scale s N M0 mu0 : hermitian_mx (s_M s) -> hermitian_mx M0 -> setup' (scaled s) N (u *: M0) (omap up mu0) = omap (@scaled_with _) (setup s N M0 mu0).
Proof.
move=> hs h0; rewrite /solve_setup (mu_scale (disp_herm h0) (disp_scale _)) (mu_scale (disp_herm hs) (disp_scale _)).
case: mu0 => [m|] /=; last (case: update_chemical_potential => [_|] //=);
  by case: update_chemical_potential => [mu|] //=; rewrite (density_scale (disp_herm h0) (disp_scale _)).
Qed.
Let setup_reals s N M0 mu0 s' w : hermitian_mx M0 -> setup s N M0 mu0 = Some (s', w) -> reals w.
Proof.
move=> h0; rewrite /solve_setup; case: (if mu0 is Some m then Some m else _) => [_|] //.
case em : update_chemical_potential => [mu|] //= [_ <-]; apply: hp.1; apply: rho_hermitian => // [k|]; [apply: hE; exact: disp_herm | apply: bR em].
Qed.
Lemma iterate_scale fuel N m tol s v h : m \is Num.real -> reals v ->
  iterate eigh exp brentq beta' e_k' U' (omap up mu_min) (omap up mu_max) pack unpack fuel N m tol (scaled s) v h =
  omap (@scaled_with _) (iterate eigh exp brentq beta e_k U mu_min mu_max pack unpack fuel N m tol s v h).
Proof.
move=> rm; elim: fuel s v h => [|fuel IH] s v h rv //=; rewrite step_scale //; case es : (step s v (Some N)) => [[s' w]|] //=.
case: ifP => // _; apply: IH; apply: mixed_reals => //; exact: step_reals es.
Qed.
(* C113: the Hartree-Fock solver with all energies in another unit *)
Theorem C113_hartree_fock s N M0 mu0 nitermax mixing tol : hermitian_mx (s_M s) -> hermitian_mx M0 ->
  solve' (Solver (u * s_mu s) (u *: s_M s) (s_rho s)) N (u *: M0) (omap up mu0) nitermax mixing tol =
  omap (fun r => (Solver (u * s_mu r.1) (u *: s_M r.1) (s_rho r.1), r.2)) (solve s N M0 mu0 nitermax mixing tol).
Proof.
move=> hs h0; rewrite /solve_iter; case: ifP => // /andP[m0 _].
rewrite -/(scaled s) setup_scale //; case es: (setup s N M0 mu0) => [[s' w]|] //=.
by rewrite -/(scaled s') iterate_scale ?ger0_real //; apply: setup_reals es.
Qed.
(* C113: its energies *)
Theorem C113_energies M mu : hermitian_mx M ->
  let e := update_mean_field_dispersion e_k M in let e' := update_mean_field_dispersion e_k' (u *: M) in let rho := update_density_matrix eigh exp beta e mu in
  [/\ update_density_matrix eigh exp beta' e' (u * mu) = rho,
      (update_total_energy eigh exp log beta' U' e_k' e' (u * mu) rho).1 = u * (update_total_energy eigh exp log beta U e_k e mu rho).1 &
      (update_total_energy eigh exp log beta' U' e_k' e' (u * mu) rho).2 = u * (update_total_energy eigh exp log beta U e_k e mu rho).2].
Proof.
move=> hM e e' rho; have he := disp_herm hM; have he' := disp_scale M; split; first exact: density_scale.
all: rewrite /update_total_energy /= mulrDr.
all: have -> : update_interaction_energy U' rho = u * update_interaction_energy U rho.
all: try (rewrite /update_interaction_energy mulrCA; congr (_ * _); rewrite mulr_sumr; apply: eq_bigr => a _; rewrite mulr_sumr; apply: eq_bigr => b _; rewrite mulr_sumr; apply: eq_bigr => c _;
  rewrite mulr_sumr; apply: eq_bigr => d _; by rewrite hU' !mulrA [rho a b * u]mulrC).
  congr (_ + _); rewrite /update_kinetic_energy mulrA; congr (_ / _); rewrite mulr_sumr; apply: eq_bigr => k _; rewrite mulr_sumr; apply: eq_bigr => a _.
  by rewrite mulr_sumr; apply: eq_bigr => b _; rewrite (density_k_scale he he') hk' mxE mulrA.
by rewrite (free_scale he he').
Qed.
End Scale.

(* the secant step of C111_case has no preferred unit either *)
Theorem C113_case (C : numClosedFieldType) (u : C) : 0 < u -> no_unit (@secant C) u.
Proof.
move=> u0; have uN : u != 0 by rewrite gt_eqF.
move=> f g a b h; rewrite /secant !h; set x := a - _; set y := u * a - _.
have -> : y = u * x by rewrite /y /x -[u * b - u * a]mulrBr [in RHS]mulrBr; congr (_ - _); rewrite [f a * (u * _)]mulrCA -!mulrA.
rewrite h; have -> : (u * x \is Num.real) = (x \is Num.real).
  by apply/idP/idP => hx; [rewrite -[x](mulKf uN) | ]; rewrite rpredM // ?rpredV gtr0_real.
by case: ifP.
Qed.
Print Assumptions C113_hartree_fock.
Print Assumptions C113_energies.
Print Assumptions C113_case.
