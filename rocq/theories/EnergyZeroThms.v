(* C111: the zero of energy. *)
From mathcomp Require Import all_ssreflect all_algebra.
From Verif Require Import OperatorModel KanamoriModel SymmetryModel HfModel HfSpec HfThms HfBasisThms Spectral Fring.
Set Implicit Arguments.
Unset Strict Implicit.
Unset Printing Implicit Defensive.
Import GRing.Theory Num.Theory Order.Theory.
Local Open Scope ring_scope.

Section Spec.
Variable C : numClosedFieldType.
(* a root finder without a preferred origin *)
Definition no_origin (brentq : (C -> C) -> C -> C -> option C) (c : C) : Prop :=
  forall f g a b, (forall x, g (x + c) = f x) -> brentq g (a + c) (b + c) = omap (fun x => x + c) (brentq f a b).
(* reals only *)
Definition reals (v : seq C) : Prop := {in v, forall x, x \is Num.real}.
(* the vectors of the solver stand for Hermitian matrices *)
Definition packing n (pack : 'M[C]_n -> seq C) (unpack : seq C -> option 'M[C]_n) : Prop :=
  (forall m, hermitian_mx m -> reals (pack m)) /\ (forall v m, reals v -> unpack v = Some m -> hermitian_mx m).
End Spec.

Section Extremes.
Variable C : numClosedFieldType.
Lemma foldl_min_shift c x (l : seq C) : c \is Num.real -> x \is Num.real -> reals l -> foldl Order.min (x + c) (map (fun y => y + c) l) = foldl Order.min x l + c.
Proof.
move=> rc; elim: l x => //= y l IH x rx rl; have ry : y \is Num.real by apply: rl; rewrite inE eqxx.
have rl' : reals l by move=> z hz; apply: rl; rewrite inE hz orbT.
have -> : Order.min (x + c) (y + c) = Order.min x y + c by rewrite !minEle ler_add2r; case: ifP.
by apply: IH => //; rewrite minEle; case: ifP.
Qed.
Lemma foldl_max_shift c x (l : seq C) : c \is Num.real -> x \is Num.real -> reals l -> foldl Order.max (x + c) (map (fun y => y + c) l) = foldl Order.max x l + c.
Proof.
move=> rc; elim: l x => //= y l IH x rx rl; have ry : y \is Num.real by apply: rl; rewrite inE eqxx.
have rl' : reals l by move=> z hz; apply: rl; rewrite inE hz orbT.
have -> : Order.max (x + c) (y + c) = Order.max x y + c by rewrite !maxEle ler_add2r; case: ifP.
by apply: IH => //; rewrite maxEle; case: ifP.
Qed.
Lemma extremes_shift c (l : seq C) : c \is Num.real -> reals l -> l != [::] ->
  minimum (map (fun y => y + c) l) = minimum l + c /\ maximum (map (fun y => y + c) l) = maximum l + c.
Proof.
case: l => // x l rc rl _; have rx : x \is Num.real by apply: rl; rewrite inE eqxx.
have rl' : reals l by move=> z hz; apply: rl; rewrite inE hz orbT.
by split; [apply: foldl_min_shift | apply: foldl_max_shift].
Qed.
Lemma mixed_reals m (v w : seq C) : m \is Num.real -> reals v -> reals w -> reals (mixed m v w).
Proof.
move=> rm rv rw x /mapP[[a b] /= hp ->]; have [ha hb] : a \in v /\ b \in w.
  elim: v w hp {rv rw} => [|y v IH] [|z w] //=; rewrite !inE => /orP[/eqP[-> ->]|/IH[-> ->]]; by rewrite ?eqxx ?orbT.
by rewrite rpredD ?rpredM ?rpredB ?rpred1 //; [apply: rv | apply: rw].
Qed.
End Extremes.

Section Shift.
Variables (C : numClosedFieldType) (n : nat) (K : finType).
Local Notation mx := 'M[C]_n.
Variables (eigh : mx -> 'rV[C]_n * mx) (exp log : C -> C) (brentq : (C -> C) -> C -> C -> option C) (beta c : C).
Hypotheses (hE : forall m, hermitian_mx m -> eigh_at eigh m) (cR : c \is Num.real) (bS : no_origin brentq c).
Hypotheses (betaR : beta \is Num.real) (expP : forall x, x \is Num.real -> 0 < exp x) (bR : forall f a b x, brentq f a b = Some x -> x \is Num.real).
Hypotheses (n0 : (0 < n)%N) (K0 : (0 < #|K|)%N).
Lemma herm_scalar : hermitian_mx (c%:M : mx).
Proof. by apply/matrixP=> i j; rewrite !mxE eq_sym; case: (i == j); rewrite ?mulr0n ?rmorph0 // mulr1n (CrealP cR). Qed.
Lemma unitary1 : unitary_mx (1%:M : mx).
Proof. by rewrite /unitary_mx mul1mx; apply/matrixP=> i j; rewrite !mxE eq_sym rmorph_nat. Qed.
Lemma in_basis1 (m : mx) : in_basis 1%:M m = m.
Proof. by rewrite /in_basis mul1mx; have := unitary1; rewrite /unitary_mx mul1mx => ->; rewrite mulmx1. Qed.
Section Dispersion.
Variables (e e' : K -> mx).
Hypotheses (he : forall k, hermitian_mx (e k)) (he' : forall k, e' k = e k + c%:M).
Lemma herm' k : hermitian_mx (e' k). Proof. by rewrite he'; apply: hermD => //; apply: herm_scalar. Qed.
Lemma function_shift (f : C -> C) k : let (l, U1) := eigh (e k) in let (l', U2) := eigh (e' k) in
  U2 *m diag_mx (map_mx f l') *m adjoint U2 = U1 *m diag_mx (map_mx (fun x => f (x + c)) l) *m adjoint U1 /\ \sum_i f (l' 0 i) = \sum_i f (l 0 i + c).
Proof.
have := hE (he k); have := hE (herm' k); rewrite /eigh_at; case: (eigh (e k)) => l U1; case: (eigh (e' k)) => l' U2 [_ u2 e2] [_ u1 e1].
have h : U2 *m diag_mx l' *m adjoint U2 = in_basis 1%:M (U1 *m diag_mx (map_mx (fun x => x + c) l) *m adjoint U1).
  rewrite in_basis1 -e2 he' e1; have -> : diag_mx (map_mx (fun x => x + c) l) = diag_mx l + c%:M by apply/matrixP=> i j; rewrite !mxE; case: (i == j); rewrite ?mulr0n ?addr0.
  by rewrite mulmxDr mulmxDl mul_mx_scalar -scalemxAl u1 scalemx1.
have [h1 h2] := same_function f unitary1 u1 u2 h; split.
  by rewrite h1 in_basis1; congr (_ *m diag_mx _ *m _); apply/matrixP=> i j; rewrite !mxE.
by rewrite h2; apply: eq_bigr => i _; rewrite !mxE.
Qed.
Lemma levels_shift : perm_eq (levels eigh e') (map (fun x => x + c) (levels eigh e)).
Proof.
apply/allP=> x _ /=; rewrite -(eqr_nat C) -!sum1_count !natr_sum big_mkcond [X in _ == X]big_mkcond /= big_map.
rewrite !(levels_sum eigh _ (fun y => if y == x then 1 else 0)) (levels_sum eigh _ (fun y => if y + c == x then 1 else 0)); apply/eqP; apply: eq_bigr => k _.
by have := function_shift (fun y => if y == x then 1 else 0) k; case: (eigh (e k)) => l U1; case: (eigh (e' k)) => l' U2 [].
Qed.
Lemma levels_reals : reals (levels eigh e). Proof. exact: levels_real. Qed.
Lemma levels_some (e1 : K -> mx) : levels eigh e1 != [::].
Proof.
have [k _] : exists k : K, k \in K by apply/card_gt0P.
have : (eigh (e1 k)).1 ord0 (Ordinal n0) \in levels eigh e1 by apply/allpairsPdep; exists k, (Ordinal n0); rewrite !mem_enum.
by case: (levels eigh e1).
Qed.
Lemma mu_shift mu_min mu_max N : update_chemical_potential eigh exp brentq beta (omap (fun x => x + c) mu_min) (omap (fun x => x + c) mu_max) e' N =
  omap (fun x => x + c) (update_chemical_potential eigh exp brentq beta mu_min mu_max e N).
Proof.
have p := levels_shift; have rl : reals (map (fun x => x + c) (levels eigh e)) by move=> x /mapP[y hy ->]; rewrite rpredD // levels_reals.
have [e1 e2] : minimum (levels eigh e') = minimum (levels eigh e) + c /\ maximum (levels eigh e') = maximum (levels eigh e) + c.
  have [<- <-] := extremes_shift cR levels_reals (levels_some e).
  by apply: perm_extremes => // x; rewrite (perm_mem p); apply: rl.
rewrite /update_chemical_potential e1 e2.
have od m x : odflt (x + c) (omap (fun x => x + c) m) = odflt x m + c by case: m.
rewrite !od; apply: bS => mu; rewrite /target_function (perm_big _ p) big_map; congr (_ / _ - _); apply: eq_bigr => x _.
by rewrite [mu + c]addrC opprD addrA addrK.
Qed.
Lemma density_k_shift mu k : update_momentum_density_matrix eigh exp beta e' (mu + c) k = update_momentum_density_matrix eigh exp beta e mu k.
Proof.
rewrite !density_kE; have := function_shift (fun x => fermi exp beta (x - (mu + c))) k; case: (eigh (e k)) => l U1; case: (eigh (e' k)) => l' U2 [-> _] /=.
by congr (_ *m diag_mx _ *m _); apply/matrixP=> i j; rewrite !mxE [mu + c]addrC opprD addrA addrK.
Qed.
Lemma density_shift mu : update_density_matrix eigh exp beta e' (mu + c) = update_density_matrix eigh exp beta e mu.
Proof. by rewrite /update_density_matrix; congr (_ *: _); apply: eq_bigr => k _; apply: density_k_shift. Qed.
Lemma free_shift mu : update_non_int_free_energy eigh exp log beta e' (mu + c) = update_non_int_free_energy eigh exp log beta e mu.
Proof.
rewrite /update_non_int_free_energy (perm_big _ levels_shift) big_map; congr (_ * _ / _); apply: eq_bigr => x _.
by rewrite [mu + c]addrC opprD addrA addrK.
Qed.
End Dispersion.
Variables (e_k e_k' : K -> mx) (U : arr4 C) (mu_min mu_max : option C) (pack : mx -> seq C) (unpack : seq C -> option mx).
Hypotheses (hk : forall k, hermitian_mx (e_k k)) (hk' : forall k, e_k' k = e_k k + c%:M) (hU : hermitian_tensor n U) (hp : packing pack unpack).
Local Notation up := (fun x => x + c).
Local Notation step := (density_matrix_step eigh exp brentq beta e_k U mu_min mu_max pack unpack).
Local Notation step' := (density_matrix_step eigh exp brentq beta e_k' U (omap up mu_min) (omap up mu_max) pack unpack).
Local Notation setup := (solve_setup eigh exp brentq beta e_k mu_min mu_max pack).
Local Notation setup' := (solve_setup eigh exp brentq beta e_k' (omap up mu_min) (omap up mu_max) pack).
Local Notation solve := (solve_iter eigh exp brentq beta e_k U mu_min mu_max pack unpack).
Local Notation solve' := (solve_iter eigh exp brentq beta e_k' U (omap up mu_min) (omap up mu_max) pack unpack).
(* the attributes of the solver with the other zero of energy *)
Definition moved (s : solver C n) : solver C n := Solver (s_mu s + c) (s_M s) (s_rho s).
Definition moved_with (T : Type) (r : solver C n * T) : solver C n * T := (moved r.1, r.2).
Lemma disp_shift M k : update_mean_field_dispersion e_k' M k = update_mean_field_dispersion e_k M k + c%:M.
Proof. by rewrite /update_mean_field_dispersion hk' addrAC. Qed.
Lemma disp_herm M : hermitian_mx M -> forall k, hermitian_mx (update_mean_field_dispersion e_k M k).
Proof. by move=> hM k; apply: hermD. Qed.
Lemma step_shift s v N : reals v -> step' (moved s) v (Some N) = omap (@moved_with _) (step s v (Some N)).
Proof.
move=> rv; rewrite /density_matrix_step; case eu : (unpack v) => [rho|] //.
have hM := mean_field_herm hU (hp.2 _ _ rv eu); rewrite (mu_shift (disp_herm hM) (disp_shift _)).
by case: update_chemical_potential => [mu|] //=; rewrite (density_shift (disp_herm hM) (disp_shift _)).
Qed.
Lemma step_reals s v N s' w : reals v -> step s v (Some N) = Some (s', w) -> reals w.
Proof.
move=> rv; rewrite /density_matrix_step; case eu : (unpack v) => [rho|] //; have hM := mean_field_herm hU (hp.2 _ _ rv eu).
case em : update_chemical_potential => [mu|] //= [_ <-]; apply: hp.1; apply: rho_hermitian => // [k|]; [apply: hE; exact: disp_herm | apply: bR em].
Qed.
Lemma setup_shift s N M0 mu0 : hermitian_mx (s_M s) -> hermitian_mx M0 -> setup' (moved s) N M0 (omap up mu0) = omap (@moved_with _) (setup s N M0 mu0).
Proof.
move=> hs h0; rewrite /solve_setup (mu_shift (disp_herm h0) (disp_shift _)) (mu_shift (disp_herm hs) (disp_shift _)).
case: mu0 => [m|] /=; last (case: update_chemical_potential => [_|] //=);
  by case: update_chemical_potential => [mu|] //=; rewrite (density_shift (disp_herm h0) (disp_shift _)).
Qed.
Lemma setup_reals s N M0 mu0 s' w : hermitian_mx M0 -> setup s N M0 mu0 = Some (s', w) -> reals w.
Proof.
move=> h0; rewrite /solve_setup; case: (if mu0 is Some m then Some m else _) => [_|] //.
case em : update_chemical_potential => [mu|] //= [_ <-]; apply: hp.1; apply: rho_hermitian => // [k|]; [apply: hE; exact: disp_herm | apply: bR em].
Qed.
Lemma iterate_shift fuel N m tol s v h : m \is Num.real -> reals v ->
  iterate eigh exp brentq beta e_k' U (omap up mu_min) (omap up mu_max) pack unpack fuel N m tol (moved s) v h =
  omap (@moved_with _) (iterate eigh exp brentq beta e_k U mu_min mu_max pack unpack fuel N m tol s v h).
Proof.
move=> rm; elim: fuel s v h => [|fuel IH] s v h rv //=; rewrite step_shift //; case es : (step s v (Some N)) => [[s' w]|] //=.
case: ifP => // _; apply: IH; apply: mixed_reals => //; exact: step_reals es.
Qed.
(* C111: the Hartree-Fock solver with all energies shifted by c *)
Theorem C111_hartree_fock s N M0 mu0 nitermax mixing tol : hermitian_mx (s_M s) -> hermitian_mx M0 ->
  solve' (Solver (s_mu s + c) (s_M s) (s_rho s)) N M0 (omap up mu0) nitermax mixing tol =
  omap (fun r => (Solver (s_mu r.1 + c) (s_M r.1) (s_rho r.1), r.2)) (solve s N M0 mu0 nitermax mixing tol).
Proof.
move=> hs h0; rewrite /solve_iter; case: ifP => // /andP[m0 _].
rewrite -/(moved s) setup_shift //; case es: (setup s N M0 mu0) => [[s' w]|] //=.
by rewrite -/(moved s') iterate_shift ?ger0_real //; apply: setup_reals es.
Qed.
(* C111: its energies *)
Theorem C111_energies M mu : hermitian_mx M ->
  let e := update_mean_field_dispersion e_k M in let e' := update_mean_field_dispersion e_k' M in let rho := update_density_matrix eigh exp beta e mu in
  [/\ update_density_matrix eigh exp beta e' (mu + c) = rho,
      (update_total_energy eigh exp log beta U e_k' e' (mu + c) rho).1 = (update_total_energy eigh exp log beta U e_k e mu rho).1 + c * N_tot rho &
      (update_total_energy eigh exp log beta U e_k' e' (mu + c) rho).2 = (update_total_energy eigh exp log beta U e_k e mu rho).2].
Proof.
move=> hM e e' rho; have he := disp_herm hM; have he' := disp_shift M; split; first exact: density_shift.
  rewrite /update_total_energy /= addrAC; congr (_ + _); rewrite /update_kinetic_energy.
  have -> : c * N_tot rho = (\sum_k \sum_a \sum_b (c%:M : mx) a b * update_momentum_density_matrix eigh exp beta e mu k b a) / n_k C K.
    rewrite /N_tot /rho /update_density_matrix mulr_sumr [in RHS]exchange_big /= mulr_suml; apply: eq_bigr => a _.
    rewrite mxE summxE mulrCA mulr_sumr mulrC; congr (_ * _); apply: eq_bigr => k _; rewrite (bigD1 a) //= big1 ?addr0; last first.
      by move=> b hb; rewrite mxE eq_sym (negbTE hb) mulr0n mul0r.
    by rewrite mxE eqxx mulr1n.
  rewrite -mulrDl; congr (_ / _); rewrite -big_split; apply: eq_bigr => k _ /=; rewrite -big_split; apply: eq_bigr => a _ /=; rewrite -big_split; apply: eq_bigr => b _ /=.
  by rewrite (density_k_shift he he') hk' mxE mulrDl.
by rewrite /update_total_energy /= (free_shift he he').
Qed.
End Shift.

(* both solvers *)
Section Packings.
Variables (C : numClosedFieldType) (n : nat).
Lemma nth_reals (v : seq C) i : reals v -> nth 0 v i \is Num.real.
Proof. by move=> rv; case: (ltnP i (size v)) => h; [apply/rv/mem_nth | rewrite nth_default ?rpred0]. Qed.
Lemma take_reals (v : seq C) i : reals v -> reals (take i v). Proof. by move=> rv x /mem_take; apply: rv. Qed.
Theorem C111_packing : packing (@mat2vec C n) (vec2mat n) /\ packing (@mat2vec_hartree C n) (@vec2mat_hartree C n).
Proof.
split; split.
- by move=> m _ x; rewrite /mat2vec !mem_cat => /orP[/mapP[i _ ->]|/orP[/mapP[i _ ->]|/mapP[i _ ->]]]; rewrite ?Creal_Re ?Creal_Im.
- move=> v m rv; rewrite /vec2mat; case: ifP => // _; case: ifP => // _ [<-]; apply: hermD.
    by apply/matrixP=> i j; rewrite !mxE rmorphD /= conjCK addrC.
  apply/matrixP=> i j; rewrite !mxE eq_sym; case: eqP => [->|_]; last by rewrite rmorph0.
  by apply/CrealP/nth_reals/take_reals.
- by move=> m _ x /mapP[i _ ->]; rewrite Creal_Re.
move=> v m rv; rewrite /vec2mat_hartree; case: ifP => // _ [<-].
apply/matrixP=> i j; rewrite !mxE eq_sym; case: eqP => [->|_]; last by rewrite rmorph0.
exact/CrealP/Creal_Re.
Qed.
End Packings.

(* a root finder without a preferred origin: one step of the secant method *)
Section Case.
Variable C : numClosedFieldType.
Definition secant (f : C -> C) (a b : C) : option C :=
  let x := a - f a * (b - a) / (f b - f a) in if (f x == 0) && (x \is Num.real) then Some x else None.
Theorem C111_case (c : C) : c \is Num.real -> [/\ no_origin secant c, forall f a b x, secant f a b = Some x -> x \is Num.real &
  forall m p a b : C, m != 0 -> a != b -> p \is Num.real -> secant (fun x => m * (x - p)) a b = Some p].
Proof.
move=> rc; split.
- move=> f g a b h; rewrite /secant !h; set x := a - _; set y := a + c - _.
  have -> : y = x + c.
    have bc : b + c - (a + c) = b - a by rewrite [a + c]addrC opprD addrA addrK.
    by rewrite /y /x bc addrAC.
  rewrite h; have -> : (x + c \is Num.real) = (x \is Num.real) by rewrite rpredDr.
  by case: ifP.
- by move=> f a b x; rewrite /secant; case: ifP => // /andP[_ r] [<-].
move=> m p a b m0 ab rp; rewrite /secant -mulrBr opprB addrA subrK.
have -> : a - m * (a - p) * (b - a) / (m * (b - a)) = p.
  have ba : b - a != 0 by rewrite subr_eq0 eq_sym.
  by rewrite [m * (a - p) * _]mulrAC [_ / _]mulrC mulKf ?mulf_neq0 // opprB addrC subrK.
by rewrite subrr mulr0 eqxx rp.
Qed.
End Case.
Print Assumptions C111_hartree_fock.
Print Assumptions C111_energies.
Print Assumptions C111_packing.
Print Assumptions C111_case.
