(* C85 (solution of the linearized Eliashberg equation), C86 (preparation of the vertex and of the start vector). *)
From mathcomp Require Import all_ssreflect all_algebra all_field.
From mathcomp Require Import zify.
From Verif Require Import Base Fring MpiModel FourierModel BubbleModel ImtimeModel MpiProofs MpiSpec GwSpec GwModel GwThms EliashbergModel EliashbergSpec EliashbergThms PowerModel PowerThms.
Set Implicit Arguments.
Unset Strict Implicit.
Unset Printing Implicit Defensive.
Import Order.TTheory GRing.Theory Num.Theory.
Local Open Scope ring_scope.

Section Solve.
Variables (C : numClosedFieldType) (n : nat).
Add Ring Cring : (fld_rt C).
Local Notation vec := 'rV[C]_n.+1.
Variables (gf : Type) (to_wk : vec -> gf) (to_x : gf -> vec).
Variable eigs : (vec -> option vec) -> nat -> C -> vec -> option (seq (C * vec)).
(* an eigensolver without error: every pair it returns is an eigenpair *)
Definition exact_eigs : Prop := forall mv k tol init r, eigs mv k tol init = Some r -> forall p, p \in r -> p.2 != 0 /\ mv p.2 = Some (p.1 *: p.2).
Hypothesis to_xK : forall v, to_x (to_wk v) = v.

(* C85: every mode returned by IRAM obeys the equation with the eigenvalue whose real part is returned; with the returned number itself it does iff
   the eigenvalue is real *)
Theorem C85_iram_modes P sym init0 rnd tol k max_it Es modes : exact_eigs ->
  solve_eliashberg to_wk to_x eigs (Some P) sym init0 rnd IRAM tol k max_it = Some (Es, modes) ->
  size Es = size modes /\ forall g0 i, (i < size modes)%N -> let m := nth g0 modes i in exists d l,
    [/\ P m = Some d, to_x m != 0, to_x (sym d) = l *: to_x m, nth 0 Es i = 'Re l & to_x (sym d) = nth 0 Es i *: to_x m <-> l \is Num.real].
Proof.
move=> ex; rewrite /solve_eliashberg /implicitly_restarted_arnoldi_method; case er : (eigs _ _ _ _) => [r|] // [<- <-].
rewrite !size_map; split=> // g0 i hi; have hp : nth (0, 0) r i \in r by exact: mem_nth.
have -> : nth 0 [seq 'Re p.1 | p <- r] i = 'Re (nth (0, 0) r i).1 by rewrite (nth_map (0, 0)).
have -> : nth g0 [seq to_wk v | v <- [seq p.2 | p <- r]] i = to_wk (nth (0, 0) r i).2 by rewrite (nth_map 0) ?size_map // (nth_map (0, 0)).
have [] := ex _ _ _ _ _ er _ hp; case: (nth (0, 0) r i) => l v /= v0; rewrite /matvec.
case ep : (P _) => [d|] // [h]; exists d, l; split=> //; rewrite ?to_xK //; rewrite h; split=> [/eqP|/Creal_ReP -> //].
by rewrite -subr_eq0 -scalerBl scaler_eq0 (negbTE v0) orbF subr_eq0 => /eqP ->; apply: Creal_Re.
Qed.

(* C85: a symmetrization that is idempotent and homogeneous leaves every returned mode with a non-zero eigenvalue unchanged; when it commutes with the
   product the mode obeys the equation without symmetrization *)
Definition commutes (S : vec -> vec) (P : gf -> option gf) : Prop :=
  forall v d, P (to_wk v) = Some d -> exists d', P (to_wk (S v)) = Some d' /\ to_x d' = S (to_x d).
Theorem C85_symmetrized P sym (S : vec -> vec) init0 rnd tol k max_it Es modes : exact_eigs ->
  (forall g, to_x (sym g) = S (to_x g)) -> (forall v, S (S v) = S v) -> (forall x v, S (x *: v) = x *: S v) ->
  solve_eliashberg to_wk to_x eigs (Some P) sym init0 rnd IRAM tol k max_it = Some (Es, modes) ->
  forall g0 i, (i < size modes)%N -> nth 0 Es i != 0 -> let m := nth g0 modes i in to_x (sym m) = to_x m /\
    (commutes S P -> exists d l, [/\ P m = Some d, to_x d = l *: to_x m & nth 0 Es i = 'Re l]).
Proof.
move=> ex hS idem hom; rewrite /solve_eliashberg /implicitly_restarted_arnoldi_method; case er : (eigs _ _ _ _) => [r|] // [<- <-].
rewrite !size_map => g0 i hi; have hp : nth (0, 0) r i \in r by exact: mem_nth.
have -> : nth 0 [seq 'Re p.1 | p <- r] i = 'Re (nth (0, 0) r i).1 by rewrite (nth_map (0, 0)).
have -> : nth g0 [seq to_wk v | v <- [seq p.2 | p <- r]] i = to_wk (nth (0, 0) r i).2 by rewrite (nth_map 0) ?size_map // (nth_map (0, 0)).
have [] := ex _ _ _ _ _ er _ hp; case: (nth (0, 0) r i) => l v /= v0; rewrite /matvec => hm l0.
have {}l0 : l != 0 by apply: contraNneq l0 => ->; rewrite raddf0.
move: hm; case ep : (P _) => [d|] // [h]; rewrite hS in h.
have Sv : S v = v by apply: (scalerI l0); rewrite -hom -h idem.
rewrite hS to_xK Sv; split=> // com; exists d, l; split=> //.
by have [d' []] := com _ _ ep; rewrite Sv ep => -[<-] ->.
Qed.
Theorem C85_power_mode P sym init0 rnd tol k max_it Es modes : 0 <= tol -> n.+1%:R * tol < 1 ->
  solve_eliashberg to_wk to_x eigs (Some P) sym init0 rnd PM tol k max_it = Some (Es, modes) ->
  (forall E0 v0, power_method (matvec to_wk to_x P sym) (to_x (if init0 is Some d then d else rnd)) 0 tol max_it = Some (E0, v0) ->
    forall x d, P (to_wk x) = Some d -> - E0 * inner x x <= inner x (to_x (sym d))) ->
  exists E m d B, [/\ Es = [:: E], modes = [:: m], P m = Some d, E <= B & np_norm (to_x m) = 1 /\ forall i, `|(to_x (sym d) - E *: to_x m) 0 i| <= B * tol].
Proof.
move=> t0 nt; rewrite /solve_eliashberg; case ep : (power_method_LR _ _ _ _) => [[E v]|] // [<- <-] hb.
have mvE x u : matvec to_wk to_x P sym x = Some u -> exists d, P (to_wk x) = Some d /\ u = to_x (sym d).
  by rewrite /matvec; case: (P _) => // d [<-]; exists d.
have hb' : forall E0 v0, power_method (matvec to_wk to_x P sym) (to_x (if init0 is Some d then d else rnd)) 0 tol max_it = Some (E0, v0) ->
    forall x u, matvec to_wk to_x P sym x = Some u -> - E0 * inner x x <= inner x u.
  by move=> E0 v0 h x u /mvE [d [hd ->]]; apply: hb h _ _ hd.
have [u [[E0 [nv [/mvE [d [hd ->]] h]]]|[E0 [v0 [hp p [nv [/mvE [d [hd ->]] h]]]]]]] := C84_bounded_below t0 nt ep hb'.
  by exists E, (to_wk v), d, E; split=> //; rewrite to_xK.
exists E, (to_wk v), d, (E + E0); split=> //; rewrite ?to_xK // ler_addl.
have [_ [w [ei _]]] := methodP (real0 _) t0 hp; have [_ [_ q _ _]] := iterationP (real0 _) ei.
by move: q; rewrite subr0 => /ltW.
Qed.
(* C85: two products with the same values give the same eigenvalues and modes *)
Definition same_values (P P' : gf -> option gf) : Prop := forall v, match P (to_wk v), P' (to_wk v) with
  | Some d, Some d' => to_x d = to_x d' | None, None => True | _, _ => False end.
Theorem C85_product_independent P P' sym (S : vec -> vec) init0 rnd solver tol k max_it :
  (forall mv mv' k tol init, mv =1 mv' -> eigs mv k tol init = eigs mv' k tol init) -> (forall g, to_x (sym g) = S (to_x g)) -> same_values P P' ->
  solve_eliashberg to_wk to_x eigs (Some P) sym init0 rnd solver tol k max_it = solve_eliashberg to_wk to_x eigs (Some P') sym init0 rnd solver tol k max_it.
Proof.
move=> ext hS h; have mvE : matvec to_wk to_x P sym =1 matvec to_wk to_x P' sym.
  by move=> v; rewrite /matvec; have := h v; case: (P _) => [d|]; case: (P' _) => [d'|] //; rewrite !hS => ->.
have itE v o : iteration (matvec to_wk to_x P sym) v o = iteration (matvec to_wk to_x P' sym) v o by rewrite /iteration mvE.
have lpE o t r v : power_loop (matvec to_wk to_x P sym) o t r v = power_loop (matvec to_wk to_x P' sym) o t r v.
  by elim: r v => [|r ih] v /=; rewrite itE //; case: iteration => // -[e w]; rewrite ih.
have pmE i o t m : power_method (matvec to_wk to_x P sym) i o t m = power_method (matvec to_wk to_x P' sym) i o t m.
  by rewrite /power_method itE; case: iteration => // -[e w].
case: solver => //=; first by rewrite /implicitly_restarted_arnoldi_method (ext _ _ _ _ _ mvE).
rewrite /power_method_LR pmE; case: power_method => // -[e v]; rewrite itE; case: iteration => // -[e' w].
by rewrite pmE.
Qed.
(* C85: unknown names, and the direct sum on a DLR mesh, are rejected *)
Theorem C85_names product dlr (atol : C) (data : seq C) (pc pf ps : gf -> option gf) sym init0 rnd solver tol k max_it r :
  solve_eliashberg to_wk to_x eigs (choose_product product dlr atol data pc pf ps) sym init0 rnd solver tol k max_it = Some r ->
  [/\ product <> OtherProduct, solver <> OtherSolver & product = SUM -> dlr = false].
Proof. by case: product => //; case: solver => //; case: dlr. Qed.
(* C85: a dynamic vertex whose numbers are all below the absolute tolerance of np.allclose is dropped: with the constant part zero every eigenvalue
   returned is zero *)
Theorem C85_small_vertex_refuted dlr (atol : C) (data : seq C) (pc pf ps : gf -> option gf) (S : vec -> vec) sym init0 rnd tol k max_it Es modes : exact_eigs ->
  (forall g, to_x (sym g) = S (to_x g)) -> S 0 = 0 ->
  all (fun x => `|x| <= atol) data -> (forall g d, pc g = Some d -> to_x d = 0) ->
  solve_eliashberg to_wk to_x eigs (choose_product FFT dlr atol data pc pf ps) sym init0 rnd IRAM tol k max_it = Some (Es, modes) ->
  forall i, nth 0 Es i = 0.
Proof.
move=> ex hS S0 ha hz; have -> : choose_product FFT dlr atol data pc pf ps = Some pc.
  rewrite /choose_product; case: ifP => // /negP[]; apply: sub_all ha => x; by rewrite subr0 addr0.
move=> h; have [sz hm] := C85_iram_modes ex h; move=> i; case: (ltnP i (size modes)) => hi; last by rewrite nth_default // sz.
have [d [l [hd m0 hl -> _]]] := hm rnd i hi; move: hl; rewrite hS (hz _ _ hd) S0 => /esym/eqP; rewrite scaler_eq0 (negbTE m0) orbF => /eqP ->.
by rewrite raddf0.
Qed.
(* C85: the power method fails on the zero start vector *)
Lemma zero_start P sym init0 rnd tol k max_it : (forall d, P (to_wk 0) = Some d -> to_x (sym d) = 0) ->
  to_x (if init0 is Some d then d else rnd) = 0 ->
  solve_eliashberg to_wk to_x eigs (Some P) sym init0 rnd PM tol k max_it = None.
Proof.
move=> hP hi; rewrite /solve_eliashberg hi /power_method_LR /power_method /iteration /matvec.
case ep : (P _) => [d|] //; rewrite (hP _ ep) scaler0 subrr.
by have -> : np_norm (0 : vec) == 0 by rewrite norm_eq0.
Qed.
End Solve.

(* C85 for the product by direct summation *)
Section Direct.
Variables (C : numClosedFieldType) (n1 n2 n3 nb nw n : nat) (beta z1 z2 z3 : C).
Add Ring Cring2 : (fld_rt C).
Local Notation K := (site n1 n2 n3).
Local Notation t4 := (tensor4 C nb).
Local Notation gfun := (gfun C n1 n2 n3 nb).
Local Notation wk := ('I_(2 * nw) -> K -> 'M[C]_nb).
Local Notation vec := 'rV[C]_n.+1.
Variables (pos : 'I_(2 * nw) * K * ('I_nb * 'I_nb) -> 'I_n.+1) (ind : 'I_n.+1 -> 'I_(2 * nw) * K * ('I_nb * 'I_nb)).
Hypotheses (posK : cancel pos ind) (indK : cancel ind pos).
(* reshape and flatten in any order *)
Definition reshape (v : vec) : wk := fun w k => \matrix_(a, b) v 0 (pos (w, k, (a, b))).
Definition flatten (d : wk) : vec := \row_i d (ind i).1.1 (ind i).1.2 (ind i).2.1 (ind i).2.2.
Lemma reshapeK v : flatten (reshape v) = v.
Proof. by apply/rowP => i; rewrite !mxE; have := indK i; case: (ind i) => [[w k] [a b]] /= ->. Qed.
Lemma flattenE d w k a b : flatten d 0 (pos (w, k, (a, b))) = d w k a b.
Proof. by rewrite mxE posK. Qed.
Lemma flatten_eq (d d' : wk) : (forall w k a b, d w k a b = d' w k a b) -> flatten d = flatten d'.
Proof. by move=> h; apply/rowP => i; rewrite !mxE h. Qed.
Variable eigs : (vec -> option vec) -> nat -> C -> vec -> option (seq (C * vec)).
Definition nonzero (d : wk) : Prop := exists w k a b, d w k a b != 0.
Lemma flatten_nonzero d : flatten d != 0 -> nonzero d.
Proof.
case/rV0Pn => i; rewrite mxE; case: (ind i) => [[w k] [a b]] /= h; by exists w, k, a, b.
Qed.
(* the modes solve the documented equation *)
Theorem C85_documented_equation ng gsize nranks sched ksched (gamma : int -> K -> t4) (g : gfun) dlr (atol : C) (data : seq C) pc pf init0 rnd tol k max_it Es modes :
  exact_eigs eigs -> fair_all nranks sched -> fair_all nranks ksched -> conj_symmetric conjC (fun n k a b => g n k a b) ->
  solve_eliashberg reshape flatten eigs (choose_product SUM dlr atol data pc pf (eliashberg_product beta conjC ng gsize nranks sched ksched gamma g))
    id init0 rnd IRAM tol k max_it = Some (Es, modes) ->
  size Es = size modes /\ forall i, (i < size modes)%N -> let m := nth rnd modes i in exists l,
    [/\ nth 0 Es i = 'Re l, nonzero m & forall w k a b, eliashberg_doc beta gamma (fun n k a b => g n k a b) (fun w k a b => m w k a b) w k a b = l * m w k a b].
Proof.
move=> ex f1 f2 cs h; have [_ _ /(_ erefl) dl] := C85_names h.
rewrite dl /choose_product in h; have := C85_iram_modes reshapeK ex h; case=> sz hm; split=> // i hi m.
have [d [l [hd m0 hl hE _]]] := hm rnd i hi; exists l; split=> //; first exact: flatten_nonzero.
move=> w q a b; have [<- _] := C58_documented_product w q a b f1 f2 cs hd.
by have := congr1 (fun v : vec => v 0 (pos (w, q, (a, b)))) hl; rewrite flattenE mxE flattenE.
Qed.
(* a static vertex: the direct sum and the Fourier product give the same eigenvalues and modes *)
Variables (L : nat) (wt : ('I_(2 * nw) -> 'M[C]_nb) -> 'I_L.+1 -> 'M[C]_nb).
Hypotheses (hz1 : n1.+1.-primitive_root z1) (hz2 : n2.+1.-primitive_root z2) (hz3 : n3.+1.-primitive_root z3).
Theorem C85_static_products_agree ng gsize nranks sched ksched (gamma : K -> t4) (g : gfun) nranks' sched' S sym init0 rnd solver tol k max_it :
  fair_all nranks sched -> fair_all nranks ksched -> fair_all nranks' sched' ->
  (forall t i j, linfun_mx (fun x => wt x t i j)) -> (forall x, wt x ord0 = beta^-1 *: \sum_w x w) ->
  (nw <= ng)%N -> (2 * (2 * nw) <= gsize)%N ->
  (forall mv mv' k tol init, mv =1 mv' -> eigs mv k tol init = eigs mv' k tol init) -> (forall g, flatten (sym g) = S (flatten g)) ->
  solve_eliashberg reshape flatten eigs (Some (eliashberg_product beta conjC ng gsize nranks sched ksched (fun _ => gamma) g)) sym init0 rnd solver tol k max_it =
  solve_eliashberg reshape flatten eigs (Some (eliashberg_product_fft_constant z1 z2 z3 conjC wt ng nranks' sched'
    (fun r a b c d => fourier_k_to_r z1 z2 z3 (fun q => gamma q a b c d) r) g)) sym init0 rnd solver tol k max_it.
Proof.
move=> fs fks fs' lwt avg hn hg ext hS; apply: C85_product_independent ext hS _ => v.
case e : (eliashberg_product _ _ _ _ _ _ _ _ _) => [D|]; case e' : (eliashberg_product_fft_constant _ _ _ _ _ _ _ _ _ _ _) => [D'|] //.
- apply: flatten_eq => w q a b; have cc : (ncells n1 n2 n3)%:R != 0 :> C by rewrite pnatr_eq0 -lt0n /ncells !muln_gt0.
  exact: (C25_sum_is_fft hz1 hz2 hz3 cc w q a b fs fks fs' lwt avg e e').
- by move: e'; rewrite /eliashberg_product_fft_constant /eliashberg_g_delta_g_product ltnNge leq_mul2l hn.
- by move: e; rewrite /eliashberg_product /eliashberg_g_delta_g_product ltnNge hg /= ltnNge leq_mul2l hn.
Qed.
(* the eigenvalues of the direct sum scale with the vertex *)
Theorem C85_direct_scales ng gsize nranks sched ksched (gamma gamma' : int -> K -> t4) (g : gfun) (x l : C) (m D D' : wk) :
  fair_all nranks sched -> fair_all nranks ksched -> (forall n k a b c d, gamma' n k a b c d = x * gamma n k a b c d) ->
  eliashberg_product beta conjC ng gsize nranks sched ksched gamma g m = Some D -> (forall w k a b, D w k a b = l * m w k a b) ->
  eliashberg_product beta conjC ng gsize nranks sched ksched gamma' g m = Some D' -> forall w k a b, D' w k a b = x * l * m w k a b.
Proof.
move=> fs fks hg e hD e' w k a b; case e0 : (eliashberg_product beta conjC ng gsize nranks sched ksched (fun _ _ _ _ _ _ => 0) g m) => [D0|].
  have h0 : D0 w k a b = 1 * D0 w k a b + D0 w k a b by apply: (C24_linear_in_vertex w k a b fs fks _ e0 e0 e0) => *; rewrite mulr0 addr0.
  have z : D0 w k a b = 0 by apply: (addrI (D0 w k a b)); rewrite addr0 {3}h0 mul1r.
  have -> : D' w k a b = x * D w k a b + D0 w k a b by apply: (C24_linear_in_vertex w k a b fs fks _ e e0 e') => *; rewrite hg addr0.
  by rewrite z addr0 hD mulrA.
by move: e e0; rewrite /eliashberg_product; case: ifP => //; case: eliashberg_g_delta_g_product.
Qed.
End Direct.

(* C86 *)
Section Preprocess.
Variables (C : numClosedFieldType) (W K T : Type).
Variable split : (W -> K -> T -> C) -> (W -> K -> T -> C) * (K -> T -> C).
Local Notation constant := (constant C K T).
(* the value a given constant stands for *)
Definition given (c : constant) : option (K -> T -> C) :=
  match c with CNone => None | CFloat x | COther x => Some (fun _ _ => x) | CArray f | CGf f => Some f end.
(* C86: the two parts add up to the vertex *)
Theorem C86_lossless dlr Gamma (const : constant) dyn c : (forall G w k t, (split G).1 w k t + (split G).2 k t = G w k t) ->
  preprocess_gamma_for_fft split dlr Gamma const = Some (dyn, c) -> forall w k t, dyn w k t + c k t = Gamma w k t.
Proof.
move=> hs; have := hs Gamma; rewrite /preprocess_gamma_for_fft; case: (split Gamma) => d0 c0 h0.
by case: dlr; case: const => [|x|f|f|x] // [<- <-] w k t; rewrite ?subrK ?subr0 ?addr0 //; apply: h0.
Qed.
(* C86: a constant of one of the documented types is the constant part, except on a DLR mesh, where only a Green's function is accepted *)
Theorem C86_given_constant dlr Gamma (const : constant) f dyn c : given const = Some f -> (forall x, const <> COther _ _ x) ->
  preprocess_gamma_for_fft split dlr Gamma const = Some (dyn, c) -> c = f /\ (dlr -> exists h, const = CGf h).
Proof.
rewrite /preprocess_gamma_for_fft; case: dlr; case: const => [|x|h|h|x] //= [<-] no; try by [case: (no x)|case=> _ <-].
by case=> _ <-; split=> // _; exists h.
Qed.
(* C86: a number that is not exactly a python float (an integer, a complex number, a numpy scalar) is ignored; whenever it is not the fitted tail the
   constant part is not the given one *)
Theorem C86_other_number_refuted Gamma x : preprocess_gamma_for_fft split false Gamma (COther K T x) = preprocess_gamma_for_fft split false Gamma (CNone _ _ _) /\
  forall k t, (split Gamma).2 k t <> x -> forall dyn c, preprocess_gamma_for_fft split false Gamma (COther K T x) = Some (dyn, c) -> c k t <> x.
Proof. by split=> // k t h dyn c; rewrite /preprocess_gamma_for_fft; case e : (split Gamma) => [d c'] [_ <-]; rewrite -[c' k t]/((d, c').2 k t) -e. Qed.
(* C86: on a DLR mesh a float or an array raises, and without a constant the vertex is not fitted: the constant part is zero *)
Theorem C86_dlr_refuted Gamma x f : preprocess_gamma_for_fft split true Gamma (CFloat K T x) = None /\ preprocess_gamma_for_fft split true Gamma (CArray f) = None /\
  forall dyn c, preprocess_gamma_for_fft split true Gamma (CNone _ _ _) = Some (dyn, c) -> forall k t, c k t = 0.
Proof. by split=> //; split=> // dyn c [_ <-]. Qed.
End Preprocess.

(* the tail fit of the code meets the hypothesis of C86_lossless *)
Theorem C86_lossless_case (C : numClosedFieldType) (nb : nat) (W K : finType) (fit : (W -> C) -> C) nranks (sched : nat -> seq K) Gamma x dyn c :
  fair_all nranks sched ->
  let split (G : W -> K -> 'I_nb * 'I_nb * 'I_nb * 'I_nb -> C) :=
    let s := split_into_dynamic_wk_and_constant_k fit nranks sched (fun w k a b c d => G w k (a, b, c, d)) in
    (fun w k (t : 'I_nb * 'I_nb * 'I_nb * 'I_nb) => s.1 w k t.1.1.1 t.1.1.2 t.1.2 t.2, fun k (t : 'I_nb * 'I_nb * 'I_nb * 'I_nb) => s.2 k t.1.1.1 t.1.1.2 t.1.2 t.2) in
  preprocess_gamma_for_fft split false Gamma (CFloat _ _ x) = Some (dyn, c) -> forall w k t, dyn w k t + c k t = Gamma w k t.
Proof.
move=> fs split h w k t; apply: C86_lossless h w k t => G w k [[[a b] c'] d] /=.
by rewrite !fair_all_map // subrK.
Qed.

(* C86: the start vector *)
Section Start.
Variables (C : numClosedFieldType) (nw : nat) (T : finType) (rd : T -> C) (rf : nat -> C).
Local Notation start := (semi_random_initial_delta rd rf).
Definition mean_abs_re (g : 'I_nw -> T -> C) (w : 'I_nw) : C := (\sum_t `|'Re (g w t)|) / #|T|%:R.
(* the momentum and orbital dependence is the same random one at every frequency; the outer frequencies carry the mean of the Green's function and are not
   randomized; each number is bounded by that mean *)
Theorem C86_start_vector (g : 'I_nw -> T -> C) nr d : (forall t, 0 <= rd t <= 1) -> (forall i, 0 <= rf i <= 1) -> start g nr = Some d ->
  (forall w w' t t', d w t * d w' t' = d w t' * d w' t) /\
  (forall (w : 'I_nw) t, (w < nr)%N || (nw - nr <= w)%N -> d w t = mean_abs_re g w * rd t) /\
  (forall w t, 0 <= d w t <= mean_abs_re g w) /\ #|[set w : 'I_nw | (w < nr)%N || (nw - nr <= w)%N]| = (2 * nr)%N.
Proof.
move=> hr hf; rewrite /semi_random_initial_delta; case: ltnP => // hn [<-]; pose fd (w : 'I_nw) := if (nr <= w < nw - nr)%N then mean_abs_re g w * rf (w - nr)%N else mean_abs_re g w.
have m0 w : 0 <= mean_abs_re g w by rewrite mulr_ge0 ?invr_ge0 ?ler0n ?sumr_ge0.
split; first by move=> w w' t t'; rewrite mulrACA [rd t * _]mulrC mulrACA.
split; first by move=> w t h; case: ifP => // /andP[h1 h2]; move: h; rewrite ltnNge h1 leqNgt h2.
split.
  move=> w t; have /andP[r0 r1] := hr t.
  have /andP[f0 f1] : 0 <= fd w <= mean_abs_re g w.
    rewrite /fd; case: ifP => _; last by rewrite m0 lexx.
    by have /andP[a0 a1] := hf (w - nr)%N; rewrite mulr_ge0 // ler_pimulr.
  by change (0 <= fd w * rd t <= mean_abs_re g w); rewrite mulr_ge0 // (le_trans _ f1) // ler_pimulr.
rewrite cardsE -sum1_card big_mkcond /=.
rewrite (eq_bigr (fun w : 'I_nw => if (w < nr)%N || (nw - nr <= w)%N then 1%N else 0%N)); last by move=> w _; rewrite unfold_in.
rewrite -(big_mkord xpredT (fun w => if (w < nr)%N || (nw - nr <= w)%N then 1%N else 0%N)).
have h1 : (nr <= nw - nr)%N by lia.
rewrite (@big_cat_nat _ _ _ (nw - nr)%N) ?leq_subr //= (@big_cat_nat _ _ _ nr) //=.
have cst m p x : (forall i, (m <= i < p)%N -> (if (i < nr)%N || (nw - nr <= i)%N then 1%N else 0%N) = x) ->
    (\sum_(m <= i < p) (if (i < nr)%N || (nw - nr <= i)%N then 1%N else 0%N) = (p - m) * x)%N.
  by move=> h; rewrite (eq_big_nat _ _ h) sum_nat_const_nat.
rewrite (cst 0%N nr 1%N); last by move=> i hi; rewrite ifT //; lia.
rewrite (cst nr (nw - nr)%N 0%N); last by move=> i hi; rewrite ifF //; lia.
rewrite (cst (nw - nr)%N nw 1%N); last by move=> i hi; rewrite ifT //; lia.
lia.
Qed.
(* more unrandomized frequencies than there are: an exception *)
Theorem C86_start_fraction (g : 'I_nw -> T -> C) nr : start g nr = None <-> (nw < 2 * nr)%N.
Proof. by rewrite /semi_random_initial_delta; case: ltnP. Qed.
(* C86: a purely imaginary Green's function gives the zero vector, from which the power method cannot start *)
Theorem C86_imaginary_refuted (g : 'I_nw -> T -> C) nr d n (gf : Type) (to_wk : 'rV[C]_n.+1 -> gf) (to_x : gf -> 'rV[C]_n.+1) (pos : 'I_n.+1 -> 'I_nw * T)
    (rnd : gf) eigs P sym tol k max_it : (forall w t, 'Re (g w t) = 0) -> start g nr = Some d ->
  (forall w t, d w t = 0) /\
  ((forall i, to_x rnd 0 i = d (pos i).1 (pos i).2) -> (forall d, P (to_wk 0) = Some d -> to_x (sym d) = 0) ->
    solve_eliashberg to_wk to_x eigs (Some P) sym None rnd PM tol k max_it = None).
Proof.
move=> h e; have d0 w t : d w t = 0.
  move: e; rewrite /semi_random_initial_delta; case: ltnP => // _ [<-].
  have -> : \sum_t0 `|'Re (g w t0)| = 0 by rewrite big1 // => t' _; rewrite h normr0.
  by case: ifP; rewrite !mul0r.
by split=> // hx hP; apply: zero_start => //=; apply/rowP => i; rewrite hx d0 mxE.
Qed.
End Start.

(* a case of C85: one momentum, one orbital, two frequencies, G = 1 and a constant vertex x: the product maps (1, 1) to - x (1, 1) *)
Section Case.
Local Notation A := [numClosedFieldType of algC].
Local Notation K := (site 0 0 0).
Variable x : A.
Definition case_g : gfun A 0 0 0 1 := fun _ _ => 1.
Definition case_gamma : int -> K -> tensor4 A 1 := fun _ _ _ _ _ _ => x.
Definition case_pos (p : 'I_(2 * 1) * K * ('I_1 * 'I_1)) : 'I_2 := p.1.1.
Definition case_ind (i : 'I_2) : 'I_(2 * 1) * K * ('I_1 * 'I_1) := (i, 0, (ord0, ord0)).
Lemma case_posK : cancel case_pos case_ind.
Proof. by move=> [[w k] [a b]]; rewrite /case_pos /case_ind /= (ord1 a) (ord1 b); congr (_, _, _); case: k => [[k1 k2] k3]; rewrite (ord1 k1) (ord1 k2) (ord1 k3). Qed.
Lemma case_indK : cancel case_ind case_pos. Proof. by []. Qed.
Definition ones : 'rV[A]_2 := const_mx 1.
Definition eigs_ones (mv : 'rV[A]_2 -> option 'rV[A]_2) (k : nat) (tol : A) (init : 'rV[A]_2) : option (seq (A * 'rV[A]_2)) :=
  if mv ones == Some (- x *: ones) then Some [:: (- x, ones)] else None.
Lemma ones_neq0 : ones != 0.
Proof. by apply/rV0Pn; exists ord0; rewrite mxE oner_neq0. Qed.
Lemma eigs_ones_exact : exact_eigs eigs_ones.
Proof. move=> mv k tol init r; rewrite /eigs_ones; case: eqP => // h [<-] p; rewrite inE => /eqP -> /=; split=> //; exact: ones_neq0. Qed.
Definition case_P nranks (sched : nat -> seq ('I_(2 * 1) * K)) (ksched : nat -> seq K) := eliashberg_product (1 : A) conjC 1 4 nranks sched ksched case_gamma case_g.
Lemma case_product nranks sched ksched D (v : 'rV[A]_2) i : fair_all nranks sched -> fair_all nranks ksched -> case_P nranks sched ksched (reshape case_pos v) = Some D ->
  flatten case_ind D 0 i = - x * (v 0 ord0 + v 0 ord_max) / 2%:R.
Proof.
move=> fs fks e; rewrite mxE (productE fs fks e).
have e1 (w' : 'I_(2 * 1)) : \sum_(k' : K) \sum_c \sum_d case_gamma (fidx (case_ind i).1.1 - fidx w') ((case_ind i).1.2 - k') c (case_ind i).2.1 d (case_ind i).2.2 *
    pair_amplitude conjC (fun k a b => case_g (fidx w') k a b) (fun k a b => reshape case_pos v w' k a b) k' d c = x * v 0 w'.
  rewrite (big_pred1 (0 : K)); last by move=> k /=; apply/esym/eqP; case: k => [[k1 k2] k3]; rewrite (ord1 k1) (ord1 k2) (ord1 k3).
  by rewrite !big_ord1 /pair_amplitude !big_ord1 /case_g /reshape /case_pos !mxE /= conjC1 !mul1r.
rewrite (eq_bigr _ (fun w' _ => e1 w')) big_ord_recl big_ord1 /ncells /= mulr1 mulr1 -mulrDr mulNr.
by rewrite -!mulrA [RHS]mulNr; congr (- (x * ((v 0 _ + v 0 _) * _))); apply: val_inj.
Qed.
Lemma case_defined nranks sched ksched d : exists D, case_P nranks sched ksched d = Some D.
Proof. by rewrite /case_P /eliashberg_product /eliashberg_g_delta_g_product; eexists. Qed.
Lemma case_ones nranks sched ksched : fair_all nranks sched -> fair_all nranks ksched ->
  matvec (reshape case_pos) (flatten case_ind) (case_P nranks sched ksched) id ones = Some (- x *: ones).
Proof.
move=> fs fks; rewrite /matvec; have [D e] := case_defined nranks sched ksched (reshape case_pos ones); rewrite e; congr Some; apply/rowP => i.
rewrite (case_product i fs fks e) !mxE; apply/eqP; rewrite -mulrA -[1 + 1]/(2%:R) mulfV ?pnatr_eq0 //.
Qed.
(* IRAM returns the real part of - x *)
Lemma case_solve nranks sched ksched rnd tol k max_it : fair_all nranks sched -> fair_all nranks ksched ->
  solve_eliashberg (reshape case_pos) (flatten case_ind) eigs_ones (@choose_product [numClosedFieldType of algC] _ SUM false 0 [::] (fun _ => None) (fun _ => None) (case_P nranks sched ksched))
    id None rnd IRAM tol k max_it = Some ([:: 'Re (- x)], [:: reshape case_pos ones]).
Proof.
by move=> fs fks; rewrite /solve_eliashberg /= /implicitly_restarted_arnoldi_method /eigs_ones case_ones // eqxx.
Qed.
End Case.
Theorem C85_documented_equation_case nranks sched ksched rnd : fair_all nranks sched -> fair_all nranks ksched ->
  [/\ cancel case_pos case_ind, cancel case_ind case_pos, exact_eigs (eigs_ones (- 1)) &
  solve_eliashberg (reshape case_pos) (flatten case_ind) (eigs_ones (- 1))
    (@choose_product [numClosedFieldType of algC] _ SUM false 0 [::] (fun _ => None) (fun _ => None) (case_P (- 1) nranks sched ksched))
    id None rnd IRAM 0 1 1 = Some ([:: 1], [:: reshape case_pos ones])].
Proof.
move=> fs fks; split; [exact: case_posK | exact: case_indK | exact: eigs_ones_exact |].
by rewrite (case_solve _ _ _ _ _ fs fks) opprK (Creal_ReP 1 _) ?real1.
Qed.
(* C85: a vertex with a complex eigenvalue: the number returned is zero, the eigenvalue is -i *)
Theorem C85_complex_refuted nranks sched ksched rnd : fair_all nranks sched -> fair_all nranks ksched -> exists m D,
  [/\ exact_eigs (eigs_ones 'i), solve_eliashberg (reshape case_pos) (flatten case_ind) (eigs_ones 'i)
    (@choose_product [numClosedFieldType of algC] _ SUM false 0 [::] (fun _ => None) (fun _ => None) (case_P 'i nranks sched ksched))
    id None rnd IRAM 0 1 1 = Some ([:: 0], [:: m]),
  case_P 'i nranks sched ksched m = Some D & forall w k a b, D w k a b = - 'i /\ m w k a b = 1].
Proof.
move=> fs fks; have [D e] := case_defined 'i nranks sched ksched (reshape case_pos ones).
exists (reshape case_pos ones), D; split; [exact: eigs_ones_exact | | by [] | ].
  by rewrite (case_solve _ _ _ _ _ fs fks) raddfN /= Re_i oppr0.
move=> w k a b; split; last by rewrite !mxE.
have := case_product w fs fks e; rewrite !mxE /= (ord1 a) (ord1 b) -[1 + 1]/(2%:R) -mulrA mulfV ?pnatr_eq0 // mulr1.
by move=> <-; congr (D _ _ _ _); case: k => [[k1 k2] k3]; rewrite (ord1 k1) (ord1 k2) (ord1 k3).
Qed.
(* a case of the start vector: four frequencies, the outer two unrandomized *)
Theorem C86_start_vector_case : exists d, semi_random_initial_delta (fun _ : 'I_2 => 2%:R^-1 : algC) (fun _ => 2%:R^-1) (fun (_ : 'I_4) _ => 1) 1 = Some d.
Proof. by eexists. Qed.
Print Assumptions C85_iram_modes.
Print Assumptions C85_symmetrized.
Print Assumptions C85_power_mode.
Print Assumptions C85_product_independent.
Print Assumptions C85_names.
Print Assumptions C85_small_vertex_refuted.
Print Assumptions C85_documented_equation.
Print Assumptions C85_static_products_agree.
Print Assumptions C85_direct_scales.
Print Assumptions C86_lossless.
Print Assumptions C86_given_constant.
Print Assumptions C86_other_number_refuted.
Print Assumptions C86_dlr_refuted.
Print Assumptions C86_lossless_case.
Print Assumptions C86_start_vector.
Print Assumptions C86_start_fraction.
Print Assumptions C86_imaginary_refuted.
Print Assumptions C85_documented_equation_case.
Print Assumptions C85_complex_refuted.
Print Assumptions C86_start_vector_case.
