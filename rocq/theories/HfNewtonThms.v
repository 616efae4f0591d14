(* C94 (Newton solvers of the Hartree-Fock equations). *)
From mathcomp Require Import all_ssreflect all_algebra all_field.
From mathcomp Require Import zify.
From Verif Require Import Fring OperatorModel KanamoriModel HfModel HfSpec HfThms HfNewtonModel.
Set Implicit Arguments.
Unset Strict Implicit.
Unset Printing Implicit Defensive.
Import Order.TTheory GRing.Theory Num.Theory.
Local Open Scope ring_scope.

Section Thms.
Variables (C : numClosedFieldType) (n : nat) (K : finType).
Local Notation mx := 'M[C]_n.
Local Notation vec := (seq C).
Variables (eigh : mx -> 'rV[C]_n * mx) (exp log : C -> C) (brentq : (C -> C) -> C -> C -> option C) (beta : C).
Variables (e_k : K -> mx) (U : arr4 C) (mu_min mu_max : option C).
Variable fsolve : seq (vec * vec) -> move C.
Section Any.
Variables (pack : mx -> vec) (unpack : vec -> option mx).
Local Notation step := (density_matrix_step eigh exp brentq beta e_k U mu_min mu_max pack unpack).
Local Notation run := (run eigh exp brentq beta e_k U mu_min mu_max pack unpack fsolve).
Local Notation solve_newton := (solve_newton eigh exp log brentq beta e_k U mu_min mu_max pack unpack fsolve).
Local Notation solve_newton_mu := (solve_newton_mu eigh exp log brentq beta e_k U mu_min mu_max pack unpack fsolve).
Local Notation energies := (energies eigh exp log beta e_k U).
Local Notation setup := (solve_setup eigh exp brentq beta e_k mu_min mu_max pack).
(* the state after a run is the one left by the last question *)
Lemma run_last fuel N s asked s1 x h : run fuel N s asked = Some (s1, x, h) ->
  (h = asked /\ s1 = s) \/ exists s0 q new h', h = (q, [seq p.1 - p.2 | p <- zip new q]) :: h' /\ step s0 q N = Some (s1, new).
Proof.
elim: fuel s asked => //= fuel ih s asked; case: (fsolve asked) => y; last by case=> <- _ <-; left.
rewrite /target; case e: (step s y N) => [[s' new]|] // /ih[[-> ->]|h1]; right => //.
by exists s, y, new, asked.
Qed.
Lemma run_mu fuel s asked s1 x h : run fuel None s asked = Some (s1, x, h) -> s_mu s1 = s_mu s.
Proof.
elim: fuel s asked => //= fuel ih s asked; case: (fsolve asked) => y; last by case=> <-.
rewrite /target; case e: (step s y None) => [[s' new]|] // /ih ->; move: e; rewrite /density_matrix_step; by case: (unpack y) => // r [<-].
Qed.
Lemma step_again s x N s1 new s2 w : step s x N = Some (s1, new) -> step s1 x None = Some (s2, w) -> s2 = s1.
Proof. by rewrite /density_matrix_step; case: (unpack x) => // r; case: (match N with Some _ => _ | None => _ end) => // mu [<- _] [<- _]. Qed.
Lemma step_state s s' x : s_mu s = s_mu s' -> step s x None = step s' x None.
Proof. by move=> e; rewrite /density_matrix_step e. Qed.
End Any.
Local Notation step := (density_matrix_step eigh exp brentq beta e_k U mu_min mu_max (@mat2vec C n) (vec2mat n)).
Local Notation run := (run eigh exp brentq beta e_k U mu_min mu_max (@mat2vec C n) (vec2mat n) fsolve).
Local Notation solve_newton := (solve_newton eigh exp log brentq beta e_k U mu_min mu_max (@mat2vec C n) (vec2mat n) fsolve).
Local Notation solve_newton_mu := (solve_newton_mu eigh exp log brentq beta e_k U mu_min mu_max (@mat2vec C n) (vec2mat n) fsolve).
Local Notation energies := (energies eigh exp log beta e_k U).
Local Notation setup := (solve_setup eigh exp brentq beta e_k mu_min mu_max (@mat2vec C n)).
Definition physical : Prop := [/\ beta \is Num.real, (forall x, x \is Num.real -> 0 < exp x), (forall m, hermitian_mx m -> eigh_at eigh m),
  (forall rho : mx, hermitian_mx rho -> hermitian_mx (update_mean_field U rho)) & (forall k, hermitian_mx (e_k k))].
Definition real_vec (x : vec) : Prop := size x = (n * n)%N /\ all (fun y => y \is Num.real) x.
Definition zero_vec (y : vec) : Prop := forall c, c \in y -> c = 0.
(* the Hartree-Fock equations *)
Definition solves_hf (s : solver C n) : Prop := s_M s = update_mean_field U (s_rho s) /\ s_rho s = update_density_matrix eigh exp beta (fun k => e_k k + s_M s) (s_mu s).
Lemma diff0 (new x : vec) : size new = size x -> zero_vec [seq p.1 - p.2 | p <- zip new x] -> new = x.
Proof.
elim: new x => [|a l ih] [|b m] //= [hs] z; congr (_ :: _).
  by apply/eqP; rewrite -subr_eq0; apply/eqP; apply: z; rewrite inE eqxx.
by apply: ih => // c hc; apply: z; rewrite inE hc orbT.
Qed.
Lemma step_size s x N s1 new : step s x N = Some (s1, new) -> size new = (n * n)%N.
Proof.
rewrite /density_matrix_step; case: (vec2mat n x) => // r; case: (match N with Some _ => _ | None => _ end) => // mu [_ <-]; exact: sz_mat2vec.
Qed.
(* a vector reproduced by the step *)
Lemma fixed s x N s1 : physical -> (forall f a b y, brentq f a b = Some y -> y \is Num.real) -> (N = None -> s_mu s \is Num.real) -> real_vec x -> step s x N = Some (s1, x) -> solves_hf s1.
Proof.
move=> [b0 e0 hE hM hek] bR mr [sv rv]; have [rho [er hr ev]] := C36_vector_proof sv rv.
rewrite /density_matrix_step er; case eb : (match N with Some _ => _ | None => _ end) => [mu|] // [<- em] /=.
have hMF k : eigh_at eigh (update_mean_field_dispersion e_k (update_mean_field U rho) k).
  apply: hE; rewrite /hermitian_mx /update_mean_field_dispersion -[in RHS](hek k) -[in RHS](hM _ hr); apply/matrixP => i j; rewrite !mxE rmorphD //.
have rmu : mu \is Num.real by case: N eb mr => [N /bR|[<-] h] //; exact: h.
have hn := rho_hermitian b0 e0 hMF rmu.
have e2 : update_density_matrix eigh exp beta (update_mean_field_dispersion e_k (update_mean_field U rho)) mu = rho.
  by have := C36_matrix_proof hn; rewrite em er => -[].
by rewrite /solves_hf /= e2.
Qed.
(* C94: when fsolve ends with a root that it has just evaluated, solve_newton leaves the solution of the Hartree-Fock equations at the requested density
   and its energies *)
Theorem C94_newton fuel s N M0 mu0 s0 v0 s1 x y h s2 E : physical -> brentq_root brentq -> (forall f a b y, brentq f a b = Some y -> y \is Num.real) -> real_vec x ->
  setup s N M0 mu0 = Some (s0, v0) -> run fuel (Some N) s0 [::] = Some (s1, x, (x, y) :: h) -> zero_vec y ->
  solve_newton fuel s N M0 mu0 = Some (s2, E) ->
  [/\ solves_hf s2, total_density s2 = N & E = energies s2].
Proof.
move=> ph br bR rx es er zy; rewrite /solve_newton es er /finish; case e2: (step s1 x None) => [[s2' w]|] // [e <-]; rewrite -{s2}e.
have [[]//|[sa [q [new [h' [[eq_ ey eh] st]]]]]] := run_last er.
subst q; subst y; have en : new = x by apply: diff0 zy; rewrite (step_size st) (proj1 rx).
rewrite en in st; rewrite (step_again st e2); have nn : Some N = None -> s_mu sa \is Num.real by [].
have hf := fixed ph bR nn rx st; split=> //.
case: ph => b0 e0 hE hM hek; case: rx => sv rv.
exact: (proj2 (C34_self_consistent b0 e0 br hE bR hM hek sv rv st)).
Qed.
(* C94: at a fixed chemical potential it is enough that fsolve ends with a root *)
Theorem C94_newton_mu fuel mu M0 s1 x h s2 E : physical -> (forall f a b y, brentq f a b = Some y -> y \is Num.real) -> real_vec x -> mu \is Num.real ->
  run fuel None (Solver mu M0 (update_density_matrix eigh exp beta (update_mean_field_dispersion e_k M0) mu)) [::] = Some (s1, x, h) ->
  (forall s, s_mu s = mu -> exists s', step s x None = Some (s', x)) ->
  solve_newton_mu fuel mu M0 = Some (s2, E) ->
  [/\ solves_hf s2, s_mu s2 = mu & (exists y h', h = (x, y) :: h') -> E = energies s2].
Proof.
move=> ph bR rx rmu er root; rewrite /solve_newton_mu er /finish; have m1 := run_mu er.
have [s' st] := root s1 m1; rewrite st => -[<- <-]; split.
- by apply: fixed ph bR _ rx st => _; rewrite m1.
- move: st; rewrite /density_matrix_step; by case: (vec2mat n x) => // r [<- _].
case=> y [h' eh]; rewrite eh in er; have [[]//|[sa [q [new [h2 [[eq_ _ _] sq]]]]]] := run_last er.
by subst q; rewrite (step_again sq st).
Qed.
(* C94: expectation values *)
Theorem C94_expectation (s : solver C n) (v : 'cV[C]_n) : total_density s = expectation_value s 1%:M /\
  expectation_value s (\matrix_(a, b) (v a ord0 * (v b ord0)^*)) = occupation (s_rho s) v.
Proof.
split.
  apply: eq_bigr => a _; rewrite (bigD1 a) //= big1 => [|b /negbTE h]; last by rewrite mxE eq_sym h mul0r.
  by rewrite mxE eqxx mul1r addr0.
rewrite /expectation_value /occupation exchange_big; apply: eq_bigr => b _; apply: eq_bigr => a _; rewrite mxE.
by rewrite [v a _ * _]mulrC -!mulrA; congr (_ * _); rewrite mulrC.
Qed.
End Thms.

(* the Hubbard atom with U = 1 at half filling in the Hartree solver *)
Section Stale.
Variable C : numClosedFieldType.
Local Notation mx := 'M[C]_2.
Definition eigh2 (m : mx) : 'rV[C]_2 * mx := (\row_i m i i, 1%:M).
Definition U2 : arr4 C := fun a b c d => if [&& a == b, c == d & a != c] then - 1 else 0.
Definition brentq2 (f : C -> C) (a b : C) : option C := if f a == 0 then Some a else if f b == 0 then Some b else None.
Definition diag2 (x : C) : mx := x%:M.
Lemma brentq2_root : brentq_root brentq2 /\ brentq_raises brentq2.
Proof.
split=> f a b; last by move=> h; rewrite /brentq2; case: eqP => [e|_]; [rewrite e mul0r ltxx in h | case: eqP => // e; rewrite e mulr0 ltxx in h].
by move=> x; rewrite /brentq2; case: eqP => [e [<-] //|_]; case: eqP => // e [<-].
Qed.
Local Notation h := (2%:R^-1 : C).
(* fsolve asks for the root, then tries a point that it rejects, and returns the root *)
Definition fsolve2 (asked : seq (seq C * seq C)) : move C :=
  match size asked with 0%N => Ask [:: h; h] | 1%N => Ask [:: 1; 1] | _ => Return [:: h; h] end.
Local Notation step := (density_matrix_step eigh2 (@case_exp C) brentq2 1 (fun _ : unit => 0 : mx) U2 None None (@mat2vec_hartree C 2) (vec2mat_hartree 2)).
Lemma field2 (x : C) : update_mean_field U2 (diag2 x) = diag2 x.
Proof.
apply/matrixP => i j; rewrite mxE !big_ord_recl !big_ord0 !mxE /U2; case: i => [[|[|i]] hi] //; case: j => [[|[|j]] hj] //=;
  by rewrite ?(mulr0, mul0r, addr0, add0r, mulr1n, mulr0n, opprK, mul1r, oppr0).
Qed.
Lemma unpack2 (x : C) : x \is Num.real -> vec2mat_hartree 2 [:: x; x] = Some (diag2 x).
Proof.
move=> rx; congr Some; apply/matrixP => i j; rewrite !mxE; case: (i =P j) => [->|_]; rewrite ?mulr1n ?mulr0n //.
by case: j => [[|[|j]] hj] //=; apply/Creal_ReP.
Qed.
Lemma levels2 (x : C) : levels eigh2 (fun _ : unit => diag2 x) = [:: x; x].
Proof.
rewrite /levels /allpairs enumT unlock /= cats0.
have -> : enum 'I_2 = [:: ord0; ord_max] by apply: (inj_map val_inj); rewrite val_enum_ord.
by rewrite /= !mxE !mulr1n.
Qed.
Local Notation fm x := (fermi (@case_exp C) 1 x).
Lemma rho2 (x mu : C) : update_density_matrix eigh2 (@case_exp C) 1 (fun _ : unit => diag2 x) mu = diag2 (fm (x - mu)).
Proof.
apply/matrixP => i j; rewrite mxE summxE (big_pred1 tt); last by case.
rewrite /n_k card_unit invr1 mul1r mxE !big_ord_recl big_ord0 !mxE; case: i => [[|[|i]] hi] //; case: j => [[|[|j]] hj] //=;
  by rewrite ?(rmorph1, rmorph0, conjC1, conjC0, mulr0, mul0r, addr0, add0r, mulr1, mul1r, mulr1n, mulr0n).
Qed.
Lemma half_fermi : fm 0 = h. Proof. by rewrite /fermi mulr0 case_exp0 mul1r. Qed.
Lemma mu2 (x : C) : update_chemical_potential eigh2 (@case_exp C) brentq2 1 None None (fun _ : unit => diag2 x) 1 = Some x.
Proof.
rewrite /update_chemical_potential levels2 /brentq2 /minimum /maximum /= /Order.min /Order.max ltxx /=.
rewrite /target_function !big_cons big_nil subrr half_fermi addr0 /n_k card_unit divr1.
have -> : h + h - 1 = 0 by rewrite -mulr2n -(mulr_natr h 2) mulVf ?pnatr_eq0 // subrr.
by rewrite eqxx.
Qed.
Lemma real_h : h \is Num.real. Proof. by rewrite realV ger0_real ?ler0n. Qed.
Lemma pack2 (x : C) : x \is Num.real -> mat2vec_hartree (diag2 x) = [:: x; x].
Proof.
move=> rx; have e0 : (insub 0%N : option 'I_2) = Some ord0 by rewrite insubT //; congr Some; apply: val_inj.
have e1 : (insub 1%N : option 'I_2) = Some ord_max by rewrite insubT //; congr Some; apply: val_inj.
by rewrite /mat2vec_hartree /= /at_ e0 e1 !mxE !mulr1n; congr [:: _; _]; apply/Creal_ReP.
Qed.
Lemma mf2 (x : C) : update_mean_field_dispersion (fun _ : unit => 0 : mx) (diag2 x) = (fun _ : unit => diag2 x).
Proof. by rewrite /update_mean_field_dispersion add0r. Qed.
Lemma step2 s (x : C) : x \is Num.real -> step s [:: x; x] (Some 1) = Some (Solver x (diag2 x) (diag2 h), [:: h; h]).
Proof.
move=> rx; rewrite /density_matrix_step unpack2 // field2 mf2 mu2 rho2 subrr half_fermi pack2 //; exact: real_h.
Qed.
Lemma energy2 (mu x : C) (M : mx) : (energies eigh2 (@case_exp C) (fun x => x) 1 (fun _ : unit => 0 : mx) U2 (Solver mu M (diag2 x))).1 = - x ^+ 2.
Proof.
rewrite /energies /update_total_energy /= /update_kinetic_energy big1 ?mul0r ?add0r => [|k _]; last first.
  by apply: big1 => a _; apply: big1 => b _; rewrite mxE mul0r.
rewrite /update_interaction_energy !big_ord_recl !big_ord0 /U2 !mxE /= ?(mulr0, mul0r, addr0, add0r, mulr1n, mulr0n) ?mulrN1 ?mulNr.
have -> : - (x * x) - (x * x) = (- x ^+ 2) *+ 2 by rewrite mulr2n expr2.
by rewrite -(mulr_natl (- x ^+ 2) 2) mulKf ?pnatr_eq0.
Qed.
Lemma last_rho : fm (h - 1) = 3%:R / 5%:R.
Proof.
have n2 : 2%:R != 0 :> C by rewrite pnatr_eq0.
have neg : (0 <= h - 1) = false.
  by apply/negbTE; rewrite subr_ge0 -real_ltNge ?real1 ?real_h // invf_lt1 ?ltr1n ?ltr0n.
rewrite /fermi !mul1r /case_exp neg opprB addrA.
have -> : 1 + 1 - h = 3%:R / 2%:R.
  by apply: (mulIf n2); rewrite mulrBl mulVf // mulfVK // mulrDl !mul1r -natrD -[1]/(1%:R) -natrB.
have n3 : 3%:R != 0 :> C by rewrite pnatr_eq0.
rewrite invf_div (_ : 2%:R / 3%:R + 1 = 5%:R / 3%:R) ?invf_div //.
by apply: (mulIf n3); rewrite mulrDl !mulfVK // mul1r -natrD.
Qed.
(* C94: otherwise the chemical potential and the energies belong to another point: the solver ends at the density 6/5 instead of 1, and the energy is not the
   one of its density matrix *)
Theorem C94_last_question_refuted : let s0 := Solver 0 0 0 : solver C 2 in
  let res := solve_newton eigh2 (@case_exp C) (fun x => x) brentq2 1 (fun _ : unit => 0 : mx) U2 None None (@mat2vec_hartree C 2) (vec2mat_hartree 2) fsolve2 3 s0 1 0 None in
  exists s2 E, [/\ res = Some (s2, E), s_M s2 = diag2 h, total_density s2 = 6%:R / 5%:R, total_density s2 != 1 &
    E.1 != (energies eigh2 (@case_exp C) (fun x => x) 1 (fun _ : unit => 0 : mx) U2 s2).1].
Proof.
move=> s0 res; have d0 : diag2 0 = 0 by apply/matrixP => i j; rewrite !mxE mul0rn.
exists (Solver 1 (diag2 h) (diag2 (3%:R / 5%:R))), (energies eigh2 (@case_exp C) (fun x => x) 1 (fun _ : unit => 0 : mx) U2 (Solver 1 (diag2 1) (diag2 h))).
have tr : total_density (Solver 1 (diag2 h) (diag2 (3%:R / 5%:R))) = 6%:R / 5%:R.
  by rewrite /total_density /N_tot !big_ord_recl big_ord0 !mxE addr0 !mulr1n -mulrDl -natrD.
split=> //.
- have m0 : update_mean_field_dispersion (fun _ : unit => 0 : mx) 0 = (fun _ : unit => diag2 0) by rewrite -mf2 d0.
  rewrite /res /solve_newton /solve_setup /= m0 mu2 rho2 subrr half_fermi /run /= /target (step2 _ real_h) /= (step2 _ (real1 _)) /=.
  by rewrite /finish /density_matrix_step unpack2 ?real_h // field2 mf2 rho2 last_rho.
- rewrite tr -subr_eq0; have -> : 6%:R / 5%:R - 1 = 5%:R^-1 :> C.
    have n5 : 5%:R != 0 :> C by rewrite pnatr_eq0.
    by apply: (mulIf n5); rewrite mulrBl mulfVK // mul1r mulVf // -natrB.
  by rewrite invr_eq0 pnatr_eq0.
rewrite !energy2 eqr_opp eqf_sqr; apply/norP; split; last first.
  by rewrite -addr_eq0; apply: lt0r_neq0; rewrite addr_gt0 ?invr_gt0 ?divr_gt0 ?ltr0n.
rewrite -(inj_eq (mulIf (x := 2%:R * 5%:R) _)) ?mulf_neq0 ?pnatr_eq0 // mulKf ?pnatr_eq0 // mulrA mulrAC mulfVK ?pnatr_eq0 //.
by rewrite -natrM eqr_nat.
Qed.
End Stale.

(* a run that meets the hypotheses of C94_newton and C94_newton_mu: one level at half filling *)
Section Case.
Variable C : numClosedFieldType.
Local Notation h := (2%:R^-1 : C).
Definition brentq3 (f : C -> C) (a b : C) : option C := if (a \is Num.real) && (f a == 0) then Some a else None.
Definition fsolve3 (asked : seq (seq C * seq C)) : move C := if asked is [::] then Ask [:: h] else Return [:: h].
Definition e3 (k : unit) : 'M[C]_1 := 0.
Lemma real_h3 : h \is Num.real. Proof. by rewrite realV ger0_real ?ler0n. Qed.
Lemma mu3 (x : C) : x \is Num.real -> update_chemical_potential (@case_eigh C) (@case_exp C) brentq3 1 None None (fun _ : unit => x%:M) h = Some x.
Proof.
move=> rx; have el : levels (@case_eigh C) (fun _ : unit => x%:M) = [:: x].
  rewrite /levels /allpairs enumT unlock /= cats0.
  have -> : enum 'I_1 = [:: ord0] by apply: (inj_map val_inj); rewrite val_enum_ord.
  by rewrite /= !mxE !mulr1n.
rewrite /update_chemical_potential el /brentq3 /minimum /maximum /= rx /target_function big_seq1 subrr /n_k card_unit divr1.
by rewrite /fermi mulr0 case_exp0 mul1r subrr eqxx.
Qed.
Lemma rho3 (x : C) : update_density_matrix (@case_eigh C) (@case_exp C) 1 (fun _ : unit => x%:M) x = h%:M.
Proof.
apply/matrixP => i j; rewrite !ord1 mxE summxE (big_pred1 tt); last by case.
by rewrite /n_k card_unit invr1 mul1r mxE big_ord_recl big_ord0 /fermi !mxE /= mulr1n subrr mulr0 case_exp0 !mul1r conjC1 mulr1 addr0 mulr1n.
Qed.
Lemma field3 (x : C) : update_mean_field (@case_U C) (x%:M : 'M[C]_1) = x%:M.
Proof. by apply/matrixP => i j; rewrite !ord1 mxE !big_ord_recl !big_ord0 !mxE /case_U !addr0 mulr1n ?opprK ?mulN1r ?mul1r ?opprK. Qed.
Lemma mf3 (x : C) : update_mean_field_dispersion e3 x%:M = (fun _ : unit => x%:M).
Proof. by rewrite /update_mean_field_dispersion /e3 add0r. Qed.
Lemma eigh3 (m : 'M[C]_1) : hermitian_mx m -> eigh_at (@case_eigh C) m.
Proof.
move=> hm; have a1 : adjoint (1%:M : 'M[C]_1) = 1%:M by apply/matrixP => i j; rewrite !ord1 !mxE conjC1.
rewrite /eigh_at /unitary_mx /= a1 mulmx1 mul1mx mulmx1; split=> [i||]; rewrite ?mxE //.
  by apply/CrealP; rewrite -{2}hm !mxE.
by apply/matrixP => i j; rewrite !ord1 !mxE mulr1n.
Qed.
Theorem C94_case : physical (@case_eigh C) (@case_exp C) 1 e3 (@case_U C) /\ brentq_root brentq3 /\ (forall f a b y, brentq3 f a b = Some y -> y \is Num.real) /\ real_vec 1 [:: h] /\
  exists s0 v0 s1 E, solve_setup (@case_eigh C) (@case_exp C) brentq3 1 e3 None None (@mat2vec C 1) (Solver 0 0 0) h 0 None = Some (s0, v0) /\
  run (@case_eigh C) (@case_exp C) brentq3 1 e3 (@case_U C) None None (@mat2vec C 1) (vec2mat 1) fsolve3 2 (Some h) s0 [::] = Some (s1, [:: h], [:: ([:: h], [:: 0])]) /\
  solve_newton (@case_eigh C) (@case_exp C) (fun x => x) brentq3 1 e3 (@case_U C) None None (@mat2vec C 1) (vec2mat 1) fsolve3 2 (Solver 0 0 0) h 0 None = Some (s1, E).
Proof.
have rh := real_h3; split.
  split=> [|x||rho hr|k]; rewrite ?real1 //; [exact: case_exp_pos | exact: eigh3 | |].
  - by move: hr; rewrite [rho]mx11_scalar field3.
  - by apply/matrixP => i j; rewrite !mxE conjC0.
split; first by move=> f a b x; rewrite /brentq3; case: ifP => // /andP[_ /eqP e] [<-].
split; first by move=> f a b x; rewrite /brentq3; case: ifP => // /andP[r _] [<-].
split; first by rewrite /real_vec /= rh.
have z3 : (0 : 'M[C]_1) = (0 : C)%:M by apply/matrixP => i j; rewrite !mxE mul0rn.
have st s N : (N = Some h \/ N = None /\ s_mu s = h) -> density_matrix_step (@case_eigh C) (@case_exp C) brentq3 1 e3 (@case_U C) None None (@mat2vec C 1) (vec2mat 1) s [:: h] N = Some (Solver h h%:M h%:M, [:: h]).
  by rewrite /density_matrix_step case_unpack // field3 mf3 => -[->|[-> ->]]; rewrite ?mu3 // rho3 case_pack.
have es : solve_setup (@case_eigh C) (@case_exp C) brentq3 1 e3 None None (@mat2vec C 1) (Solver 0 0 0) h 0 None = Some (Solver 0 0 h%:M, [:: h]).
  by rewrite /solve_setup /= z3 mf3 mu3 ?real0 // rho3 case_pack.
have er : run (@case_eigh C) (@case_exp C) brentq3 1 e3 (@case_U C) None None (@mat2vec C 1) (vec2mat 1) fsolve3 2 (Some h) (Solver 0 0 h%:M) [::] = Some (Solver h h%:M h%:M, [:: h], [:: ([:: h], [:: 0])]).
  by rewrite /run /= /target st; [rewrite /= subrr | left].
exists (Solver 0 0 h%:M), [:: h], (Solver h h%:M h%:M), (energies (@case_eigh C) (@case_exp C) (fun x => x) 1 e3 (@case_U C) (Solver h h%:M h%:M)); split=> //; split=> //.
by rewrite /solve_newton es er /finish st //; right.
Qed.
End Case.
Print Assumptions C94_newton.
Print Assumptions C94_newton_mu.
Print Assumptions C94_expectation.
Print Assumptions C94_last_question_refuted.
Print Assumptions C94_case.
