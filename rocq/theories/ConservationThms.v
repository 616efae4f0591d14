(* C104: conserved quantities do not respond to uniform fields of finite frequency. *)
From mathcomp Require Import all_ssreflect all_algebra.
From Verif Require Import Base Fring Spectral LindhardModel LindhardThms MpiModel MpiSpec RpaModel RpaSpec RpaProofs RpaThms.
Set Implicit Arguments.
Unset Strict Implicit.
Unset Printing Implicit Defensive.
Import Order.TTheory GRing.Theory Num.Theory.
Local Open Scope ring_scope.

Section Spec.
Variables (C : numClosedFieldType) (nb : nat) (K : finZmodType).
(* the operator sum_a x_a c^+_a c_a commutes with the Hamiltonian e *)
Definition conserved (x : 'I_nb -> C) (e : K -> 'M[C]_nb) : Prop := forall k a b, x a * e k a b = e k a b * x b.
(* its response to every field, and the response of every operator to a field that couples to it *)
Definition no_response (x : 'I_nb -> C) (chi : tensor4 C nb) : Prop :=
  (forall c d, \sum_a x a * chi a a c d = 0) /\ (forall a b, \sum_c chi a b c c * x c = 0).
End Spec.

Section Lindhard.
Variables (C : numClosedFieldType) (nb : nat) (K : finZmodType) (fermi cosh : C -> C) (eig : 'M[C]_nb -> 'rV[C]_nb * 'M[C]_nb).
Add Ring Cring : (fld_rt C).
Local Notation M := 'M[C]_nb.
Variables (e : K -> M) (beta mu : C).
Hypothesis he : eigensolver eig.
Hypothesis hh : hermitian e.
Hypothesis hm : mu \is Num.real.
(* between eigenvectors of different energy a conserved operator has no matrix elements *)
Lemma conserved_elements (x : 'I_nb -> C) k : conserved x e -> let: (l, U) := eig (e k - mu%:M) in
  forall i j, l 0 i != l 0 j -> \sum_a dagger U j a * x a * U a i = 0.
Proof.
move=> hx; have := he (hermitian_mu hh hm k); case: (eig _) => l U /= [_ u ed] i j hl.
have v := unitary_l u.
pose X := diag_mx (\row_a x a) : M.
have cX : X *m (e k - mu%:M) = (e k - mu%:M) *m X.
  rewrite mulmxBr mulmxBl mul_mx_scalar mul_scalar_mx; congr (_ - _).
  by apply/matrixP=> a b; rewrite mul_diag_mx mul_mx_diag !mxE.
pose Y := dagger U *m X *m U.
have cY : Y *m diag_mx l = diag_mx l *m Y.
  have eD : diag_mx l = dagger U *m (e k - mu%:M) *m U by rewrite ed !mulmxA v mul1mx -mulmxA v mulmx1.
  by rewrite eD /Y !mulmxA -!(mulmxA _ U (dagger U)) u !mulmx1 -!(mulmxA (dagger U)) cX.
have eY : Y j i = \sum_a dagger U j a * x a * U a i by rewrite mxE; apply: eq_bigr => a _; rewrite mul_mx_diag !mxE.
rewrite -eY; move/matrixP/(_ j i): cY; rewrite mul_diag_mx mul_mx_diag [LHS]mxE [RHS]mxE => /eqP.
rewrite -subr_eq0 [l 0 j * _]mulrC -mulrBr mulf_eq0 subr_eq0 (negbTE hl) orbF.
by move/eqP.
Qed.
Lemma factor_same idelta w x : ~~ (`|w + idelta| < tol C) -> total_factor fermi cosh beta idelta w x x = 0.
Proof. by move=> h; rewrite /total_factor (negbTE h) /= !subrr mul0r. Qed.
(* C104: the Lindhard function at q = 0 for every frequency other than zero (Matsubara, or real with broadening) *)
Theorem C104_lindhard (x : 'I_nb -> C) idelta w : conserved x e -> ~~ (`|w + idelta| < tol C) ->
  no_response x (lindhard_chi00 fermi cosh eig e beta mu idelta w 0).
Proof.
move=> hx hw; have hz k i j : (eig (e k - mu%:M)).1 0 i != (eig (e k - mu%:M)).1 0 j \/
    total_factor fermi cosh beta idelta w ((eig (e k - mu%:M)).1 0 i) ((eig (e k - mu%:M)).1 0 j) = 0.
  by case: (altP (_ 0 i =P _)) => [->|]; [right; exact: factor_same | left].
have he0 k := conserved_elements k hx.
split=> [c d|a b].
  under eq_bigr do rewrite lindhardE mulrA; rewrite -mulr_suml.
  under eq_bigr do rewrite mulr_sumr; rewrite exchange_big /= big1 ?mul0r // => k _; rewrite addr0 /pair_sum.
  under eq_bigr do rewrite mulr_sumr; rewrite exchange_big /= big1 // => i _.
  under eq_bigr do rewrite mulr_sumr; rewrite exchange_big /= big1 // => j _.
  case: (hz k i j) => [hl|->]; last by rewrite big1 // => a _; rewrite !mulr0.
  move: (he0 k) hl; case: (eig _) => l U /= h hl; have := h i j hl.
  move/(congr1 (fun y => y * (dagger U i d * U c j * total_factor fermi cosh beta idelta w (l 0 i) (l 0 j)))); rewrite mul0r mulr_suml => hs; rewrite -[RHS]hs.
  apply: eq_bigr => a _; fring C.
under eq_bigr do rewrite lindhardE mulrAC; rewrite -mulr_suml.
under eq_bigr do rewrite mulr_suml; rewrite exchange_big /= big1 ?mul0r // => k _; rewrite addr0 /pair_sum.
under eq_bigr do rewrite mulr_suml; rewrite exchange_big /= big1 // => i _.
under eq_bigr do rewrite mulr_suml; rewrite exchange_big /= big1 // => j _.
case: (hz k i j) => [hl|->]; last by rewrite big1 // => c _; rewrite !(mulr0, mul0r).
move: (he0 k) hl; case: (eig _) => l U /= h hl; have := h j i; rewrite eq_sym => /(_ hl).
move/(congr1 (fun y => y * (U a i * dagger U j b * total_factor fermi cosh beta idelta w (l 0 i) (l 0 j)))); rewrite mul0r mulr_suml => hs; rewrite -[RHS]hs.
apply: eq_bigr => c _; fring C.
Qed.
Lemma charge_conserved : conserved (fun _ => 1) e. Proof. by move=> k a b; rewrite mul1r mulr1. Qed.
End Lindhard.

Section Rpa.
Variables (C : numClosedFieldType) (nb : nat).
Lemma rpa_response (x : 'I_nb -> C) (U X : tensor4 C nb) : no_response x X -> no_response x (rpa_point U X).
Proof.
move=> [h1 h2].
pose n : 'rV[C]_(nb * nb) := \row_i (x (pfst i) * (pfst i == psnd i)%:R).
have sumn (f : 'I_nb -> 'I_nb -> C) : \sum_a \sum_b x a * (a == b)%:R * f a b = \sum_a x a * f a a.
  by apply: eq_bigr => a _; rewrite (bigD1 a) //= eqxx mulr1 big1 ?addr0 // => b /negbTE hb; rewrite eq_sym hb mulr0 mul0r.
have hn Y : (forall c d, \sum_a x a * Y a a c d = 0) <-> n *m tmat Y = 0.
  have e c d : (n *m tmat Y) 0 (pidx c d) = \sum_a x a * Y a a c d.
    rewrite mxE sum_pidx -(sumn (fun a b => Y a b c d)); apply: eq_bigr => a _; apply: eq_bigr => b _.
    by rewrite tmatE mxE !pidxK1 !pidxK2.
  split=> [h|h c d]; last by rewrite -e h mxE.
  by apply/matrixP=> i j; rewrite (ord1 i) -(pidx_eta j) e h mxE.
have ht Y : (forall a b, \sum_c Y a b c c * x c = 0) <-> tmat Y *m n^T = 0.
  have e a b : (tmat Y *m n^T) (pidx a b) 0 = \sum_c Y a b c c * x c.
    under [RHS]eq_bigr do rewrite mulrC.
    rewrite mxE sum_pidx -(sumn (fun c d => Y a b c d)); apply: eq_bigr => c _; apply: eq_bigr => d _.
    by rewrite tmatE !mxE !pidxK1 !pidxK2 mulrC.
  split=> [h|h a b]; last by rewrite -e h mxE.
  by apply/matrixP=> i j; rewrite (ord1 j) -(pidx_eta i) e h mxE.
move/hn: h1 => h1; move/ht: h2 => h2.
split; [apply/hn | apply/ht]; rewrite tmat_rpa -?mulmxA ?h2 ?mulmx0 //.
have hd : n *m (1%:M - tmat X *m tmat U) = n by rewrite mulmxBr mulmx1 mulmxA h1 mul0mx subr0.
rewrite mulmxA; have [u|u] := boolP (1%:M - tmat X *m tmat U \in unitmx); last by rewrite /invmx (negbTE u) hd h1.
by rewrite -{1}hd mulmxK.
Qed.
(* C104: RPA with any interaction, even where it has no solution *)
Theorem C104_rpa (W K Id : eqType) nranks sched (chi0 : chi_wk C nb W K Id) (U : tensor4 C nb) (x : 'I_nb -> C) w k :
  fair_run nranks (wmesh chi0) (kmesh chi0) sched -> w \in wmesh chi0 -> k \in kmesh chi0 ->
  no_response x (chi_dat chi0 w k) -> no_response x (chi_dat (solve_rpa_PH nranks sched chi0 U) w k).
Proof.
move=> [h1 h2 h3 h4] hw hk /(rpa_response U) [g1 g2].
have e a b c d : chi_dat (solve_rpa_PH nranks sched chi0 U) w k a b c d = rpa_point U (chi_dat chi0 w k) a b c d by apply: (on_meshE _ h1 h2 h3 h4).
by split=> [c d|a b]; [rewrite -[RHS](g1 c d) | rewrite -[RHS](g2 a b)]; apply: eq_bigr => *; rewrite e.
Qed.
(* C104: charge in RPA on the Lindhard function *)
Theorem C104_charge (K : finZmodType) (Id : eqType) (fermi cosh : C -> C) (eig : 'M[C]_nb -> 'rV[C]_nb * 'M[C]_nb) (e : K -> 'M[C]_nb) beta mu idelta nranks sched ws (i : Id) (U : tensor4 C nb) w :
  eigensolver eig -> hermitian e -> mu \is Num.real ->
  let chi0 := ChiWK ws (enum K) i (lindhard_chi00 fermi cosh eig e beta mu idelta) in
  fair_run nranks ws (enum K) sched -> w \in ws -> ~~ (`|w + idelta| < tol C) ->
  (forall c d, \sum_a chi_dat (solve_rpa_PH nranks sched chi0 U) w 0 a a c d = 0) /\
  (forall a b, \sum_c chi_dat (solve_rpa_PH nranks sched chi0 U) w 0 a b c c = 0).
Proof.
move=> he hh hm chi0 hs hw ht; have h := C104_lindhard fermi cosh beta he hh hm (@charge_conserved _ _ _ e) ht.
have [|g1 g2] := C104_rpa (chi0 := chi0) (k := 0) U hs hw _ h; first by rewrite mem_enum.
split=> [c d|a b]; [rewrite -[RHS](g1 c d) | rewrite -[RHS](g2 a b)]; apply: eq_bigr => *; by rewrite ?mul1r ?mulr1.
Qed.
End Rpa.

(* the static response of the charge *)
Section Static.
Variables (C : numClosedFieldType) (nb : nat) (K : finZmodType) (fermi cosh ex : C -> C) (eig : 'M[C]_nb -> 'rV[C]_nb * 'M[C]_nb).
Add Ring Cring1 : (fld_rt C).
Add Field Cfield1 : (fld_ft (Num.ClosedField.fieldType C)).
(* fermi and cosh through the exponential function *)
Definition thermal : Prop := [/\ forall x y, ex (x + y) = ex x * ex y, forall x, x \is Num.real -> 0 < ex x, forall x, fermi x = (ex x + 1)^-1 & forall x, cosh x = (ex x + ex (- x)) / 2%:R].
(* C104: the static uniform charge response is the sum of beta f (1 - f) over all states, the derivative of the particle number with the chemical potential *)
Theorem C104_static (e : K -> 'M[C]_nb) beta mu idelta w : thermal -> eigensolver eig -> hermitian e -> mu \is Num.real -> beta \is Num.real -> `|w + idelta| < tol C ->
  \sum_a \sum_c lindhard_chi00 fermi cosh eig e beta mu idelta w 0 a a c c =
  (\sum_k \sum_i let f := fermi (beta * (eig (e k - mu%:M)).1 0 i) in beta * f * (1 - f)) / #|K|%:R.
Proof.
move=> [hex hpos hf hc] he hh hm hb hw.
under eq_bigr => a _ do (under eq_bigr => c _ do rewrite lindhardE; rewrite -mulr_suml).
rewrite -mulr_suml; congr (_ / _).
under eq_bigr => a _ do rewrite exchange_big /=.
rewrite exchange_big /=; apply: eq_bigr => k _; rewrite addr0.
have := he _ (hermitian_mu hh hm k); case: (eig _) => l U /= [hl u _].
have v := unitary_l u.
have vE i j : \sum_a dagger U j a * U a i = (j == i)%:R by move/matrixP/(_ j i): v; rewrite !mxE.
transitivity (\sum_i \sum_j (j == i)%:R * (i == j)%:R * total_factor fermi cosh beta idelta w (l 0 i) (l 0 j)).
  under eq_bigr => a _ do (under eq_bigr => c _ do rewrite /pair_sum; rewrite exchange_big /=).
  rewrite exchange_big /=; apply: eq_bigr => i _.
  under eq_bigr => a _ do rewrite exchange_big /=.
  rewrite exchange_big /=; apply: eq_bigr => j _; rewrite -!vE mulr_suml mulr_suml; apply: eq_bigr => a _.
  rewrite mulr_sumr mulr_suml; apply: eq_bigr => c _; fring C.
apply: eq_bigr => i _; rewrite (bigD1 i) //= eqxx !mul1r big1 ?addr0 => [|j /negbTE hj]; last by rewrite hj !mul0r.
rewrite /total_factor hw subrr normr0 /= /tol invr_gt0 exprn_gt0 ?ltr0n //.
have hr : 2%:R^-1 * beta * l 0 i \is Num.real by rewrite !realM // realV realn.
have -> : beta * l 0 i = 2%:R^-1 * beta * l 0 i + 2%:R^-1 * beta * l 0 i by rewrite -mulrA -mulrDl -[2%:R^-1]mul1r -splitr mul1r.
move: (2%:R^-1 * beta * l 0 i) hr => y hr.
have hp := hpos y hr; have hp0 := hpos 0 (real0 _).
have e0 : ex 0 = 1 by apply: (mulfI (lt0r_neq0 hp0)); rewrite -hex addr0 mulr1.
have en : ex (- y) = (ex y)^-1 by apply: (mulfI (lt0r_neq0 hp)); rewrite -hex subrr e0 divff ?lt0r_neq0.
rewrite hc hf hex en; have hq : 0 < ex y * ex y + 1 by rewrite addr_gt0 ?mulr_gt0 ?ltr01.
move: (lt0r_neq0 hp) (lt0r_neq0 hq); move: (ex y) => p /eqP np /eqP nq.
have n2 : (2%:R : C) <> 0 by apply/eqP; rewrite pnatr_eq0.
have -> : (4%:R : C) = 2%:R * 2%:R by rewrite -natrM.
move: (2%:R) n2 => t nt; ffield C; split=> //; split=> //.
Qed.
End Static.

(* an eigenvalue routine as assumed in C50, C74, C82, C92 and here exists for every number of orbitals *)
Theorem C50_eigensolver_exists (C : numClosedFieldType) nb : exists eig : 'M[C]_nb -> 'rV[C]_nb * 'M[C]_nb, eigensolver eig.
Proof.
pose good (m : 'M[C]_nb) (p : 'rV[C]_nb * 'M[C]_nb) := (dagger m == m) ==> [&& [forall i, p.1 0 i \is Num.real], p.2 *m dagger p.2 == 1%:M & m == p.2 *m diag_mx p.1 *m dagger p.2].
have h m : exists p, good m p.
  have [hm|hm] := boolP (dagger m == m); last by exists (0, 0); rewrite /good (negbTE hm).
  have [l [U [h1 h2 h3]]] := spectral (eqP hm); exists (l, U); rewrite /good hm /=; apply/and3P; split; [exact/forallP | exact/eqP | exact/eqP].
exists (fun m => xchoose (h m)) => m hm; have := xchooseP (h m); rewrite /good {1}hm eqxx /= => /and3P[/forallP h1 /eqP h2 /eqP h3].
by split.
Qed.

(* two orbitals: the difference of the occupations is conserved if the dispersion is diagonal, and is not if it is not *)
Section Case.
Variables (C : numClosedFieldType).
Definition updown (a : 'I_2) : C := if a == 0 then 1 else - 1.
Theorem C104_case (K : finZmodType) (f : K -> C) : [/\ conserved updown (fun k => diag_mx (\row_(a < 2) (if a == 0 then f k else - f k))),
  ~ conserved updown (fun k : K => delta_mx 0 1 + delta_mx 1 0), ~~ (`|'i + 0| < tol C) &
  thermal (fun _ => 2%:R^-1) (fun _ => 1) (fun _ => 1 : C)].
Proof.
split.
- by move=> k a b; rewrite !mxE; case: (a =P b) => [->|_]; [rewrite mulrC | rewrite !mulr0n mulr0 mul0r].
- move/(_ 0 0 1); rewrite !mxE /updown /= addr0 mulr1 mul1r => /eqP; rewrite -subr_eq0 opprK -[1 + 1]/(2%:R) pnatr_eq0 //.
- by rewrite addr0 normCi; apply/negP => h; have := lt_trans h (tol_lt1 C); rewrite ltxx.
- by split=> *; rewrite ?mulr1 ?ltr01 // -[1 + 1]/(2%:R) divff ?pnatr_eq0.
Qed.
End Case.
Print Assumptions C104_lindhard.
Print Assumptions C104_rpa.
Print Assumptions C104_charge.
Print Assumptions C104_static.
Print Assumptions C50_eigensolver_exists.
Print Assumptions C104_case.
