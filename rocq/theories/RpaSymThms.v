(* C106: RPA susceptibilities do not depend on the orbital basis and keep the exchange and conjugation symmetries of the bare susceptibility. *)
From mathcomp Require Import all_ssreflect all_algebra.
From Verif Require Import Base MatAlg Fring Spectral LindhardModel LindhardThms MpiModel MpiSpec RpaModel RpaSpec RpaProofs RpaThms.
Set Implicit Arguments.
Unset Strict Implicit.
Unset Printing Implicit Defensive.
Import Order.TTheory GRing.Theory Num.Theory.
Local Open Scope ring_scope.

Section Spec.
Variables (C : numClosedFieldType) (nb : nat).
Local Notation t4 := (tensor4 C nb).
(* the tensor <c^+_a c_b c^+_c c_d> in the basis whose operators are combinations with the matrix V *)
Definition rotate (V : 'M[C]_nb) (X : t4) : t4 := fun a b c d =>
  \sum_a' \sum_b' \sum_c' \sum_d' V a a' * (V b b')^* * V c c' * (V d d')^* * X a' b' c' d'.
Definition unitary (V : 'M[C]_nb) : Prop := forall a b, \sum_c V a c * (V b c)^* = (a == b)%:R.
Definition conj_matrix (V : 'M[C]_nb) : 'M[C]_nb := \matrix_(a, b) (V a b)^*.
(* exchange of the two particles, and complex conjugation *)
Definition exchanged (X Y : t4) : Prop := forall a b c d, X a b c d = Y c d a b.
Definition conjugated (X Y : t4) : Prop := forall a b c d, (X a b c d)^* = Y d c b a.
End Spec.

Section Point.
Variables (C : numClosedFieldType) (nb : nat).
Add Ring Cring : (fld_rt C).
Local Notation t4 := (tensor4 C nb).
Definition Pmx (V : 'M[C]_nb) : 'M[C]_(nb * nb) := tmat (fun a b a' b' => V a a' * (V b b')^*).
Lemma exch4 (I J : finType) (F : I -> I -> J -> J -> C) : \sum_a \sum_b \sum_c \sum_d F a b c d = \sum_c \sum_d \sum_a \sum_b F a b c d.
Proof.
rewrite pair_bigA [RHS]pair_bigA /=; under eq_bigr do rewrite pair_bigA; rewrite exchange_big /=.
by apply: eq_bigr => -[c d] _ /=; rewrite [RHS]pair_bigA.
Qed.
Lemma tmat_rotate V (X : t4) : tmat (rotate V X) = Pmx V *m tmat X *m (Pmx V)^T.
Proof.
apply/matrixP=> i j; rewrite -(pidx_eta i) -(pidx_eta j) tmatE [RHS]mxE sum_pidx /rotate exch4.
move: (pfst i) (psnd i) (pfst j) (psnd j) => a b c d.
apply: eq_bigr => c' _; apply: eq_bigr => d' _; rewrite [(_ *m _) _ _]mxE [_^T _ _]mxE sum_pidx mulr_suml; apply: eq_bigr => a' _.
rewrite mulr_suml; apply: eq_bigr => b' _; rewrite !tmatE; fring C.
Qed.
Lemma Punit V : unitary V -> Pmx V *m hc (Pmx V) = 1%:M.
Proof.
move=> hV; apply/matrixP=> i j; rewrite -(pidx_eta i) -(pidx_eta j) [LHS]mxE sum_pidx [RHS]mxE pidx_eq.
move: (pfst i) (psnd i) (pfst j) (psnd j) => a b c d.
under eq_bigr => a' _ do under eq_bigr => b' _ do rewrite [hc _ _ _]mxE !tmatE rmorphM /= conjCK.
transitivity ((\sum_a' V a a' * (V c a')^*) * (\sum_b' V b b' * (V d b')^*)^*).
  rewrite rmorph_sum mulr_suml; apply: eq_bigr => a' _; rewrite mulr_sumr; apply: eq_bigr => b' _.
  rewrite rmorphM /= conjCK; fring C.
by rewrite !hV rmorph_nat -natrM mulnb.
Qed.
Lemma Pconj V : Pmx (conj_matrix V) = (hc (Pmx V))^T.
Proof.
by apply/matrixP=> i j; rewrite -(pidx_eta i) -(pidx_eta j) tmatE !mxE !pidxK1 !pidxK2 rmorphM.
Qed.
Lemma inv_conj n (P Q M : 'M[C]_n) : P *m Q = 1%:M -> invmx (P *m M *m Q) = P *m invmx M *m Q.
Proof.
move=> h; have h' := mulmx1C h; have [u|u] := boolP (M \in unitmx).
  by apply: invmx_uniq; rewrite !mulmxA -(mulmxA _ Q P) h' mulmx1 -(mulmxA P) ?mulVmx ?mulmxV // mulmx1 h.
have u' : P *m M *m Q \notin unitmx.
  apply: contra u => u; have [uP uQ] : P \in unitmx /\ Q \in unitmx by split; [case/mulmx1_unit: h | case/mulmx1_unit: h].
  by move: u; rewrite unitmx_mul unitmx_mul uP uQ /= andbT.
by rewrite /invmx (negbTE u) (negbTE u').
Qed.
Lemma rpa_rotate V (U X : t4) : unitary V -> eq_t4 (rpa_point (rotate (conj_matrix V) U) (rotate V X)) (rotate V (rpa_point U X)).
Proof.
move=> hV; apply/eq_tmat; rewrite tmat_rpa !tmat_rotate tmat_rpa Pconj trmxK.
have h := Punit hV; have h' := mulmx1C h.
have ht : (Pmx V)^T *m (hc (Pmx V))^T = 1%:M by rewrite -trmx_mul h' trmx1.
have -> : 1%:M - Pmx V *m tmat X *m (Pmx V)^T *m ((hc (Pmx V))^T *m tmat U *m hc (Pmx V)) = Pmx V *m (1%:M - tmat X *m tmat U) *m hc (Pmx V).
  rewrite mulmxBr mulmx1 mulmxBl h; congr (_ - _).
  by rewrite !mulmxA -(mulmxA _ (Pmx V)^T) ht mulmx1.
by rewrite (inv_conj _ h) !mulmxA -(mulmxA _ (hc (Pmx V))) h' mulmx1.
Qed.
Lemma push_total n (A B : 'M[C]_n) : invmx (1%:M - A *m B) *m A = A *m invmx (1%:M - B *m A).
Proof.
have [u|u] := boolP (1%:M - A *m B \in unitmx); first exact: push_through.
have u' : 1%:M - B *m A \notin unitmx by apply: contra u => u; apply: swap_unit.
by rewrite /invmx (negbTE u) (negbTE u') mulmxBl mulmxBr mul1mx mulmx1 mulmxA.
Qed.
Lemma rpa_tr n (X U : 'M[C]_n) : invmx (1%:M - X^T *m U^T) *m X^T = (invmx (1%:M - X *m U) *m X)^T.
Proof. by rewrite push_total trmx_mul trmx_inv raddfB /= trmx1 trmx_mul. Qed.
Lemma exchangedE (X Y : t4) : exchanged X Y <-> tmat Y = (tmat X)^T.
Proof.
split=> [h|/matrixP h a b c d].
  by apply/matrixP=> i j; rewrite -(pidx_eta i) -(pidx_eta j) [RHS]mxE !tmatE h.
by have := h (pidx c d) (pidx a b); rewrite [RHS]mxE !tmatE => ->.
Qed.
Lemma rpa_exchange (U U' X Y : t4) : exchanged U U' -> exchanged X Y -> exchanged (rpa_point U X) (rpa_point U' Y).
Proof. by move=> /exchangedE hU /exchangedE hX; apply/exchangedE; rewrite !tmat_rpa hU hX rpa_tr. Qed.
Lemma conjugatedE (X Y : t4) : conjugated X Y <-> tmat Y = Smx C nb *m hc (tmat X) *m Smx C nb.
Proof.
have e : hc (tmat X) = tmat (fun a b c d => (X c d a b)^*).
  by apply/matrixP=> i j; rewrite -(pidx_eta i) -(pidx_eta j) [LHS]mxE !tmatE.
rewrite e Smx_conj; split=> [h|/eq_tmat h a b c d].
  by apply/eq_tmat=> a b c d; rewrite /swap_pairs -h.
by rewrite h.
Qed.
Lemma hc_inv n (A : 'M[C]_n) : hc (invmx A) = invmx (hc A).
Proof.
have e (B : 'M[C]_n) : hc B = map_mx conjC B^T by apply/matrixP=> i j; rewrite !mxE.
by rewrite !e trmx_inv map_invmx.
Qed.
Lemma rpa_conj (U U' X Y : t4) : conjugated U U' -> conjugated X Y -> conjugated (rpa_point U X) (rpa_point U' Y).
Proof.
move=> /conjugatedE hU /conjugatedE hX; apply/conjugatedE; rewrite !tmat_rpa hU hX.
set S := Smx C nb; have SS : S *m S = 1%:M := SmxK C nb.
have -> : 1%:M - S *m hc (tmat X) *m S *m (S *m hc (tmat U) *m S) = S *m (1%:M - hc (tmat X) *m hc (tmat U)) *m S.
  by rewrite mulmxBr mulmx1 mulmxBl SS !mulmxA -(mulmxA _ S S) SS mulmx1.
rewrite (inv_conj _ SS) !mulmxA -(mulmxA _ S S) SS mulmx1; congr (_ *m _); rewrite -!mulmxA; congr (_ *m _).
by rewrite push_total hcM hc_inv hcB hc1 hcM.
Qed.
End Point.

Section OnMesh.
Variables (C : numClosedFieldType) (nb : nat) (W K Id : eqType).
Local Notation t4 := (tensor4 C nb).
Lemma solveE nranks sched (chi0 : chi_wk C nb W K Id) U w k : fair_run nranks (wmesh chi0) (kmesh chi0) sched -> w \in wmesh chi0 -> k \in kmesh chi0 ->
  eq_t4 (chi_dat (solve_rpa_PH nranks sched chi0 U) w k) (rpa_point U (chi_dat chi0 w k)).
Proof. by move=> [h1 h2 h3 h4] hw hk a b c d; apply: (on_meshE _ h1 h2 h3 h4). Qed.
Lemma rpa_point_eq (U U' X X' : t4) : eq_t4 U U' -> eq_t4 X X' -> eq_t4 (rpa_point U X) (rpa_point U' X').
Proof. by move=> /eq_tmat hU /eq_tmat hX; apply/eq_tmat; rewrite !tmat_rpa hU hX. Qed.
(* C106: RPA with the bare susceptibility and the interaction in another basis gives the susceptibility in that basis *)
Theorem C106_rpa_basis (V : 'M[C]_nb) nranks sched nranks' sched' (chi0 chi0' : chi_wk C nb W K Id) (U U' : t4) w k :
  unitary V -> fair_run nranks (wmesh chi0) (kmesh chi0) sched -> fair_run nranks' (wmesh chi0') (kmesh chi0') sched' ->
  w \in wmesh chi0 -> k \in kmesh chi0 -> w \in wmesh chi0' -> k \in kmesh chi0' ->
  eq_t4 (chi_dat chi0' w k) (rotate V (chi_dat chi0 w k)) -> eq_t4 U' (rotate (conj_matrix V) U) ->
  eq_t4 (chi_dat (solve_rpa_PH nranks' sched' chi0' U') w k) (rotate V (chi_dat (solve_rpa_PH nranks sched chi0 U) w k)).
Proof.
move=> hV f f' hw hk hw' hk' hX hU a b c d; rewrite (solveE _ f' hw' hk') (rpa_point_eq hU hX) (rpa_rotate _ _ hV).
by rewrite /rotate; do 4 (apply: eq_bigr => ? _); rewrite (solveE _ f hw hk).
Qed.
(* C106: exchange of the particles relates the two points *)
Theorem C106_rpa_exchange nranks sched (chi0 : chi_wk C nb W K Id) (U : t4) w k w' k' :
  fair_run nranks (wmesh chi0) (kmesh chi0) sched -> w \in wmesh chi0 -> k \in kmesh chi0 -> w' \in wmesh chi0 -> k' \in kmesh chi0 ->
  exchanged U U -> exchanged (chi_dat chi0 w k) (chi_dat chi0 w' k') ->
  exchanged (chi_dat (solve_rpa_PH nranks sched chi0 U) w k) (chi_dat (solve_rpa_PH nranks sched chi0 U) w' k').
Proof.
move=> f hw hk hw' hk' hU hX a b c d; rewrite (solveE _ f hw hk) (solveE _ f hw' hk').
exact: rpa_exchange.
Qed.
(* C106: complex conjugation relates the two points *)
Theorem C106_rpa_conj nranks sched (chi0 : chi_wk C nb W K Id) (U : t4) w k w' k' :
  fair_run nranks (wmesh chi0) (kmesh chi0) sched -> w \in wmesh chi0 -> k \in kmesh chi0 -> w' \in wmesh chi0 -> k' \in kmesh chi0 ->
  conjugated U U -> conjugated (chi_dat chi0 w k) (chi_dat chi0 w' k') ->
  conjugated (chi_dat (solve_rpa_PH nranks sched chi0 U) w k) (chi_dat (solve_rpa_PH nranks sched chi0 U) w' k').
Proof.
move=> f hw hk hw' hk' hU hX a b c d; rewrite (solveE _ f hw hk) (solveE _ f hw' hk').
exact: rpa_conj.
Qed.
End OnMesh.

Section Lindhard.
Variables (C : numClosedFieldType) (nb : nat) (K : finZmodType) (fermi cosh : C -> C).
Add Ring Cring2 : (fld_rt C).
Local Notation M := 'M[C]_nb.
Lemma dagger_hc (A : M) : dagger A = hc A. Proof. by []. Qed.
Lemma unitaryE (V : M) : unitary V <-> V *m dagger V = 1%:M.
Proof.
split=> [h|/matrixP h a b]; first by apply/matrixP=> a b; rewrite mxE [RHS]mxE -h; apply: eq_bigr => c _; rewrite mxE.
by have := h a b; rewrite mxE [RHS]mxE => <-; apply: eq_bigr => c _; rewrite mxE.
Qed.
Lemma pair_rotate phi (V : M) l (U : M) l' (U' : M) a b c d :
  pair_sum phi l (V *m U) l' (V *m U') a b c d = rotate V (pair_sum phi l U l' U') a b c d.
Proof.
have e (A : M) x y : (V *m A) x y = \sum_z V x z * A z y by rewrite mxE.
have e' (A : M) x y : dagger (V *m A) x y = \sum_z (V y z)^* * dagger A x z by rewrite mxE e rmorph_sum; apply: eq_bigr => z _; rewrite rmorphM [dagger _ _ _]mxE.
rewrite /rotate /pair_sum.
under [RHS]eq_bigr => a' _ do (under eq_bigr => b' _ do (under eq_bigr => c' _ do (under eq_bigr => d' _ do rewrite mulr_sumr; rewrite exchange_big /=); rewrite exchange_big /=); rewrite exchange_big /=).
rewrite [RHS]exchange_big /=; apply: eq_bigr => i _.
under [RHS]eq_bigr => a' _ do (under eq_bigr => b' _ do (under eq_bigr => c' _ do (under eq_bigr => d' _ do rewrite mulr_sumr; rewrite exchange_big /=); rewrite exchange_big /=); rewrite exchange_big /=).
rewrite [RHS]exchange_big /=; apply: eq_bigr => j _.
rewrite !e !e' !mulr_suml; apply: eq_bigr => a' _.
have -> (x y z t u : C) : x * y * z * t * u = t * (z * (y * (x * u))) by fring C.
rewrite mulr_suml; apply: eq_bigr => b' _; rewrite mulr_suml mulr_sumr; apply: eq_bigr => c' _; rewrite mulr_suml !mulr_sumr; apply: eq_bigr => d' _.
fring C.
Qed.
Lemma rotate_sum (V : M) (F : K -> tensor4 C nb) x a b c d :
  rotate V (fun a b c d => (\sum_k F k a b c d) / x) a b c d = (\sum_k rotate V (F k) a b c d) / x.
Proof.
rewrite /rotate mulr_suml.
under [RHS]eq_bigr => k _ do (rewrite mulr_suml; under eq_bigr => a' _ do (rewrite mulr_suml; under eq_bigr => b' _ do (rewrite mulr_suml; under eq_bigr => c' _ do rewrite mulr_suml))).
rewrite [RHS]exchange_big /=; apply: eq_bigr => a' _; rewrite [RHS]exchange_big /=; apply: eq_bigr => b' _.
rewrite [RHS]exchange_big /=; apply: eq_bigr => c' _; rewrite [RHS]exchange_big /=; apply: eq_bigr => d' _.
by rewrite mulrA mulr_sumr mulr_suml.
Qed.
Variables (e e' : K -> M) (beta mu : C) (eig eig' : M -> 'rV[C]_nb * M).
Hypotheses (he : eigensolver eig) (he' : eigensolver eig') (hh : hermitian e) (hm : mu \is Num.real).
(* C106: the Lindhard function of the Hamiltonian in another basis *)
Theorem C106_lindhard_basis (V : M) idelta w q : unitary V -> (forall k, e' k = V *m e k *m dagger V) ->
  eq_t4 (lindhard_chi00 fermi cosh eig' e' beta mu idelta w q) (rotate V (lindhard_chi00 fermi cosh eig e beta mu idelta w q)).
Proof.
move=> /unitaryE hV ee a b c d.
have hh' : hermitian e' by move=> k; rewrite ee !daggerM daggerK hh mulmxA.
have em k : e' k - mu%:M = V *m (e k - mu%:M) *m dagger V by rewrite ee mulmxBr mulmxBl mul_mx_scalar -scalemxAl hV -scalemx1.
have dc k : decomposes (e' k - mu%:M) (eig (e k - mu%:M)).1 (V *m (eig (e k - mu%:M)).2).
  have [h1 h2 h3] := he (hermitian_mu hh hm k); split=> //; first by rewrite daggerM !mulmxA -(mulmxA V) h2 mulmx1.
  by rewrite em {1}h3 daggerM !mulmxA.
rewrite lindhardE.
transitivity (rotate V (fun a b c d => (\sum_k pair_sum (total_factor fermi cosh beta idelta w) (eig (e k - mu%:M)).1 (eig (e k - mu%:M)).2
     (eig (e (k + q) - mu%:M)).1 (eig (e (k + q) - mu%:M)).2 a b c d) / #|K|%:R) a b c d); last first.
  by rewrite /rotate; do 4 (apply: eq_bigr => ? _); rewrite lindhardE.
rewrite rotate_sum; congr (_ / _); apply: eq_bigr => k _; rewrite -pair_rotate.
have [d1 d2] := (he' (hermitian_mu hh' hm k), he' (hermitian_mu hh' hm (k + q))).
exact: pair_gauge d1 (dc k) d2 (dc (k + q)).
Qed.
(* C106: RPA on the Lindhard function, for a Hamiltonian and an interaction in another basis *)
Theorem C106_basis (Id : eqType) (V : M) idelta nranks sched nranks' sched' ws (i : Id) (U U' : tensor4 C nb) w q :
  let chi0 := ChiWK ws (enum K) i (lindhard_chi00 fermi cosh eig e beta mu idelta) in
  let chi0' := ChiWK ws (enum K) i (lindhard_chi00 fermi cosh eig' e' beta mu idelta) in
  fair_run nranks ws (enum K) sched -> fair_run nranks' ws (enum K) sched' -> w \in ws ->
  unitary V -> (forall k, e' k = V *m e k *m dagger V) -> eq_t4 U' (rotate (conj_matrix V) U) ->
  eq_t4 (chi_dat (solve_rpa_PH nranks' sched' chi0' U') w q) (rotate V (chi_dat (solve_rpa_PH nranks sched chi0 U) w q)).
Proof.
move=> chi0 chi0' f f' hw hV ee hU; apply: C106_rpa_basis => //; rewrite ?mem_enum //.
exact: C106_lindhard_basis.
Qed.
(* C106: RPA on the Lindhard function on Matsubara frequencies *)
Theorem C106_symmetric (Id : eqType) nranks sched ws (i : Id) (U : tensor4 C nb) w q :
  let chi0 := ChiWK ws (enum K) i (lindhard_chi00 fermi cosh eig e beta mu 0) in
  fair_run nranks ws (enum K) sched -> w \in ws -> - w \in ws -> w^* = - w -> beta \is Num.real -> real_function fermi -> real_function cosh -> separated eig e mu ->
  exchanged U U -> conjugated U U ->
  exchanged (chi_dat (solve_rpa_PH nranks sched chi0 U) w q) (chi_dat (solve_rpa_PH nranks sched chi0 U) (- w) (- q)) /\
  conjugated (chi_dat (solve_rpa_PH nranks sched chi0 U) w q) (chi_dat (solve_rpa_PH nranks sched chi0 U) (- w) q).
Proof.
move=> chi0 f hw hw' cw hb hf hc hs hU hU'; split.
  by apply: C106_rpa_exchange => //; rewrite ?mem_enum // => a b c d; exact: C50_exchange.
apply: C106_rpa_conj => //; rewrite ?mem_enum // => a b c d /=.
by rewrite (C50_conj 0 w q a b c d he hh hm hb hf hc) conjC0 cw.
Qed.
End Lindhard.

(* a case: the exchange of two orbitals moves the interaction of orbital 0 to orbital 1 *)
Section Case.
Variable C : numClosedFieldType.
Definition case_V : 'M[C]_2 := \matrix_(a, b) (a != b)%:R.
Definition case_U (i : 'I_2) : tensor4 C 2 := fun a b c d => [&& a == i, b == i, c == i & d == i]%:R.
Lemma sum2 (F : 'I_2 -> C) : \sum_i F i = F 0 + F 1.
Proof. by rewrite big_ord_recl big_ord1; congr (_ + F _); apply: val_inj. Qed.
Theorem C106_case : [/\ unitary case_V, eq_t4 (case_U 1) (rotate (conj_matrix case_V) (case_U 0)), exchanged (case_U 0) (case_U 0), conjugated (case_U 0) (case_U 0) & ~ eq_t4 (case_U 0) (case_U 1)].
Proof.
split.
- move=> a b; rewrite sum2 !mxE; case: a => [[|[|a]] ha] //; case: b => [[|[|b]] hb] //=; by rewrite ?mul0r ?mul1r ?add0r ?addr0 ?conjC0 ?conjC1.
- move=> a b c d; rewrite /rotate !sum2 /case_U /= !mulr0 !addr0 !mulr1 !mxE /=.
  by case: a => [[|[|a]] ha] //; case: b => [[|[|b]] hb] //; case: c => [[|[|c]] hc] //; case: d => [[|[|d]] hd] //=; rewrite ?conjC0 ?conjC1 ?mulr0 ?mul0r ?mulr1.
- by move=> a b c d; congr (_%:R); rewrite /case_U; do 4 case: eqP => _.
- by move=> a b c d; rewrite /case_U rmorph_nat; congr (_%:R); do 4 case: eqP => _.
by move=> /(_ 0 0 0 0) /eqP; rewrite /case_U /= oner_eq0.
Qed.
End Case.
Print Assumptions C106_rpa_basis.
Print Assumptions C106_rpa_exchange.
Print Assumptions C106_rpa_conj.
Print Assumptions C106_lindhard_basis.
Print Assumptions C106_basis.
Print Assumptions C106_symmetric.
Print Assumptions C106_case.
