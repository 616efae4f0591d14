(* C117: Bethe-Salpeter and RPA calculations of orbitals that do not couple to others, and of lattices that fall apart into independent sublattices, equal those of the part. *)
From mathcomp Require Import all_ssreflect all_algebra.
From Verif Require Import Base MatAlg Fring MpiModel MpiProofs MpiSpec FourierModel FourierProofs BubbleModel BubbleSpec BubbleProofs ImtimeModel LinalgModel LinalgSpec LinalgProofs
  RpaModel RpaSpec RpaProofs RpaThms RpaSymThms BseModel BseSpec BseProofs GwSpec GwProofs GwFullProofs GwRel BseSymThms UnitsGwThms DecoupleThms SublatticeProofs.
Set Implicit Arguments.
Unset Strict Implicit.
Unset Printing Implicit Defensive.
Import GRing.Theory Num.Theory Order.Theory.
Local Open Scope ring_scope.

(* ---- subsets of orbitals ---- *)
Section Point.
Variables (C : fieldType) (nn m nb : nat) (f : 'I_m -> 'I_nb).
Hypothesis fI : injective f.
Local Notation inn := (inside f).
Local Notation g2 := (g2nn C nn nb).
Local Notation g1 := (g2n C nn nb).
Local Notation cm := (@chmat C nn nb PH).
Local Notation cm' := (@chmat C nn m PH).
Definition lift (i : 'I_(nn * m * m)) : 'I_(nn * nb * nb) := tidx (tnu i) (f (tx i)) (f (ty i)).
Lemma lift_inj : injective lift.
Proof.
move=> i j /eqP; rewrite /lift tidx_eq !(inj_eq fI) => /andP [/eqP e1 /andP [/eqP e2 /eqP e3]].
by rewrite -[i]tidx_eta -[j]tidx_eta e1 e2 e3.
Qed.
Lemma inside_lift n a b : inside lift (tidx n a b) = inn a && inn b.
Proof.
apply/codomP/andP => [[i /eqP]|[/codomP [x ->] /codomP [y ->]]]; last by exists (tidx n x y); rewrite /lift !tidxE.
by rewrite /lift tidx_eq => /andP [_ /andP [/eqP -> /eqP ->]]; split; exact: insideE.
Qed.
(* no element between a pair of orbitals of the subset and a pair with an orbital outside *)
Definition tensor_apart (T : tensor4 C nb) : Prop := forall a b c d, (inn a && inn b) != (inn c && inn d) -> T a b c d = 0.
Definition vertex_apart (G : g2) : Prop := forall n n', tensor_apart (G n n').
Definition vsub (G : g2) : g2nn C nn m := fun n n' => tsub f (G n n').
Definition xsub (x : g1) : g2n C nn m := fun n => tsub f (x n).
Lemma vertex_mat G : vertex_apart G -> apart (inside lift) (cm G).
Proof.
move=> h i j; rewrite -[i]tidx_eta -[j]tidx_eta !inside_lift => e.
have -> : cm G (tidx (tnu i) (tx i) (ty i)) (tidx (tnu j) (tx j) (ty j)) = G (tnu i) (tnu j) (tx i) (ty i) (ty j) (tx j) by rewrite -(chmatE PH).
by apply: h; rewrite [X in _ != X]andbC.
Qed.
Lemma mat_vertex G : apart (inside lift) (cm G) -> vertex_apart G.
Proof. by move=> h n n' a b c d e; rewrite -(chmatE PH) h // !inside_lift [X in _ != X]andbC. Qed.
Lemma cm_vsub G : cm' (vsub G) = sub lift (cm G).
Proof.
apply/matrixP=> i j; rewrite -[i]tidx_eta -[j]tidx_eta [RHS]mxE.
transitivity (vsub G (tnu i) (tnu j) (tx i) (ty i) (ty j) (tx j)); first by rewrite -(chmatE PH).
by rewrite /vsub /tsub -(chmatE PH G) /lift !tidxE.
Qed.
Lemma on_diag_apart (x : g1) : (forall n, tensor_apart (x n)) -> vertex_apart (on_diag x).
Proof. by move=> h n n' a b c d e; rewrite /on_diag; case: eqP => // _; exact: h. Qed.
Lemma on_diag_sub (x : g1) : eq_g2 (on_diag (xsub x)) (vsub (on_diag x)).
Proof. by move=> n n' a b c d; rewrite /vsub /tsub /on_diag; case: eqP. Qed.
Lemma bse_apart (x : g1) (G : g2) : (forall n, tensor_apart (x n)) -> vertex_apart G -> vertex_apart (bse_point x G).
Proof.
move=> /on_diag_apart /vertex_mat hx /vertex_mat hG; apply: mat_vertex; rewrite (@bse_point_mat _ nn nb x G); apply: apart_mul => //; apply: apart_inv; apply: apart_add; first exact: apart_scalar.
by apply: apart_opp; exact: apart_mul.
Qed.
Lemma bse_sub (x : g1) (G : g2) : (forall n, tensor_apart (x n)) -> vertex_apart G -> nonsingular_PH (on_diag x) G ->
  eq_g2 (bse_point (xsub x) (vsub G)) (vsub (bse_point x G)).
Proof.
move=> hx hG /nonsingular_PHP u; have mx := vertex_mat (on_diag_apart hx); have mG := vertex_mat hG.
apply/(chmat_inj PH); rewrite (@bse_point_mat _ nn m) [RHS]cm_vsub (@bse_point_mat _ nn nb).
have -> : cm' (on_diag (xsub x)) = sub lift (cm (on_diag x)) by rewrite -cm_vsub; apply/(chmat_inj PH); exact: on_diag_sub.
set X := 1%:M - _ in u *; have aX : apart (inside lift) X by apply: apart_add; [exact: apart_scalar | apply: apart_opp; exact: apart_mul].
rewrite (sub_mul lift_inj); last exact: apart_inv.
rewrite -(sub_inv lift_inj aX u); congr (invmx _ *m _).
by rewrite /X sub_add sub_opp (sub_scalar lift_inj) (sub_mul lift_inj) // cm_vsub.
Qed.
Lemma inverse_sub (G : g2) : vertex_apart G -> invertible_PH G -> eq_g2 (inverse PH (vsub G)) (vsub (inverse PH G)) /\ vertex_apart (inverse PH G).
Proof.
move=> /vertex_mat hG /invertibleP u; split; last by apply: mat_vertex; rewrite inverse_mat; exact: apart_inv.
by apply/(chmat_inj PH); rewrite inverse_mat !cm_vsub inverse_mat; apply: (sub_inv lift_inj).
Qed.
Lemma product_sub (G H : g2) : vertex_apart G -> eq_g2 (product PH (vsub G) (vsub H)) (vsub (product PH G H)).
Proof. by move=> /vertex_mat hG; apply/(chmat_inj PH); rewrite !product_mat !cm_vsub product_mat (sub_mul lift_inj). Qed.
Lemma sum_in (F : 'I_nb -> C) : (forall i, ~~ inn i -> F i = 0) -> \sum_i F i = \sum_i F (f i). Proof. exact: sum_inside. Qed.
Lemma scalar_sub (l r : g1) (X : g2) a b c d : (forall n, tensor_apart (l n)) -> (forall n, tensor_apart (r n)) ->
  scalar_product_PH (xsub l) (vsub X) (xsub r) a b c d = scalar_product_PH l X r (f a) (f b) (f c) (f d).
Proof.
move=> hl hr; rewrite !scalar_product_formula /spec_scalar; apply: eq_bigr => n _; symmetry.
rewrite sum_in; last first.
  by move=> e he; rewrite big1 // => g _; do 3 (rewrite big1 // => ? _); rewrite (hl n e g) ?mul0r // !insideE (negbTE he).
apply: eq_bigr => e _; rewrite sum_in; last first.
  by move=> g he; do 3 (rewrite big1 // => ? _); rewrite (hl n) ?mul0r // !insideE (negbTE he).
apply: eq_bigr => g _; apply: eq_bigr => n' _; rewrite sum_in; last first.
  by move=> h he; rewrite big1 // => ? _; rewrite (hr n') ?mulr0 // !insideE (negbTE he) andbF.
by apply: eq_bigr => h _; rewrite sum_in // => k he; rewrite (hr n') ?mulr0 // !insideE (negbTE he).
Qed.
Lemma pair_apart (x : C) (g h : 'M[C]_nb) : apart inn g -> apart inn h -> tensor_apart (fun a b c d => x * g d a * h b c).
Proof.
move=> hg hh a b c d e; have [ed|nd] := eqVneq (inn d) (inn a); last by rewrite hg // mulr0 mul0r.
have [eb|nb'] := eqVneq (inn b) (inn c); last by rewrite hh // mulr0.
by move: e; rewrite ed eb [inn c && _]andbC eqxx.
Qed.
End Point.

Section Rpa.
Variables (C : fieldType) (m nb : nat) (f : 'I_m -> 'I_nb) (W K Id : eqType).
Hypothesis fI : injective f.
Local Notation inn := (inside f).
Local Notation chi_wk := (chi_wk C nb W K Id).
Lemma tensor_mat (T : tensor4 C nb) : tensor_apart f T -> apart (inside (both f)) (tmat T).
Proof.
by move=> h i j; rewrite -[i]pidx_eta -[j]pidx_eta tmatE !inside_both; apply: h.
Qed.
Lemma rpa_sub (U X : tensor4 C nb) : tensor_apart f U -> tensor_apart f X -> 1%:M - tmat X *m tmat U \in unitmx ->
  eq_t4 (rpa_point (tsub f U) (tsub f X)) (tsub f (rpa_point U X)).
Proof.
move=> /tensor_mat hU /tensor_mat hX u; apply/eq_tmat; rewrite (tmat_sub f (rpa_point U X)) !tmat_rpa (tmat_sub f U) (tmat_sub f X).
set Y := 1%:M - _ in u *; have aY : apart (inside (both f)) Y by apply: apart_add; [exact: apart_scalar | apply: apart_opp; exact: apart_mul].
rewrite (sub_mul (both_inj fI)); last exact: apart_inv.
rewrite -(sub_inv (both_inj fI) aY u); congr (invmx _ *m _).
by rewrite /Y sub_add sub_opp (sub_scalar (both_inj fI)) (sub_mul (both_inj fI)).
Qed.
(* C117: the RPA susceptibility of orbitals that neither the bare susceptibility nor the interaction connects to the others *)
Theorem C117_rpa nranks sched nranks' sched' (chi0 : chi_wk) (U : tensor4 C nb) w k a b c d :
  fair_run nranks (wmesh chi0) (kmesh chi0) sched -> fair_run nranks' (wmesh chi0) (kmesh chi0) sched' -> w \in wmesh chi0 -> k \in kmesh chi0 ->
  tensor_apart f U -> tensor_apart f (chi_dat chi0 w k) -> 1%:M - tmat (chi_dat chi0 w k) *m tmat U \in unitmx ->
  let part := ChiWK (wmesh chi0) (kmesh chi0) (kmesh_id chi0) (fun w k => tsub f (chi_dat chi0 w k)) in
  chi_dat (solve_rpa_PH nranks' sched' part (tsub f U)) w k a b c d = chi_dat (solve_rpa_PH nranks sched chi0 U) w k (f a) (f b) (f c) (f d).
Proof.
move=> [h1 h2 h3 h4] [j1 j2 j3 j4] hw hk hU hX u part.
rewrite [RHS](on_meshE _ h1 h2 h3 h4) // [LHS](on_meshE _ j1 j2 j3 j4) //; exact: rpa_sub.
Qed.
End Rpa.

Section Bse.
Variables (C : numClosedFieldType) (n1 n2 n3 m nb nw nn L : nat) (z1 z2 z3 beta : C) (f : 'I_m -> 'I_nb).
Hypothesis fI : injective f.
Variables (wt1 : 'I_L.+1 -> bool -> (int -> C) -> C) (tw_plan tw_lib : ('I_L.+1 -> C) -> int -> C).
Local Notation K := (site n1 n2 n3).
Local Notation W := 'I_(2 * nw).-1.
Local Notation gfun := (gfun C n1 n2 n3 nb).
Local Notation wnn := (g2iw C (2 * nn) nb (2 * nw).-1).
Local Notation inn := (inside f).
Local Notation wt := (fun g t => entries (wt1 t) (n := nb) g).
Local Notation wt' := (fun g t => entries (wt1 t) (n := m) g).
Local Notation bse nr s g G := (solve_lattice_bse z1 z2 z3 beta wt tw_plan tw_lib nr s g G).
Local Notation bse' nr s g G := (solve_lattice_bse z1 z2 z3 beta wt' tw_plan tw_lib nr s g G).
Local Notation bub g w k := (fun (n : 'I_(2 * nn)) a b c d => fourier_r_to_k z1 z2 z3 (fun r => chi0r_kernel beta (fourier_wk_to_wr z1 z2 z3 g) (bidx w) (fidx n) r a b c d) k).
Definition gsub (g : gfun) : BubbleModel.gfun C n1 n2 n3 m := fun n k => sub f (g n k).
Lemma wr_sub (g : gfun) n r i j : fourier_wk_to_wr z1 z2 z3 (gsub g) n r i j = fourier_wk_to_wr z1 z2 z3 g n r (f i) (f j).
Proof. by rewrite !mxE; apply: k2r_ext => k; rewrite mxE. Qed.
Lemma r2k_0 (x : K -> C) k : (forall r, x r = 0) -> fourier_r_to_k z1 z2 z3 x k = 0.
Proof. by move=> h; rewrite /fourier_r_to_k big1 // => r _; rewrite h mulr0. Qed.
Lemma k2r_0 (x : K -> C) k : (forall r, x r = 0) -> fourier_k_to_r z1 z2 z3 x k = 0.
Proof. by move=> h; rewrite /fourier_k_to_r big1 ?mul0r // => r _; rewrite h mulr0. Qed.
Lemma wr_apart (g : gfun) n r : (forall n k, apart inn (g n k)) -> apart inn (fourier_wk_to_wr z1 z2 z3 g n r).
Proof. by move=> h i j e; rewrite mxE; apply: k2r_0 => k; exact: h. Qed.
Lemma bub_apart (g : gfun) (w : W) k n : (forall n k, apart inn (g n k)) -> tensor_apart f (bub g w k n).
Proof.
move=> h a b c d e; apply: r2k_0 => r; rewrite /chi0r_kernel.
by apply: (pair_apart (- beta) (wr_apart _ _ h) (wr_apart _ _ h)).
Qed.
(* C117: the lattice susceptibility of a subset of orbitals without hopping to the others and without vertex between their pairs and those of the others is
   the one of a calculation with this subset alone *)
Theorem C117_bse nranks sc nranks' sc' (g : gfun) (gamma : wnn) k w a b c d : ext_transform tw_plan -> (forall t b x y, x =1 y -> wt1 t b x = wt1 t b y) ->
  fair_sched nranks sc -> fair_sched nranks' sc' -> (forall n k, apart inn (g n k)) -> vertex_apart f (gamma w) ->
  nonsingular_PH (on_diag (bub g w k)) (gamma w) ->
  (bse' nranks' sc' (gsub g) (fun w => vsub f (gamma w))).1 k w a b c d = (bse nranks sc g gamma).1 k w (f a) (f b) (f c) (f d) /\
  (bse' nranks' sc' (gsub g) (fun w => vsub f (gamma w))).2 k w a b c d = (bse nranks sc g gamma).2 k w (f a) (f b) (f c) (f d).
Proof.
move=> pe we fs fs' hg hG ns.
have [-> ->] := @solve_lattice_bseE C n1 n2 n3 m z1 z2 z3 beta L wt' tw_plan tw_lib nranks' sc' nw nn (gsub g) (fun w => vsub f (gamma w)) k w a b c d fs'.
have [-> ->] := @solve_lattice_bseE C n1 n2 n3 nb z1 z2 z3 beta L wt tw_plan tw_lib nranks sc nw nn g gamma k w (f a) (f b) (f c) (f d) fs.
have hx n a' b' c' d' : bub (gsub g) w k n a' b' c' d' = xsub f (bub g w k) n a' b' c' d'.
  by apply: r2k_ext => r; rewrite /chi0r_kernel !wr_sub.
have hB : imtime_bubble_chi0_wk z1 z2 z3 beta wt' tw_plan tw_lib nranks' sc' (nw := nw) false (gsub g) w k a b c d =
    imtime_bubble_chi0_wk z1 z2 z3 beta wt tw_plan tw_lib nranks sc (nw := nw) false g w k (f a) (f b) (f c) (f d).
  have e (x y : 'I_L.+1 -> C) v : x =1 y -> (if nw == 1%N then trapz beta x else tw_plan x v) = (if nw == 1%N then trapz beta y else tw_plan y v).
    by move=> h; case: ifP => _; [exact: trapz_ext | exact: pe].
  rewrite (imbE z1 z2 z3 beta wt' tw_lib (gsub g) w k a b c d pe fs') (imbE z1 z2 z3 beta wt tw_lib g w k (f a) (f b) (f c) (f d) pe fs); apply: r2k_ext => r; apply: e => t; rewrite /chi0_tau !mxE !(inj_eq fI).
  by congr (_ * _); apply: we => n; rewrite wr_sub.
split=> //; congr (_ + (_ - _ / _)) => //; last by apply: eq_bigr => n _; exact: hx.
transitivity (freq_trace beta (vsub f (bse_point (bub g w k) (gamma w))) a b c d) => //; apply: freq_trace_ext => n n' a' b' c' d'.
rewrite -(bse_sub fI _ hG ns); last by move=> ?; exact: bub_apart.
by apply: bse_point_ext => // *; exact: hx.
Qed.
(* C117: the dual equation *)
Theorem C117_dual nranks sc nranks' sc' (g : gfun) (F : wnn) (Lv : int -> int -> tensor4 C nb) (chi_imp : int -> tensor4 C nb) k w a b c d :
  fair_sched nranks sc -> fair_sched nranks' sc' -> (forall n k, apart inn (g n k)) -> vertex_apart f (F w) -> (forall w n, tensor_apart f (Lv w n)) ->
  nonsingular_PH (on_diag (bub_nl z1 z2 z3 beta g w k)) (F w) ->
  solve_lattice_dbse z1 z2 z3 beta nranks' sc' (gsub g) (fun w => vsub f (F w)) (fun w n => tsub f (Lv w n)) (fun w => tsub f (chi_imp w)) k w a b c d =
  solve_lattice_dbse z1 z2 z3 beta nranks sc g F Lv chi_imp k w (f a) (f b) (f c) (f d).
Proof.
move=> fs fs' hg hF hL ns; rewrite !dualE //; congr (_ + _).
rewrite -(scalar_sub fI (l := fun n : 'I_(2 * nn) => Lv (bidx w) (fidx n)) (r := fun n : 'I_(2 * nn) => Lv (bidx w) (fidx n))) //.
rewrite !scalar_product_formula /spec_scalar; do 6 (apply: eq_bigr => ? _); congr (_ * _ * _).
rewrite -(bse_sub fI _ hF ns).
  apply: bse_point_ext => // n a' b' c' d'; apply: r2k_ext => r; rewrite /chi0r_kernel /nonlocal oppr_eq0.
  by case: eqP => _; rewrite ?wr_sub // !mxE.
move=> n a' b' c' d' e; apply: r2k_0 => r; rewrite /chi0r_kernel.
have h0 : apart inn (0 : 'M[C]_nb) by move=> i j _; rewrite mxE.
by apply: (pair_apart (- beta)) e; rewrite /nonlocal; case: eqP => _ //; exact: wr_apart.
Qed.
End Bse.

Section Vertex.
Variables (C : fieldType) (m nb nw nn : nat) (beta : C) (f : 'I_m -> 'I_nb).
Hypothesis fI : injective f.
Local Notation W := 'I_(2 * nw).-1.
Local Notation wnn := (g2iw C (2 * nn) nb (2 * nw).-1).
Local Notation inn := (inside f).
Local Notation chi0 g := (chi0_from_gg2_PH beta (nw := nw) (nn := nn) g).
(* C117: the impurity vertices of a subset of orbitals that the Green function does not connect to the others, and whose two-particle Green function with the
   others is the product of the one-particle ones *)
Theorem C117_vertex (g : int -> 'M[C]_nb) (g2 : wnn) (w : W) n n' a b c d : (forall n, apart inn (g n)) ->
  vertex_apart f (chi_from_gg2_PH beta g g2 w) -> invertible_PH (chi0 g w) ->
  (invertible_PH (chi_from_gg2_PH beta g g2 w) ->
    impurity_irreducible_vertex_Gamma beta (fun n => sub f (g n)) (fun w => vsub f (g2 w)) w n n' a b c d =
    impurity_irreducible_vertex_Gamma beta g g2 w n n' (f a) (f b) (f c) (f d)) /\
  impurity_reducible_vertex_F beta (fun n => sub f (g n)) (fun w => vsub f (g2 w)) w n n' a b c d =
  impurity_reducible_vertex_F beta g g2 w n n' (f a) (f b) (f c) (f d).
Proof.
move=> hg hX i0.
have h0 : vertex_apart f (chi0 g w).
  by move=> p p' x y u v e; rewrite /chi0_from_gg2_PH; apply: (pair_apart (- beta * (p == p')%:R)) e.
have e0 : eq_g2 (chi0 (fun n => sub f (g n)) w) (vsub f (chi0 g w)) by move=> p p' x y u v; rewrite /chi0_from_gg2_PH !mxE.
have e1 : eq_g2 (chi_from_gg2_PH beta (fun n => sub f (g n)) (fun w => vsub f (g2 w)) w) (vsub f (chi_from_gg2_PH beta g g2 w)).
  by move=> p p' x y u v; rewrite /chi_from_gg2_PH !mxE.
have inv_eq nb' (A B : g2nn C (2 * nn) nb') : eq_g2 A B -> eq_g2 (inverse PH A) (inverse PH B).
  by move/(chmat_inj PH) => e; apply/(chmat_inj PH); rewrite !inverse_mat e.
have prod_eq nb' (A B A' B' : g2nn C (2 * nn) nb') : eq_g2 A B -> eq_g2 A' B' -> eq_g2 (product PH A A') (product PH B B').
  by move=> /(chmat_inj PH) e /(chmat_inj PH) e'; apply/(chmat_inj PH); rewrite !product_mat e e'.
have [s0 a0] := inverse_sub fI h0 i0.
have t0 : eq_g2 (inverse PH (chi0 (fun n => sub f (g n)) w)) (vsub f (inverse PH (chi0 g w))) by move=> *; rewrite -s0; exact: inv_eq.
split=> [i1|].
  have [s1 _] := inverse_sub fI hX i1; rewrite /impurity_irreducible_vertex_Gamma /inverse_iw t0; congr (_ - _).
  by rewrite (inv_eq _ _ _ e1) s1.
set conn : g2nn C (2 * nn) nb := fun p p' x y u v => chi_from_gg2_PH beta g g2 w p p' x y u v - chi0 g w p p' x y u v.
have ac : vertex_apart f conn by move=> p p' x y u v e; rewrite /conn hX // h0 // subr0.
rewrite /impurity_reducible_vertex_F /product_iw /inverse_iw.
transitivity (product PH (vsub f (inverse PH (chi0 g w))) (product PH (vsub f conn) (vsub f (inverse PH (chi0 g w)))) n n' a b c d).
  by apply: (prod_eq) => //; apply: (prod_eq) => // p p' x y u v; rewrite e0 e1.
transitivity (product PH (vsub f (inverse PH (chi0 g w))) (vsub f (product PH conn (inverse PH (chi0 g w)))) n n' a b c d).
  by apply: (prod_eq) => //; exact: product_sub.
exact: product_sub.
Qed.
End Vertex.

(* ---- sublattices ---- *)
Section Lattice.
Variables (C : numClosedFieldType) (n1 n2 n3 m1 m2 m3 q1 q2 q3 nb nw nn L : nat) (z1 z2 z3 beta : C).
Hypothesis z1P : (n1.+1).-primitive_root z1.
Hypothesis z2P : (n2.+1).-primitive_root z2.
Hypothesis z3P : (n3.+1).-primitive_root z3.
Hypotheses (nq1 : n1.+1 = (q1 * m1.+1)%N) (nq2 : n2.+1 = (q2 * m2.+1)%N) (nq3 : n3.+1 = (q3 * m3.+1)%N).
Variables (wt : (int -> 'M[C]_nb) -> 'I_L.+1 -> 'M[C]_nb) (tw_plan tw_lib : ('I_L.+1 -> C) -> int -> C).
Local Notation K := (site n1 n2 n3).
Local Notation K' := (site m1 m2 m3).
Local Notation W := 'I_(2 * nw).-1.
Local Notation w1 := (z1 ^+ q1).
Local Notation w2 := (z2 ^+ q2).
Local Notation w3 := (z3 ^+ q3).
Local Notation gfun := (gfun C n1 n2 n3 nb).
Local Notation gfun' := (BubbleModel.gfun C m1 m2 m3 nb).
Local Notation wnn := (g2iw C (2 * nn) nb (2 * nw).-1).
Local Notation pi := (@fold n1 n2 n3 m1 m2 m3).
Local Notation emb := (@emb n1 n2 n3 m1 m2 m3 q1 q2 q3).
Local Notation on_sub := (@on_sub n1 n2 n3 q1 q2 q3).
Local Notation bub g w k := (fun (n : 'I_(2 * nn)) a b c d => fourier_r_to_k z1 z2 z3 (fun r => chi0r_kernel beta (fourier_wk_to_wr z1 z2 z3 g) (bidx w) (fidx n) r a b c d) k).
Local Notation bub' g w k := (fun (n : 'I_(2 * nn)) a b c d => fourier_r_to_k w1 w2 w3 (fun r => chi0r_kernel beta (fourier_wk_to_wr w1 w2 w3 g) (bidx w) (fidx n) r a b c d) k).
Section Per.
Variables (g : gfun) (g' : gfun').
Hypothesis hg : forall n k, g n k = g' n (pi k).
Lemma wr_per n r : fourier_wk_to_wr z1 z2 z3 g n (emb r) = fourier_wk_to_wr w1 w2 w3 g' n r.
Proof.
apply/matrixP=> i j; rewrite !mxE -(k2r_fold z1P z2P z3P nq1 nq2 nq3 (fun k => g' n k i j)).
by apply: k2r_ext => k; rewrite hg.
Qed.
Lemma wr_off n r : ~~ on_sub r -> fourier_wk_to_wr z1 z2 z3 g n r = 0.
Proof.
move=> hr; apply/matrixP=> i j; rewrite !mxE -[RHS](k2r_off z1P z2P z3P nq1 nq2 nq3 (fun k => g' n k i j) hr).
by apply: k2r_ext => k; rewrite hg.
Qed.
Lemma r2k_per (x : K -> C) (y : K' -> C) k : (forall r, ~~ on_sub r -> x r = 0) -> (forall r, x (emb r) = y r) ->
  fourier_r_to_k z1 z2 z3 x k = fourier_r_to_k w1 w2 w3 y (pi k).
Proof. by move=> h h'; rewrite (r2k_emb z1P z2P z3P nq1 nq2 nq3) //; apply: r2k_ext. Qed.
Lemma bub_per (w : W) k n a b c d : bub g w k n a b c d = bub' g' w (pi k) n a b c d.
Proof.
apply: r2k_per => r; rewrite /chi0r_kernel; first by move=> hr; rewrite (wr_off _ hr) mxE mulr0 mul0r.
by rewrite -(embN nq1 nq2 nq3) !wr_per.
Qed.
End Per.
(* C117: a Green function with a smaller period in momentum space (sites without hopping to the sites of other sublattices) gives, with a local vertex, the
   susceptibility of one sublattice at the momentum modulo the smaller period *)
Theorem C117_sublattice nranks sc nranks' sc' (g : gfun) (g' : gfun') (gamma : wnn) k w a b c d :
  (forall x y t, x =1 y -> wt x t = wt y t) -> (forall t, wt (fun _ => 0) t = 0) -> (forall n, linfun (fun x => tw_plan x n)) ->
  fair_sched nranks sc -> fair_sched nranks' sc' -> (forall n k, g n k = g' n (pi k)) ->
  (solve_lattice_bse z1 z2 z3 beta wt tw_plan tw_lib nranks sc g gamma).1 k w a b c d =
    (solve_lattice_bse w1 w2 w3 beta wt tw_plan tw_lib nranks' sc' g' gamma).1 (pi k) w a b c d /\
  (solve_lattice_bse z1 z2 z3 beta wt tw_plan tw_lib nranks sc g gamma).2 k w a b c d =
    (solve_lattice_bse w1 w2 w3 beta wt tw_plan tw_lib nranks' sc' g' gamma).2 (pi k) w a b c d.
Proof.
move=> we w0 pl fs fs' hg.
have pe : ext_transform tw_plan by move=> x y e n; exact: (pl n).1.
have [-> ->] := @solve_lattice_bseE C n1 n2 n3 nb z1 z2 z3 beta L wt tw_plan tw_lib nranks sc nw nn g gamma k w a b c d fs.
have [-> ->] := @solve_lattice_bseE C m1 m2 m3 nb w1 w2 w3 beta L wt tw_plan tw_lib nranks' sc' nw nn g' gamma (pi k) w a b c d fs'.
have e (x y : 'I_L.+1 -> C) v : x =1 y -> (if nw == 1%N then trapz beta x else tw_plan x v) = (if nw == 1%N then trapz beta y else tw_plan y v).
  by move=> h; case: ifP => _; [exact: trapz_ext | exact: pe].
have e0 (x : 'I_L.+1 -> C) v : (forall t, x t = 0) -> (if nw == 1%N then trapz beta x else tw_plan x v) = 0.
  move=> h; have l : linfun (fun x : 'I_L.+1 -> C => if nw == 1%N then trapz beta x else tw_plan x v) by case: (nw == 1%N); [exact: trapz_lin | exact: pl].
  by rewrite (lin_scale (c := 0) (x := x) l) ?mul0r // => t; rewrite h mul0r.
have hB : imtime_bubble_chi0_wk z1 z2 z3 beta wt tw_plan tw_lib nranks sc (nw := nw) false g w k a b c d =
    imtime_bubble_chi0_wk w1 w2 w3 beta wt tw_plan tw_lib nranks' sc' (nw := nw) false g' w (pi k) a b c d.
  have hT r t : wt (fun n => fourier_wk_to_wr z1 z2 z3 g n (emb r)) t = wt (fun n => fourier_wk_to_wr w1 w2 w3 g' n r) t by apply: we => n; exact: wr_per.
  have hO r t : ~~ on_sub r -> wt (fun n => fourier_wk_to_wr z1 z2 z3 g n r) t = 0 by move=> hr; rewrite -(w0 t); apply: we => n; exact: (wr_off hg).
  rewrite !imbE //; apply: r2k_per => r.
    by move=> hr; apply: e0 => t; rewrite /chi0_tau hO // mxE mul0r.
  apply: e => t; rewrite /chi0_tau -(embN nq1 nq2 nq3).
  by rewrite !hT.
have hx n x y u v := bub_per hg w k n x y u v.
split=> //; congr (_ + (_ - _ / _)) => //; last by apply: eq_bigr => n _; exact: hx.
by apply: freq_trace_ext => *; apply: bse_point_ext => // *; exact: hx.
Qed.
End Lattice.

(* C117: orbitals with a repulsion u on each of them and a bare susceptibility x: any subset meets the hypotheses unless x u = 1, and the response is x / (1 - x u) *)
Section Case.
Variables (C : fieldType) (nn m nb : nat) (f : 'I_m -> 'I_nb) (x u : C).
Definition bare : g2n C nn nb := fun _ a b c d => x * ((a == d) && (b == c))%:R.
Definition onsite : g2nn C nn nb := fun n n' a b c d => if n == n' then u * [&& a == b, b == c & c == d]%:R else 0.
Theorem C117_case : 1 - x * u != 0 -> [/\ vertex_apart f onsite, forall n, tensor_apart f (bare n), nonsingular_PH (on_diag bare) onsite &
  forall n a, bse_point bare onsite n n a a a a = x / (1 - x * u)].
Proof.
move=> xu; pose d := \row_(i < nn * nb * nb) (u * (tx i == ty i)%:R).
have eX : chmat PH (on_diag bare) = x%:M.
  apply/matrixP=> i j; rewrite -[i]tidx_eta -[j]tidx_eta; set i1 := tnu i; set j1 := tnu j.
  transitivity (on_diag bare i1 j1 (tx i) (ty i) (ty j) (tx j)); first by rewrite -(chmatE PH).
  rewrite /on_diag /bare [RHS]mxE tidx_eq; case: eqP => _ //=; by rewrite -[x *+ _]mulr_natr.
have eG : chmat PH onsite = diag_mx d.
  apply/matrixP=> i j; rewrite -[i]tidx_eta -[j]tidx_eta; set i1 := tnu i; set j1 := tnu j.
  transitivity (onsite i1 j1 (tx i) (ty i) (ty j) (tx j)); first by rewrite -(chmatE PH).
  rewrite /onsite !mxE tidx_eq !tidxE; case: eqP => _ //=; rewrite -[RHS]mulr_natr -mulrA -natrM mulnb; congr (_ * (nat_of_bool _)%:R).
  case: (eqVneq (tx i) (ty i)) => [e|//] /=; rewrite -e; case: (eqVneq (tx i) (tx j)) => [e'|ne]; rewrite ?andbT ?andbF.
    by rewrite -e' andbC; case: eqVneq => //= <-.
  by case: (eqVneq (tx i) (ty j)) => //= <-; apply/negbTE; rewrite eq_sym in ne *.
pose b := \row_i (1 - x * d 0 i).
have eB : 1%:M - x%:M *m diag_mx d = diag_mx b.
  rewrite mul_scalar_mx; apply/matrixP=> i j; rewrite !mxE; case: eqP => // _; rewrite ?mulr1n //.
  by rewrite !mulr0n mulr0 subr0.
have b0 i : b 0 i != 0 by rewrite !mxE; case: (tx i == ty i); rewrite ?mulr1 // ?mulr0 ?mulr0 subr0 oner_neq0.
have uB : diag_mx b \in unitmx by rewrite unitmxE det_diag unitfE; apply/prodf_neq0 => i _.
split.
- move=> n n' i j k l e; rewrite /onsite; case: eqP => // _; case: and3P => [[/eqP ij /eqP jk /eqP kl]|_]; last by rewrite mulr0.
  by move: e; rewrite ij jk kl eqxx.
- move=> n i j k l e; rewrite /bare; case: andP => [[/eqP il /eqP jk]|_]; last by rewrite mulr0.
  by move: e; rewrite il jk [inside f k && _]andbC eqxx.
- by apply/nonsingular_PHP; rewrite eX eG eB.
move=> n a; rewrite -(chmatE PH) /=; have := @bse_point_mat C nn nb bare onsite; rewrite eX eG eB => ->.
have -> : invmx (diag_mx b) = diag_mx (\row_i (b 0 i)^-1).
  have e : diag_mx b *m diag_mx (\row_i (b 0 i)^-1) = 1%:M.
    rewrite mulmx_diag -diag_const_mx; congr diag_mx; apply/rowP=> i; rewrite mxE [RHS]mxE [X in _ * X]mxE; exact: divff.
  by rewrite -[LHS]mulmx1 -e mulmxA mulVmx // mul1mx.
by rewrite mul_mx_scalar !mxE eqxx !tidxE eqxx mulr1 mulr1n.
Qed.
End Case.
Print Assumptions C117_rpa.
Print Assumptions C117_bse.
Print Assumptions C117_dual.
Print Assumptions C117_vertex.
Print Assumptions C117_sublattice.
Print Assumptions C117_case.
