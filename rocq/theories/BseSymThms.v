(* C112: Bethe-Salpeter susceptibilities do not depend on the orbital basis, have the symmetries of the lattice, and are Hermitian. *)
From mathcomp Require Import all_ssreflect all_fingroup all_algebra.
From mathcomp Require Import zify.
From Verif Require Import Base MatAlg Fring MpiModel MpiProofs MpiSpec FourierModel FourierProofs BubbleModel BubbleSpec BubbleProofs ImtimeModel LinalgModel LinalgSpec LinalgProofs
  RpaModel RpaSpec RpaProofs BseModel BseSpec BseProofs GwSpec GwProofs GwFullProofs GwBasisThms RpaSymThms.
From Verif Require GwSymThms GwHermThms.
Set Implicit Arguments.
Unset Strict Implicit.
Unset Printing Implicit Defensive.
Import GRing.Theory Num.Theory.
Local Open Scope ring_scope.

Lemma exch4f (C : zmodType) (I : finType) (F : I -> I -> I -> I -> C) : \sum_a \sum_b \sum_c \sum_d F a b c d = \sum_c \sum_d \sum_a \sum_b F a b c d.
Proof.
rewrite pair_bigA [RHS]pair_bigA /=; under eq_bigr do rewrite pair_bigA; rewrite exchange_big /=.
by apply: eq_bigr => -[c d] _ /=; rewrite [RHS]pair_bigA.
Qed.

Section Point.
Variables (C : fieldType) (nn nb : nat) (T S : 'M[C]_nb).
Add Ring Cring : (fld_rt C).
Local Notation g2 := (g2nn C nn nb).
Local Notation g1 := (g2n C nn nb).
Local Notation cm := (@chmat C nn nb PH).
(* a function of two and of one fermionic frequency in the new basis *)
Definition rotated2 (X X' : g2) : Prop := forall n n' a b c d, X' n n' a b c d = rot_chi T S (X n n') a b c d.
Definition rotated1 (x x' : g1) : Prop := forall n a b c d, x' n a b c d = rot_chi T S (x n) a b c d.
Hypothesis TS : T *m S = 1%:M.
Definition Rmx : 'M[C]_(nn * nb * nb) := \matrix_(i, j) ((tnu i == tnu j)%:R * (S (tx j) (tx i) * T (ty i) (ty j))).
Definition Qmx : 'M[C]_(nn * nb * nb) := \matrix_(i, j) ((tnu i == tnu j)%:R * (T (tx j) (tx i) * S (ty i) (ty j))).
Lemma sum_delta (n : 'I_nn) (f : 'I_nn -> C) : \sum_m (n == m)%:R * f m = f n.
Proof. by rewrite (bigD1 n) //= eqxx mul1r big1 ?addr0 // => m; rewrite eq_sym => /negbTE ->; rewrite mul0r. Qed.
Lemma Rmul p (M : 'M[C]_(nn * nb * nb, p)) n a b j : (Rmx *m M) (tidx n a b) j = \sum_a' \sum_b' S a' a * T b b' * M (tidx n a' b') j.
Proof.
rewrite mxE sum_tidx; transitivity (\sum_m (n == m)%:R * \sum_a' \sum_b' S a' a * T b b' * M (tidx m a' b') j); last exact: sum_delta.
apply: eq_bigr => m _; rewrite mulr_sumr; apply: eq_bigr => a' _; rewrite mulr_sumr; apply: eq_bigr => b' _.
by rewrite mxE !tidxE !mulrA.
Qed.
Lemma mulQ p (M : 'M[C]_(p, nn * nb * nb)) n d c i : (M *m Qmx) i (tidx n d c) = \sum_c' \sum_d' S c' c * T d d' * M i (tidx n d' c').
Proof.
rewrite mxE sum_tidx; transitivity (\sum_m (n == m)%:R * \sum_c' \sum_d' S c' c * T d d' * M i (tidx m d' c')); last exact: sum_delta.
apply: eq_bigr => m _; rewrite exchange_big mulr_sumr; apply: eq_bigr => c' _; rewrite mulr_sumr; apply: eq_bigr => d' _.
by rewrite mxE !tidxE eq_sym; fring C.
Qed.
Lemma RQ : Rmx *m Qmx = 1%:M.
Proof.
have d x y : \sum_a T x a * S a y = (x == y)%:R :> C by have := congr1 (fun M : 'M_nb => M x y) TS; rewrite !mxE.
apply/matrixP=> i j; rewrite -(tidx_eta i) -(tidx_eta j); move: (tnu i) (tx i) (ty i) (tnu j) (tx j) (ty j) => n a b m e c.
rewrite Rmul [RHS]mxE tidx_eq.
transitivity ((n == m)%:R * ((\sum_a' T e a' * S a' a) * (\sum_b' T b b' * S b' c))).
  rewrite mulr_suml mulr_sumr; apply: eq_bigr => a' _; rewrite !mulr_sumr; apply: eq_bigr => b' _; rewrite mxE !tidxE; fring C.
by rewrite !d -!natrM !mulnb (eq_sym e); congr (nat_of_bool _)%:R; do 3 case: eqP.
Qed.
Lemma rotated2E (X X' : g2) : rotated2 X X' <-> cm X' = Rmx *m cm X *m Qmx.
Proof.
have e : cm (fun n n' => rot_chi T S (X n n')) = Rmx *m cm X *m Qmx.
  apply/matrixP=> i j; rewrite -(tidx_eta i) -(tidx_eta j); move: (tnu i) (tx i) (ty i) (tnu j) (tx j) (ty j) => n a b n' d c.
  rewrite -mulmxA Rmul [LHS]mxE !tidxE /rot_chi; apply: eq_bigr => a' _; apply: eq_bigr => b' _; rewrite mulQ mulr_sumr; apply: eq_bigr => c' _.
  rewrite mulr_sumr; apply: eq_bigr => d' _; rewrite mxE !tidxE; fring C.
rewrite -e; split; first by move=> h; apply/(chmat_inj PH).
by move/(chmat_inj PH).
Qed.
Lemma conjM (X Y : 'M[C]_(nn * nb * nb)) : (Rmx *m X *m Qmx) *m (Rmx *m Y *m Qmx) = Rmx *m (X *m Y) *m Qmx.
Proof. by rewrite !mulmxA -(mulmxA _ Qmx) (mulmx1C RQ) mulmx1. Qed.
Lemma conj1 : Rmx *m 1%:M *m Qmx = 1%:M. Proof. by rewrite mulmx1 RQ. Qed.
Lemma conjB (X Y : 'M[C]_(nn * nb * nb)) : Rmx *m X *m Qmx - Rmx *m Y *m Qmx = Rmx *m (X - Y) *m Qmx.
Proof. by rewrite mulmxBr mulmxBl. Qed.
Lemma rotated_diag (x x' : g1) : rotated1 x x' -> rotated2 (on_diag x) (on_diag x').
Proof.
move=> h n n' a b c d; rewrite /on_diag; case: eqP => [_|_]; first exact: h.
by rewrite /rot_chi; do 4 (rewrite big1 // => ? _); rewrite mulr0.
Qed.
Lemma rotated_bse (x x' : g1) (G G' : g2) : rotated1 x x' -> rotated2 G G' -> rotated2 (bse_point x G) (bse_point x' G').
Proof.
move=> /rotated_diag /rotated2E hx /rotated2E hG; apply/rotated2E.
by rewrite !bse_point_mat hx hG conjM -{1}conj1 conjB (invmx_conj _ RQ) conjM.
Qed.
Lemma rotated_inverse (X X' : g2) : rotated2 X X' -> rotated2 (inverse PH X) (inverse PH X').
Proof. by move=> /rotated2E h; apply/rotated2E; rewrite !inverse_mat h (invmx_conj _ RQ). Qed.
Lemma rotated_product (X X' Y Y' : g2) : rotated2 X X' -> rotated2 Y Y' -> rotated2 (product PH X Y) (product PH X' Y').
Proof. by move=> /rotated2E h /rotated2E h'; apply/rotated2E; rewrite !product_mat h h' conjM. Qed.
Lemma rotated_sub (X X' Y Y' : g2) : rotated2 X X' -> rotated2 Y Y' ->
  rotated2 (fun n n' a b c d => X n n' a b c d - Y n n' a b c d) (fun n n' a b c d => X' n n' a b c d - Y' n n' a b c d).
Proof. by move=> /rotated2E h /rotated2E h'; apply/rotated2E; rewrite !cm_sub h h' conjB. Qed.
(* contractions are linear *)
Lemma rot_chiB (X Y : tensor4 C nb) a b c d : rot_chi T S (fun a b c d => X a b c d - Y a b c d) a b c d = rot_chi T S X a b c d - rot_chi T S Y a b c d.
Proof. by rewrite /rot_chi; do 4!(rewrite -sumrB; apply: eq_bigr => ? _); rewrite mulrBr. Qed.
Lemma rot_chiD (X Y : tensor4 C nb) a b c d : rot_chi T S (fun a b c d => X a b c d + Y a b c d) a b c d = rot_chi T S X a b c d + rot_chi T S Y a b c d.
Proof. by rewrite /rot_chi; do 4!(rewrite -big_split; apply: eq_bigr => ? _); rewrite mulrDr. Qed.
Lemma rot_chi_eq (X Y : tensor4 C nb) a b c d : eq_t4 X Y -> rot_chi T S X a b c d = rot_chi T S Y a b c d.
Proof. by move=> h; rewrite /rot_chi; do 4!(apply: eq_bigr => ? _); rewrite h. Qed.
Lemma rot_chi_sum (I : finType) (F : I -> tensor4 C nb) a b c d : rot_chi T S (fun a b c d => \sum_i F i a b c d) a b c d = \sum_i rot_chi T S (F i) a b c d.
Proof.
rewrite /rot_chi [RHS]exchange_big /=; apply: eq_bigr => a' _; rewrite [RHS]exchange_big /=; apply: eq_bigr => b' _.
by rewrite [RHS]exchange_big /=; apply: eq_bigr => c' _; rewrite [RHS]exchange_big /=; apply: eq_bigr => d' _; rewrite mulr_sumr.
Qed.
Lemma rot_chi_div (X : tensor4 C nb) y a b c d : rot_chi T S (fun a b c d => X a b c d / y) a b c d = rot_chi T S X a b c d / y.
Proof. by rewrite /rot_chi; do 4!(rewrite mulr_suml; apply: eq_bigr => ? _); rewrite mulrA. Qed.
Lemma rotated_trace beta (X X' : g2) a b c d : rotated2 X X' -> freq_trace beta X' a b c d = rot_chi T S (freq_trace beta X) a b c d.
Proof.
move=> h; rewrite /freq_trace rot_chi_div rot_chi_sum; congr (_ / _); apply: eq_bigr => n _; rewrite rot_chi_sum; apply: eq_bigr => n' _; exact: h.
Qed.
(* the products of two Green's functions *)
Lemma rot_pair (x y : C) (g h : 'M[C]_nb) a b c d : x * rot_g T S g d a * rot_g T S h b c * y = rot_chi T S (fun a b c d => x * g d a * h b c * y) a b c d.
Proof.
have [Q EQ] : exists Q, Q = rot_g T S h b c by eexists.
rewrite -EQ [rot_g T S g d a]mxE exchange_big /=.
transitivity (\sum_a' x * (\sum_d' T d d' * g d' a' * S a' a) * Q * y); first by rewrite mulr_sumr !mulr_suml.
rewrite /rot_chi; apply: eq_bigr => a' _; set P := \sum_d' _.
rewrite EQ mxE mulr_sumr mulr_suml; apply: eq_bigr => b' _.
rewrite mulr_sumr mulr_suml; apply: eq_bigr => c' _.
rewrite /P mulr_sumr !mulr_suml; apply: eq_bigr => d' _; fring C.
Qed.
Lemma rot_pair' (x y : C) (g h : 'M[C]_nb) a b c d : x * rot_g T S g b a * rot_g T S h d c * y = rot_chi T S (fun a b c d => x * g b a * h d c * y) a b c d.
Proof.
have [Q EQ] : exists Q, Q = rot_g T S h d c by eexists.
rewrite -EQ [rot_g T S g b a]mxE exchange_big /= mulr_sumr !mulr_suml /rot_chi; apply: eq_bigr => a' _.
rewrite mulr_sumr !mulr_suml; apply: eq_bigr => b' _; rewrite EQ mxE exchange_big /= mulr_sumr mulr_suml; apply: eq_bigr => c' _.
rewrite mulr_sumr mulr_suml; apply: eq_bigr => d' _; fring C.
Qed.
(* three-legged vertices on both sides *)
Definition qmx : 'M[C]_(nb * nb) := \matrix_(i, j) (T (pfst j) (pfst i) * S (psnd i) (psnd j)).
Lemma rotated1E (x x' : g1) : rotated1 x x' -> ph_col x' = Rmx *m ph_col x *m qmx.
Proof.
move=> h; apply/matrixP=> i j; rewrite -(tidx_eta i) -(pidx_eta j); move: (tnu i) (tx i) (ty i) (pfst j) (psnd j) => n a b d c.
rewrite -mulmxA Rmul [LHS]mxE !tidxE !pidxK1 !pidxK2 h /rot_chi; apply: eq_bigr => a' _; apply: eq_bigr => b' _.
rewrite mxE sum_pidx exchange_big mulr_sumr; apply: eq_bigr => c' _; rewrite mulr_sumr; apply: eq_bigr => d' _; rewrite !mxE !tidxE !pidxK1 !pidxK2; fring C.
Qed.
Lemma rotated_scalar (l l' r r' : g1) (X X' : g2) a b c d : S = T^T -> rotated1 l l' -> rotated1 r r' -> rotated2 X X' ->
  scalar_product_PH l' X' r' a b c d = rot_chi T S (scalar_product_PH l X r) a b c d.
Proof.
move=> ST /rotated1E hl /rotated1E hr /rotated2E hX.
have RT : Rmx^T = Qmx by apply/matrixP=> i j; rewrite !mxE ST !mxE eq_sym.
rewrite scalar_product_PH_grouping hl hr hX !trmx_mul RT !mulmxA -(mulmxA _ Qmx Rmx) (mulmx1C RQ) mulmx1 -(mulmxA _ Qmx Rmx) (mulmx1C RQ) mulmx1.
have [Y EY] : exists Y, Y = (ph_col l)^T *m cm X *m ph_col r by eexists.
transitivity ((qmx^T *m Y *m qmx) (pidx a b) (pidx d c)); first by rewrite EY !mulmxA.
rewrite mxE sum_pidx /rot_chi.
transitivity (\sum_c' \sum_d' \sum_a' \sum_b' S a' a * T b b' * S c' c * T d d' * scalar_product_PH l X r a' b' c' d'); last by rewrite [RHS]exch4f.
rewrite exchange_big; apply: eq_bigr => c' _; apply: eq_bigr => d' _; rewrite mxE sum_pidx mulr_suml; apply: eq_bigr => a' _.
rewrite mulr_suml; apply: eq_bigr => b' _; rewrite !mxE !pidxK1 !pidxK2 scalar_product_PH_grouping -EY ST !mxE; fring C.
Qed.
End Point.

(* transposition with a relabelling s of the index and a map f of the numbers *)
Section Anti.
Variables (C : fieldType) (f : {rmorphism C -> C}) (n : nat) (s : 'I_n -> 'I_n).
Hypotheses (sK : involutive s) (fK : involutive f).
Definition anti (M : 'M[C]_n) : 'M[C]_n := \matrix_(i, j) f (M (s j) (s i)).
Lemma antiK : involutive anti. Proof. by move=> M; apply/matrixP=> i j; rewrite !mxE !sK fK. Qed.
Lemma antiM A B : anti (A *m B) = anti B *m anti A.
Proof.
apply/matrixP=> i j; rewrite !mxE rmorph_sum (reindex_inj (inv_inj sK)) /=; apply: eq_bigr => k _; by rewrite rmorphM !mxE mulrC.
Qed.
Lemma anti1 : anti 1%:M = 1%:M.
Proof. by apply/matrixP=> i j; rewrite !mxE (inj_eq (inv_inj sK)) eq_sym rmorph_nat. Qed.
Lemma antiB A B : anti (A - B) = anti A - anti B.
Proof. by apply/matrixP=> i j; rewrite !mxE rmorphB. Qed.
Lemma anti_inv A : anti (invmx A) = invmx (anti A).
Proof.
have [u|u] := boolP (A \in unitmx).
  by apply/esym/invmx_uniq; rewrite -antiM ?mulVmx ?mulmxV // anti1.
have u' : anti A \notin unitmx.
  apply: contra u => u; apply: (unitmx_left (A := anti (invmx (anti A)))).
  by rewrite -[in X in _ *m X](antiK A) -antiM mulmxV // anti1.
by rewrite /invmx (negbTE u) (negbTE u').
Qed.
Lemma anti_ladder D G : anti (invmx (1%:M - D *m G) *m D) = invmx (1%:M - anti D *m anti G) *m anti D.
Proof.
rewrite antiM anti_inv antiB anti1 antiM.
have [u|u] := boolP (1%:M - anti D *m anti G \in unitmx); first by rewrite push_through.
have u' : 1%:M - anti G *m anti D \notin unitmx by apply: contra u => u; apply: swap_unit.
by rewrite /invmx (negbTE u) (negbTE u') mulmxBl mulmxBr mul1mx mulmx1 mulmxA.
Qed.
End Anti.

Section Conj.
Variables (C : numClosedFieldType) (nn nb : nat).
Local Notation g2 := (g2nn C nn nb).
Local Notation g1 := (g2n C nn nb).
Local Notation cm := (@chmat C nn nb PH).
(* complex conjugation reverses the operators and the frequencies; exchange of the two pairs of operators at zero transferred frequency *)
Definition conj2 (X X' : g2) : Prop := forall n n' a b c d, (X n n' a b c d)^* = X' (rev_ord n') (rev_ord n) d c b a.
Definition exch2 (X X' : g2) : Prop := forall n n' a b c d, X n n' a b c d = X' n' n c d a b.
Definition rv (i : 'I_(nn * nb * nb)) := tidx (rev_ord (tnu i)) (tx i) (ty i).
Definition sw (i : 'I_(nn * nb * nb)) := tidx (tnu i) (ty i) (tx i).
Lemma rvK : involutive rv. Proof. by move=> i; rewrite /rv !tidxE rev_ordK tidx_eta. Qed.
Lemma swK : involutive sw. Proof. by move=> i; rewrite /sw !tidxE tidx_eta. Qed.
Definition conjm : {rmorphism C -> C} := [rmorphism of @conjC C].
Definition idm : {rmorphism C -> C} := [rmorphism of idfun].
Lemma conjmK : involutive conjm. Proof. exact: conjCK. Qed.
Lemma conj2E X X' : conj2 X X' <-> cm X' = anti conjm rv (cm X).
Proof.
split=> [h|/matrixP h n n' a b c d].
  by apply/matrixP=> i j; rewrite !mxE !tidxE h !rev_ordK.
by have := h (tidx (rev_ord n') d c) (tidx (rev_ord n) a b); rewrite !mxE !tidxE !rev_ordK => ->.
Qed.
Lemma exch2E X X' : exch2 X X' <-> cm X' = anti idm sw (cm X).
Proof.
split=> [h|/matrixP h n n' a b c d].
  by apply/matrixP=> i j; rewrite !mxE !tidxE /= h.
by have := h (tidx n' c d) (tidx n b a); rewrite !mxE !tidxE => ->.
Qed.
Lemma conj_bse (x x' : g1) (G G' : g2) : (forall n a b c d, (x n a b c d)^* = x' (rev_ord n) d c b a) -> conj2 G G' -> conj2 (bse_point x G) (bse_point x' G').
Proof.
move=> hx /conj2E hG; have /conj2E hD : conj2 (on_diag x) (on_diag x').
  move=> n n' a b c d; rewrite /on_diag (inj_eq rev_ord_inj) eq_sym; case: eqP => [->|_]; [exact: hx | exact: conjC0].
by apply/conj2E; rewrite !bse_point_mat (anti_ladder rvK conjmK) hG hD.
Qed.
Lemma exch_bse (x x' : g1) (G G' : g2) : (forall n a b c d, x n a b c d = x' n c d a b) -> exch2 G G' -> exch2 (bse_point x G) (bse_point x' G').
Proof.
move=> hx /exch2E hG; have /exch2E hD : exch2 (on_diag x) (on_diag x').
  by move=> n n' a b c d; rewrite /on_diag eq_sym; case: eqP => [->|_].
by apply/exch2E; rewrite !bse_point_mat (anti_ladder swK _) // hG hD.
Qed.
Lemma conj_trace beta (X X' : g2) a b c d : beta \is Num.real -> conj2 X X' -> (freq_trace beta X a b c d)^* = freq_trace beta X' d c b a.
Proof.
move=> /CrealP hb h; rewrite /freq_trace rmorphM fmorphV rmorphX /= hb rmorph_sum; congr (_ / _).
rewrite [RHS](reindex_inj rev_ord_inj) [RHS]exchange_big /= [RHS](reindex_inj rev_ord_inj) /=; apply: eq_bigr => n _; rewrite rmorph_sum; apply: eq_bigr => n' _; by rewrite h.
Qed.
Lemma exch_trace beta (X X' : g2) a b c d : exch2 X X' -> freq_trace beta X a b c d = freq_trace beta X' c d a b.
Proof.
move=> h; rewrite /freq_trace; congr (_ / _); rewrite [RHS]exchange_big /=; apply: eq_bigr => n _; apply: eq_bigr => n' _; exact: h.
Qed.
End Conj.

Lemma fidx_rev nn (n : 'I_(2 * nn)) : fidx (rev_ord n) = - fidx n - 1.
Proof. by rewrite /fidx /=; have := ltn_ord n; lia. Qed.
Lemma bidx_rev nw (w : 'I_(2 * nw).-1) : bidx (rev_ord w) = - bidx w.
Proof. by rewrite /bidx /=; have := ltn_ord w; lia. Qed.

Section Lattice.
Variables (C : numClosedFieldType) (n1 n2 n3 nb L nw nn : nat) (z1 z2 z3 beta : C).
Local Notation K := (site n1 n2 n3).
Local Notation t4 := (tensor4 C nb).
Local Notation mat := 'M[C]_nb.
Local Notation W := 'I_(2 * nw).-1.
Local Notation gfun := (gfun C n1 n2 n3 nb).
Local Notation wnn := (g2iw C (2 * nn) nb (2 * nw).-1).
Variables (wt : (int -> mat) -> 'I_L.+1 -> mat) (tw_plan tw_lib : ('I_L.+1 -> C) -> int -> C).
Local Notation bse := (solve_lattice_bse z1 z2 z3 beta wt tw_plan tw_lib).

Definition nonlocal (g : gfun) : gfun := fun n r => if r == 0 then 0 else fourier_wk_to_wr z1 z2 z3 g n r.
Definition bub_nl (g : gfun) (w : W) k : g2n C (2 * nn) nb := fun n a b c d => fourier_r_to_k z1 z2 z3 (fun r => chi0r_kernel beta (nonlocal g) (bidx w) (fidx n) r a b c d) k.
Lemma dualE nr s (g : gfun) (F : wnn) (Lv : int -> int -> t4) (chi_imp : int -> t4) k w a b c d : fair_sched nr s ->
  solve_lattice_dbse z1 z2 z3 beta nr s g F Lv chi_imp k w a b c d =
  scalar_product_PH (fun n => Lv (bidx w) (fidx n)) (bse_point (bub_nl g w k) (F w)) (fun n : 'I_(2 * nn) => Lv (bidx w) (fidx n)) a b c d + chi_imp (bidx w) a b c d.
Proof.
move=> f; rewrite /solve_lattice_dbse; congr (_ + _); rewrite /chiq_sum_nu_from_chi0q_and_gamma_and_L_wn_PH fair_all_map // !scalar_product_formula /spec_scalar /=.
do 6 (apply: eq_bigr => ? _); congr (_ * _ * _); apply: bse_point_ext => // n ? ? ? ?; rewrite /slice_wk /chi0q_from_chi0r fair_all_map //=.
by apply: r2k_ext => r; rewrite /chi0r_from_gr_PH fair_all_map.
Qed.

Section Rotation.
Variables (A B : K -> K) (T S : mat).
(* A acts on momenta and B on lattice vectors, the new field operators are the combinations T of the old ones and S is the inverse of T *)
Hypotheses (hsym : GwSymThms.lattice_symmetry z1 z2 z3 A B) (TS : T *m S = 1%:M).
(* the transforms between frequencies and times are linear and that of a matrix acts on operators *)
Definition linear_transforms : Prop := (forall n, linfun (fun x => tw_plan x n)) /\
  forall f f' t, (forall n, f' n = rot_g T S (f n)) -> wt f' t = rot_g T S (wt f t).
Lemma r2k_rot (f f' : K -> t4) k a b c d : (forall r a b c d, f' r a b c d = rot_chi T S (f (B r)) a b c d) ->
  fourier_r_to_k z1 z2 z3 (fun r => f' r a b c d) k = rot_chi T S (fun a b c d => fourier_r_to_k z1 z2 z3 (fun r => f r a b c d) (A k)) a b c d.
Proof.
move=> h; have lin : linfun (fun x : K -> C => fourier_r_to_k z1 z2 z3 x k) by split=> [x y e|y x x']; [exact: r2k_ext | exact: r2k_lin].
rewrite (lin_chi lin a b c d (Y := fun r => f (B r)) h); apply: rot_chi_eq => a' b' c' d'.
exact: (GwSymThms.r2k_moved hsym).
Qed.
Lemma k2r_rot (f f' : gfun) n r : (forall k, f' n k = rot_g T S (f n (A k))) -> fourier_wk_to_wr z1 z2 z3 f' n r = rot_g T S (fourier_wk_to_wr z1 z2 z3 f n (B r)).
Proof.
move=> h; have lin : linfun (fun x : K -> C => fourier_k_to_r z1 z2 z3 x r) by split=> [x y e|y x x']; [exact: k2r_ext | exact: k2r_lin].
apply/matrixP=> a b; rewrite [LHS]mxE (lin_g lin a b (Y := fun k => f n (A k)) h); congr (rot_g T S _ a b).
by apply/matrixP=> i j; rewrite !mxE; exact: (GwSymThms.k2r_moved hsym).
Qed.
Lemma bubble_rot (f f' : gfun) w n r a b c d : (forall n r, f' n r = rot_g T S (f n (B r))) ->
  chi0r_kernel beta f' w n r a b c d = rot_chi T S (chi0r_kernel beta f w n (B r)) a b c d.
Proof.
move=> h; have hB : B (- r) = - B r by case: hsym => -[].
rewrite /chi0r_kernel !h hB -[LHS]mulr1 rot_pair; apply: rot_chi_eq => a' b' c' d'; exact: mulr1.
Qed.
Lemma wt_ext f f' t : linear_transforms -> (forall n, f' n = f n) -> wt f' t = wt f t.
Proof.
move=> [_ hw] h; have hr M : rot_g T S (S *m M *m T) = M by rewrite rot_gE !mulmxA TS mul1mx -mulmxA TS mulmx1.
rewrite (hw (fun n => S *m f n *m T)); first by rewrite (hw (fun n => S *m f n *m T) f t) // => n; rewrite hr.
by move=> n; rewrite hr h.
Qed.
Lemma imtime_rot nranks sc nranks' sc' (g g' : gfun) (w : W) k a b c d : linear_transforms -> fair_sched nranks sc -> fair_sched nranks' sc' ->
  (forall n k, g' n k = rot_g T S (g n (A k))) ->
  imtime_bubble_chi0_wk z1 z2 z3 beta wt tw_plan tw_lib nranks' sc' (nw := nw) false g' w k a b c d =
  rot_chi T S (imtime_bubble_chi0_wk z1 z2 z3 beta wt tw_plan tw_lib nranks sc (nw := nw) false g w (A k)) a b c d.
Proof.
move=> lt fs fs' h; have [hL hw] := lt; have hB r : B (- r) = - B r by case: hsym => -[].
have pe : ext_transform tw_plan by move=> x y e n; exact: (hL n).1.
pose F (x : 'I_L.+1 -> C) := if nw == 1%N then trapz beta x else tw_plan x (bidx w).
have lin : linfun F by rewrite /F; case: (nw == 1%N); [exact: trapz_lin | exact: hL].
have E nr s (gg : gfun) q x y u v : fair_sched nr s -> imtime_bubble_chi0_wk z1 z2 z3 beta wt tw_plan tw_lib nr s (nw := nw) false gg w q x y u v =
    fourier_r_to_k z1 z2 z3 (fun r => F (chi0_tau z1 z2 z3 wt gg r x y u v)) q.
  by move=> f; exact (@imtimeE C n1 n2 n3 nb z1 z2 z3 beta L wt tw_plan tw_plan pe pe nr s nw false gg w q x y u v f).
rewrite E //; transitivity (rot_chi T S (fun x y u v => fourier_r_to_k z1 z2 z3 (fun r => F (chi0_tau z1 z2 z3 wt g r x y u v)) (A k)) a b c d); last first.
  by apply: rot_chi_eq => x y u v; rewrite E.
apply: (r2k_rot (f := fun r x y u v => F (chi0_tau z1 z2 z3 wt g r x y u v)) (f' := fun r x y u v => F (chi0_tau z1 z2 z3 wt g' r x y u v))).
move=> r x y u v; apply: (lin_chi lin x y u v (Y := fun t a b c d => chi0_tau z1 z2 z3 wt g (B r) a b c d t)
   (Y' := fun t a b c d => chi0_tau z1 z2 z3 wt g' r a b c d t)) => t x' y' u' v'.
have e r0 t0 : wt (fun n => fourier_wk_to_wr z1 z2 z3 g' n r0) t0 = rot_g T S (wt (fun n => fourier_wk_to_wr z1 z2 z3 g n (B r0)) t0).
  by apply: hw => n; exact: k2r_rot.
rewrite /chi0_tau !e hB -[LHS]mulr1 -[LHS]mul1r !mulrA rot_pair; apply: rot_chi_eq => ? ? ? ?; by rewrite mul1r mulr1.
Qed.
(* C112: the Bethe-Salpeter equation for a Green's function and a vertex in another basis, and on a lattice with its momenta moved by a symmetry *)
Theorem C112_bse nranks sc nranks' sc' (g g' : gfun) (gamma gamma' : wnn) k w a b c d : linear_transforms -> fair_sched nranks sc -> fair_sched nranks' sc' ->
  (forall n k, g' n k = rot_g T S (g n (A k))) ->
  (forall w n n' a b c d, gamma' w n n' a b c d = rot_chi T S (gamma w n n') a b c d) ->
  (bse nranks' sc' g' gamma').1 k w a b c d = rot_chi T S ((bse nranks sc g gamma).1 (A k) w) a b c d /\
  (bse nranks' sc' g' gamma').2 k w a b c d = rot_chi T S ((bse nranks sc g gamma).2 (A k) w) a b c d.
Proof.
move=> lt fs fs' hg hG; have pe : ext_transform tw_plan by move=> x y e n; exact: (lt.1 n).1.
have [e1 e2] := @solve_lattice_bseE C n1 n2 n3 nb z1 z2 z3 beta L wt tw_plan tw_lib nranks' sc' nw nn g' gamma' k w a b c d fs'.
have rotx (n : 'I_(2 * nn)) x y u v : fourier_r_to_k z1 z2 z3 (fun r => chi0r_kernel beta (fourier_wk_to_wr z1 z2 z3 g') (bidx w) (fidx n) r x y u v) k =
    rot_chi T S (fun x y u v => fourier_r_to_k z1 z2 z3 (fun r => chi0r_kernel beta (fourier_wk_to_wr z1 z2 z3 g) (bidx w) (fidx n) r x y u v) (A k)) x y u v.
  apply: (r2k_rot (f := chi0r_kernel beta (fourier_wk_to_wr z1 z2 z3 g) (bidx w) (fidx n)) (f' := chi0r_kernel beta (fourier_wk_to_wr z1 z2 z3 g') (bidx w) (fidx n))).
  by move=> r ? ? ? ?; apply: bubble_rot => m r'; exact: k2r_rot.
have hB x y u v := imtime_rot w k x y u v lt fs fs' hg.
split; last exact: hB.
rewrite [LHS]e1 {e1 e2}.
transitivity (rot_chi T S (fun a b c d => freq_trace beta (bse_point (fun n a b c d => fourier_r_to_k z1 z2 z3 (fun r => chi0r_kernel beta (fourier_wk_to_wr z1 z2 z3 g) (bidx w) (fidx n) r a b c d) (A k)) (gamma w)) a b c d
  + (imtime_bubble_chi0_wk z1 z2 z3 beta wt tw_plan tw_lib nranks sc (nw := nw) false g w (A k) a b c d -
     (\sum_(n < 2 * nn) fourier_r_to_k z1 z2 z3 (fun r => chi0r_kernel beta (fourier_wk_to_wr z1 z2 z3 g) (bidx w) (fidx n) r a b c d) (A k)) / beta ^+ 2)) a b c d); last first.
  apply: rot_chi_eq => x y u v.
  by have [e1 _] := @solve_lattice_bseE C n1 n2 n3 nb z1 z2 z3 beta L wt tw_plan tw_lib nranks sc nw nn g gamma (A k) w x y u v fs; rewrite [RHS]e1.
rewrite rot_chiD rot_chiB; congr (_ + (_ - _)).
- apply: rotated_trace => //; apply: rotated_bse => // n x y u v; exact: rotx.
- exact: hB.
by rewrite rot_chi_div rot_chi_sum; congr (_ / _); apply: eq_bigr => n _; exact: rotx.
Qed.
(* C112: the irreducible and the reducible vertex of the impurity in another basis *)
Theorem C112_vertex (g g' : int -> mat) (g2 g2' : wnn) w : (forall n, g' n = rot_g T S (g n)) -> (forall w n n' a b c d, g2' w n n' a b c d = rot_chi T S (g2 w n n') a b c d) ->
  (forall n n' a b c d, impurity_irreducible_vertex_Gamma beta g' g2' w n n' a b c d = rot_chi T S (impurity_irreducible_vertex_Gamma beta g g2 w n n') a b c d) /\
  forall n n' a b c d, impurity_reducible_vertex_F beta g' g2' w n n' a b c d = rot_chi T S (impurity_reducible_vertex_F beta g g2 w n n') a b c d.
Proof.
move=> hg hg2.
have h0 : rotated2 T S (chi0_from_gg2_PH beta (nw := nw) (nn := nn) g w) (chi0_from_gg2_PH beta (nw := nw) (nn := nn) g' w).
  move=> n n' a b c d; rewrite /chi0_from_gg2_PH !hg -[LHS]mulr1 rot_pair; apply: rot_chi_eq => ? ? ? ?; exact: mulr1.
have h1 : rotated2 T S (chi_from_gg2_PH beta g g2 w) (chi_from_gg2_PH beta g' g2' w).
  move=> n n' a b c d; rewrite /chi_from_gg2_PH !hg hg2 rot_chiB; congr (_ - _).
  by rewrite -[LHS]mulr1 rot_pair'; apply: rot_chi_eq => ? ? ? ?; exact: mulr1.
split.
  by apply: rotated_sub; apply: (rotated_inverse TS).
by apply: (rotated_product TS (rotated_inverse TS h0)); apply: (rotated_product TS _ (rotated_inverse TS h0)); apply: rotated_sub.
Qed.
(* C112: the dual equation with a real change of basis *)
Theorem C112_dual nranks sc nranks' sc' (g g' : gfun) (F F' : wnn) (Lv Lv' : int -> int -> t4) (chi_imp chi_imp' : int -> t4) k w a b c d :
  S = T^T -> fair_sched nranks sc -> fair_sched nranks' sc' -> (forall n k, g' n k = rot_g T S (g n (A k))) ->
  (forall w n n' a b c d, F' w n n' a b c d = rot_chi T S (F w n n') a b c d) -> (forall w n a b c d, Lv' w n a b c d = rot_chi T S (Lv w n) a b c d) ->
  (forall w a b c d, chi_imp' w a b c d = rot_chi T S (chi_imp w) a b c d) ->
  solve_lattice_dbse z1 z2 z3 beta nranks' sc' g' F' Lv' chi_imp' k w a b c d = rot_chi T S (solve_lattice_dbse z1 z2 z3 beta nranks sc g F Lv chi_imp (A k) w) a b c d.
Proof.
move=> ST fs fs' hg hF hL hi; rewrite dualE // hi.
transitivity (rot_chi T S (fun a b c d => scalar_product_PH (fun n => Lv (bidx w) (fidx n)) (bse_point (bub_nl g w (A k)) (F w)) (fun n : 'I_(2 * nn) => Lv (bidx w) (fidx n)) a b c d
  + chi_imp (bidx w) a b c d) a b c d); last by apply: rot_chi_eq => ? ? ? ?; rewrite dualE.
rewrite rot_chiD; congr (_ + _).
apply: rotated_scalar => //.
apply: rotated_bse => // n a' b' c' d'.
apply: (r2k_rot (f := chi0r_kernel beta (nonlocal g) (bidx w) (fidx n)) (f' := chi0r_kernel beta (nonlocal g') (bidx w) (fidx n))).
move=> r ? ? ? ?; apply: bubble_rot => m r'; rewrite /nonlocal.
have hB0 : (B r' == 0) = (r' == 0) by case: hsym => -[_ iB _ B0 _] _; rewrite -{1}B0 (inj_eq iB).
rewrite hB0; case: eqP => _; last exact: k2r_rot.
by rewrite rot_gE mulmx0 mul0mx.
Qed.
End Rotation.

Hypotheses (p1 : (n1.+1).-primitive_root z1) (p2 : (n2.+1).-primitive_root z2) (p3 : (n3.+1).-primitive_root z3).
Lemma ph_conj (k r : K) : (phase z1 z2 z3 k r)^* = (phase z1 z2 z3 k r)^-1.
Proof.
by rewrite /phase !rmorphM !rmorphX (GwHermThms.root_conj p1) (GwHermThms.root_conj p2) (GwHermThms.root_conj p3) !exprVn !invfM.
Qed.
Lemma k2r_conj (f f' : K -> C) r : (forall k, f' k = (f k)^*) -> fourier_k_to_r z1 z2 z3 f' r = (fourier_k_to_r z1 z2 z3 f (- r))^*.
Proof.
move=> h; rewrite /fourier_k_to_r rmorphM fmorphV rmorph_nat rmorph_sum; congr (_ / _); apply: eq_bigr => k _.
by rewrite h rmorphM fmorphV ph_conj (phase_oppr p1 p2 p3) !invrK.
Qed.
Lemma r2k_conj (f f' : K -> C) k : (forall r, f' r = (f (- r))^*) -> fourier_r_to_k z1 z2 z3 f' k = (fourier_r_to_k z1 z2 z3 f k)^*.
Proof.
move=> h; rewrite /fourier_r_to_k rmorph_sum sum_opp; apply: eq_bigr => r _.
by rewrite h rmorphM ph_conj (phase_oppr p1 p2 p3) opprK.
Qed.
Lemma r2k_opp (f f' : K -> C) k : (forall r, f' r = f (- r)) -> fourier_r_to_k z1 z2 z3 f' k = fourier_r_to_k z1 z2 z3 f (- k).
Proof.
move=> h; rewrite /fourier_r_to_k sum_opp; apply: eq_bigr => r _; by rewrite h opprK (phase_oppr p1 p2 p3) (phase_oppl p1 p2 p3).
Qed.
Definition bub (g : gfun) w (n : 'I_(2 * nn)) k a b c d := fourier_r_to_k z1 z2 z3 (fun r => chi0r_kernel beta (fourier_wk_to_wr z1 z2 z3 g) (bidx (w : W)) (fidx n) r a b c d) k.
Local Notation imb nr s g := (imtime_bubble_chi0_wk z1 z2 z3 beta wt tw_plan tw_lib nr s (nw := nw) false g).
Definition to_w (w : W) (x : 'I_L.+1 -> C) := if nw == 1%N then trapz beta x else tw_plan x (bidx w).
Lemma imbE nr s (g : gfun) w q a b c d : ext_transform tw_plan -> fair_sched nr s ->
  imb nr s g w q a b c d = fourier_r_to_k z1 z2 z3 (fun r => to_w w (chi0_tau z1 z2 z3 wt g r a b c d)) q.
Proof. move=> pe f; exact (@imtimeE C n1 n2 n3 nb z1 z2 z3 beta L wt tw_plan tw_plan pe pe nr s nw false g w q a b c d f). Qed.

(* a Green's function in Matsubara frequencies with g(-iv) = g(iv)^+, and transforms that keep this *)
Definition hermitian_g (g : gfun) : Prop := forall n k a b, g (- n - 1) k a b = (g n k b a)^*.
Definition hermitian_vertex (gamma : wnn) : Prop := forall w n n' a b c d, (gamma w n n' a b c d)^* = gamma (rev_ord w) (rev_ord n') (rev_ord n) d c b a.
Definition hermitian_transforms : Prop := [/\ ext_transform tw_plan, forall (f f' : int -> mat) t, (forall n, f' n = GwHermThms.adj (f (- n - 1))) -> wt f' t = GwHermThms.adj (wt f t) &
  forall (x : 'I_L.+1 -> C) n, tw_plan (fun t => (x t)^*) n = (tw_plan x (- n))^*].
Lemma trapz_conj (x : 'I_L.+1 -> C) : beta \is Num.real -> trapz beta (fun t => (x t)^*) = (trapz beta x)^*.
Proof.
move=> /CrealP hb; rewrite /trapz !foldl_add !add0r !(rmorphM, rmorphB, fmorphV, rmorph_nat) /= hb rmorph_sum; congr ((_ - _ - _) * _); by rewrite ?rmorph_nat ?rmorph1.
Qed.
Lemma g_wr_herm g n r a b : hermitian_g g -> fourier_wk_to_wr z1 z2 z3 g (- n - 1) r a b = (fourier_wk_to_wr z1 z2 z3 g n (- r) b a)^*.
Proof. by move=> h; rewrite !mxE; apply: k2r_conj => k; exact: h. Qed.
(* C112: the susceptibilities are Hermitian *)
Theorem C112_hermitian nranks sc (g : gfun) (gamma : wnn) k w a b c d : hermitian_transforms -> beta \is Num.real -> fair_sched nranks sc -> hermitian_g g -> hermitian_vertex gamma ->
  ((bse nranks sc g gamma).1 k w a b c d)^* = (bse nranks sc g gamma).1 k (rev_ord w) d c b a /\
  ((bse nranks sc g gamma).2 k w a b c d)^* = (bse nranks sc g gamma).2 k (rev_ord w) d c b a.
Proof.
move=> [pe hw ht] hb fs hg hG.
have hx n a' b' c' d' : (bub g w n k a' b' c' d')^* = bub g (rev_ord w) (rev_ord n) k d' c' b' a'.
  apply/esym/r2k_conj => r; rewrite /chi0r_kernel fidx_rev bidx_rev g_wr_herm //.
  have -> : - fidx n - 1 + - bidx w = - (fidx n + bidx w) - 1 by lia.
  by rewrite g_wr_herm // opprK !rmorphM rmorphN /= (CrealP hb).
have hB : ((bse nranks sc g gamma).2 k w a b c d)^* = (bse nranks sc g gamma).2 k (rev_ord w) d c b a.
  rewrite /= !imbE //; apply/esym/r2k_conj => r.
  transitivity (to_w (rev_ord w) (fun t => (chi0_tau z1 z2 z3 wt g (- r) a b c d t)^*)).
    have e t : chi0_tau z1 z2 z3 wt g r d c b a t = (chi0_tau z1 z2 z3 wt g (- r) a b c d t)^*.
      have e r0 t0 i j : wt (fun n => fourier_wk_to_wr z1 z2 z3 g n r0) t0 i j = (wt (fun n => fourier_wk_to_wr z1 z2 z3 g n (- r0)) t0 j i)^*.
        rewrite (hw (fun n => fourier_wk_to_wr z1 z2 z3 g n (- r0))); first by rewrite mxE.
        by move=> n; apply/matrixP=> x y; rewrite [RHS]mxE -g_wr_herm //; congr (fourier_wk_to_wr _ _ _ _ _ _ _ _); lia.
      by rewrite /chi0_tau rmorphM /= !opprK (e r t a d) (e (- r) (rev_ord t) c b) opprK.
    by rewrite /to_w; case: eqP => _; [apply: trapz_ext => t; exact: e | apply: pe => t; exact: e].
  by rewrite /to_w; case: eqP => _; [exact: trapz_conj | rewrite ht bidx_rev opprK].
split=> //; have [e1 _] := @solve_lattice_bseE C n1 n2 n3 nb z1 z2 z3 beta L wt tw_plan tw_lib nranks sc nw nn g gamma k w a b c d fs.
have [e2 _] := @solve_lattice_bseE C n1 n2 n3 nb z1 z2 z3 beta L wt tw_plan tw_lib nranks sc nw nn g gamma k (rev_ord w) d c b a fs.
rewrite e1 e2 {e1 e2} rmorphD rmorphB; congr (_ + (_ - _)); last first.
- rewrite rmorphM fmorphV rmorphX /= (CrealP hb) rmorph_sum [in RHS](reindex_inj rev_ord_inj) /=; congr (_ / _); apply: eq_bigr => n _; exact: hx.
- exact: hB.
by apply: conj_trace => //; apply: conj_bse => [n ? ? ? ?|]; [exact: hx | exact: hG].
Qed.
(* the vertex is unchanged by the exchange at transferred frequency zero; the time-to-frequency transform of x(beta - t) is that at minus the frequency *)
Definition exchange_vertex (gamma : wnn) w : Prop := forall n n' a b c d, gamma w n n' a b c d = gamma w n' n c d a b.
Definition reversible : Prop := ext_transform tw_plan /\ forall (x : 'I_L.+1 -> C) n, tw_plan (fun t => x (rev_ord t)) n = tw_plan x (- n).
Lemma trapz_rev (x : 'I_L.+1 -> C) : trapz beta (fun t => x (rev_ord t)) = trapz beta x.
Proof.
have e1 : rev_ord (ord0 : 'I_L.+1) = ord_max by apply: val_inj; rewrite /= subn1.
have e2 : rev_ord (ord_max : 'I_L.+1) = ord0 by apply: val_inj; rewrite /= subnn.
rewrite /trapz !foldl_add e1 e2 [in RHS](reindex_inj rev_ord_inj) /=; congr (_ * _); by rewrite addrAC.
Qed.
(* C112: the bubble is symmetric under exchange at all frequencies, the susceptibility at frequency zero *)
Theorem C112_exchange nranks sc (g : gfun) (gamma : wnn) k w a b c d : reversible -> fair_sched nranks sc ->
  (bse nranks sc g gamma).2 k w a b c d = (bse nranks sc g gamma).2 (- k) (rev_ord w) c d a b /\
  (bidx w = 0 -> exchange_vertex gamma w -> (bse nranks sc g gamma).1 k w a b c d = (bse nranks sc g gamma).1 (- k) w c d a b).
Proof.
move=> [pe ht] fs.
have hB w' : (bse nranks sc g gamma).2 k w' a b c d = (bse nranks sc g gamma).2 (- k) (rev_ord w') c d a b.
  rewrite /= !imbE //; apply: r2k_opp => r.
  transitivity (to_w w' (fun t => chi0_tau z1 z2 z3 wt g (- r) c d a b (rev_ord t))).
    have e t : chi0_tau z1 z2 z3 wt g r a b c d t = chi0_tau z1 z2 z3 wt g (- r) c d a b (rev_ord t).
      by rewrite /chi0_tau rev_ordK opprK mulrC.
    by rewrite /to_w; case: eqP => _; [apply: trapz_ext => t; exact: e | apply: pe => t; exact: e].
  by rewrite /to_w bidx_rev; case: eqP => _; [exact: trapz_rev | exact: ht].
split=> [|w0 hG]; first exact: hB.
have rw : rev_ord w = w by apply: val_inj; move: w0; rewrite /bidx /=; have := ltn_ord w; lia.
have hx n a' b' c' d' : bub g w n k a' b' c' d' = bub g w n (- k) c' d' a' b'.
  by apply: r2k_opp => r; rewrite /chi0r_kernel w0 addr0 opprK -!mulrA; congr (_ * _); exact: mulrC.
have [e1 _] := @solve_lattice_bseE C n1 n2 n3 nb z1 z2 z3 beta L wt tw_plan tw_lib nranks sc nw nn g gamma k w a b c d fs.
have [e2 _] := @solve_lattice_bseE C n1 n2 n3 nb z1 z2 z3 beta L wt tw_plan tw_lib nranks sc nw nn g gamma (- k) w c d a b fs.
rewrite e1 e2 {e1 e2}; congr (_ + (_ - _)); last first.
- by congr (_ / _); apply: eq_bigr => n _; exact: hx.
- by have := hB w; rewrite rw.
by apply: exch_trace; apply: exch_bse => [n ? ? ? ?|]; [exact: hx | exact: hG].
Qed.
End Lattice.


(* the exchange symmetry is lost at other frequencies, because the frequencies n and n + w do not cover the same interval *)
Section ExchangeRefuted.
Variable C : numClosedFieldType.
Add Ring Cring3 : (fld_rt C).
Variables (L : nat) (wt : (int -> 'M[C]_1) -> 'I_L.+1 -> 'M[C]_1) (tw_plan tw_lib : ('I_L.+1 -> C) -> int -> C).
Local Notation K := (site 0 0 0).
Definition ex_v (n : int) : C := if (0 <= n)%R then 1 - 'i else 1 + 'i.
Definition ex_g : BubbleModel.gfun C 0 0 0 1 := fun n _ => const_mx (ex_v n).
Definition ex_gamma : g2iw C (2 * 1) 1 (2 * 2).-1 := fun _ _ _ _ _ _ _ => 1.
Lemma one_cell (k : K) : k = 0.
Proof. by case: k => -[a b] c; congr (_, _, _); rewrite (ord1 a, ord1 b, ord1 c) /=; apply/ord1. Qed.
Lemma sum_cell (f : K -> C) : \sum_k f k = f 0.
Proof. by rewrite (bigD1 (0 : K)) //= big1 ?addr0 // => k; rewrite (one_cell k) eqxx. Qed.
Lemma ex_wr n r : fourier_wk_to_wr 1 1 1 ex_g n r = const_mx (ex_v n).
Proof.
by apply/matrixP=> i j; rewrite !mxE /fourier_k_to_r sum_cell /phase !expr1n !mulr1 invr1 mul1r mxE ?mulr1.
Qed.
Lemma ex_bub (w : 'I_(2 * 2).-1) (n : 'I_(2 * 1)) k a b c d :
  fourier_r_to_k 1 1 1 (fun r => chi0r_kernel 1 (fourier_wk_to_wr 1 1 1 ex_g) (bidx w) (fidx n) r a b c d) k = - (ex_v (fidx n) * ex_v (fidx n + bidx w)).
Proof. by rewrite /fourier_r_to_k sum_cell /phase !expr1n !mul1r /chi0r_kernel !ex_wr !mxE !mulN1r mulNr. Qed.
Lemma one_orbital (x : g2n C 2 1) : let s := \sum_n x n 0 0 0 0 in 1 - s != 0 -> freq_trace 1 (bse_point x (fun _ _ _ _ _ _ => 1)) 0 0 0 0 = s / (1 - s).
Proof.
move=> s hs; set U : tensor4 C 1 := fun _ _ _ _ => 1.
have e1 (t : tensor4 C 1) : pmat t = (t 0 0 0 0)%:M.
  by apply/matrixP=> i j; rewrite !mxE !(ord1 (pfst _), ord1 (psnd _)) (ord1 i) (ord1 j) eqxx.
have e2 (t : tensor4 C 1) : tmat t = (t 0 0 0 0)%:M.
  by apply/matrixP=> i j; rewrite !mxE !(ord1 (pfst _), ord1 (psnd _)) (ord1 i) (ord1 j) eqxx.
have u : nonsingular_PH (on_diag x) (fun _ _ => U).
  apply/nonsingular_PHP; rewrite const_mat; set D := chmat PH _; rewrite mulmxA; apply: swap_unit.
  have -> : (BseProofs.Pmx C 2 1)^T *m (D *m (BseProofs.Pmx C 2 1 *m pmat U)) = pmat (fun a b c d => \sum_n x n a b c d) *m pmat U.
    by rewrite !mulmxA trace_mat; congr (_ *m _); rewrite !e1 trace_diag.
  rewrite !e1 -scalar_mxM mulr1 -raddfB /= unitmxE det_scalar1 unitfE; exact: hs.
rewrite /freq_trace expr1n divr1 (const_vertex u).
have := tmatE (rpa_point (swap_pairs U) (fun a b c d => \sum_n x n a b c d)) 0 0 0 0; rewrite tmat_rpa !e2 /swap_pairs /= => <-.
rewrite -scalar_mxM mulr1 -raddfB /= invmx_scalar -scalar_mxM mxE eqxx mulr1n mulrC; by [].
Qed.
Lemma ex_value nranks sc k (w : 'I_(2 * 2).-1) s : fair_sched nranks sc -> \sum_(n < 2 * 1) - (ex_v (fidx n) * ex_v (fidx n + bidx w)) = s -> 1 - s != 0 ->
  let R := solve_lattice_bse 1 1 1 1 wt tw_plan tw_lib nranks sc ex_g ex_gamma in R.1 k w 0 0 0 0 = s / (1 - s) + (R.2 k w 0 0 0 0 - s).
Proof.
move=> fs es hs R; have [e1 _] := @solve_lattice_bseE C 0 0 0 1 1 1 1 1 L wt tw_plan tw_lib nranks sc 2 1 ex_g ex_gamma k w 0 0 0 0 fs.
have sx : \sum_(n < 2 * 1) fourier_r_to_k 1 1 1 (fun r => chi0r_kernel 1 (fourier_wk_to_wr 1 1 1 ex_g) (bidx w) (fidx n) r 0 0 0 0) k = s.
  by rewrite -es; apply: eq_bigr => n _; exact: ex_bub.
by rewrite /R e1 {e1}; congr (_ + (_ - _)); [rewrite one_orbital sx | rewrite sx expr1n divr1].
Qed.
Theorem C112_exchange_refuted nranks sc : reversible tw_plan -> fair_sched nranks sc ->
  let R := solve_lattice_bse 1 1 1 1 wt tw_plan tw_lib nranks sc ex_g ex_gamma in
  [/\ hermitian_g ex_g, hermitian_vertex ex_gamma & R.1 0 (inord 2) 0 0 0 0 <> R.1 (- 0) (rev_ord (inord 2)) 0 0 0 0].
Proof.
move=> rv fs R; split.
- move=> n k a b; rewrite !mxE /ex_v; case: ifP; case: ifP; rewrite ?rmorphB ?rmorphD /= ?conjC1 ?conjCi ?opprK //; lia.
- by move=> *; exact: conjC1.
have p1 : 1.-primitive_root (1 : C) by apply/andP; split=> //; apply/forallP=> -[[|//] hi1] /=; rewrite unity_rootE expr1 eqxx.
have [hB _] := @C112_exchange C 0 0 0 1 L 2 1 1 1 1 1 wt tw_plan tw_lib p1 p1 p1 nranks sc ex_g ex_gamma 0 (inord 2) 0 0 0 0 rv fs.
have [w2 Ew2] : exists w : 'I_(2 * 2).-1, w = inord 2 by eexists.
have bw : bidx w2 = 1 by rewrite Ew2 /bidx inordK.
have bw' : bidx (rev_ord w2) = -1 by rewrite bidx_rev bw.
rewrite /R -Ew2 in hB *.
have hi : 'i * 'i = -1 :> C by rewrite -expr2 sqrCi.
have s1 : \sum_(n < 2 * 1) - (ex_v (fidx n) * ex_v (fidx n + bidx w2)) = - 2%:R + 2%:R * 'i :> C.
  rewrite bw big_ord_recl big_ord1 /ex_v /=; transitivity (- (1 + 1) + (1 + 1) * 'i + ('i * 'i - 'i * 'i) : C); first by fring C.
  by rewrite subrr addr0 -[1 + 1](natrD _ 1 1).
have s2 : \sum_(n < 2 * 1) - (ex_v (fidx n) * ex_v (fidx n + bidx (rev_ord w2))) = - 2%:R - 2%:R * 'i :> C.
  rewrite bw' big_ord_recl big_ord1 /ex_v /=; transitivity (- (1 + 1) - (1 + 1) * 'i + ('i * 'i - 'i * 'i) : C); first by fring C.
  by rewrite subrr addr0 -[1 + 1](natrD _ 1 1).
set s := - 2%:R + _ in s1; set s' := - 2%:R - _ in s2.
have uu : (1 - s) * (1 - s') = 13%:R.
  transitivity (9%:R - 4%:R * ('i * 'i) : C); last by rewrite hi mulrN1 opprK -natrD.
  rewrite /s /s'; set j := 'i; have -> : 9%:R = 3%:R * 3%:R :> C by rewrite -natrM.
  have -> : 4%:R = 2%:R * 2%:R :> C by rewrite -natrM.
  have -> : 3%:R = 1 + 2%:R :> C by rewrite -(natrD _ 1 2).
  fring C.
have n13 : 13%:R != 0 :> C by rewrite pnatr_eq0.
have [u u'] : 1 - s != 0 /\ 1 - s' != 0 by apply/andP; move: n13; rewrite -uu mulf_eq0 negb_or.
rewrite (ex_value _ fs s1 u) (ex_value _ fs s2 u') -hB; move: (_.2 _ _ _ _ _ _) => b e.
have e1 : s / (1 - s) * 13%:R = s * (1 - s') by rewrite -uu mulrA divfK.
have e2 : s' / (1 - s') * 13%:R = s' * (1 - s) by rewrite -uu (mulrC (1 - s)) mulrA divfK.
have e3 : s * (1 - s') + (b - s) * 13%:R = s' * (1 - s) + (b - s') * 13%:R by rewrite -e1 -e2 -!mulrDl e.
have e4 : (s - s') * 12%:R = 0.
  transitivity (s' * (1 - s) + (b - s') * 13%:R - (s * (1 - s') + (b - s) * 13%:R)); last by rewrite e3 subrr.
  by rewrite [13%:R](natrD _ 1 12) mulr1n; move: (12%:R) s s' b {uu n13 u u' e e1 e2 e3 s1 s2} => x y y' b; fring C.
have e5 : s - s' = 4%:R * 'i by rewrite /s /s' [4%:R](natrD _ 2 2); fring C.
by move/eqP: e4; rewrite e5 !mulf_eq0 (negbTE (neq0Ci C)) !pnatr_eq0.
Qed.
End ExchangeRefuted.

(* the dual equation attaches the same triangle vertex on both sides, which is right in one basis and wrong in another that differs by complex factors *)
Section DualRefuted.
Variable C : numClosedFieldType.
Local Notation K := (site 1 0 0).
Definition ph (x : C) (i : 'I_2) : C := if i == 0 then 1 else x.
Definition du_T : 'M[C]_2 := \matrix_(i, j) (ph 'i i *+ (i == j)).
Definition du_S : 'M[C]_2 := \matrix_(i, j) (ph (- 'i) i *+ (i == j)).
Definition du_h : BubbleModel.gfun C 1 0 0 2 := fun _ r => 1%:M.
Definition du_g : BubbleModel.gfun C 1 0 0 2 := fourier_wr_to_wk (-1) 1 1 du_h.
Definition du_L (v : C) : int -> int -> tensor4 C 2 := fun _ _ a b c d => if [&& a == 0, b == 0, c == 1 & d == 0] then v else 0.
Definition du_F : g2iw C (2 * 1) 2 (2 * 1).-1 := fun _ _ _ _ _ _ _ => 0.
Definition du_imp : int -> tensor4 C 2 := fun _ _ _ _ _ => 0.
Lemma sum_diag (F : 'I_2 -> C) (x : C) i : \sum_j ph x i *+ (i == j) * F j = ph x i * F i.
Proof. by rewrite (bigD1 i) //= eqxx big1 ?addr0 // => j; rewrite eq_sym => /negbTE ->; rewrite mul0r. Qed.
Lemma du_rot (X : tensor4 C 2) a b c d : rot_chi du_T du_S X a b c d = ph (- 'i) a * ph 'i b * ph (- 'i) c * ph 'i d * X a b c d.
Proof.
rewrite /rot_chi (bigD1 a) //= [X in _ + X]big1 ?addr0 => [|i /negbTE ne]; last first.
  by do 3 (rewrite big1 // => ? _); rewrite !mxE ne !mul0r.
rewrite (bigD1 b) //= [X in _ + X]big1 ?addr0 => [|i /negbTE ne]; last first.
  by do 2 (rewrite big1 // => ? _); rewrite !mxE (eq_sym b) ne mulr0 !mul0r.
rewrite (bigD1 c) //= [X in _ + X]big1 ?addr0 => [|i /negbTE ne]; last first.
  by rewrite big1 // => ? _; rewrite !mxE ne mulr0 !mul0r.
rewrite (bigD1 d) //= [X in _ + X]big1 ?addr0 => [|i /negbTE ne]; last first.
  by rewrite !mxE (eq_sym d) ne mulr0 !mul0r.
by rewrite !mxE !eqxx.
Qed.
Lemma root2 : 2.-primitive_root (-1 : C).
Proof.
have h : (-1 == 1 :> C) = false by rewrite eq_sym -subr_eq0 opprK -[1 + 1](natrD _ 1 1) pnatr_eq0.
by apply/andP; split=> //; apply/forallP=> -[[|[|//]] hi] /=; rewrite unity_rootE ?expr1 ?sqrrN ?expr1n ?eqxx ?h.
Qed.
Lemma root1 : 1.-primitive_root (1 : C).
Proof. by apply/andP; split=> //; apply/forallP=> -[[|//] hi] /=; rewrite unity_rootE expr1 eqxx. Qed.
Lemma du_wr n r : fourier_wk_to_wr (-1) 1 1 du_g n r = 1%:M.
Proof. by rewrite (wr2wkK root2 root1 root1) // pnatr_eq0. Qed.
Lemma du_value nranks sc v w : fair_sched nranks sc -> solve_lattice_dbse (-1) 1 1 1 nranks sc du_g du_F (du_L v) du_imp 0 w 0 1 1 0 = - 2%:R * v ^+ 2.
Proof.
move=> fs; rewrite dualE // addr0 scalar_product_formula /spec_scalar.
have hx n a b c d : bub_nl (nn := 1) (-1) 1 1 1 du_g w 0 n a b c d = - ((d == a)%:R * (b == c)%:R).
  rewrite /bub_nl /fourier_r_to_k (bigD1 (0 : K)) //= /chi0r_kernel /nonlocal eqxx mxE mulr0 mul0r mulr0 add0r.
  under eq_bigr => r r0 do rewrite (negbTE r0) oppr_eq0 (negbTE r0) !du_wr !mxE phase0l mul1r !mulN1r mulNr.
  by rewrite sumr_const cardC1 !card_prod !card_ord /= mulr1n.
transitivity (\sum_(n < 2 * 1) - (v ^+ 2)); last by rewrite sumr_const card_ord mulNr mulNrn -mulr_natl.
apply: eq_bigr => n _; rewrite !sum2 /du_L /= !(mul0r, add0r, addr0, mulr0).
have bz n' a b c d : bse_point (bub_nl (nn := 1) (-1) 1 1 1 du_g w 0) (du_F w) n n' a b c d = if n == n' then - ((d == a)%:R * (b == c)%:R) else 0.
  by rewrite (bse_zero _ (G := du_F w)) // /on_diag; case: eqP => // _; rewrite hx.
rewrite !bz !eqxx mulr1; case: n {bz} => [[|[|//]] hn] /=; by rewrite ?mulr0 ?mul0r ?addr0 ?add0r mulrN1 mulNr expr2.
Qed.
Theorem C112_dual_refuted nranks sc w : fair_sched nranks sc ->
  [/\ du_T *m du_S = 1%:M, forall n k, du_g n k = rot_g du_T du_S (du_g n k), forall w n n' a b c d, du_F w n n' a b c d = rot_chi du_T du_S (du_F w n n') a b c d,
    forall w n a b c d, du_L (- 'i) w n a b c d = rot_chi du_T du_S (du_L 1 w n) a b c d & (forall w a b c d, du_imp w a b c d = rot_chi du_T du_S (du_imp w) a b c d)] /\
  solve_lattice_dbse (-1) 1 1 1 nranks sc du_g du_F (du_L (- 'i)) du_imp 0 w 0 1 1 0 <>
  rot_chi du_T du_S (solve_lattice_dbse (-1) 1 1 1 nranks sc du_g du_F (du_L 1) du_imp 0 w) 0 1 1 0.
Proof.
move=> fs; have hi : 'i * - 'i = 1 :> C by rewrite mulrN -expr2 sqrCi opprK.
have TS : du_T *m du_S = 1%:M.
  apply/matrixP=> i j; rewrite !mxE; under eq_bigr do rewrite !mxE.
  by rewrite sum_diag mulrnAr /ph; case: eqP => _; rewrite ?mulr1 ?hi.
split.
  split=> //.
  - move=> n k; rewrite rot_gE; have [c ->] : exists c, du_g n k = c%:M; last by rewrite mul_mx_scalar -scalemxAl TS scalemx1.
    exists (fourier_r_to_k (-1) 1 1 (fun r : K => 1) k); apply/matrixP=> i j; rewrite [LHS]mxE [RHS]mxE /fourier_r_to_k.
    under eq_bigr do rewrite [du_h _ _ _ _]mxE; case: (i == j) => //=; by rewrite mulr0n big1 // => r _; rewrite mulr0.
  - by move=> *; rewrite du_rot mulr0.
  - by move=> ? ? a b c d; rewrite du_rot /du_L; case: ifP => [/and4P [/eqP -> /eqP -> /eqP -> /eqP ->]|_]; rewrite ?mulr0 //= /ph /= !(mul1r, mulr1).
  - by move=> *; rewrite du_rot mulr0.
rewrite du_rot !du_value // expr1n mulr1 sqrrN sqrCi /ph /= mul1r mulr1 hi mul1r mulrN1 opprK => /eqP.
by rewrite -subr_eq0 opprK -natrD pnatr_eq0.
Qed.
End DualRefuted.

(* a chain of three sites whose two orbitals are exchanged by inversion, with levels that are not even in the momentum *)
Section Case.
Variables (C : numClosedFieldType) (z : C).
Hypothesis zP : 3.-primitive_root z.
Local Notation K := (site 2 0 0).
Let s : 'S_2 := tperm 0 1.
Let T : 'M[C]_2 := perm_mx s.
Let S : 'M[C]_2 := perm_mx s^-1%g.
Let inv (k : K) : K := - k.
Let level (k : K) : C := 'i * (phase z 1 1 k (1, 0, 0) - phase z 1 1 (- k) (1, 0, 0)).
Let g : BubbleModel.gfun C 2 0 0 2 := fun n k => ex_v C n *: \matrix_(a, b) ((1 + (if a == 0 then level k else level (- k))) *+ (a == b)).
Let gamma : g2iw C (2 * 2) 2 (2 * 2).-1 := fun _ _ _ a b c d => ((a == b) && (c == d))%:R.
Let wt (f : int -> 'M[C]_2) (_ : 'I_2) : 'M[C]_2 := f 0 + f (-1).
Let tw (x : 'I_2 -> C) (_ : int) : C := x ord0 + x ord_max.
Let sc : schedules := fun _ F r => mpi_view (enum F) 2 r.
Theorem C112_case : [/\ GwSymThms.lattice_symmetry z 1 1 inv inv, T *m S = 1%:M /\ S = T^T, linear_transforms wt tw T S /\ fair_sched 2 sc,
    (forall n k, g n k = rot_g T S (g n (inv k))) /\ (forall w n n' a b c d, gamma w n n' a b c d = rot_chi T S (gamma w n n') a b c d) &
    [/\ hermitian_transforms wt tw, hermitian_g g, hermitian_vertex gamma, reversible tw & forall w, exchange_vertex gamma w]] /\
  [/\ g 0 (1, 0, 0) <> g 0 (- (1, 0, 0)), g 0 0 <> g (-1) 0 & gamma 0 0 0 0 0 0 0 <> 0].
Proof.
have p1 : 1.-primitive_root (1 : C) by apply/andP; split=> //; apply/forallP=> -[[|//] hi1] /=; rewrite unity_rootE expr1 eqxx.
have rc (k : K) : (level k)^* = level k.
  rewrite /level rmorphM rmorphB conjCi /= !(ph_conj zP p1 p1) (phase_oppl zP p1 p1) invrK; set x := phase _ _ _ _ _; by rewrite -[x^-1 - x]opprB mulrNN.
have ok (k : K) : level (- k) = - level k by rewrite /level opprK -[_ - _ in LHS]opprB mulrN.
have vc n : (ex_v C n)^* = ex_v C (- n - 1).
  rewrite /ex_v (_ : (0 <= - n - 1)%R = ~~ (0 <= n)%R); last by lia.
  by case: (0 <= n)%R; rewrite /= ?rmorphB ?rmorphD rmorph1 /= conjCi ?opprK.
have sE (i : 'I_2) : (s i == 0) = (i != 0) by case: i => -[|[|//]] hi; rewrite /s permE /= -!val_eqE.
split.
  split.
  - exact: GwSymThms.C103_inversion.
  - by split; [exact: perm_inv | rewrite /S /T tr_perm_mx].
  - split; last by move=> i F; exact: fair_all_inorder.
    split=> [n|f f' t h]; first by split=> [x y h|c x y]; rewrite /tw ?h // mulrDr addrACA.
    by rewrite /wt !h !rot_gE mulmxDr mulmxDl.
  - split=> [n k|w n n' a b c d]; last by rewrite perm_chi /gamma !(inj_eq perm_inj).
    apply/matrixP=> i j; rewrite perm_rot !mxE /inv opprK (inj_eq perm_inj) sE; by case: (i == 0).
  split.
  - split=> [x y h n|f f' t h|x n]; rewrite /tw ?h //; last by rewrite rmorphD.
    rewrite /wt !h; apply/matrixP=> a b; rewrite !mxE rmorphD addrC; congr (_ + _).
  - move=> n k a b; rewrite !mxE rmorphM vc; congr (_ * _); have [->|_] := eqVneq b a; last by rewrite !mulr0n rmorph0.
    by rewrite !mulr1n rmorphD rmorph1; congr (1 + _); case: (a == 0); rewrite rc.
  - by move=> w n n' a b c d; rewrite /gamma rmorph_nat andbC (eq_sym d) (eq_sym b).
  - by split=> [x y h n|x n]; rewrite /tw ?h // addrC; congr (x _ + x _); apply: val_inj.
  - by move=> w n n' a b c d; rewrite /gamma andbC.
have ni : 1 - 'i != 0 :> C.
  rewrite subr_eq0; apply/eqP=> e; have := sqrCi C; rewrite -e expr1n => /eqP; by rewrite -subr_eq0 opprK -(natrD _ 1 1) pnatr_eq0.
split.
- move/matrixP/(_ 0 0); rewrite !mxE /= !mulr1n ok; move/(mulfI ni)/addrI/eqP; rewrite -subr_eq0 opprK -mulr2n mulrn_eq0 /= /level mulf_eq0 (negbTE (neq0Ci C)) /= subr_eq0.
  by rewrite /phase /= !muln0 !expr0 !mulr1 (eq_prim_root_expr zP).
- move/matrixP/(_ 0 0); rewrite !mxE /= !mulr1n /level oppr0 subrr mulr0 addr0 !mulr1 /ex_v /= => /addrI/eqP; rewrite -subr_eq0 -opprD oppr_eq0 -mulr2n mulrn_eq0 /=.
  by rewrite (negbTE (neq0Ci C)).
by rewrite /gamma eqxx; apply/eqP; exact: oner_neq0.
Qed.
End Case.
Print Assumptions C112_bse.
Print Assumptions C112_vertex.
Print Assumptions C112_dual.
Print Assumptions C112_hermitian.
Print Assumptions C112_exchange.
Print Assumptions C112_exchange_refuted.
Print Assumptions C112_dual_refuted.
Print Assumptions C112_case.
