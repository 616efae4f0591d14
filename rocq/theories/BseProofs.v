From mathcomp Require Import all_ssreflect all_algebra zify.
From Verif Require Import Base LinalgModel LinalgSpec LinalgProofs MatAlg MpiModel MpiProofs MpiSpec.
From Verif Require Import FourierModel FourierProofs BubbleModel BubbleSpec BubbleProofs ImtimeModel.
From Verif Require Import RpaModel RpaSpec RpaProofs BseModel BseSpec.
Set Implicit Arguments.
Unset Strict Implicit.
Unset Printing Implicit Defensive.
Import GRing.Theory.
Local Open Scope ring_scope.

Section Point.
Variables (F : fieldType) (nn nb : nat).
Local Notation g2 := (g2nn F nn nb).
Local Notation g1 := (g2n F nn nb).
Local Notation "A =t B" := (eq_g2 A B) (at level 70).
Local Notation cm := (@chmat F nn nb PH).

Lemma spec_prod_mat (A B : g2) : cm (spec_prod_PH A B) = cm A *m cm B.
Proof. by rewrite -product_mat; apply/(chmat_inj PH) => n n' a b c d; rewrite product_PH_formula. Qed.
Lemma spec_id_mat : cm (@spec_id_PH F nn nb) = 1%:M.
Proof.
rewrite -(@identity_mat F nn nb PH); apply/(chmat_inj PH) => n n' a b c d.
by rewrite (@identity_PH_formula F nn nb).
Qed.
Lemma cm_sub (A B : g2) : cm (fun n n' a b c d => A n n' a b c d - B n n' a b c d) = cm A - cm B.
Proof. by apply/matrixP=> i j; rewrite !mxE. Qed.
Lemma cm_add (A B : g2) : cm (fun n n' a b c d => A n n' a b c d + B n n' a b c d) = cm A + cm B.
Proof. by apply/matrixP=> i j; rewrite !mxE. Qed.

Lemma invertibleP (A : g2) : invertible_PH A <-> cm A \in unitmx.
Proof.
split.
  by case=> B /(chmat_inj PH); rewrite spec_prod_mat spec_id_mat; apply: unitmx_left.
move=> u; exists (chten PH (invmx (cm A))); apply/(chmat_inj PH).
by rewrite spec_prod_mat spec_id_mat chtenK mulVmx.
Qed.
Lemma nonsingular_PHP (A G : g2) : nonsingular_PH A G <-> 1%:M - cm A *m cm G \in unitmx.
Proof.
rewrite /nonsingular_PH; set D := (fun n n' a b c d => _).
have e : cm D = 1%:M - cm A *m cm G by rewrite cm_sub spec_id_mat spec_prod_mat.
by rewrite -e; apply: invertibleP.
Qed.

Lemma set_diagE (A : g2) (x : g1) m m' : set_diag A x m m' = if m == m' then x m else A m m'.
Proof.
rewrite /set_diag.
have gen (s : seq 'I_nn) B : foldl (fun A n => fun m m' => if (m == n) && (m' == n) then x n else A m m') B s m m'
    = if (m == m') && (m \in s) then x m else B m m'.
  elim: s B => [|k s IH] B /=; first by rewrite andbF.
  rewrite IH in_cons; case: (altP (m =P m')) => [<-|ne] /=.
    by case: (altP (m =P k)) => [<-|_] /=; rewrite ?if_same.
  by case: (altP (m =P k)) => //= <-; rewrite eq_sym (negbTE ne).
by rewrite gen mem_index_enum andbT.
Qed.
Lemma set_diag0 (x : g1) : set_diag (@g2_zero F nn nb) x =t on_diag x.
Proof. by move=> n n' a b c d; rewrite set_diagE /on_diag; case: eqP. Qed.
(* the diagonal is overwritten and nothing else is touched: re-using the array is invisible *)
Lemma set_diag_twice (A : g2) (x y : g1) n n' : set_diag (set_diag A x) y n n' = set_diag A y n n'.
Proof. by rewrite !set_diagE; case: eqP. Qed.

Lemma bse_with_mat (D G : g2) : cm (bse_with D G) = invmx (1%:M - cm D *m cm G) *m cm D.
Proof. by rewrite product_mat inverse_mat cm_sub identity_mat product_mat. Qed.
Lemma bse_with_ext (D D' G G' : g2) : D =t D' -> G =t G' -> bse_with D G =t bse_with D' G'.
Proof.
move=> /(chmat_inj PH) h /(chmat_inj PH) h'; apply/(chmat_inj PH).
by rewrite !bse_with_mat h h'.
Qed.
Lemma bse_point_mat (x : g1) (G : g2) :
  cm (bse_point x G) = invmx (1%:M - cm (on_diag x) *m cm G) *m cm (on_diag x).
Proof.
have e : cm (set_diag (@g2_zero F nn nb) x) = cm (on_diag x) by apply/(chmat_inj PH)/set_diag0.
by rewrite bse_with_mat e.
Qed.

Lemma bse_solves (x : g1) (G : g2) : nonsingular_PH (on_diag x) G -> bse_equation (on_diag x) G (bse_point x G).
Proof.
move/nonsingular_PHP => u; apply/(chmat_inj PH).
by rewrite cm_add !spec_prod_mat bse_point_mat mulmxA; apply: dyson_solution.
Qed.
Lemma bse_unique (x : g1) (G chi : g2) : nonsingular_PH (on_diag x) G -> bse_equation (on_diag x) G chi ->
  chi =t bse_point x G.
Proof.
move/nonsingular_PHP => u /(chmat_inj PH); rewrite cm_add !spec_prod_mat mulmxA => h.
by apply/(chmat_inj PH); rewrite bse_point_mat; apply: dyson_unique.
Qed.

Lemma trace_nnE beta (chi : g2) a b c d : trace_nn beta chi a b c d = freq_trace beta chi a b c d.
Proof.
rewrite /trace_nn /freq_trace expr2; congr (_ / _).
have gen s (acc : F) : foldl (fun acc n1 => foldl (fun acc n2 => acc + chi n1 n2 a b c d) acc (index_enum _)) acc s
   = acc + \sum_(n <- s) \sum_n' chi n n' a b c d.
  elim: s acc => [|n s IH] acc /=; first by rewrite big_nil addr0.
  by rewrite IH big_cons foldl_add addrA.
by rewrite gen add0r.
Qed.

(* ---- local equation ---- *)
Lemma local_identity (A X : 'M[F]_(nn * nb * nb)) : A \in unitmx -> X \in unitmx ->
  invmx (1%:M - A *m (invmx A - invmx X)) *m A = X.
Proof.
move=> uA uX.
have -> : 1%:M - A *m (invmx A - invmx X) = A *m invmx X.
  by rewrite mulmxBr mulmxV // opprB addrC subrK.
by rewrite invmx_mul ?unitmx_inv // invmxK mulmxKV.
Qed.
Lemma local_converse (A G : 'M[F]_(nn * nb * nb)) : A \in unitmx -> 1%:M - A *m G \in unitmx ->
  invmx A - invmx (invmx (1%:M - A *m G) *m A) = G.
Proof.
move=> uA u; rewrite invmx_mul ?unitmx_inv // invmxK mulmxBr mulmx1 mulmxA mulVmx // mul1mx.
by rewrite opprB addrC subrK.
Qed.
Lemma local_nonsingular (A X : 'M[F]_(nn * nb * nb)) : A \in unitmx -> X \in unitmx ->
  1%:M - A *m (invmx A - invmx X) \in unitmx.
Proof.
move=> uA uX.
have -> : 1%:M - A *m (invmx A - invmx X) = A *m invmx X.
  by rewrite mulmxBr mulmxV // opprB addrC subrK.
by rewrite unitmx_mul uA unitmx_inv.
Qed.

Lemma diag_of (A : g2) : freq_diagonal A -> on_diag (fun n => A n n) =t A.
Proof. by move=> h n n' a b c d; rewrite /on_diag; case: (altP (n =P n')) => [<-|ne] //; rewrite h. Qed.

(* ---- dual equation ---- *)
Lemma dual_identity (A X T : 'M[F]_(nn * nb * nb)) : A \in unitmx -> X \in unitmx ->
  let G := invmx A - invmx X in let R := invmx A *m ((X - A) *m invmx A) in
  (1%:M - (A + T) *m G \in unitmx) = (1%:M - T *m R \in unitmx) /\
  (1%:M - (A + T) *m G \in unitmx ->
  invmx (1%:M - (A + T) *m G) *m (A + T) =
  X + X *m invmx A *m (invmx (1%:M - T *m R) *m T) *m (invmx A *m X)).
Proof.
move=> uA uX G R.
have eF : R *m A *m invmx X = G.
  by rewrite /R /G mulmxA mulmxKV // -mulmxA mulmxBl mulmxV // mulmxBr mulmx1 mulmxA mulVmx // mul1mx.
have eG : 1%:M - A *m G = A *m invmx X by rewrite /G mulmxBr mulmxV // opprB addrC subrK.
have hRA : R *m A + 1%:M = invmx A *m X.
  by rewrite /R -!mulmxA mulVmx // mulmx1 mulmxBr mulVmx // subrK.
clearbody G R.
have e : 1%:M - (A + T) *m G = (1%:M - T *m R) *m (A *m invmx X).
  by rewrite mulmxBl mul1mx -!mulmxA (mulmxA R) eF mulmxDl opprD addrA eG.
have uAX : A *m invmx X \in unitmx by rewrite unitmx_mul uA unitmx_inv.
have e1 : (1%:M - (A + T) *m G \in unitmx) = (1%:M - T *m R \in unitmx) by rewrite e unitmx_mul uAX andbT.
split=> // u; rewrite e1 in u; rewrite e invmx_mul // (invmx_mul uA) ?unitmx_inv // invmxK.
set Y := invmx (1%:M - T *m R).
have hY : Y = 1%:M + Y *m (T *m R).
  by apply/eqP; rewrite -subr_eq -{1}[Y]mulmx1 -mulmxBr mulVmx.
have hYA : Y *m A = A + Y *m T *m (R *m A) by rewrite {1}hY mulmxDl mul1mx !mulmxA.
rewrite -hRA [RHS]addrC -mulmxA (mulmxDr Y) hYA.
rewrite (mulmxDr (X *m invmx A)) (mulmxDr (X *m invmx A)) mulmxKV //.
rewrite (mulmxDr (X *m invmx A *m (Y *m T))) mulmx1 !mulmxA.
by rewrite [RHS]addrC addrA.
Qed.

(* ---- summing over fermionic frequencies ---- *)
Definition Pmx : 'M[F]_(nn * nb * nb, nb * nb) := \matrix_(i, j) (pidx (tx i) (ty i) == j)%:R.
(* a rank-four tensor in the particle-hole pairing: rows (a,b), columns (d,c) *)
Definition pmat (t : tensor4 F nb) : 'M[F]_(nb * nb) := \matrix_(i, j) t (pfst i) (psnd i) (psnd j) (pfst j).
Lemma pmatE t a b c d : pmat t (pidx a b) (pidx d c) = t a b c d.
Proof. by rewrite mxE !pidxK1 !pidxK2. Qed.
Lemma pmat_tmat t : pmat t = tmat t *m Smx F nb.
Proof. by rewrite Smx_r; apply/matrixP=> i j; rewrite !mxE. Qed.
Lemma mulPr p (M : 'M[F]_(p, nn * nb * nb)) i x y :
  (M *m Pmx) i (pidx x y) = \sum_n M i (tidx n x y).
Proof.
rewrite mxE sum_tidx; apply: eq_bigr => n _.
rewrite (bigD1 x) //= (bigD1 y) //= big1 ?addr0 => [|y' ne]; last first.
  by rewrite !mxE !tidxE pidx_eq (negbTE ne) andbF mulr0.
rewrite big1 ?addr0 => [|x' ne]; first by rewrite !mxE !tidxE eqxx mulr1.
by rewrite big1 // => y' _; rewrite !mxE !tidxE pidx_eq (negbTE ne) mulr0.
Qed.
Lemma mulPl p (M : 'M[F]_(nn * nb * nb, p)) j x y :
  (Pmx^T *m M) (pidx x y) j = \sum_n M (tidx n x y) j.
Proof.
rewrite mxE sum_tidx; apply: eq_bigr => n _.
rewrite (bigD1 x) //= (bigD1 y) //= big1 ?addr0 => [|y' ne]; last first.
  by rewrite !mxE !tidxE pidx_eq (negbTE ne) andbF mul0r.
rewrite big1 ?addr0 => [|x' ne]; first by rewrite !mxE !tidxE eqxx mul1r.
by rewrite big1 // => y' _; rewrite !mxE !tidxE pidx_eq (negbTE ne) mul0r.
Qed.
Lemma trace_mat (chi : g2) : Pmx^T *m cm chi *m Pmx = pmat (fun a b c d => \sum_n \sum_n' chi n n' a b c d).
Proof.
apply/matrixP=> i j; rewrite -(pidx_eta i) -(pidx_eta j) mulPr pmatE.
rewrite [RHS]exchange_big; apply: eq_bigr => n' _; rewrite mulPl; apply: eq_bigr => n _.
by rewrite mxE !tidxE.
Qed.
Lemma const_mat (U : tensor4 F nb) : cm (fun _ _ => U) = Pmx *m pmat U *m Pmx^T.
Proof.
apply/matrixP=> i j; rewrite -(tidx_eta i) -(tidx_eta j).
set x := tx i; set y := ty i; set x' := tx j; set y' := ty j; set n := tnu i; set n' := tnu j.
have P1 p (M : 'M[F]_(nb * nb, p)) k : (Pmx *m M) (tidx n x y) k = M (pidx x y) k.
  rewrite mxE (bigD1 (pidx x y)) //= big1 ?addr0 => [|l ne].
    by rewrite mxE !tidxE eqxx mul1r.
  by rewrite mxE !tidxE eq_sym (negbTE ne) mul0r.
have P2 (M : 'M[F]_(nn * nb * nb, nb * nb)) k : (M *m Pmx^T) k (tidx n' x' y') = M k (pidx x' y').
  rewrite mxE (bigD1 (pidx x' y')) //= big1 ?addr0 => [|l ne].
    by rewrite !mxE !tidxE eqxx mulr1.
  by rewrite !mxE !tidxE eq_sym (negbTE ne) mulr0.
by rewrite P2 P1 pmatE mxE !tidxE.
Qed.
Lemma trace_diag (x : g1) a b c d :
  \sum_n \sum_n' on_diag x n n' a b c d = \sum_n x n a b c d.
Proof.
apply: eq_bigr => n _; rewrite (bigD1 n) //= big1 ?addr0 /on_diag ?eqxx // => m ne.
by rewrite eq_sym (negbTE ne).
Qed.

(* constant vertex: the frequency sums obey the RPA equation *)
Lemma const_vertex (x : g1) (U : tensor4 F nb) :
  let S : tensor4 F nb := fun a b c d => \sum_n x n a b c d in
  nonsingular_PH (on_diag x) (fun _ _ => U) ->
  forall a b c d, \sum_n \sum_n' bse_point x (fun _ _ => U) n n' a b c d = rpa_point (swap_pairs U) S a b c d.
Proof.
move=> S /nonsingular_PHP u.
pose LHS : tensor4 F nb := fun a b c d => \sum_n \sum_n' bse_point x (fun _ _ => U) n n' a b c d.
change (eq_t4 LHS (rpa_point (swap_pairs U) S)); apply/eq_tmat.
have SK : Smx F nb *m Smx F nb = 1%:M := SmxK F nb.
suff e : pmat LHS = tmat (rpa_point (swap_pairs U) S) *m Smx F nb.
  by rewrite -[X in X = _]mulmx1 -SK mulmxA -pmat_tmat e -mulmxA SK mulmx1.
rewrite -trace_mat bse_point_mat tmat_rpa.
rewrite const_mat in u *; set D := cm (on_diag x) in u *.
set A := D *m Pmx *m pmat U; have eA : D *m (Pmx *m pmat U *m Pmx^T) = A *m Pmx^T by rewrite /A !mulmxA.
rewrite eA in u *; rewrite mulmxA -(push_through (swap_unit u)).
have hS : Pmx^T *m D *m Pmx = pmat S.
  by rewrite trace_mat; apply/matrixP=> i j; rewrite !mxE trace_diag.
have hA : Pmx^T *m A = pmat S *m pmat U by rewrite -hS /A !mulmxA.
rewrite hA -!mulmxA (mulmxA Pmx^T) hS.
by rewrite !pmat_tmat !mulmxA -(Smx_conj U) !mulmxA.
Qed.
End Point.

(* every distributed loop of a composite routine is a run *)
Definition fair_sched nranks (sc : schedules) := forall i (T : finType), fair_all nranks (sc i T).

Section Lattice.
Variables (C : fieldType) (n1 n2 n3 nb : nat) (z1 z2 z3 : C) (beta : C).
Local Notation K := (site n1 n2 n3).
Local Notation t4 := (tensor4 C nb).
Local Notation gfun := (gfun C n1 n2 n3 nb).
Local Notation "A =t B" := (eq_g2 A B) (at level 70).

Lemma get_chi0_wnkE nranks sc nw nn (g : gfun) w n k a b c d : fair_sched nranks sc ->
  get_chi0_wnk z1 z2 z3 beta nranks sc (nw := nw) (nn := nn) g w n k a b c d =
  fourier_r_to_k z1 z2 z3 (fun r => chi0r_kernel beta (fourier_wk_to_wr z1 z2 z3 g) (bidx w) (fidx n) r a b c d) k.
Proof.
move=> fs; rewrite /get_chi0_wnk /chi0q_from_chi0r fair_all_map //=.
by apply: r2k_ext => r; rewrite /chi0r_from_gr_PH fair_all_map.
Qed.
Lemma get_chi0_nkE nranks sc i nn (g : gfun) n k a b c d : fair_sched nranks sc ->
  get_chi0_nk_at_specific_w z1 z2 z3 beta nranks sc i (nn := nn) g n k a b c d =
  fourier_r_to_k z1 z2 z3 (fun r => chi0r_kernel beta (fourier_wk_to_wr z1 z2 z3 g) i (fidx n) r a b c d) k.
Proof.
move=> fs; rewrite /get_chi0_nk_at_specific_w /chi0q_from_chi0r fair_all_map //=.
by apply: r2k_ext => r; rewrite /add_fake_bosonic_mesh /chi0_nr_from_gr_PH_at_specific_w fair_all_map.
Qed.
Lemma chi0q_sum_nuE nw nn nranks sched (chi : chi_wn C n1 n2 n3 nb nw nn) w k a b c d : fair_all nranks sched ->
  chi0q_sum_nu beta nranks sched chi w k a b c d = (\sum_n chi w n k a b c d) / beta ^+ 2.
Proof. by move=> fs; rewrite /chi0q_sum_nu fair_all_map //= foldl_add add0r expr2. Qed.
Lemma chiq_sum_nuE nw nn nranks sched (chi0 : chi_wn C n1 n2 n3 nb nw nn) (gamma : g2iw C (2 * nn) nb (2 * nw).-1) k w a b c d :
  fair_all nranks sched ->
  chiq_sum_nu_from_chi0q_and_gamma_PH beta nranks sched chi0 gamma k w a b c d =
  freq_trace beta (bse_point (slice_wk chi0 w k) (gamma w)) a b c d.
Proof. by move=> fs; rewrite /chiq_sum_nu_from_chi0q_and_gamma_PH fair_all_map //= trace_nnE. Qed.

Lemma bse_point_ext nn (x x' : g2n C nn nb) (G G' : g2nn C nn nb) :
  (forall n a b c d, x n a b c d = x' n a b c d) -> G =t G' -> bse_point x G =t bse_point x' G'.
Proof.
move=> hx hG; apply: bse_with_ext => // n n' a b c d; rewrite !set_diagE; case: eqP => // _.
Qed.
Lemma freq_trace_ext nn (X Y : g2nn C nn nb) a b c d : X =t Y -> freq_trace beta X a b c d = freq_trace beta Y a b c d.
Proof. by move=> h; rewrite /freq_trace; congr (_ / _); do 2 (apply: eq_bigr => ? _); rewrite h. Qed.

Lemma bse_zero nn (x : g2n C nn nb) (G : g2nn C nn nb) : G =t @g2_zero C nn nb -> bse_point x G =t on_diag x.
Proof.
move=> /(chmat_inj PH) h; apply/(chmat_inj PH); rewrite bse_point_mat h.
have -> : chmat PH (@g2_zero C nn nb) = 0 by apply/matrixP=> i j; rewrite !mxE.
by rewrite mulmx0 subr0 invmx1 mul1mx.
Qed.
Lemma freq_trace_diag nn (x : g2n C nn nb) a b c d :
  freq_trace beta (on_diag x) a b c d = (\sum_n x n a b c d) / beta ^+ 2.
Proof. by rewrite /freq_trace trace_diag. Qed.

(* ---- stateful loop of the tail-corrected routine ---- *)
Section Tail.
Variables (nw nn ntail : nat) (density : ('I_(2 * ntail) -> C) -> C) (bub : int -> K -> int -> t4).
Local Notation W := 'I_(2 * nw).-1.
Variable gamma : g2iw C (2 * nn) nb (2 * nw).-1.
Definition off_zero (A : g2nn C (2 * nn) nb) := forall n n' a b c d, n != n' -> A n n' a b c d = 0.
Definition tail_value (k : K) (w : W) (a b c d : 'I_nb) : C :=
  let x : g2n C (2 * nn) nb := fun n => bub (bidx w) k (fidx n) in
  freq_trace beta (bse_point x (gamma w)) a b c d
  + (density (fun n => bub (bidx w) k (fidx n) a b c d) / beta - (\sum_n x n a b c d) / beta ^+ 2).
Lemma tail_pointE A k w a b c d : off_zero A ->
  tail_point beta density bub A gamma k w a b c d = tail_value k w a b c d.
Proof.
move=> hA; rewrite /tail_point /tail_value trace_nnE foldl_add add0r expr2; congr (_ + _).
apply: freq_trace_ext; apply: bse_with_ext => // n n' a' b' c' d'.
by rewrite !set_diagE; case: (altP (n =P n')) => // ne; rewrite hA.
Qed.
Lemma tail_loop s (st : g2nn C (2 * nn) nb * (K * W -> t4)) q a b c d : off_zero st.1 ->
  (foldl (tail_step beta density bub gamma) st s).2 q a b c d =
  if q \in s then tail_value q.1 q.2 a b c d else st.2 q a b c d.
Proof.
elim: s st => [//|p s IH] [A R] /= hA; rewrite IH /=; last first.
  by move=> n n' a' b' c' d' ne; rewrite set_diagE (negbTE ne) hA.
rewrite in_cons; case: ifP => _; rewrite ?orbT // orbF.
by case: (altP (q =P p)) => [->|//]; rewrite tail_pointE.
Qed.
Lemma chiq_tailE nranks k w a b c d R : (0 < nranks)%N ->
  chiq_sum_nu_tail beta density bub nranks gamma = Some R -> R k w a b c d = tail_value k w a b c d.
Proof.
move=> n0; rewrite /chiq_sum_nu_tail; case: ifP => // _ [<-].
under eq_bigr do rewrite tail_loop //.
have := @mpi_map_correct [finType of K * W] C (enum [finType of K * W]) nranks
  (mpi_view (enum [finType of K * W]) nranks) (fun q => tail_value q.1 q.2 a b c d) n0 (enum_uniq _)
  (fun r _ => perm_refl _) (k, w).
rewrite mem_enum inE /= => e; rewrite -[RHS]e /mpi_map /all_reduce; apply: eq_bigr => r _; by rewrite fillE.
Qed.
End Tail.

(* ---- imaginary-time bubble ---- *)
Section Imt.
Variables (L : nat) (wt : (int -> 'M[C]_nb) -> 'I_L.+1 -> 'M[C]_nb) (tw_plan tw_lib : ('I_L.+1 -> C) -> int -> C).
Definition ext_transform (tw : ('I_L.+1 -> C) -> int -> C) := forall x y, x =1 y -> tw x =1 tw y.
Hypothesis plan_ext : ext_transform tw_plan.
Hypothesis lib_ext : ext_transform tw_lib.

(* chi0(tau, r) of the Green's function *)
Definition chi0_tau (g : gfun) (r : K) (a b c d : 'I_nb) (t : 'I_L.+1) : C :=
  let g_wr := fourier_wk_to_wr z1 z2 z3 g in
  wt (fun n => g_wr n r) t d a * wt (fun n => g_wr n (- r)) (rev_ord t) b c.

Lemma trapz_ext (x y : 'I_L.+1 -> C) : x =1 y -> trapz beta x = trapz beta y.
Proof.
by move=> h; rewrite /trapz !foldl_add !h; congr ((_ - _ - _) * _); congr (_ + _); apply: eq_bigr => ? _.
Qed.
Lemma grtE nranks sched (g : gfun) t r i j : fair_all nranks sched ->
  fourier_wr_to_tr wt nranks sched g t r i j = wt (fun n => g n r) t i j.
Proof. by move=> fs; rewrite mxE fair_all_map. Qed.

Lemma imtimeE nranks sc nw sm (g : gfun) w q a b c d : fair_sched nranks sc ->
  imtime_bubble_chi0_wk z1 z2 z3 beta wt tw_plan tw_lib nranks sc (nw := nw) sm g w q a b c d =
  fourier_r_to_k z1 z2 z3 (fun r =>
    if nw == 1%N then trapz beta (chi0_tau g r a b c d)
    else if sm then tw_lib (chi0_tau g r a b c d) (bidx w) else tw_plan (chi0_tau g r a b c d) (bidx w)) q.
Proof.
move=> fs; rewrite /imtime_bubble_chi0_wk /chi_wk_from_chi_wr fair_all_map //; apply: r2k_ext => r.
have hk r0 t0 : chi0_t_kernel
   (fourier_wr_to_tr wt nranks (sc 0%N [finType of K]) (fourier_wk_to_wr z1 z2 z3 g)) r0 t0 a b c d
   = chi0_tau g r0 a b c d t0.
  by rewrite /chi0_t_kernel !grtE.
case: ifP => _; first by rewrite /chi0_w0r_from_grt_PH fair_all_map //; apply: trapz_ext => t; rewrite hk.
case: sm; first by rewrite /chi0_wr_from_grt_PH fair_all_map //; apply: lib_ext => t; rewrite hk.
rewrite /chi_wr_from_chi_tr fair_all_map //; apply: plan_ext => t.
by rewrite /chi0_tr_from_grt_PH fair_all_map.
Qed.

Lemma solve_lattice_bseE nranks sc nw nn (g : gfun) (gamma : g2iw C (2 * nn) nb (2 * nw).-1) k w a b c d :
  fair_sched nranks sc ->
  let x : g2n C (2 * nn) nb := fun n a b c d =>
    fourier_r_to_k z1 z2 z3 (fun r => chi0r_kernel beta (fourier_wk_to_wr z1 z2 z3 g) (bidx w) (fidx n) r a b c d) k in
  let B := imtime_bubble_chi0_wk z1 z2 z3 beta wt tw_plan tw_lib nranks sc (nw := nw) false g in
  let R := solve_lattice_bse z1 z2 z3 beta wt tw_plan tw_lib nranks sc (nn := nn) g gamma in
  R.1 k w a b c d = freq_trace beta (bse_point x (gamma w)) a b c d + (B w k a b c d - (\sum_n x n a b c d) / beta ^+ 2) /\
  R.2 k w a b c d = B w k a b c d.
Proof.
move=> fs x B R; split=> //; rewrite /R /solve_lattice_bse -/B /=.
rewrite chiq_sum_nuE // chi0q_sum_nuE //; congr (_ + (_ - _ / _)).
  by apply: freq_trace_ext; apply: bse_point_ext => // n a' b' c' d'; rewrite /slice_wk get_chi0_wnkE.
by apply: eq_bigr => n _; rewrite get_chi0_wnkE.
Qed.

Lemma bidx_bpos i : bidx (bpos i) = i.
Proof.
by rewrite /bidx /bpos /=; lia.
Qed.
Lemma specific_wE nranks sc nw nn (g : gfun) (gamma : g2iw C (2 * nn) nb (2 * nw).-1) (w : 'I_(2 * nw).-1) k a b c d :
  fair_sched nranks sc ->
  let x : g2n C (2 * nn) nb := fun n a b c d =>
    fourier_r_to_k z1 z2 z3 (fun r => chi0r_kernel beta (fourier_wk_to_wr z1 z2 z3 g) (bidx w) (fidx n) r a b c d) k in
  let B := fourier_r_to_k z1 z2 z3 (fun r =>
    if bidx w == 0 then trapz beta (chi0_tau g r a b c d) else tw_lib (chi0_tau g r a b c d) (bidx w)) k in
  let R := solve_lattice_bse_at_specific_w z1 z2 z3 beta wt tw_plan tw_lib nranks sc g gamma w in
  R.1 k a b c d = freq_trace beta (bse_point x (gamma w)) a b c d + (B - (\sum_n x n a b c d) / beta ^+ 2) /\
  R.2 k a b c d = B.
Proof.
move=> fs x B R.
have eB : imtime_bubble_chi0_wk z1 z2 z3 beta wt tw_plan tw_lib nranks sc (nw := (absz (bidx w)).+1) true g
  (bpos (bidx w)) k a b c d = B.
  by rewrite imtimeE // bidx_bpos eqSS absz_eq0.
split=> //; rewrite /R /solve_lattice_bse_at_specific_w /= /add_fake_bosonic_mesh eB.
rewrite chiq_sum_nuE // chi0q_sum_nuE //; congr (_ + (_ - _ / _)).
  by apply: freq_trace_ext; apply: bse_point_ext => // n a' b' c' d'; rewrite /slice_wk get_chi0_nkE.
by apply: eq_bigr => n _; rewrite get_chi0_nkE.
Qed.
End Imt.
End Lattice.

Section Dual.
Variables (F : fieldType) (nn nb : nat) (beta : F).
Local Notation g2 := (g2nn F nn nb).
Local Notation g1 := (g2n F nn nb).
Local Notation "A =t B" := (eq_g2 A B) (at level 70).
Local Notation cm := (@chmat F nn nb PH).
Local Notation P := (Pmx F nn nb).

Lemma inverse_of (A A' : g2) : spec_prod_PH A' A =t @spec_id_PH F nn nb -> cm A \in unitmx /\ cm A' = invmx (cm A).
Proof.
move/(chmat_inj PH); rewrite spec_prod_mat spec_id_mat => h.
have u := unitmx_left h; split=> //.
by rewrite -[RHS]mul1mx -h mulmxK.
Qed.
Lemma triangle_right_mat (A' X : g2) : ph_col (triangle_right beta A' X) = beta^-1 *: (cm A' *m cm X *m P).
Proof.
apply/matrixP=> i j; rewrite -(pidx_eta j) -(tidx_eta i) [RHS]mxE mulPr mxE !tidxE !pidxK1 !pidxK2.
by congr (_ * _); apply: eq_bigr => n' _; rewrite -spec_prod_mat mxE !tidxE.
Qed.
Lemma triangle_left_mat (A' X : g2) : reciprocal (triangle_left beta A' X) (triangle_right beta A' X) ->
  (ph_col (triangle_right beta A' X))^T = beta^-1 *: (P^T *m (cm X *m cm A')).
Proof.
move=> h; apply/matrixP=> i j; rewrite -(pidx_eta i) -(tidx_eta j) [RHS]mxE mulPl mxE mxE !tidxE !pidxK1 !pidxK2.
by rewrite -h; congr (_ * _); apply: eq_bigr => n' _; rewrite -spec_prod_mat mxE !tidxE.
Qed.
Lemma ph_symmetric_tr (A : g2) : ph_symmetric A <-> (cm A)^T = cm A.
Proof.
split=> [h|h n n' a b c d]; first by apply/matrixP=> i j; rewrite !mxE h.
by have := congr1 (fun M : 'M_(nn * nb * nb) => M (tidx n a b) (tidx n' d c)) h; rewrite !mxE !tidxE.
Qed.
Lemma symmetric_reciprocal (A A' X : g2) : spec_prod_PH A' A =t @spec_id_PH F nn nb ->
  ph_symmetric A -> ph_symmetric X -> reciprocal (triangle_left beta A' X) (triangle_right beta A' X).
Proof.
move=> /inverse_of [u e] /ph_symmetric_tr sA /ph_symmetric_tr sX n a b c d.
rewrite /triangle_left /triangle_right; congr (_ * _); apply: eq_bigr => n' _.
have h : cm (spec_prod_PH X A') = (cm (spec_prod_PH A' X))^T.
  by rewrite !spec_prod_mat trmx_mul sX e trmx_inv sA.
by have := congr1 (fun M : 'M_(nn * nb * nb) => M (tidx n' a b) (tidx n d c)) h; rewrite !mxE !tidxE.
Qed.

Lemma pmat_scale (k : F) (t : tensor4 F nb) : pmat (fun a b c d => k * t a b c d) = k *: pmat t.
Proof. by apply/matrixP=> i j; rewrite !mxE. Qed.

Lemma dual_point (x xA : g1) (A A' X G R : g2) a b c d :
  A =t on_diag xA -> spec_prod_PH A' A =t @spec_id_PH F nn nb -> invertible_PH X ->
  cm G = invmx (cm A) - invmx (cm X) -> cm R = invmx (cm A) *m ((cm X - cm A) *m invmx (cm A)) ->
  nonsingular_PH (on_diag x) G ->
  let L := triangle_right beta A' X in
  reciprocal (triangle_left beta A' X) L ->
  scalar_product_PH L (bse_point (fun n a b c d => x n a b c d - xA n a b c d) R) L a b c d + freq_trace beta X a b c d =
  freq_trace beta (bse_point x G) a b c d.
Proof.
move=> eA /inverse_of [uA eA'] /invertibleP uX eG eR ns L rec.
have ftE (Y : g2) : freq_trace beta Y a b c d = (beta ^- 2 *: (P^T *m cm Y *m P)) (pidx a b) (pidx d c).
  by rewrite trace_mat mxE pmatE /freq_trace mulrC.
have dA : cm (on_diag xA) = cm A by apply/(chmat_inj PH) => n n' a' b' c' d'; rewrite eA.
have eT : cm (on_diag (fun n a b c d => x n a b c d - xA n a b c d)) = cm (on_diag x) - cm A.
  rewrite -dA -cm_sub; apply/(chmat_inj PH) => n n' a' b' c' d'; rewrite /on_diag.
  by case: eqP; rewrite ?subr0.
rewrite scalar_product_PH_grouping triangle_left_mat // triangle_right_mat !ftE bse_point_mat eT.
set T := cm (on_diag x) - cm A.
have eQ : cm (on_diag x) = cm A + T by rewrite addrC subrK.
have [e1 e2] := dual_identity T uA uX; move: e2; rewrite -eG -eR -eQ => e2.
move/nonsingular_PHP in ns.
rewrite (bse_point_mat x) (e2 ns) eA' -!scalemxAl -scalemxAr scalerA -expr2 exprVn.
have mD (M N : 'M[F]_(nb * nb)) i j : M i j + N i j = (M + N) i j by rewrite [in RHS]mxE.
by clearbody T; rewrite mD -scalerDr addrC mulmxDr mulmxDl !mulmxA.
Qed.
End Dual.

Section DualLattice.
Variables (C : fieldType) (n1 n2 n3 nb : nat) (z1 z2 z3 : C) (beta : C).
Local Notation K := (site n1 n2 n3).
Local Notation gfun := (gfun C n1 n2 n3 nb).
Local Notation "A =t B" := (eq_g2 A B) (at level 70).

(* bubble of the Green's function with the local part removed *)
Lemma nonlocal_bubble (g : gfun) w n q a b c d :
  fourier_r_to_k z1 z2 z3 (fun r => chi0r_kernel beta (fun n (r : K) => if r == 0 then 0 else g n r) w n r a b c d) q =
  fourier_r_to_k z1 z2 z3 (fun r => chi0r_kernel beta g w n r a b c d) q - chi0r_kernel beta g w n 0 a b c d.
Proof.
rewrite /fourier_r_to_k [X in _ = X - _](bigD1 (0 : K)) //= phase0r mul1r addrAC subrr add0r.
rewrite (bigD1 (0 : K)) //= /chi0r_kernel eqxx !mxE mulr0 mul0r mulr0 add0r.
by apply: eq_bigr => r r0; rewrite oppr_eq0 (negbTE r0).
Qed.

Lemma dual_lattice nranks sc nranks' sc' nw nn (g : gfun) (gl : int -> 'M[C]_nb)
    (g2 : g2iw C (2 * nn) nb (2 * nw).-1) (chi0' : g2iw C (2 * nn) nb (2 * nw).-1)
    (Lv : int -> int -> tensor4 C nb) (chi_imp : int -> tensor4 C nb) k w a b c d :
  fair_sched nranks sc -> fair_sched nranks' sc' ->
  (forall n, gl n = fourier_wk_to_wr z1 z2 z3 g n 0) ->
  let chi0 := chi0_from_gg2_PH beta (nw := nw) (nn := nn) gl in
  let chi := chi_from_gg2_PH beta gl g2 in
  let Gamma := impurity_irreducible_vertex_Gamma beta gl g2 in
  let Fv := impurity_reducible_vertex_F beta gl g2 in
  spec_prod_PH (chi0' w) (chi0 w) =t @spec_id_PH C (2 * nn) nb ->
  invertible_PH (chi w) ->
  (forall n a b c d, Lv (bidx w) (fidx n) a b c d = triangle_right beta (chi0' w) (chi w) n a b c d) ->
  reciprocal (triangle_left beta (chi0' w) (chi w)) (triangle_right beta (chi0' w) (chi w)) ->
  (forall a b c d, chi_imp (bidx w) a b c d = freq_trace beta (chi w) a b c d) ->
  let chi0_wnk := get_chi0_wnk z1 z2 z3 beta nranks' sc' (nw := nw) (nn := nn) g in
  nonsingular_PH (on_diag (slice_wk chi0_wnk w k)) (Gamma w) ->
  solve_lattice_dbse z1 z2 z3 beta nranks sc g Fv Lv chi_imp k w a b c d =
  chiq_sum_nu_from_chi0q_and_gamma_PH beta nranks' (sc' 31%N [finType of K * 'I_(2 * nw).-1]) chi0_wnk Gamma k w a b c d.
Proof.
move=> fs fs' hg chi0 chi Gamma Fv h0 uX hL rec hi chi0_wnk ns.
rewrite /solve_lattice_dbse /chiq_sum_nu_from_chi0q_and_gamma_and_L_wn_PH fair_all_map // hi /=.
rewrite chiq_sum_nuE //.
pose xA : g2n C (2 * nn) nb := fun n => chi0 w n n.
have eA : chi0 w =t on_diag xA.
  move=> n n' a' b' c' d'; rewrite /on_diag /xA /chi0 /chi0_from_gg2_PH; rewrite eqxx; case: eqP => // _.
  by rewrite mulr0 !mul0r.
have eG : chmat PH (Gamma w) = invmx (chmat PH (chi0 w)) - invmx (chmat PH (chi w)).
  by rewrite cm_sub !inverse_mat.
have eR : chmat PH (Fv w) = invmx (chmat PH (chi0 w)) *m ((chmat PH (chi w) - chmat PH (chi0 w)) *m invmx (chmat PH (chi0 w))).
  by rewrite /Fv /impurity_reducible_vertex_F /product_iw !product_mat !inverse_mat cm_sub.
rewrite -(dual_point a b c d eA h0 uX eG eR ns rec); congr (_ + _).
rewrite !scalar_product_formula /spec_scalar.
do 6 (apply: eq_bigr => ? _); rewrite !hL; congr (_ * _ * _).
apply: bse_point_ext => // n a' b' c' d'; rewrite /slice_wk.
rewrite /chi0_wnk get_chi0_wnkE // /chi0q_from_chi0r fair_all_map //=.
transitivity (fourier_r_to_k z1 z2 z3 (fun r => chi0r_kernel beta
   (fun n (r : K) => if r == 0 then 0 else fourier_wk_to_wr z1 z2 z3 g n r) (bidx w) (fidx n) r a' b' c' d') k).
  by apply: r2k_ext => r; rewrite /chi0r_from_gr_PH fair_all_map.
rewrite nonlocal_bubble; congr (_ - _).
by rewrite /xA /chi0 /chi0_from_gg2_PH eqxx mulr1 !hg /chi0r_kernel oppr0 [bidx w + _]addrC.
Qed.
End DualLattice.
