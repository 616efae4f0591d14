(* C100: the GW solver in another orbital basis. *)
From mathcomp Require Import all_ssreflect all_algebra fingroup perm.
From Verif Require Import Base MpiModel MpiProofs MpiSpec FourierModel FourierProofs BubbleModel MatsubaraModel ImtimeModel RpaModel RpaSpec RpaProofs
  MatAlg Fring DysonModel GwModel GwSpec GwProofs GwChainModel BseProofs GwSolverModel GwFullModel GwFullProofs GwRel.
Set Implicit Arguments.
Unset Strict Implicit.
Unset Printing Implicit Defensive.
Import GRing.Theory Num.Theory.
Local Open Scope ring_scope.

(* New field operators c'_a = sum_a' T_aa' c_a' and their conjugates c'^+_a = sum_a' c^+_a' S_a'a with T S = 1 (S is the adjoint when T is unitary).
   Every index of a function transforms as the field operator it stands for, those of an interaction inversely. *)
Section Spec.
Variables (C : fieldType) (nb : nat) (T S : 'M[C]_nb).
Local Notation t4 := (tensor4 C nb).
(* < c_a c^+_b > and one-body Hamiltonians c^+_a e_ab c_b *)
Definition rot_g (g : 'M[C]_nb) : 'M[C]_nb := \matrix_(a, b) \sum_a' \sum_b' T a a' * g a' b' * S b' b.
(* < c^+_a c_b > *)
Definition rot_rho (rho : 'M[C]_nb) : 'M[C]_nb := \matrix_(a, b) \sum_a' \sum_b' S a' a * T b b' * rho a' b'.
(* V_abcd c^+_a c_b c^+_c c_d *)
Definition rot_V (V : t4) : t4 := fun a b c d => \sum_a' \sum_b' \sum_c' \sum_d' T a a' * S b' b * T c c' * S d' d * V a' b' c' d'.
(* < c^+_a c_b c^+_c c_d > *)
Definition rot_chi (X : t4) : t4 := fun a b c d => \sum_a' \sum_b' \sum_c' \sum_d' S a' a * T b b' * S c' c * T d d' * X a' b' c' d'.
End Spec.

Section Algebra.
Variables (C : fieldType) (nb : nat) (T S : 'M[C]_nb).
Add Ring Cring : (fld_rt C).
Local Notation t4 := (tensor4 C nb).
Hypothesis TS : T *m S = 1%:M.
Lemma ST : S *m T = 1%:M. Proof. exact: mulmx1C. Qed.
Definition A : 'M[C]_(nb * nb) := \matrix_(i, j) (T (pfst i) (pfst j) * S (psnd j) (psnd i)).
Definition B : 'M[C]_(nb * nb) := \matrix_(i, j) (S (pfst j) (pfst i) * T (psnd i) (psnd j)).
Definition vec (M : 'M[C]_nb) : 'cV[C]_(nb * nb) := \col_i M (pfst i) (psnd i).
Lemma delta_sum x y : \sum_a S x a * T a y = (x == y)%:R :> C.
Proof. by have := congr1 (fun M : 'M_nb => M x y) ST; rewrite !mxE. Qed.
Lemma BA : B^T *m A = 1%:M.
Proof.
apply/matrixP=> i j; rewrite mxE sum_pidx.
rewrite (eq_bigr (fun a => S (pfst i) a * T a (pfst j) * \sum_b S (psnd j) b * T b (psnd i))); last first.
  by move=> a _; rewrite mulr_sumr; apply: eq_bigr => b _; rewrite !mxE !pidxK1 !pidxK2; fring C.
rewrite -mulr_suml !delta_sum mxE -natrM mulnb -(pidx_eta i) -(pidx_eta j) pidx_eq; congr (nat_of_bool _)%:R.
by rewrite !pidxK1 !pidxK2 (eq_sym (psnd j)).
Qed.
Lemma AB : A^T *m B = 1%:M. Proof. by rewrite -[LHS]trmxK trmx_mul trmxK BA trmx1. Qed.
Lemma BAt : B *m A^T = 1%:M. Proof. exact: (mulmx1C AB). Qed.
Lemma ABt : A *m B^T = 1%:M. Proof. exact: (mulmx1C BA). Qed.
Lemma rot_gE g : rot_g T S g = T *m g *m S.
Proof.
apply/matrixP=> a b; rewrite !mxE exchange_big /=; apply: eq_bigr => b' _; rewrite mxE mulr_suml; by apply: eq_bigr.
Qed.
Lemma rot_rhoE r : rot_rho T S r = (T *m r^T *m S)^T.
Proof.
apply/matrixP=> a b; rewrite !mxE; apply: eq_bigr => a' _; rewrite mxE mulr_suml; apply: eq_bigr => b' _; rewrite mxE; fring C.
Qed.
Lemma vec_g g : vec (rot_g T S g) = A *m vec g.
Proof.
apply/matrixP=> i j; rewrite !mxE sum_pidx; apply: eq_bigr => a _; apply: eq_bigr => b _; rewrite !mxE !pidxK1 !pidxK2; fring C.
Qed.
Lemma vec_rho g : vec (rot_rho T S g) = B *m vec g.
Proof.
apply/matrixP=> i j; rewrite !mxE sum_pidx; apply: eq_bigr => a _; apply: eq_bigr => b _; rewrite !mxE !pidxK1 !pidxK2; fring C.
Qed.
Lemma vec_inj : injective vec.
Proof. by move=> x y /matrixP h; apply/matrixP=> a b; have := h (pidx a b) 0; rewrite !mxE pidxK1 pidxK2. Qed.
(* a matrix product on pairs *)
Lemma conj4 (M N : 'M[C]_(nb * nb)) (X : t4) a b c d : (M *m tmat X *m N^T) (pidx a b) (pidx c d) =
  \sum_a' \sum_b' \sum_c' \sum_d' M (pidx a b) (pidx a' b') * N (pidx c d) (pidx c' d') * X a' b' c' d'.
Proof.
rewrite -mulmxA mxE sum_pidx; apply: eq_bigr => a' _; apply: eq_bigr => b' _; rewrite mxE sum_pidx mulr_sumr; apply: eq_bigr => c' _.
rewrite mulr_sumr; apply: eq_bigr => d' _; rewrite !mxE !pidxK1 !pidxK2; fring C.
Qed.
Lemma tmat_eq (M : 'M[C]_(nb * nb)) (X : t4) : (forall a b c d, X a b c d = M (pidx a b) (pidx c d)) -> tmat X = M.
Proof. by move=> h; rewrite -[M]mtenK; apply/tmat_ext. Qed.
Lemma tmat_V V : tmat (rot_V T S V) = A *m tmat V *m A^T.
Proof.
apply: tmat_eq => a b c d; rewrite conj4; do 4!(apply: eq_bigr => ? _); rewrite !mxE !pidxK1 !pidxK2; fring C.
Qed.
Lemma tmat_chi X : tmat (rot_chi T S X) = B *m tmat X *m B^T.
Proof.
apply: tmat_eq => a b c d; rewrite conj4; do 4!(apply: eq_bigr => ? _); rewrite !mxE !pidxK1 !pidxK2; fring C.
Qed.
Definition cross (W : t4) : t4 := fun a b c d => W a c d b.
Lemma tmat_cross W : tmat (cross (rot_V T S W)) = A *m tmat (cross W) *m B^T.
Proof.
apply: tmat_eq => a b c d; rewrite conj4 /cross /rot_V; apply: eq_bigr => a' _; rewrite [RHS]exchange_big /=.
under [RHS]eq_bigr do rewrite exchange_big /=.
apply: eq_bigr => c' _; apply: eq_bigr => d' _; apply: eq_bigr => b' _; rewrite !mxE !pidxK1 !pidxK2; fring C.
Qed.
(* the contractions of the self-energies *)
Lemma direct_rot V r : (\matrix_(a, b) \sum_c \sum_d rot_V T S V a b c d * rot_rho T S r c d) = rot_g T S (\matrix_(a, b) \sum_c \sum_d V a b c d * r c d).
Proof.
have e (X : t4) (y : 'M[C]_nb) : vec (\matrix_(a, b) \sum_c \sum_d X a b c d * y c d) = tmat X *m vec y.
  by apply/matrixP=> i j; rewrite !mxE sum_pidx; do 2!(apply: eq_bigr => ? _); rewrite !mxE !pidxK1 !pidxK2.
apply: vec_inj; rewrite vec_g (e _ (rot_rho T S r)) (e V r) vec_rho tmat_V -!mulmxA; congr (_ *m (_ *m _)); by rewrite mulmxA AB mul1mx.
Qed.
Lemma cross_rot W g : (\matrix_(a, b) \sum_c \sum_d rot_V T S W a c d b * rot_g T S g c d) = rot_g T S (\matrix_(a, b) \sum_c \sum_d W a c d b * g c d).
Proof.
have e (X : t4) (y : 'M[C]_nb) : vec (\matrix_(a, b) \sum_c \sum_d X a c d b * y c d) = tmat (cross X) *m vec y.
  by apply/matrixP=> i j; rewrite !mxE sum_pidx; do 2!(apply: eq_bigr => ? _); rewrite !mxE !pidxK1 !pidxK2.
apply: vec_inj; rewrite vec_g (e _ (rot_g T S g)) (e W g) vec_g tmat_cross -!mulmxA; congr (_ *m (_ *m _)); by rewrite mulmxA BA mul1mx.
Qed.
Lemma invmx_conj m (M N X : 'M[C]_m) : M *m N = 1%:M -> invmx (M *m X *m N) = M *m invmx X *m N.
Proof.
move=> h; have [uM uN] := mulmx1_unit h; have eN : N = invmx M by rewrite -[LHS](mulKmx uM) h mulmx1.
have [u|u] := boolP (X \in unitmx).
  apply: invmx_uniq; rewrite !mulmxA -(mulmxA _ N) (mulmx1C h) mulmx1 -(mulmxA M) mulmxV // mulmx1 h //.
by rewrite !invmx_out // inE /= ?(negbTE u) // !unitmx_mul (negbTE u) andbF.
Qed.
Lemma screened_rot (x : C) P V : (A *m tmat V *m A^T) *m invmx (1%:M - (x *: (B *m tmat P *m B^T)) *m (A *m tmat V *m A^T)) =
  A *m (tmat V *m invmx (1%:M - (x *: tmat P) *m tmat V)) *m A^T.
Proof.
have -> : (x *: (B *m tmat P *m B^T)) *m (A *m tmat V *m A^T) = B *m ((x *: tmat P) *m tmat V) *m A^T.
  by rewrite -!scalemxAl -!scalemxAr -!scalemxAl !mulmxA -(mulmxA _ B^T) BA mulmx1.
have -> : 1%:M - B *m ((x *: tmat P) *m tmat V) *m A^T = B *m (1%:M - (x *: tmat P) *m tmat V) *m A^T.
  by rewrite mulmxBr mulmxBl mulmx1 BAt.
by rewrite (invmx_conj _ BAt) !mulmxA -(mulmxA _ A^T) AB mulmx1.
Qed.
Lemma chi_rot P W : (B *m tmat P *m B^T) *m (A *m tmat W *m A^T) *m (B *m tmat P *m B^T) + B *m tmat P *m B^T =
  B *m (tmat P *m tmat W *m tmat P + tmat P) *m B^T.
Proof.
by rewrite mulmxDr mulmxDl !mulmxA -(mulmxA _ B^T) BA mulmx1 -(mulmxA _ A^T) AB mulmx1.
Qed.
(* a linear functional of a function of matrices *)
Lemma lin_conj (X : Type) (F : (X -> C) -> C) m n (M N : 'M[C]_(m, n)) (Y : X -> 'M[C]_n) i j : linfun F ->
  F (fun x => (M *m Y x *m N^T) i j) = (M *m (\matrix_(u, v) F (fun x => Y x u v)) *m N^T) i j.
Proof.
move=> hF; rewrite mxE (hF.1 _ (fun x => \sum_v N j v * \sum_u M i u * Y x u v)); last first.
  by move=> x; rewrite mxE; apply: eq_bigr => v _; rewrite mxE mulrC !mxE.
rewrite (linfun_sum _ _ (fun v x => \sum_u M i u * Y x u v) hF); apply: eq_bigr => v _.
by rewrite (linfun_sum _ _ (fun u x => Y x u v) hF) mulrC !mxE; congr (_ * _); apply: eq_bigr => u _; rewrite mxE.
Qed.
End Algebra.

Section Lin.
Variables (C : fieldType) (nb : nat) (T S : 'M[C]_nb) (X : Type) (F : (X -> C) -> C).
Hypothesis hF : linfun F.
Lemma lin_g (Y Y' : X -> 'M[C]_nb) i j : (forall x, Y' x = rot_g T S (Y x)) -> F (fun x => Y' x i j) = rot_g T S (\matrix_(u, v) F (fun x => Y x u v)) i j.
Proof.
move=> h; rewrite rot_gE -[S in RHS]trmxK -(lin_conj T S^T) //; apply: hF.1 => x; by rewrite h rot_gE trmxK.
Qed.
Lemma lin_rho (Y Y' : X -> 'M[C]_nb) i j : (forall x, Y' x = rot_rho T S (Y x)) -> F (fun x => Y' x i j) = rot_rho T S (\matrix_(u, v) F (fun x => Y x u v)) i j.
Proof.
move=> h; rewrite rot_rhoE mxE -[S in RHS]trmxK.
have -> : (\matrix_(u, v) F (fun x => Y x u v))^T = \matrix_(u, v) F (fun x => (Y x)^T u v).
  by apply/matrixP=> u v; rewrite !mxE; apply: hF.1 => x; rewrite mxE.
rewrite -(lin_conj T S^T) //; apply: hF.1 => x; by rewrite h rot_rhoE trmxK mxE.
Qed.
Lemma lin_V (Y Y' : X -> tensor4 C nb) a b c d : (forall x a b c d, Y' x a b c d = rot_V T S (Y x) a b c d) ->
  F (fun x => Y' x a b c d) = rot_V T S (fun a b c d => F (fun x => Y x a b c d)) a b c d.
Proof.
move=> h; rewrite -[RHS]tmatE tmat_V.
have -> : tmat (fun a b c d => F (fun x => Y x a b c d)) = \matrix_(u, v) F (fun x => tmat (Y x) u v).
  by apply/matrixP=> u v; rewrite !mxE; apply: hF.1 => x; rewrite mxE.
by rewrite -lin_conj //; apply: hF.1 => x; rewrite h -[LHS]tmatE tmat_V.
Qed.
Lemma lin_chi (Y Y' : X -> tensor4 C nb) a b c d : (forall x a b c d, Y' x a b c d = rot_chi T S (Y x) a b c d) ->
  F (fun x => Y' x a b c d) = rot_chi T S (fun a b c d => F (fun x => Y x a b c d)) a b c d.
Proof.
move=> h; rewrite -[RHS]tmatE tmat_chi.
have -> : tmat (fun a b c d => F (fun x => Y x a b c d)) = \matrix_(u, v) F (fun x => tmat (Y x) u v).
  by apply/matrixP=> u v; rewrite !mxE; apply: hF.1 => x; rewrite mxE.
by rewrite -lin_conj //; apply: hF.1 => x; rewrite h -[LHS]tmatE tmat_chi.
Qed.
End Lin.

Section Basis.
Variables (C : numClosedFieldType) (n1 n2 n3 nb nn L : nat) (z1 z2 z3 beta : C).
Local Notation K := (site n1 n2 n3).
Local Notation t4 := (tensor4 C nb).
Local Notation mat := 'M[C]_nb.
Local Notation Wb := 'I_(2 * nn).-1.
Local Notation Wf := 'I_(2 * nn).
Variables (freq : Wf -> C) (density : (int -> mat) -> mat) (wt : (int -> mat) -> 'I_L.+1 -> mat) (tw : ('I_L.+1 -> C) -> int -> C).
Variables (wtc : (Wb -> C) -> 'I_L.+1 -> C) (tw_plan tw_lib : ('I_L.+1 -> C) -> int -> C).
Variable brentq : (C -> C) -> C * C -> C -> option C.
Variables (nranks nranks' : nat) (sc sc' : schedules).
Variables (T S : mat) (e_k e_k' : K -> mat) (V_k V_k' : K -> t4).
Add Ring Cring2 : (fld_rt C).
Local Notation G := (G C n1 n2 n3 nb nn).
Local Notation chi4 := (chi4 C n1 n2 n3 nb nn).
Local Notation Rho := (Rho C n1 n2 n3 nb).
Local Notation state := (solver_state C n1 n2 n3 nb nn).
Local Notation run := (gw_solve_iter z1 z2 z3 beta freq density wt tw wtc tw_plan tw_lib brentq).
Local Notation start := (gw_init z1 z2 z3 freq density brentq).
(* the distributed loops run on all points; the time-frequency transforms are linear; density and the transform of matrix functions act on operators, so that
   they give the rotated result for rotated functions; the root finder looks at the values of the function *)
Definition transforms_ok : Prop := [/\ fair_sched nranks sc, fair_sched nranks' sc', forall n, linfun (fun x => tw x n), forall t, linfun (fun x => wtc x t) &
  forall n, linfun (fun x => tw_plan x n)] /\
  [/\ forall f f', (forall n, f' n = rot_g T S (f n)) -> density f' = rot_rho T S (density f),
    forall f f' t, (forall n, f' n = rot_g T S (f n)) -> wt f' t = rot_g T S (wt f t) &
    forall f f' b t, f =1 f' -> brentq f b t = brentq f' b t].
Definition rotated_g (g g' : G) : Prop := forall w k, g' (w, k) = rot_g T S (g (w, k)).
Definition rotated_rho (r r' : Rho) : Prop := forall R, r' R = rot_rho T S (r R).
Definition rotated_W (W W' : chi4) : Prop := forall w q a b c d, W' w q a b c d = rot_V T S (W w q) a b c d.
Definition rotated_chi (X X' : chi4) : Prop := forall w q a b c d, X' w q a b c d = rot_chi T S (X w q) a b c d.
(* all attributes *)
Definition rotated_state : state -> state -> Prop := same_state eq rotated_g rotated_rho eq rotated_chi rotated_W rotated_chi.
Hypothesis TS : T *m S = 1%:M.
Hypothesis he : forall k, e_k' k = rot_g T S (e_k k).
Hypothesis hV : forall q a b c d, V_k' q a b c d = rot_V T S (V_k q) a b c d.
Hypothesis ok : transforms_ok.
Let hs : fair_sched nranks sc. Proof. by case: ok => -[]. Qed.
Let hs' : fair_sched nranks' sc'. Proof. by case: ok => -[]. Qed.
Let twL : forall n, linfun (fun x => tw x n). Proof. by case: ok => -[]. Qed.
Let wtcL : forall t, linfun (fun x => wtc x t). Proof. by case: ok => -[]. Qed.
Let planL : forall n, linfun (fun x => tw_plan x n). Proof. by case: ok => -[]. Qed.
Let hden : forall f f', (forall n, f' n = rot_g T S (f n)) -> density f' = rot_rho T S (density f). Proof. by case: ok => _ []. Qed.
Let hwt : forall f f' t, (forall n, f' n = rot_g T S (f n)) -> wt f' t = rot_g T S (wt f t). Proof. by case: ok => _ []. Qed.
Lemma k2rL r : linfun (fun f => @fourier_k_to_r C n1 n2 n3 z1 z2 z3 f r).
Proof. by split=> [x y h|c x y]; [exact: k2r_ext | exact: k2r_lin]. Qed.
Lemma r2kL r : linfun (fun f => @fourier_r_to_k C n1 n2 n3 z1 z2 z3 f r).
Proof. by split=> [x y h|c x y]; [exact: r2k_ext | exact: r2k_lin]. Qed.
Lemma rot_g_sum (I : finType) (P : pred I) (f : I -> mat) : rot_g T S (\sum_(i | P i) f i) = \sum_(i | P i) rot_g T S (f i).
Proof. by rewrite rot_gE mulmx_sumr mulmx_suml; apply: eq_bigr => i _; rewrite rot_gE. Qed.
Lemma on_ints_rot (g g' : G) : rotated_g g g' -> forall n k, on_ints g' n k = rot_g T S (on_ints g n k).
Proof. by move=> h n k; rewrite /on_ints rot_g_sum; apply: eq_bigr => p _; rewrite h. Qed.
Lemma rho_rot g g' : rotated_g g g' -> rotated_rho (calc_rho z1 z2 z3 density nranks sc g) (calc_rho z1 z2 z3 density nranks' sc' g').
Proof.
move=> h R; rewrite !calc_rhoE //; apply/matrixP=> a b; rewrite mxE.
have hk k : density (fun n => on_ints g' n k) = rot_rho T S (density (fun n => on_ints g n k)) by apply: hden => n; exact: on_ints_rot.
exact: (lin_rho (k2rL R) a b hk).
Qed.
Lemma trace_rot r r' : rotated_rho r r' -> total_density r' = total_density r.
Proof.
move=> h; rewrite /total_density -!raddf_sum /=; congr ('Re _).
have -> : \sum_i r' 0 i i = \tr (r' 0) by []; have -> : \sum_i r 0 i i = \tr (r 0) by [].
by rewrite h rot_rhoE mxtrace_tr mxtrace_mulC mulmxA (ST TS) mul1mx mxtrace_tr.
Qed.
Lemma hartree_rot r r' : rotated_rho r r' -> rotated_g (hartree_sigma nn z1 z2 z3 V_k r) (hartree_sigma nn z1 z2 z3 V_k' r').
Proof.
move=> h w k; rewrite !hartreeE -direct_rot //; apply/matrixP=> a b; rewrite !mxE; apply: eq_bigr => c _; apply: eq_bigr => d _; by rewrite hV h.
Qed.
Lemma fock_rot r r' : rotated_rho r r' -> rotated_g (fock_sigma nn z1 z2 z3 nranks sc V_k r) (fock_sigma nn z1 z2 z3 nranks' sc' V_k' r').
Proof.
move=> h w k; rewrite !fockE //; apply/matrixP=> a b; rewrite mxE /=.
set Y := fun R : K => \matrix_(a, b) \sum_c \sum_d - (fourier_k_to_r z1 z2 z3 (fun k => V_k k a c d b) R) * r R d c.
set Y' := fun R : K => \matrix_(a, b) \sum_c \sum_d - (fourier_k_to_r z1 z2 z3 (fun k => V_k' k a c d b) R) * r' R d c.
have hY R : Y' R = rot_g T S (Y R).
  have -> : Y R = \matrix_(a, b) \sum_c \sum_d (fun a b c d => fourier_k_to_r z1 z2 z3 (fun k => V_k k a b c d) R) a c d b * (- (r R)^T) c d.
    by apply/matrixP=> i j; rewrite !mxE; do 2!(apply: eq_bigr => ? _); rewrite !mxE mulrN mulNr.
  rewrite -(cross_rot TS); apply/matrixP=> i j; rewrite !mxE; apply: eq_bigr => c _; apply: eq_bigr => d _.
  rewrite (lin_V (k2rL R) i c d j hV) mulNr -mulrN; congr (_ * _); rewrite h rot_rhoE mxE !rot_gE.
  by rewrite mulmxN mulNmx [RHS]mxE.
have -> : fourier_r_to_k z1 z2 z3 (fun R : K => \sum_c \sum_d - (fourier_k_to_r z1 z2 z3 (fun k => V_k' k a c d b) R) * r' R d c) k = fourier_r_to_k z1 z2 z3 (fun R => Y' R a b) k.
  by apply: r2k_ext => R; rewrite mxE.
rewrite (lin_g (r2kL k) a b hY); congr (rot_g T S _ a b); apply/matrixP=> i j; rewrite !mxE; apply: r2k_ext => R; by rewrite mxE.
Qed.
Lemma g_time_rot g g' t r : rotated_g g g' -> g_time z1 z2 z3 wt g' t r = rot_g T S (g_time z1 z2 z3 wt g t r).
Proof.
move=> h; apply: hwt => n; apply/matrixP=> i j; rewrite mxE; exact: (lin_g (k2rL r) i j (on_ints_rot h n)).
Qed.
Lemma polarization_rot g g' : rotated_g g g' ->
  rotated_chi (polarization z1 z2 z3 beta wt tw_plan tw_lib nranks sc g) (polarization z1 z2 z3 beta wt tw_plan tw_lib nranks' sc' g').
Proof.
move=> h w q a b c d; rewrite polarizationE //.
pose Y (t : 'I_L.+1) (r : K) : t4 := fun a b c d => g_time z1 z2 z3 wt g t r d a * g_time z1 z2 z3 wt g (rev_ord t) (- r) b c.
pose Y' (t : 'I_L.+1) (r : K) : t4 := fun a b c d => g_time z1 z2 z3 wt g' t r d a * g_time z1 z2 z3 wt g' (rev_ord t) (- r) b c.
have hY t r i j k l : Y' t r i j k l = rot_chi T S (Y t r) i j k l.
  rewrite /Y' !(g_time_rot _ _ h) !mxE /rot_chi /Y.
  rewrite exchange_big /= mulr_suml; apply: eq_bigr => a' _.
  rewrite mulr_sumr; apply: eq_bigr => b' _; rewrite mulr_sumr; apply: eq_bigr => c' _; rewrite mulr_suml; apply: eq_bigr => d' _; fring C.
have hZ r i j k l : to_freq (nn := nn) beta tw_plan w (fun t => Y' t r i j k l) = rot_chi T S (fun i j k l => to_freq (nn := nn) beta tw_plan w (fun t => Y t r i j k l)) i j k l.
  exact: (lin_chi (to_freq_lin beta planL w) i j k l (fun t => hY t r)).
rewrite (lin_chi (r2kL q) a b c d hZ) /rot_chi -sumrN; apply: eq_bigr => a' _; rewrite -sumrN; apply: eq_bigr => b' _.
rewrite -sumrN; apply: eq_bigr => c' _; rewrite -sumrN; apply: eq_bigr => d' _; by rewrite polarizationE // mulrN.
Qed.
Lemma rotated_WE (W W' : chi4) w q : rotated_W W W' -> tmat (W' w q) = A T S *m tmat (W w q) *m (A T S)^T.
Proof. by move=> h; rewrite -tmat_V; apply/tmat_ext => a b c d; exact: h. Qed.
Lemma rotated_chiE (W W' : chi4) w q : rotated_chi W W' -> tmat (W' w q) = B T S *m tmat (W w q) *m (B T S)^T.
Proof. by move=> h; rewrite -tmat_chi; apply/tmat_ext => a b c d; exact: h. Qed.
Lemma hVE q : tmat (V_k' q) = A T S *m tmat (V_k q) *m (A T S)^T.
Proof. by rewrite -tmat_V; apply/tmat_ext => a b c d; exact: hV. Qed.
Lemma screened_rotated sp P P' : rotated_chi P P' -> rotated_W (screened_interaction nranks sc V_k sp P) (screened_interaction nranks' sc' V_k' sp P').
Proof.
move=> h w q a b c d; rewrite -[LHS]tmatE -[RHS]tmatE tmat_V !screenedE // hVE (rotated_chiE _ _ h) (screened_rot TS) //.
Qed.
Lemma dynamic_rotated W W' : rotated_W W W' -> rotated_W (dynamic_part V_k W) (dynamic_part V_k' W').
Proof.
move=> h w q a b c d; rewrite -[LHS]tmatE -[RHS]tmatE tmat_V.
have e (U : K -> t4) (X : chi4) : tmat (dynamic_part U X w q) = tmat (X w q) - tmat (U q) by apply/matrixP=> i j; rewrite !mxE.
by rewrite !e hVE (rotated_WE _ _ h) mulmxBr mulmxBl.
Qed.
Lemma chi_rotated P P' W W' : rotated_chi P P' -> rotated_W W W' -> rotated_chi (susceptibility nranks sc P W) (susceptibility nranks' sc' P' W').
Proof.
move=> h h' w q a b c d; rewrite -[LHS]tmatE -[RHS]tmatE tmat_chi !susceptibilityE // (rotated_chiE _ _ h) (rotated_WE _ _ h') (chi_rot TS) //.
Qed.
Lemma sigma_rotated W W' g g' : rotated_W W W' -> rotated_g g g' ->
  rotated_g (gw_dynamic_sigma z1 z2 z3 beta wt tw wtc nranks sc W g) (gw_dynamic_sigma z1 z2 z3 beta wt tw wtc nranks' sc' W' g').
Proof.
move=> hW h w k; rewrite !sigma_dynE //; apply/matrixP=> a b; rewrite mxE /=.
pose Y (t : 'I_L.+1) (r : K) : mat := \matrix_(a, b) \sum_c \sum_d - W_time z1 z2 z3 wtc W t r a c d b * g_time z1 z2 z3 wt g t r c d.
pose Y' (t : 'I_L.+1) (r : K) : mat := \matrix_(a, b) \sum_c \sum_d - W_time z1 z2 z3 wtc W' t r a c d b * g_time z1 z2 z3 wt g' t r c d.
have hWt t r i j c d : W_time z1 z2 z3 wtc W' t r i j c d = rot_V T S (W_time z1 z2 z3 wtc W t r) i j c d.
  have hx x i1 j1 c1 d1 : fourier_k_to_r z1 z2 z3 (fun k => W' x k i1 j1 c1 d1) r = rot_V T S (fun i j c d => fourier_k_to_r z1 z2 z3 (fun k => W x k i j c d) r) i1 j1 c1 d1 by exact: (lin_V (k2rL r) i1 j1 c1 d1 (hW x)).
  exact: (lin_V (wtcL t) i j c d hx).
have hY t r : Y' t r = rot_g T S (Y t r).
  have -> : Y t r = \matrix_(a, b) \sum_c \sum_d W_time z1 z2 z3 wtc W t r a c d b * (- g_time z1 z2 z3 wt g t r) c d.
    by apply/matrixP=> i j; rewrite !mxE; do 2!(apply: eq_bigr => ? _); rewrite [in RHS]mxE mulrN mulNr.
  rewrite -(cross_rot TS); apply/matrixP=> i j; rewrite !mxE; apply: eq_bigr => c _; apply: eq_bigr => d _.
  by rewrite hWt (g_time_rot _ _ h) !rot_gE mulmxN mulNmx [in RHS]mxE mulrN mulNr.
have hZ r : (\matrix_(i, j) tw (fun t => Y' t r i j) (fidx w)) = rot_g T S (\matrix_(i, j) tw (fun t => Y t r i j) (fidx w)).
  by apply/matrixP=> i j; rewrite mxE; exact: (lin_g (twL _) i j (fun t => hY t r)).
have hE (Z : 'I_L.+1 -> K -> mat) (Z0 : K -> 'I_L.+1 -> 'I_nb -> 'I_nb -> C) i j : (forall t r i j, Z t r i j = Z0 r t i j) ->
  fourier_r_to_k z1 z2 z3 (fun r => tw (fun t => Z0 r t i j) (fidx w)) k = fourier_r_to_k z1 z2 z3 (fun r => (\matrix_(i, j) tw (fun t => Z t r i j) (fidx w)) i j) k.
  by move=> hz; apply: r2k_ext => r; rewrite mxE; apply: (twL _).1 => t; rewrite hz.
rewrite (hE Y' (fun r t a b => \sum_c \sum_d - W_time z1 z2 z3 wtc W' t r a c d b * g_time z1 z2 z3 wt g' t r c d)); last by move=> *; rewrite mxE.
rewrite (lin_g (r2kL k) a b hZ); congr (rot_g T S _ a b); apply/matrixP=> i j; rewrite !mxE.
by rewrite -(hE Y (fun r t a b => \sum_c \sum_d - W_time z1 z2 z3 wtc W t r a c d b * g_time z1 z2 z3 wt g t r c d)) // => *; rewrite mxE.
Qed.
Lemma rot_g1 (x : C) : rot_g T S x%:M = x%:M. Proof. by rewrite rot_gE mul_mx_scalar -scalemxAl TS scalemx1. Qed.
Lemma rot_gB x y : rot_g T S (x - y) = rot_g T S x - rot_g T S y. Proof. by rewrite !rot_gE mulmxBr mulmxBl. Qed.
Lemma dyson_rotated mu s s' : rotated_g s s' -> rotated_g (lattice_dyson_g freq nranks sc e_k mu s) (lattice_dyson_g freq nranks' sc' e_k' mu s').
Proof.
move=> h w k; rewrite !dysonE // [in LHS]/= he h -{1}(rot_g1 (freq w + mu)) -!rot_gB !rot_gE; exact: invmx_conj.
Qed.
Lemma dyson0_rotated mu : rotated_g (lattice_dyson_g0 freq nranks sc e_k mu) (lattice_dyson_g0 freq nranks' sc' e_k' mu).
Proof.
move=> w k; rewrite !dyson0E // [in LHS]/= he -{1}(rot_g1 (freq w + mu)) -!rot_gB !rot_gE; exact: invmx_conj.
Qed.
Lemma solve_rotated (a : args C) tol hartree fock gw spinless n s s' :
  (forall x y x' y', rotated_g x y -> rotated_g x' y' -> (distance x x' < tol) = (distance y y' < tol)) -> rotated_state s s' ->
  orel rotated_state (run nranks sc e_k V_k a tol hartree fock gw spinless n s) (run nranks' sc' e_k' V_k' a tol hartree fock gw spinless n s').
Proof.
move=> hd hst; have hq : forall f f' b t, f =1 f' -> brentq f b t = brentq f' b t by case: ok => _ [].
apply: solve_iter_rel => //.
- by move=> w k; rewrite !ffunE rot_gE mulmx0 mul0mx.
- by move=> x y x' y' h h' w k; rewrite !ffunE h h' !rot_gE mulmxDr mulmxDl.
- by move=> x y; exact: rho_rot.
- by move=> x y h; rewrite (trace_rot h).
- by move=> _ x y; exact: hartree_rot.
- by move=> _ x y; exact: fock_rot.
- by move=> x y; exact: polarization_rot.
- by move=> _ x y; exact: screened_rotated.
- by move=> _ x y; exact: dynamic_rotated.
- by move=> w v x y; exact: sigma_rotated.
- by move=> p q w v; exact: chi_rotated.
- move=> mu mu' x y hmu; apply: (dyson_rel (RM := eq) (RRho := rotated_rho) (RN := eq) (Rf := eq)).
  + by move=> u v; exact: rho_rot.
  + by move=> u v h; rewrite (trace_rot h).
  + by move=> ? m u v ->; exact: dyson_rotated.
  + by move=> ? ? ->; exact: dyson0_rotated.
  + by rewrite /same_args; case: (fixed a) => // m; split=> // u v ->.
  + by move=> f1 f2 b t h; apply: orel_eq; apply: hq => x1; exact: h.
  + exact: hmu.
Qed.
(* C100: a solver with the rotated dispersion and interaction, started from rotated functions, has after the same number of iterations the rotated Green's
   function, self-energies, density matrix, polarization, screened interaction and susceptibility, and the same chemical potential and particle number.
   tol <= 0: the loop does not stop early *)
Theorem C100_rotated (a : args C) tol hartree fock gw spinless n s s' : tol <= 0 -> rotated_state s s' ->
  orel rotated_state (run nranks sc e_k V_k a tol hartree fock gw spinless n s) (run nranks' sc' e_k' V_k' a tol hartree fock gw spinless n s').
Proof.
move=> ht; apply: solve_rotated => x y x' y' _ _; have h (u v : G) : (distance u v < tol) = false.
  by apply/negP => hl; have := Order.POrderTheory.lt_le_trans (Order.POrderTheory.le_lt_trans (distance_ge0 u v) hl) ht; rewrite Order.POrderTheory.ltxx.
by rewrite !h.
Qed.
(* the constructor *)
Theorem C100_start (a : args C) mu g g' : orel rotated_g g g' -> orel rotated_state (start nranks sc e_k a mu g) (start nranks' sc' e_k' a mu g').
Proof.
have hq : forall f f' b t, f =1 f' -> brentq f b t = brentq f' b t by case: ok => _ [].
move=> h; apply: init_rel => //; first by move=> w k; rewrite !ffunE rot_gE mulmx0 mul0mx.
move=> m m' x y hm; apply: (dyson_rel (RM := eq) (RRho := rotated_rho) (RN := eq) (Rf := eq)).
- by move=> u v; exact: rho_rot.
- by move=> u v h'; rewrite (trace_rot h').
- by move=> ? m'' u v ->; exact: dyson_rotated.
- by move=> ? ? ->; exact: dyson0_rotated.
- by rewrite /same_args; case: (fixed a) => // m0; split=> // u v ->.
- by move=> f1 f2 b t h'; apply: orel_eq; apply: hq => x1; exact: h'.
- exact: hm.
Qed.
End Basis.

Section Relabel.
Variables (C : numClosedFieldType) (n1 n2 n3 nb nn L : nat) (z1 z2 z3 beta : C).
Local Notation K := (site n1 n2 n3).
Local Notation mat := 'M[C]_nb.
Variables (s : 'S_nb).
(* orbital a of the second solver is orbital s a of the first *)
Lemma perm_rot (g : mat) a b : rot_g (perm_mx s) (perm_mx s^-1%g) g a b = g (s a) (s b).
Proof. by rewrite rot_gE -row_permE -col_permE !mxE. Qed.
Lemma perm_rho (g : mat) a b : rot_rho (perm_mx s) (perm_mx s^-1%g) g a b = g (s a) (s b).
Proof. by rewrite rot_rhoE -row_permE -col_permE !mxE. Qed.
Lemma perm_inv : perm_mx s *m perm_mx s^-1%g = 1%:M :> mat.
Proof. by rewrite -perm_mxM mulgV perm_mx1. Qed.
Lemma pick2 (f : 'I_nb -> 'I_nb -> C) a b : \sum_x \sum_y (x == a)%:R * (y == b)%:R * f x y = f a b.
Proof.
rewrite (bigD1 a) //= (bigD1 b) //= !eqxx !mul1r !big1 ?addr0 // => x /negbTE hx; first by rewrite big1 // => y _; rewrite hx !mul0r.
by rewrite hx mulr0 mul0r.
Qed.
Lemma perm_T a x : (perm_mx s : mat) a x = (x == s a)%:R. Proof. by rewrite !mxE eq_sym. Qed.
Lemma perm_S a x : (perm_mx s^-1%g : mat) x a = (x == s a)%:R.
Proof. by rewrite !mxE; congr (nat_of_bool _)%:R; apply/eqP/eqP => [<-|->]; rewrite ?permKV ?permK. Qed.
Lemma perm4 (f : 'I_nb -> 'I_nb -> 'I_nb -> 'I_nb -> C) a b c d :
  \sum_x \sum_y \sum_u \sum_v (x == a)%:R * (y == b)%:R * (u == c)%:R * (v == d)%:R * f x y u v = f a b c d.
Proof.
rewrite -(pick2 (fun x y => f x y c d) a b); apply: eq_bigr => x _; apply: eq_bigr => y _.
rewrite -(pick2 (f x y) c d) mulr_sumr; apply: eq_bigr => u _; rewrite mulr_sumr; apply: eq_bigr => v _; by rewrite !mulrA.
Qed.
Lemma perm_V (V : tensor4 C nb) a b c d : rot_V (perm_mx s) (perm_mx s^-1%g) V a b c d = V (s a) (s b) (s c) (s d).
Proof. by rewrite -[RHS]perm4; do 4!(apply: eq_bigr => ? _); rewrite !perm_T !perm_S. Qed.
Lemma perm_chi (V : tensor4 C nb) a b c d : rot_chi (perm_mx s) (perm_mx s^-1%g) V a b c d = V (s a) (s b) (s c) (s d).
Proof. by rewrite -[RHS]perm4; do 4!(apply: eq_bigr => ? _); rewrite !perm_T !perm_S. Qed.
Variables (freq : 'I_(2 * nn) -> C) (density : (int -> mat) -> mat) (wt : (int -> mat) -> 'I_L.+1 -> mat) (tw : ('I_L.+1 -> C) -> int -> C).
Variables (wtc : ('I_(2 * nn).-1 -> C) -> 'I_L.+1 -> C) (tw_plan tw_lib : ('I_L.+1 -> C) -> int -> C).
Variable brentq : (C -> C) -> C * C -> C -> option C.
Variables (nranks nranks' : nat) (sc sc' : schedules).
Local Notation run := (gw_solve_iter z1 z2 z3 beta freq density wt tw wtc tw_plan tw_lib brentq).
Definition relabelled2 (g g' : mat) := forall a b, g' a b = g (s a) (s b).
Definition relabelled4 (X X' : tensor4 C nb) := forall a b c d, X' a b c d = X (s a) (s b) (s c) (s d).
Definition relabelled_state : solver_state C n1 n2 n3 nb nn -> solver_state C n1 n2 n3 nb nn -> Prop :=
  let rg (x y : G C n1 n2 n3 nb nn) := forall w k, relabelled2 (x (w, k)) (y (w, k)) in let r4 (X Y : chi4 C n1 n2 n3 nb nn) := forall w q, relabelled4 (X w q) (Y w q) in
  same_state eq rg (fun x y => forall R, relabelled2 (x R) (y R)) eq r4 r4 r4.
Lemma orel_iff (U V : Type) (R R' : U -> V -> Prop) x y : (forall x y, R x y <-> R' x y) -> orel R x y <-> orel R' x y.
Proof. by move=> h; case: x y => [x|] [y|] //=. Qed.
Lemma relabelledE x y : relabelled_state x y <-> rotated_state (perm_mx s) (perm_mx s^-1%g) x y.
Proof.
have hm (g g' : mat) : relabelled2 g g' <-> g' = rot_g (perm_mx s) (perm_mx s^-1%g) g.
  by split=> [h|-> a b]; [apply/matrixP=> a b; rewrite h perm_rot | rewrite perm_rot].
have hr (g g' : mat) : relabelled2 g g' <-> g' = rot_rho (perm_mx s) (perm_mx s^-1%g) g.
  by split=> [h|-> a b]; [apply/matrixP=> a b; rewrite h perm_rho | rewrite perm_rho].
have h1 (u v : G C n1 n2 n3 nb nn) : (forall w k, relabelled2 (u (w, k)) (v (w, k))) <-> rotated_g (perm_mx s) (perm_mx s^-1%g) u v.
  by split=> h w k; apply/hm; exact: h.
have h2 (u v : Rho C n1 n2 n3 nb) : (forall R, relabelled2 (u R) (v R)) <-> rotated_rho (perm_mx s) (perm_mx s^-1%g) u v.
  by split=> h w; apply/hr; exact: h.
have h3 (u v : chi4 C n1 n2 n3 nb nn) : (forall w q, relabelled4 (u w q) (v w q)) <-> rotated_W (perm_mx s) (perm_mx s^-1%g) u v.
  by split=> h w q a b c d; [rewrite h perm_V | rewrite h perm_V].
have h4 (u v : chi4 C n1 n2 n3 nb nn) : (forall w q, relabelled4 (u w q) (v w q)) <-> rotated_chi (perm_mx s) (perm_mx s^-1%g) u v.
  by split=> h w q a b c d; [rewrite h perm_chi | rewrite h perm_chi].
by rewrite /rotated_state /relabelled_state /same_state; split=> -[[? ? ?] [[? ? ? ?] [[? ? ?] [? ? ? ?]]]];
  (do !split) => //; by [apply/h1 | apply/(orel_iff _ _ h1) | apply/(orel_iff _ _ h2) | apply/(orel_iff _ _ h3) | apply/(orel_iff _ _ h4)].
Qed.
(* C100: another order of the orbitals: the results are those of the first solver in the other order, with any tolerance *)
Theorem C100_relabelled (a : args C) tol hartree fock gw spinless n (e_k e_k' : K -> mat) (V_k V_k' : K -> tensor4 C nb) x x' :
  transforms_ok density wt tw wtc tw_plan brentq nranks nranks' sc sc' (perm_mx s) (perm_mx s^-1%g) ->
  (forall k, relabelled2 (e_k k) (e_k' k)) -> (forall q, relabelled4 (V_k q) (V_k' q)) -> relabelled_state x x' ->
  orel relabelled_state (run nranks sc e_k V_k a tol hartree fock gw spinless n x) (run nranks' sc' e_k' V_k' a tol hartree fock gw spinless n x').
Proof.
move=> ok he hV /relabelledE hx.
have he' k : e_k' k = rot_g (perm_mx s) (perm_mx s^-1%g) (e_k k) by apply/matrixP=> i j; rewrite perm_rot he.
have hV' q i j k l : V_k' q i j k l = rot_V (perm_mx s) (perm_mx s^-1%g) (V_k q) i j k l by rewrite perm_V hV.
apply/(orel_iff _ _ relabelledE).
apply: solve_rotated => //; [exact: perm_inv | move=> u v u' v' h h'].
rewrite !distance_lt; congr (_ && _).
apply/idP/idP => /forallP hp; apply/forallP => -[w k]; apply/forallP => i; apply/forallP => j.
  by rewrite h h' !perm_rot; have /forallP/(_ (s i))/forallP := hp (w, k); exact.
have /forallP/(_ (s^-1%g i))/forallP/(_ (s^-1%g j)) := hp (w, k).
by rewrite h h' !perm_rot !permKV.
Qed.
End Relabel.

(* two orbitals on one site, non-orthogonal rotation, three iterations with all contributions on two ranks *)
Theorem C100_case (C : numClosedFieldType) : let T : 'M[C]_2 := 1%:M + delta_mx 0 1 in let S : 'M[C]_2 := 1%:M - delta_mx 0 1 in
  let e : site 0 0 0 -> 'M[C]_2 := fun _ => delta_mx 0 0 in let w0 : 'I_(2 * 1).-1 := ord0 in
  let density (f : int -> 'M[C]_2) := (f 0)^T in let wt (f : int -> 'M[C]_2) (_ : 'I_1) := f 0 in let tw (x : 'I_1 -> C) (_ : int) := x ord0 in
  let wtc (x : 'I_(2 * 1).-1 -> C) (_ : 'I_1) := x w0 in let brentq (f : C -> C) (b : C * C) (_ : C) := if f b.1 == 0 then Some b.1 else None in
  let sc : schedules := fun _ F r => mpi_view (enum F) 2 r in let V : site 0 0 0 -> tensor4 C 2 := fun _ _ _ _ _ => 1 in
  [/\ T *m S = 1%:M, rot_g T S (e 0) <> e 0, transforms_ok density wt tw wtc tw brentq 2 2 sc sc T S &
   exists2 s, gw_init 1 1 1 (fun _ : 'I_(2 * 1) => 1) density brentq 2 sc e (Args None 0 (0, 0)) None None = Some s &
     gw_solve_iter 1 1 1 1 (fun _ => 1) density wt tw wtc tw tw brentq 2 sc e V (Args None 0 (0, 0)) 0 true true true false 3 s <> None].
Proof.
move=> T S e w0 density wt tw wtc brentq sc V.
have d2 : (delta_mx 0 1 : 'M[C]_2) *m (delta_mx 0 1 : 'M[C]_2) = 0 by rewrite mul_delta_mx_0.
have TS : T *m S = 1%:M by rewrite /T /S mulmxBr mulmx1 mulmxDl mul1mx d2 addr0 addrK.
split=> //.
- rewrite rot_gE => /matrixP /(_ 0 1) /eqP.
  do 3! rewrite !mxE ?big_ord_recl ?big_ord0 /=.
  rewrite ?mulr1n ?mulr0n ?mulr0 ?mul0r ?mulr1 ?mul1r ?addr0 ?add0r ?subr0 ?sub0r ?mul1r.
  by rewrite mul0r addr0 oppr_eq0 oner_eq0.
- have fs : fair_sched 2 sc by move=> i F; exact: fair_all_inorder.
  split; first by split=> // n; split=> // x y h; rewrite /tw /wtc ?h.
  split=> [f f' h|f f' t h|f f' b t h].
  + by rewrite /density h rot_gE rot_rhoE trmxK.
  + by rewrite /wt h.
  + by rewrite /brentq h.
- by eexists; [reflexivity | apply: solve_iter_runs].
Qed.
Print Assumptions C100_rotated.
Print Assumptions C100_start.
Print Assumptions C100_relabelled.
Print Assumptions C100_case.
