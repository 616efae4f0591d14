(* Property C97: restricting a Matsubara Green's function to a smaller mesh, tensor and matrix valued functions, and Pade continuation per momentum. *)
From mathcomp Require Import all_ssreflect all_algebra.
From mathcomp Require Import zify.
From Verif Require Import SymmetryModel KgridModel KgridThms GfShapeModel.
Set Implicit Arguments.
Unset Strict Implicit.
Unset Printing Implicit Defensive.
Import GRing.Theory Num.Theory.
Local Open Scope ring_scope.

Section Mesh.
Variables (R : realFieldType) (A : Type) (pi : R).
Hypothesis pi_gt0 : 0 < pi.
Implicit Types (g : gf R A) (m : imfreq R).

(* Specification: the Matsubara frequency of index n is (2 n + 1) pi / beta for fermions and 2 n pi / beta for bosons *)
Definition matsubara (beta : R) (fermion : bool) (n : int) : R := (2 * n + (fermion : nat)%:Z)%:~R * pi / beta.
(* the function holds the value v at the frequency x *)
Definition value_at g (x : R) (v : A) : Prop :=
  exists n : int, [/\ x = matsubara (m_beta (g_mesh g)) (m_fermion (g_mesh g)) n & at_idx g n = Some v].
(* the indices of a mesh with n_max = N: -N .. N-1 for fermions, |n| < N for bosons *)
Definition in_mesh m (n : int) : bool :=
  if m_fermion m then (- (m_max m)%:Z <= n) && (n < (m_max m)%:Z) else (- (m_max m)%:Z < n) && (n < (m_max m)%:Z).

Lemma at_idxE g n : isSome (at_idx g n) = in_mesh (g_mesh g) n.
Proof.
rewrite /at_idx /in_mesh /first_index /mesh_len; case: (g_mesh g) => b [] N /=; last first.
  by case e: (n - _) => [d|d]; [case: ifP => h | ]; rewrite /=; lia.
by case e: (n - _) => [d|d]; [case: ifP => h | ]; rewrite /=; lia.
Qed.

Lemma in_mesh_first m (d : nat) : (d < mesh_len m)%N = in_mesh m (d%:Z + first_index m).
Proof. by rewrite /mesh_len /in_mesh /first_index; case: m => b [] N /=; lia. Qed.
Lemma in_mesh_ex m n : in_mesh m n -> exists d : nat, [/\ (d < mesh_len m)%N & n = d%:Z + first_index m].
Proof.
move=> h; exists `|n - first_index m|%N.
have e : n = `|n - first_index m|%N%:Z + first_index m.
  by move: h; rewrite /in_mesh /first_index; case: m => b [] N /=; lia.
by split=> //; rewrite in_mesh_first -e.
Qed.

Lemma copyP g m : (forall n, in_mesh m n -> in_mesh (g_mesh g) n) ->
  exists out, [/\ copy_indices g m = Some out, g_mesh out = m & forall n, in_mesh m n -> at_idx out n = at_idx g n].
Proof.
move=> h; rewrite /copy_indices; case: ifP => [_|/negP[]]; last first.
  by apply/allP=> d; rewrite mem_iota add0n => hd; rewrite at_idxE; apply: h; rewrite -in_mesh_first.
eexists (Gf m _); split=> // n hn; have [d [hd e]] := in_mesh_ex hn.
rewrite {1}/at_idx /= e addrK hd; have := at_idxE g n; rewrite (h _ hn) -e.
by case: (at_idx g n).
Qed.
Lemma copyN g m n : in_mesh m n -> ~~ in_mesh (g_mesh g) n -> copy_indices g m = None.
Proof.
move=> hn hg; rewrite /copy_indices; case: ifP => // /allP h; have [d [hd e]] := in_mesh_ex hn.
by have := h d; rewrite mem_iota add0n hd -e at_idxE (negPf hg) => /(_ isT).
Qed.
Lemma len_sub m m' : (mesh_len m <= mesh_len m')%N -> forall n, in_mesh m n -> in_mesh m' n.
Proof. by move=> h n; move: h; rewrite /mesh_len /in_mesh; case: m m' => b [] N [b' [] N'] /=; lia. Qed.

Lemma matsubara_inj beta f n n' : beta != 0 -> matsubara beta f n = matsubara beta f n' -> n = n'.
Proof.
move=> b0; rewrite /matsubara => /(mulIf (invr_neq0 b0)) /(mulIf (lt0r_neq0 pi_gt0)) /eqP; rewrite eqr_int => /eqP h.
by lia.
Qed.

Lemma value_out g m out x : m_beta m != 0 -> m_beta (g_mesh g) = m_beta m -> m_fermion (g_mesh g) = m_fermion m -> g_mesh out = m ->
  (forall n, in_mesh m n -> at_idx out n = at_idx g n) ->
  forall v, value_at out x v <-> value_at g x v /\ exists2 n, in_mesh m n & x = matsubara (m_beta m) (m_fermion m) n.
Proof.
move=> b0 eb ef em h v; split=> [[n []]|[[n [+ hv]] [n' hn' ex']]]; rewrite ?em => ex.
  move=> hv; have hn : in_mesh m n by rewrite -em -at_idxE hv.
  by split; [exists n; rewrite eb ef -h | exists n].
move: ex; rewrite eb ef ex' => /(matsubara_inj b0) e; exists n'; split=> //; first by rewrite em.
by rewrite h // e.
Qed.

(* C97: on a mesh with the same temperature and statistic that is not longer, the result has the value of the input at every frequency of the new mesh
   and no other frequency *)
Theorem C97_put g m : m_beta m != 0 -> m_beta (g_mesh g) = m_beta m -> m_fermion (g_mesh g) = m_fermion m ->
  (mesh_len m <= mesh_len (g_mesh g))%N ->
  exists out, [/\ put_gf_on_mesh g m = Some out, g_mesh out = m &
    forall x v, value_at out x v <-> value_at g x v /\ exists2 n, in_mesh m n & x = matsubara (m_beta m) (m_fermion m) n].
Proof.
move=> b0 eb ef hl; have [out [e em h]] := copyP (len_sub hl).
by exists out; split; rewrite /put_gf_on_mesh ?hl // => x v; apply: value_out.
Qed.

(* C97: the assertion is the only test: a longer mesh is refused, any other accepted whatever its temperature and statistic *)
Theorem C97_put_error g m : put_gf_on_mesh g m = None <-> (mesh_len (g_mesh g) < mesh_len m)%N.
Proof.
rewrite /put_gf_on_mesh ltnNge; case: ifP => h; last by split.
by have [out [-> _ _]] := copyP (len_sub h); split.
Qed.

(* C97 refuted as stated (without the assumption on the statistic): from a bosonic function, a fermionic mesh is filled with the values that belong to
   frequencies lower by pi / beta *)
Theorem C97_statistic_refuted g m : m_beta m != 0 -> m_beta (g_mesh g) = m_beta m -> m_fermion (g_mesh g) = false -> m_fermion m = true ->
  (mesh_len m <= mesh_len (g_mesh g))%N ->
  exists out, put_gf_on_mesh g m = Some out /\ forall x v, value_at out x v -> value_at g (x - pi / m_beta m) v /\ forall w, ~ value_at g x w.
Proof.
move=> b0 eb gf mf hl; have [out [e em h]] := copyP (len_sub hl).
exists out; split; first by rewrite /put_gf_on_mesh hl.
move=> x v [n [ex hv]]; rewrite em mf in ex.
have hn : in_mesh m n by rewrite -em -at_idxE hv.
split.
  exists n; split; last by rewrite -h.
  rewrite gf eb ex /matsubara addr0 rmorphD /= mulrDl mulrDl mul1r.
  by rewrite addrK.
move=> w [n' [ex' _]]; move: ex'; rewrite ex gf eb /matsubara => /(mulIf (invr_neq0 b0)) /(mulIf (lt0r_neq0 pi_gt0)) /eqP.
by rewrite eqr_int => /eqP; lia.
Qed.

(* C97 refuted as stated (without the assumption on the temperature): the values move with the index, so that the value at x comes from x beta'/beta *)
Theorem C97_beta_refuted g m : m_beta m != 0 -> m_beta (g_mesh g) != 0 -> m_fermion (g_mesh g) = m_fermion m ->
  (mesh_len m <= mesh_len (g_mesh g))%N ->
  exists out, put_gf_on_mesh g m = Some out /\ forall x v, value_at out x v -> value_at g (x * m_beta m / m_beta (g_mesh g)) v.
Proof.
move=> b0 b0' ef hl; have [out [e em h]] := copyP (len_sub hl).
exists out; split; first by rewrite /put_gf_on_mesh hl.
move=> x v [n [ex hv]]; rewrite em in ex.
have hn : in_mesh m n by rewrite -em -at_idxE hv.
by exists n; split; [rewrite ex /matsubara ef mulfVK | rewrite -h].
Qed.

(* C97: strip_sigma on a fermionic self energy of the same temperature keeps its values at the 2 nw lowest frequencies; it fails exactly when nw is
   larger than the n_max of the input *)
Theorem C97_strip eps nw g : 0 < eps -> m_beta (g_mesh g) != 0 -> m_fermion (g_mesh g) = true ->
  let beta := m_beta (g_mesh g) in
  ((m_max (g_mesh g) < nw)%N -> strip_sigma eps nw beta g = None) /\
  ((nw <= m_max (g_mesh g))%N -> exists out, [/\ strip_sigma eps nw beta g = Some out, g_mesh out = ImFreq beta true nw &
    forall x v, value_at out x v <-> value_at g x v /\ exists2 n : int, - nw%:Z <= n < nw%:Z & x = matsubara beta true n]).
Proof.
move=> e0 b0 gf beta; rewrite /strip_sigma subrr normr0 e0; split=> hn.
  apply: (@copyN _ _ (nw%:Z - 1)); rewrite /in_mesh /=; first by lia.
  by rewrite gf; lia.
have hl : (mesh_len (ImFreq beta true nw) <= mesh_len (g_mesh g))%N by rewrite /mesh_len gf /= leq_mul2l hn orbT.
have [out [e em h]] := copyP (len_sub hl).
exists out; split=> // x v.
by have := @value_out g (ImFreq beta true nw) out x b0 erefl gf em h v.
Qed.
(* C97: another temperature is refused *)
Theorem C97_strip_beta eps nw beta g : eps <= `|beta - m_beta (g_mesh g)| -> strip_sigma eps nw beta g = None.
Proof. by rewrite /strip_sigma Order.TotalTheory.ltNge => ->. Qed.
End Mesh.

Section Shape.
Variable C : Type.
Implicit Types (g : array C).

(* C97: the matrix of a tensor valued function has the pairs (a, b) and (c, d) as row a n2 + b and column c n4 + d *)
Theorem C97_tensor_matrix nw n1 n2 n3 n4 (f : seq nat -> C) :
  exists f', gf_tensor_to_matrix 1 ([:: nw; n1; n2; n3; n4], f) = Some ([:: nw; n1 * n2; n3 * n4]%N, f') /\
  forall w a b c d, (a < n1)%N -> (b < n2)%N -> (c < n3)%N -> (d < n4)%N -> f' [:: w; a * n2 + b; c * n4 + d]%N = f [:: w; a; b; c; d].
Proof.
rewrite /gf_tensor_to_matrix /= /reshape; case: eqP => [_|[]]; last by rewrite /vol /=; lia.
eexists (fun idx => _); split; first by [].
move=> w a b c d ha hb hc hd; congr f.
have -> : ravel [:: nw; n1 * n2; n3 * n4]%N [:: w; a * n2 + b; c * n4 + d]%N = ravel [:: nw; n1; n2; n3; n4] [:: w; a; b; c; d].
  by rewrite /= !muln1 !addn0; nia.
by apply: (@ravelK [:: w.+1; n1; n2; n3; n4] [:: w; a; b; c; d]); rewrite /= ltnS leqnn ha hb hc hd.
Qed.

(* C97: a target of the wrong rank or a product mesh with more than one point on the second axis is refused *)
Theorem C97_tensor_error g nmesh : (size (drop nmesh g.1) != 4)%N || (nmesh != 1)%N -> gf_tensor_to_matrix nmesh g = None.
Proof.
by rewrite /gf_tensor_to_matrix => /orP[/negPf->//|/negPf->]; case: ifP => // _; case: reshape.
Qed.

(* C97: the tensor of a matrix valued function is the inverse; the target shape must have as many components *)
Theorem C97_matrix_tensor nw N M n1 n2 n3 n4 (f : seq nat -> C) : (n1 * n2 = N)%N -> (n3 * n4 = M)%N ->
  exists f', gf_matrix_to_tensor ([:: nw; N; M], f) [:: n1; n2; n3; n4] = Some ([:: nw; n1; n2; n3; n4], f') /\
  forall w a b c d, (a < n1)%N -> (b < n2)%N -> (c < n3)%N -> (d < n4)%N -> f' [:: w; a; b; c; d] = f [:: w; a * n2 + b; c * n4 + d]%N.
Proof.
move=> eN eM; rewrite /gf_matrix_to_tensor /= /reshape; case: eqP => [_|[]]; last by rewrite /vol /= -eN -eM; lia.
eexists (fun idx => _); split; first by [].
move=> w a b c d ha hb hc hd; congr f; rewrite -eN -eM.
have -> : ravel [:: nw; n1; n2; n3; n4] [:: w; a; b; c; d] = ravel [:: nw; n1 * n2; n3 * n4]%N [:: w; a * n2 + b; c * n4 + d]%N.
  by rewrite /= !muln1 !addn0; nia.
apply: (@ravelK [:: w.+1; n1 * n2; n3 * n4]%N [:: w; a * n2 + b; c * n4 + d]%N); rewrite /= ltnS leqnn /=.
by apply/and3P; split=> //; nia.
Qed.
Theorem C97_matrix_error nw N M ts (f : seq nat -> C) : (0 < nw)%N ->
  gf_matrix_to_tensor ([:: nw; N; M], f) ts = None <-> vol ts <> (N * M)%N.
Proof.
move=> h; have e1 : vol [:: nw; N; M] = (nw * (N * M))%N by rewrite /vol /= muln1.
have e2 : vol (nw :: ts) = (nw * vol ts)%N by [].
rewrite /gf_matrix_to_tensor /reshape [head _ _]/= [(_, _).1]/= e1 e2 eqn_pmul2l // eq_sym.
by case: eqP => e; split.
Qed.

(* C97: there and back again *)
Theorem C97_round_trip nw n1 n2 n3 n4 (f : seq nat -> C) :
  exists m g', [/\ gf_tensor_to_matrix 1 ([:: nw; n1; n2; n3; n4], f) = Some m, gf_matrix_to_tensor m [:: n1; n2; n3; n4] = Some g',
    g'.1 = [:: nw; n1; n2; n3; n4] & forall idx, inside [:: nw; n1; n2; n3; n4] idx -> g'.2 idx = f idx].
Proof.
have [f1 [e1 h1]] := C97_tensor_matrix nw n1 n2 n3 n4 f.
have [f2 [e2 h2]] := C97_matrix_tensor nw f1 (erefl (n1 * n2)%N) (erefl (n3 * n4)%N).
exists ([:: nw; n1 * n2; n3 * n4]%N, f1), ([:: nw; n1; n2; n3; n4], f2); split=> // idx.
case: idx => [|w [|a [|b [|c [|d [|? ?]]]]]] //=; rewrite ?andbF //= => /and5P[_ ha hb hc /andP[hd _]].
by rewrite h2 // h1.
Qed.

(* C97: the continuation fits every momentum and every component by itself, for scalar, matrix and four-index functions; fit only sees the
   nw Matsubara frequencies *)
Definition local_fit nw (fit : (nat -> C) -> nat -> C) := forall f f', (forall w, (w < nw)%N -> f w = f' w) -> fit f =1 fit f'.
Theorem C97_pade nf fit zero nw nk ts (f : seq nat -> C) : local_fit nw fit -> size ts \in [:: 0; 2; 4]%N ->
  exists out, pade_analytical_continuation_wk nf fit zero (nw :: nk :: ts, f) = Some out /\
  forall x k idx, (x < nf)%N -> (k < nk)%N -> inside ts idx -> out (x :: k :: idx) = fit (fun w => f (w :: k :: idx)) x.
Proof.
move=> hfit hts; rewrite /pade_analytical_continuation_wk /=.
suff H : forall n, exists out, foldl (pade_step nf fit (nw :: nk :: ts, f)) (Some (fun _ => zero)) (iota 0 n) = Some out /\
    forall x k idx, (x < nf)%N -> (k < n)%N -> inside ts idx -> out (x :: k :: idx) = fit (fun w => f (w :: k :: idx)) x by apply: H.
elim=> [|n [out [e h]]]; first by exists (fun _ => zero).
rewrite -[n.+1]addn1 iotaD foldl_cat /= add0n e /= drop0.
have step g_f : (forall x idx, (x < nf)%N -> inside ts idx -> g_f (x :: idx) = fit (fun w => f (w :: n :: idx)) x) ->
    exists out', Some (assign_k out n g_f) = Some out' /\
    forall x k idx, (x < nf)%N -> (k < n + 1)%N -> inside ts idx -> out' (x :: k :: idx) = fit (fun w => f (w :: k :: idx)) x.
  move=> hg; exists (assign_k out n g_f); split=> // x k idx hx; rewrite addn1 ltnS leq_eqVlt /assign_k /= drop0.
  by case: eqP => [-> _ /hg ->//|_ /=]; apply: h.
case: eqP => h4; last first.
  case: ifP => h2; first by apply: step.
  by move: hts h2 h4; rewrite !inE orbA => /orP[->//|/eqP].
case: ts hts h h4 step e => [|n1 [|n2 [|n3 [|n4 [|? ?]]]]] // _ h _ step e.
have [f1 [e1 h1]] := C97_tensor_matrix nw n1 n2 n3 n4 (fun idx => f (head 0%N idx :: n :: behead idx)).
rewrite e1 /set_from_pade /=.
have [f2 [e2 h2]] := C97_matrix_tensor nf (fun idx => fit (fun w => f1 (w :: behead idx)) (head 0%N idx)) (erefl (n1 * n2)%N) (erefl (n3 * n4)%N).
rewrite e2 /=; apply: step => x [|a [|b [|c [|d [|? ?]]]]] //=; rewrite ?andbF //= => hx /and5P[ha hb hc hd _].
by rewrite h2 //=; apply: hfit => w hw; rewrite h1.
Qed.
End Shape.

(* A case: three matsubara indices of a bosonic function put on a fermionic mesh, and a one-orbital tensor *)
Theorem C97_case : let g := @Gf [realFieldType of rat] nat (ImFreq 1 false 2) id in
  [/\ put_gf_on_mesh g (ImFreq 1 true 2) = None, omap (fun o => g_data o 0) (put_gf_on_mesh g (ImFreq 1 true 1)) = Some 0%N
   & omap (fun o => g_data o 0) (put_gf_on_mesh g (ImFreq 1 false 1)) = Some 1%N].
Proof. by split; reflexivity. Qed.
Theorem C97_pade_case : omap (fun o => o [:: 0; 1; 1; 0; 0; 1]%N)
   (@pade_analytical_continuation_wk nat 1 (fun f _ => (f 0 + f 1)%N) 0%N ([:: 2; 2; 2; 1; 1; 2]%N, fun idx => (100 * nth 0 idx 0 + 10 * nth 0 idx 2 + nth 0 idx 5)%N))
   = Some 122%N /\ local_fit 2 (fun (f : nat -> nat) _ => (f 0 + f 1)%N).
Proof. by split; [reflexivity | move=> f f' h x; rewrite !h]. Qed.
Print Assumptions C97_put.
Print Assumptions C97_put_error.
Print Assumptions C97_statistic_refuted.
Print Assumptions C97_beta_refuted.
Print Assumptions C97_strip.
Print Assumptions C97_strip_beta.
Print Assumptions C97_tensor_matrix.
Print Assumptions C97_tensor_error.
Print Assumptions C97_matrix_tensor.
Print Assumptions C97_matrix_error.
Print Assumptions C97_round_trip.
Print Assumptions C97_pade.
Print Assumptions C97_case.
Print Assumptions C97_pade_case.
