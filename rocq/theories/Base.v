(* Shared index bookkeeping: row-major pairing of two bounded indices, as used by
   nda arrays in C order and by numpy reshape (all files that flatten tensors). *)
From mathcomp Require Import all_ssreflect all_algebra.
Set Implicit Arguments.
Unset Strict Implicit.
Unset Printing Implicit Defensive.
Import GRing.Theory.
Local Open Scope ring_scope.

Section Pairing.
Variables m n : nat.

Lemma pidx_subproof (i : 'I_m) (j : 'I_n) : (i * n + j < m * n)%N.
Proof.
have hi := ltn_ord i; have hj := ltn_ord j.
apply: (@leq_trans (i * n + n)%N); first by rewrite ltn_add2l.
by rewrite -mulSnr leq_mul2r hi orbT.
Qed.

(* position of the pair (i,j) in C (row-major) memory order *)
Definition pidx (i : 'I_m) (j : 'I_n) : 'I_(m * n) := Ordinal (pidx_subproof i j).

Lemma pfst_subproof (k : 'I_(m * n)) : (k %/ n < m)%N.
Proof.
have n0 : (0 < n)%N by case: (n) k => // -[k] /=; rewrite muln0.
by rewrite ltn_divLR // ltn_ord.
Qed.

Definition pfst (k : 'I_(m * n)) : 'I_m := Ordinal (pfst_subproof k).

Lemma psnd_subproof (k : 'I_(m * n)) : (k %% n < n)%N.
Proof.
have n0 : (0 < n)%N by case: (n) k => // -[k] /=; rewrite muln0.
by rewrite ltn_mod.
Qed.

Definition psnd (k : 'I_(m * n)) : 'I_n := Ordinal (psnd_subproof k).

Lemma pidxK1 i j : pfst (pidx i j) = i.
Proof.
apply: val_inj => /=; have hj := ltn_ord j.
by rewrite divnMDl ?divn_small ?addn0 // (leq_trans _ hj).
Qed.

Lemma pidxK2 i j : psnd (pidx i j) = j.
Proof. by apply: val_inj => /=; rewrite modnMDl modn_small. Qed.

Lemma pidx_eta k : pidx (pfst k) (psnd k) = k.
Proof. by apply: val_inj => /=; rewrite -divn_eq. Qed.

Lemma pidx_eq i j i' j' : (pidx i j == pidx i' j') = (i == i') && (j == j').
Proof.
apply/eqP/andP => [h|[/eqP -> /eqP ->] //].
have h1 := congr1 pfst h; have h2 := congr1 psnd h.
by rewrite !pidxK1 in h1; rewrite !pidxK2 in h2; rewrite h1 h2.
Qed.

Lemma sum_pidx (V : zmodType) (f : 'I_(m * n) -> V) :
  \sum_k f k = \sum_i \sum_j f (pidx i j).
Proof.
rewrite pair_bigA /= (reindex (fun p : 'I_m * 'I_n => pidx p.1 p.2)) //=.
exists (fun k => (pfst k, psnd k)) => [[i j] _|k _] /=; last by rewrite pidx_eta.
by rewrite pidxK1 pidxK2.
Qed.

End Pairing.

Section Tensor4.
Variables (F : ringType) (nb : nat).

(* rank-four target tensors T(a,b,c,d), all extents nb *)
Definition tensor4 := 'I_nb -> 'I_nb -> 'I_nb -> 'I_nb -> F.

(* C-order matrix view of a rank-four tensor, rows (a,b), columns (c,d) *)
Definition tmat (T : tensor4) : 'M[F]_(nb * nb) :=
  \matrix_(i, j) T (pfst i) (psnd i) (pfst j) (psnd j).

(* inverse of the view: read the tensor back from the matrix *)
Definition mten (M : 'M[F]_(nb * nb)) : tensor4 :=
  fun a b c d => M (pidx a b) (pidx c d).

Lemma tmatE (T : tensor4) a b c d : tmat T (pidx a b) (pidx c d) = T a b c d.
Proof. by rewrite mxE !pidxK1 !pidxK2. Qed.

Lemma tmatK (T : tensor4) a b c d : mten (tmat T) a b c d = T a b c d.
Proof. exact: tmatE. Qed.

Lemma mtenK (M : 'M[F]_(nb * nb)) : tmat (mten M) = M.
Proof. by apply/matrixP=> i j; rewrite mxE /mten !pidx_eta. Qed.

Lemma mulmx_pidx (p q : nat) (A : 'M[F]_(p, nb * nb)) (B : 'M[F]_(nb * nb, q)) i j :
  (A *m B) i j = \sum_e \sum_f A i (pidx e f) * B (pidx e f) j.
Proof. by rewrite mxE sum_pidx. Qed.

Lemma tmat_ext (S T : tensor4) :
  (forall a b c d, S a b c d = T a b c d) <-> tmat S = tmat T.
Proof.
split=> [h|h a b c d]; first by apply/matrixP=> i j; rewrite !mxE h.
by rewrite -[LHS]tmatE h tmatE.
Qed.
End Tensor4.
