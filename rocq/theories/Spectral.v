(* Hermitian matrices are diagonalized by unitary matrices: the eigenvalue routine of LAPACK, as specified in LindhardThms, exists. *)
From mathcomp Require Import all_ssreflect all_algebra.
From Verif Require Import Fring.
Set Implicit Arguments.
Unset Strict Implicit.
Unset Printing Implicit Defensive.
Import Order.TTheory GRing.Theory Num.Theory.
Local Open Scope ring_scope.

Section Spectral.
Variable C : numClosedFieldType.
Add Ring Cring : (fld_rt C).
Definition hc m n (A : 'M[C]_(m, n)) : 'M[C]_(n, m) := \matrix_(i, j) (A j i)^*.
Lemma hcK m n (A : 'M[C]_(m, n)) : hc (hc A) = A. Proof. by apply/matrixP=> i j; rewrite !mxE conjCK. Qed.
Lemma hcM m n p (A : 'M[C]_(m, n)) (B : 'M[C]_(n, p)) : hc (A *m B) = hc B *m hc A.
Proof. by apply/matrixP=> i j; rewrite !mxE rmorph_sum; apply: eq_bigr => k _; rewrite !mxE rmorphM mulrC. Qed.
Lemma hcD m n (A B : 'M[C]_(m, n)) : hc (A + B) = hc A + hc B. Proof. by apply/matrixP=> i j; rewrite !mxE rmorphD. Qed.
Lemma hcB m n (A B : 'M[C]_(m, n)) : hc (A - B) = hc A - hc B. Proof. by apply/matrixP=> i j; rewrite !mxE rmorphB. Qed.
Lemma hcZ m n x (A : 'M[C]_(m, n)) : hc (x *: A) = x^* *: hc A. Proof. by apply/matrixP=> i j; rewrite !mxE rmorphM. Qed.
Lemma hc1 n : hc (1%:M : 'M[C]_n) = 1%:M. Proof. by apply/matrixP=> i j; rewrite !mxE rmorph_nat eq_sym. Qed.
Lemma hc0 m n : hc (0 : 'M[C]_(m, n)) = 0. Proof. by apply/matrixP=> i j; rewrite !mxE rmorph0. Qed.
Lemma hc_block m1 m2 n1 n2 (A : 'M[C]_(m1, n1)) (B : 'M[C]_(m1, n2)) (D : 'M[C]_(m2, n1)) (E : 'M[C]_(m2, n2)) :
  hc (block_mx A B D E) = block_mx (hc A) (hc D) (hc B) (hc E).
Proof.
apply/matrixP=> i j; rewrite mxE; case: (splitP i) => i' ei; case: (splitP j) => j' ej.
- have -> : i = lshift _ i' by apply: val_inj. have -> : j = lshift _ j' by apply: val_inj. by rewrite !block_mxEul mxE.
- have -> : i = lshift _ i' by apply: val_inj. have -> : j = rshift _ j' by apply: val_inj. by rewrite block_mxEdl block_mxEur mxE.
- have -> : i = rshift _ i' by apply: val_inj. have -> : j = lshift _ j' by apply: val_inj. by rewrite block_mxEur block_mxEdl mxE.
- have -> : i = rshift _ i' by apply: val_inj. have -> : j = rshift _ j' by apply: val_inj. by rewrite !block_mxEdr mxE.
Qed.
Definition sq n (v : 'cV[C]_n) : C := (hc v *m v) 0 0.
Lemma sqE n (v : 'cV[C]_n) : sq v = \sum_i `|v i 0| ^+ 2.
Proof. by rewrite /sq mxE; apply: eq_bigr => i _; rewrite mxE mulrC -normCK. Qed.
Lemma sq_ge0 n (v : 'cV[C]_n) : 0 <= sq v. Proof. by rewrite sqE; apply: sumr_ge0 => i _; rewrite exprn_ge0. Qed.
Lemma sq_eq0 n (v : 'cV[C]_n) : (sq v == 0) = (v == 0).
Proof.
apply/eqP/eqP => [|->]; last by rewrite /sq mulmx0 mxE.
rewrite sqE => /eqP; rewrite psumr_eq0 => [/allP h|i _]; last by rewrite exprn_ge0.
apply/matrixP=> i j; rewrite (ord1 j) mxE; have := h i (mem_index_enum _); rewrite expf_eq0 normr_eq0 /= => /eqP //.
Qed.
Lemma hcv n (u v : 'cV[C]_n) : hc u *m v = ((hc u *m v) 0 0)%:M. Proof. exact: mx11_scalar. Qed.
(* a unitary matrix with a given first column, up to a phase *)
Lemma reflection n (u : 'cV[C]_n.+1) : sq u = 1 -> u 0 0 \is Num.real -> exists2 H : 'M[C]_n.+1, H *m hc H = 1%:M & H *m delta_mx 0 0 = u.
Proof.
move=> hu hr; pose e0 := delta_mx 0 0 : 'cV[C]_n.+1; pose w := u - e0.
have [hw|hw] := eqVneq w 0.
  by exists 1%:M; rewrite ?hc1 ?mul1mx //; apply/eqP; rewrite eq_sym -subr_eq0 -/w hw.
pose ip (a b : 'cV[C]_n.+1) := (hc a *m b) 0 0.
have ipE a b : hc a *m b = (ip a b)%:M by exact: mx11_scalar.
have ipBr a b c : ip a (b - c) = ip a b - ip a c by rewrite /ip mulmxBr mxE; congr (_ + _); rewrite mxE.
have ipBl a b c : ip (a - b) c = ip a c - ip b c by rewrite /ip hcB mulmxBl mxE; congr (_ + _); rewrite mxE.
have he0 v : ip v e0 = (v 0 0)^*.
  by rewrite /ip mxE (bigD1 0) //= !mxE mulr1 big1 ?addr0 // => i hi; rewrite !mxE (negbTE hi) mulr0.
have he1 v : ip e0 v = v 0 0.
  by rewrite /ip mxE (bigD1 0) //= !mxE conjC1 mul1r big1 ?addr0 // => i hi; rewrite !mxE (negbTE hi) conjC0 mul0r.
have ru : (u 0 0)^* = u 0 0 by exact/CrealP.
have sw : sq w = 2%:R * (1 - u 0 0).
  rewrite -[sq w]/(ip w w) /w ipBl !ipBr !he0 he1 ru -[ip u u]/(sq u) hu mxE conjC1 mulr2n mulrDl mul1r; fring C.
have sw0 : sq w != 0 by rewrite sq_eq0.
have cw : (sq w)^* = sq w by apply/CrealP; rewrite realE sq_ge0.
pose x := 2%:R / sq w.
pose H := 1%:M - x *: (w *m hc w).
have cx : x^* = x by rewrite /x rmorphM fmorphV cw rmorph_nat.
have hH : hc H = H by rewrite /H hcB hc1 hcZ cx hcM hcK.
exists H; rewrite ?hH.
  have ww : (w *m hc w) *m (w *m hc w) = sq w *: (w *m hc w).
    by rewrite mulmxA -(mulmxA w) ipE mul_mx_scalar -scalemxAl.
  rewrite /H mulmxBl mul1mx mulmxBr mulmx1 -scalemxAl -scalemxAr ww !scalerA opprB addrA.
  have -> : x * x * sq w = x + x by rewrite -mulrA {2}/x divfK // mulr_natr mulr2n.
  by rewrite scalerDl addrA subrK addrK.
rewrite /H mulmxBl mul1mx -scalemxAl -mulmxA ipE mul_mx_scalar scalerA he0 /w !mxE rmorphB ru conjC1.
have -> : x * (u 0 0 - 1) = -1.
  by rewrite /x -[u 0 0 - 1]opprB mulrN mulrAC -sw divff.
by rewrite scaleN1r opprK addrC subrK.
Qed.
(* the spectral theorem *)
Lemma spectral n (A : 'M[C]_n) : hc A = A -> exists l : 'rV[C]_n, exists U : 'M[C]_n, [/\ forall i, l 0 i \is Num.real, U *m hc U = 1%:M & A = U *m diag_mx l *m hc U].
Proof.
elim: n A => [|n IH] A hA.
  by exists 0, 1%:M; split; [case | apply/matrixP; case | apply/matrixP; case].
have [a ra] : exists a, root (char_poly A) a by apply/closed_rootP; rewrite size_char_poly.
have [v hv v0] : exists2 v : 'rV_n.+1, v *m A = a *: v & v != 0 by move: ra; rewrite -eigenvalue_root_char => /eigenvalueP.
pose u0 := hc v; have Au : A *m u0 = a^* *: u0 by rewrite -[A]hA /u0 -hcM hv hcZ.
have u0n : u0 != 0 by apply: contraNneq v0 => h; rewrite -[v]hcK -/u0 h hc0.
have s0 : 0 < sq u0 by rewrite lt_def sq_eq0 u0n sq_ge0.
have [p np hp] : exists2 p : C, `|p| = 1 & u0 0 0 = `|u0 0 0| * p.
  have [->|h] := eqVneq (u0 0 0) 0; first by exists 1; rewrite ?normr1 // normr0 mul0r.
  have h' : `|u0 0 0| != 0 by rewrite normr_eq0.
  by exists (u0 0 0 / `|u0 0 0|); [rewrite normrM normfV normr_id divff | rewrite mulrC divfK].
pose c := sqrtC (sq u0) * p; pose u := c^-1 *: u0.
have p0 : p != 0 by rewrite -normr_eq0 np oner_eq0.
have q0 : 0 < sqrtC (sq u0) by rewrite sqrtC_gt0.
have hu : sq u = 1.
  rewrite sqE; under eq_bigr do rewrite mxE normrM exprMn; rewrite -mulr_sumr -sqE normfV normrM np mulr1 (gtr0_norm q0) exprVn sqrtCK mulVf //.
  by rewrite gt_eqF.
have hr : u 0 0 \is Num.real.
  by rewrite mxE hp /c invfM mulrACA mulVf // mulr1 realM // ?normr_real // realV gtr0_real.
have [H uH eH] := reflection hu hr; have vH := mulmx1C uH.
have [B hB eB] : exists2 B : 'M[C]_(1 + n), hc B = B & B = hc H *m A *m H by exists (hc H *m A *m H); rewrite // !hcM hA hcK mulmxA.
have Be : B *m delta_mx 0 0 = a^* *: (delta_mx 0 0 : 'cV_n.+1).
  have -> : delta_mx 0 0 = hc H *m u :> 'cV_n.+1 by rewrite -eH mulmxA vH mul1mx.
  by rewrite eB -!mulmxA (mulmxA H) uH mul1mx /u -scalemxAr Au -!scalemxAr !scalerA mulrC.
have Bc i : B i 0 = a^* * (i == 0)%:R.
  move/matrixP/(_ i 0): Be; rewrite mxE (bigD1 0) //= !mxE mulr1 eqxx andbT big1 ?addr0 // => j hj; by rewrite mxE (negbTE hj) mulr0.
have e00 : ulsubmx B = (a^*)%:M by rewrite [LHS]mx11_scalar; congr (_%:M); rewrite !mxE lshift0 Bc eqxx mulr1.
have ed : dlsubmx B = 0 by apply/matrixP=> i j; rewrite !mxE (ord1 j) lshift0 Bc mulr0.
have eu : ursubmx B = 0.
  apply/matrixP=> i j; rewrite !mxE (ord1 i) lshift0 -[B]hB mxE Bc mulr0 conjC0 //.
have [l [U [hl uU eU]]] : exists l : 'rV[C]_n, exists U : 'M[C]_n, [/\ forall i, l 0 i \is Num.real, U *m hc U = 1%:M & drsubmx B = U *m diag_mx l *m hc U].
  by apply: IH; apply/matrixP=> i j; rewrite !mxE -[B in RHS]hB mxE.
have eBb : B = block_mx (a^*)%:M 0 0 (drsubmx B) by rewrite -e00 -eu -ed submxK.
have ha : a^* \is Num.real.
  by have := Bc 0; rewrite eqxx mulr1 => <-; apply/CrealP; rewrite -[B in RHS]hB mxE.
have [Bk [l1 [hl1 uB eBk]]] : exists (Bk : 'M[C]_(1 + n)) (l1 : 'rV[C]_(1 + n)), [/\ forall i, l1 0 i \is Num.real, Bk *m hc Bk = 1%:M & B = Bk *m diag_mx l1 *m hc Bk].
  exists (block_mx 1%:M 0 0 U), (row_mx (a^*)%:M l); split.
  - move=> i; rewrite -(splitK i); case: (split i) => j /=; last by rewrite row_mxEr.
    by rewrite row_mxEl (ord1 j) mxE eqxx.
  - rewrite hc_block mulmx_block hc1 !hc0 !mulmx0 !mul0mx mulmx1 !addr0 add0r uU.
    by rewrite -scalar_mx_block.
  - rewrite eBb eU hc_block diag_mx_row !mulmx_block hc1 !hc0 !(mulmx0, mul0mx, mulmx1, mul1mx, addr0, add0r).
    congr block_mx; rewrite -?mulmxA //; apply/matrixP=> i j; by rewrite !mxE (ord1 i) (ord1 j).
exists l1, (H *m Bk); split=> //; first by rewrite hcM mulmxA -(mulmxA H) uB mulmx1.
have -> : A = H *m B *m hc H by rewrite eB !mulmxA uH mul1mx -mulmxA uH mulmx1.
by rewrite eBk hcM !mulmxA.
Qed.
End Spectral.
