(* C123: time reversal and the exchange of particles and holes in RPA. *)
From mathcomp Require Import all_ssreflect all_algebra.
From Verif Require Import Base MatAlg Fring Spectral LindhardModel LindhardThms LindhardSymThms MpiModel MpiSpec RpaModel RpaSpec RpaProofs RpaThms RpaSymThms.
Set Implicit Arguments.
Unset Strict Implicit.
Unset Printing Implicit Defensive.
Import Order.TTheory GRing.Theory Num.Theory.
Local Open Scope ring_scope.

(* specification: the indices in the opposite order *)
Definition reordered (C : numClosedFieldType) nb (X Y : tensor4 C nb) : Prop := forall a b c d, X a b c d = Y d c b a.

Section Point.
Variables (C : numClosedFieldType) (nb : nat).
Local Notation t4 := (tensor4 C nb).
Lemma reorderedE (X Y : t4) : reordered X Y <-> tmat Y = Smx C nb *m (tmat X)^T *m Smx C nb.
Proof.
have e : (tmat X)^T = tmat (fun a b c d => X c d a b).
  by apply/matrixP=> i j; rewrite -(pidx_eta i) -(pidx_eta j) [LHS]mxE !tmatE.
rewrite e Smx_conj; split=> [h|/eq_tmat h a b c d].
  by apply/eq_tmat=> a b c d; rewrite /swap_pairs h.
by rewrite h.
Qed.
Lemma rpa_reordered (U U' X Y : t4) : reordered U U' -> reordered X Y -> reordered (rpa_point U X) (rpa_point U' Y).
Proof.
move=> /reorderedE hU /reorderedE hX; apply/reorderedE; rewrite !tmat_rpa hU hX.
set S := Smx C nb; have SS : S *m S = 1%:M := SmxK C nb.
have -> : 1%:M - S *m (tmat X)^T *m S *m (S *m (tmat U)^T *m S) = S *m (1%:M - (tmat X)^T *m (tmat U)^T) *m S.
  by rewrite mulmxBr mulmx1 mulmxBl SS !mulmxA -(mulmxA _ S S) SS mulmx1.
rewrite (inv_conj _ SS) !mulmxA -(mulmxA _ S S) SS mulmx1; congr (_ *m _); rewrite -!mulmxA; congr (_ *m _).
exact: rpa_tr.
Qed.
End Point.

Section OnMesh.
Variables (C : numClosedFieldType) (nb : nat) (W K Id : eqType).
Local Notation t4 := (tensor4 C nb).
(* C123: RPA keeps a relation of this kind between two bare susceptibilities *)
Theorem C123_rpa nranks sched nranks' sched' (chi0 chi0' : chi_wk C nb W K Id) (U U' : t4) w k w' k' :
  fair_run nranks (wmesh chi0) (kmesh chi0) sched -> fair_run nranks' (wmesh chi0') (kmesh chi0') sched' ->
  w \in wmesh chi0 -> k \in kmesh chi0 -> w' \in wmesh chi0' -> k' \in kmesh chi0' ->
  reordered U U' -> reordered (chi_dat chi0 w k) (chi_dat chi0' w' k') ->
  reordered (chi_dat (solve_rpa_PH nranks sched chi0 U) w k) (chi_dat (solve_rpa_PH nranks' sched' chi0' U') w' k').
Proof.
move=> f f' hw hk hw' hk' hU hX a b c d; rewrite (solveE _ f hw hk) (solveE _ f' hw' hk').
exact: rpa_reordered.
Qed.
End OnMesh.

Section Lindhard.
Variables (C : numClosedFieldType) (nb : nat) (K : finZmodType) (Id : eqType).
Local Notation M := 'M[C]_nb.
Local Notation t4 := (tensor4 C nb).
Variables (fermi cosh : C -> C) (eig : M -> 'rV[C]_nb * M).
Hypothesis hS : eigensolver eig.
Variables (e : K -> M) (beta mu : C).
Hypotheses (he : hermitian e) (muR : mu \is Num.real) (betaR : beta \is Num.real).
Local Notation chi0 e mu idelta ws i := (ChiWK ws (enum K) i (lindhard_chi00 fermi cosh eig e beta mu idelta)).
(* C123: the time-reversed model *)
Theorem C123_reversal nranks sched nranks' sched' ws (i i' : Id) idelta (U U' : t4) w q :
  fair_run nranks ws (enum K) sched -> fair_run nranks' ws (enum K) sched' -> w \in ws -> reordered U' U ->
  reordered (chi_dat (solve_rpa_PH nranks' sched' (chi0 (time_reversed e) mu idelta ws i') U') w q)
    (chi_dat (solve_rpa_PH nranks sched (chi0 e mu idelta ws i) U) w (- q)).
Proof.
move=> f f' hw hU; apply: C123_rpa => //; rewrite ?mem_enum // => a b c d /=; exact: C122_reversal.
Qed.
(* C123: particles and holes exchanged; the interaction of the holes has the indices in the opposite order *)
Theorem C123_hole nranks sched nranks' sched' ws ws' (i i' : Id) idelta (U U' : t4) w q :
  hole_statistics fermi cosh -> fair_run nranks ws (enum K) sched -> fair_run nranks' ws' (enum K) sched' -> - w \in ws -> w \in ws' -> reordered U' U ->
  reordered (chi_dat (solve_rpa_PH nranks' sched' (chi0 (holes e) (- mu) idelta ws' i') U') w q)
    (chi_dat (solve_rpa_PH nranks sched (chi0 e mu (- idelta) ws i) U) (- w) (- q)).
Proof.
move=> hh f f' hw hw' hU; apply: C123_rpa => //; rewrite ?mem_enum // => a b c d /=; exact: C122_hole.
Qed.
End Lindhard.
Section Own.
Variables (C : numClosedFieldType) (nb : nat) (K : finZmodType) (Id : eqType).
Local Notation M := 'M[C]_nb.
Variables (fermi cosh : C -> C) (eig : M -> 'rV[C]_nb * M) (e : K -> M) (beta mu : C).
Hypotheses (hS : eigensolver eig) (he : hermitian e) (betaR : beta \is Num.real).
Local Notation chi0 mu idelta ws i := (ChiWK ws (enum K) i (lindhard_chi00 fermi cosh eig e beta mu idelta)).
(* C123: a model without magnetic field *)
Theorem C123_no_field nranks sched ws (i : Id) idelta (U : tensor4 C nb) w q : mu \is Num.real ->
  (forall k, e k = map_mx conjC (e (- k))) -> fair_run nranks ws (enum K) sched -> w \in ws -> reordered U U ->
  reordered (chi_dat (solve_rpa_PH nranks sched (chi0 mu idelta ws i) U) w q) (chi_dat (solve_rpa_PH nranks sched (chi0 mu idelta ws i) U) w (- q)).
Proof. by move=> muR h f hw hU; apply: C123_rpa => //; rewrite ?mem_enum // => a b c d /=; exact: C122_no_field. Qed.
(* C123: a model which is its own transform under the exchange of particles and holes, at half filling and on Matsubara frequencies:
   the susceptibility does not change when the indices are exchanged within both pairs *)
Theorem C123_half nranks sched ws (i : Id) (U : tensor4 C nb) w q a b c d :
  hole_statistics fermi cosh -> separated eig e 0 -> (forall k, e k = - (e (- k))^T) -> fair_run nranks ws (enum K) sched -> w \in ws -> - w \in ws ->
  reordered U U -> exchanged U U ->
  let chi := chi_dat (solve_rpa_PH nranks sched (chi0 0 0 ws i) U) w q in chi a b c d = chi b a d c.
Proof.
move=> hh sp h f hw hw' hU hX /=.
have r : reordered (chi_dat (solve_rpa_PH nranks sched (chi0 0 0 ws i) U) w q) (chi_dat (solve_rpa_PH nranks sched (chi0 0 0 ws i) U) (- w) (- q)).
  by apply: C123_rpa => //; rewrite ?mem_enum // => a' b' c' d' /=; rewrite C122_hole_symmetric // oppr0.
have x : exchanged (chi_dat (solve_rpa_PH nranks sched (chi0 0 0 ws i) U) w q) (chi_dat (solve_rpa_PH nranks sched (chi0 0 0 ws i) U) (- w) (- q)).
  by apply: C106_rpa_exchange => //; rewrite ?mem_enum // => a' b' c' d' /=; exact: C50_exchange.
exact: etrans (r a b c d) (esym (x b a d c)).
Qed.
End Own.
Section Case.
Variable C : numClosedFieldType.
(* a repulsion and an exchange between two orbitals, which do not change; a density times a current, which does *)
Definition pair_U : tensor4 C 2 := fun a b c d => if (a == b) && (c == d) && (a != c) then 3%:R else if (a == d) && (b == c) && (a != b) then 1 else 0.
Definition turn_U : tensor4 C 2 := fun a b c d => if (a == b) && (c != d) then (if c == 0 then 'i else - 'i) else 0.
Theorem C123_case : [/\ reordered pair_U pair_U, exchanged pair_U pair_U, pair_U 0 0 1 1 <> 0 &
  exists U' : tensor4 C 2, reordered U' turn_U /\ U' 0 1 0 0 <> turn_U 0 1 0 0].
Proof.
have T : (forall a b c d, pair_U a b c d = pair_U d c b a) /\ (forall a b c d, pair_U a b c d = pair_U c d a b).
  by split; case=> -[|[|//]] ha; case=> -[|[|//]] hb; case=> -[|[|//]] hc; case=> -[|[|//]] hd; rewrite /pair_U -!val_eqE.
split; [exact: T.1 | exact: T.2 | by apply/eqP; rewrite /pair_U /= pnatr_eq0 |].
exists (fun a b c d => turn_U d c b a); split=> //; rewrite /turn_U /=.
by move/eqP; rewrite oppr_eq0; apply/negP/neq0Ci.
Qed.
End Case.
Print Assumptions C123_rpa.
Print Assumptions C123_reversal.
Print Assumptions C123_hole.
Print Assumptions C123_no_field.
Print Assumptions C123_half.
Print Assumptions C123_case.
