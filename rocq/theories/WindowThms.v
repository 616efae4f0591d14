(* C43: fermionic windows. *)
From mathcomp Require Import all_ssreflect all_algebra.
From mathcomp Require Import zify.
From Verif Require Import WindowModel.
Set Implicit Arguments.
Unset Strict Implicit.
Unset Printing Implicit Defensive.
Import GRing.Theory Num.Theory Order.Theory.
Local Open Scope ring_scope.

(* specification: the values as functions of the Matsubara index nu, which runs from - N to N - 1 *)
Section Spec.
Variable X : Type.
Definition at_index (x0 : X) (l : seq X) (nu : int) : X := nth x0 l (absz (nu + Posz (size l)./2)).
Definition inside (N : nat) (nu : int) : bool := (- (Posz N) <= nu) && (nu < Posz N).
End Spec.

Section C43.
Variable X : Type.
Implicit Types (l : seq X).
Lemma slice_centre l (nwf : nat) : (nwf <= (size l)./2)%N ->
  slice l (Posz (size l)./2 - nwf%:Z) (Posz (size l)./2 + nwf%:Z) = drop ((size l)./2 - nwf) (take ((size l)./2 + nwf) l).
Proof.
move=> h; rewrite /slice subzn // -PoszD /bound; have h2 : ((size l)./2 + nwf <= size l)%N by lia.
by rewrite (minn_idPl h2) (minn_idPl _) //; lia.
Qed.
Lemma size_slice l (nwf : nat) : (nwf <= (size l)./2)%N ->
  size (slice l (Posz (size l)./2 - nwf%:Z) (Posz (size l)./2 + nwf%:Z)) = (nwf * 2)%N.
Proof. by move=> h; rewrite slice_centre // size_drop size_takel; lia. Qed.
Lemma nth_slice x0 l (nwf : nat) (nu : int) : (nwf <= (size l)./2)%N -> inside nwf nu ->
  at_index x0 (slice l (Posz (size l)./2 - nwf%:Z) (Posz (size l)./2 + nwf%:Z)) nu = at_index x0 l nu.
Proof.
move=> h /andP[h1 h2]; rewrite /at_index size_slice // muln2 doubleK slice_centre // nth_drop nth_take; last lia.
congr nth; lia.
Qed.
Lemma window_ok l (nwf : nat) : (nwf <= (size l)./2)%N ->
  window_wnk l nwf = Some (slice l (Posz (size l)./2 - nwf%:Z) (Posz (size l)./2 + nwf%:Z)).
Proof. by move=> h; rewrite /window_wnk /assign_axis size_slice // eqxx. Qed.
(* C43: a window that fits keeps the values at the 2 nwf lowest frequencies. *)
Theorem C43_window_wnk_partial x0 l (nwf : nat) : (nwf <= (size l)./2)%N ->
  exists out, window_wnk l nwf = Some out /\ size out = (nwf * 2)%N /\ forall nu, inside nwf nu -> at_index x0 out nu = at_index x0 l nu.
Proof.
by move=> h; rewrite window_ok //; eexists; split; first by []; rewrite size_slice //; split=> // nu hnu; apply: nth_slice.
Qed.
(* C43: the second of two windows decides when it is not larger; *)
Theorem C43_twice l (n1 n2 : nat) out : (n1 <= (size l)./2)%N -> (n2 <= n1)%N -> window_wnk l n1 = Some out -> window_wnk out n2 = window_wnk l n2.
Proof.
move=> h1 h2; rewrite window_ok // => -[<-].
set s := slice _ _ _; have ss : size s = (n1 * 2)%N by apply: size_slice.
rewrite !window_ok; [|lia|lia]; congr Some; rewrite !slice_centre; [|lia|lia].
rewrite ss /s slice_centre // muln2 doubleK take_drop drop_drop take_take; last lia.
congr (drop _ (take _ _)); lia.
Qed.
(* ... a larger one is refused by the local routine, *)
Theorem C43_too_large_loc (rows : seq (seq X)) (nwf : nat) : ((size rows)./2 < nwf)%N -> window_loc rows nwf = None.
Proof. by move=> h; rewrite /window_loc leqNgt h. Qed.
(* ... but the lattice routine accepts the window that is one frequency larger than the mesh, and repeats the last value everywhere. *)
Theorem C43_too_large_refuted x0 l : ~~ odd (size l) -> (0 < size l)%N -> window_wnk l (size l)./2.+1 = Some (nseq ((size l)./2.+1 * 2) (last x0 l)).
Proof.
move=> ev l0; rewrite /window_wnk (_ : Posz (size l)./2 - _ = -1); last lia.
rewrite /slice -PoszD -[bound _ (-1)]/(size l - 1)%N /bound (minn_idPr _); last lia.
rewrite take_size (_ : (size l - 1)%N = (size l).-1) ?subn1 //.
have -> : drop (size l).-1 l = [:: last x0 l].
  by case: l l0 {ev} => // a l _ /=; elim: l a => [|b l ih] a //=; apply: ih.
by rewrite /assign_axis; case: eqP => // h1; have : (1 = (size l)./2.+1 * 2)%N by []; lia.
Qed.
(* These are all windows that are accepted. *)
Theorem C43_accepted l (nwf : nat) : ~~ odd (size l) -> (0 < size l)%N -> (exists out, window_wnk l nwf = Some out) <-> (nwf <= (size l)./2.+1)%N.
Proof.
move=> ev l0; split=> [[out]|]; last first.
  rewrite leq_eqVlt => /orP[/eqP ->|h]; last by exists (slice l (Posz (size l)./2 - nwf%:Z) (Posz (size l)./2 + nwf%:Z)); apply: window_ok.
  by case: l ev l0 => [|x0 l] // ev l0; eexists; apply: (C43_too_large_refuted x0).
case: (leqP nwf (size l)./2.+1) => // h; rewrite /window_wnk.
have -> : Posz (size l)./2 - nwf%:Z = Negz (nwf - (size l)./2).-1 by lia.
rewrite /slice -PoszD /bound (minn_idPr _); last lia.
rewrite take_size /assign_axis size_drop; case: eqP; first by lia.
case e : (drop _ _) => [|x [|y r]] // _ _; have := congr1 size e; rewrite size_drop /=; lia.
Qed.
(* C43: two fermionic frequencies at once *)
Theorem C43_window_loc x0 (rows : seq (seq X)) (nwf : nat) : (forall r, (r < size rows)%N -> size (nth [::] rows r) = size rows) -> (nwf <= (size rows)./2)%N ->
  exists out, window_loc rows nwf = Some out /\ size out = (nwf * 2)%N /\
    (forall r, (r < size out)%N -> size (nth [::] out r) = (nwf * 2)%N) /\
    forall nu nu', inside nwf nu -> inside nwf nu' -> at_index x0 (at_index [::] out nu) nu' = at_index x0 (at_index [::] rows nu) nu'.
Proof.
move=> sq h; rewrite /window_loc h.
set N := Posz (size rows)./2; set cut := [seq slice r _ _ | r <- _].
have sz : size (slice rows (N - nwf%:Z) (N + nwf%:Z)) = (nwf * 2)%N.
  rewrite /N /slice subzn // -PoszD /bound (minn_idPl _) ?(minn_idPl _) ?size_drop ?size_takel; lia.
have row r : (r < nwf * 2)%N -> nth [::] (slice rows (N - nwf%:Z) (N + nwf%:Z)) r = nth [::] rows ((size rows)./2 - nwf + r).
  move=> hr; rewrite /N /slice subzn // -PoszD /bound (minn_idPl _) ?(minn_idPl _); try lia.
  by rewrite nth_drop nth_take //; lia.
have ncut r : (r < nwf * 2)%N -> nth [::] cut r = slice (nth [::] rows ((size rows)./2 - nwf + r)) (N - nwf%:Z) (N + nwf%:Z).
  by move=> hr; rewrite /cut (nth_map [::]) ?sz // row.
have srow r : (r < nwf * 2)%N -> size (nth [::] rows ((size rows)./2 - nwf + r)) = size rows by move=> hr; apply: sq; lia.
have scut r : (r < nwf * 2)%N -> size (nth [::] cut r) = (nwf * 2)%N.
  move=> hr; rewrite ncut // /N; have := srow r hr; move: (nth [::] rows _) => rw er; rewrite -er; apply: size_slice; by rewrite er.
have hs : size cut = (nwf * 2)%N by rewrite size_map sz.
have -> : all (fun r => size r == (nwf * 2)%N) cut by apply/(all_nthP [::]) => r; rewrite hs => /scut ->.
exists cut; rewrite /assign_axis hs eqxx; split; first by []; split; first by []; split; first exact: scut.
move=> nu nu' /andP[h1 h2] hnu'; rewrite [at_index [::] cut nu]/at_index hs muln2 doubleK ncut; last lia.
set k := (_ + absz _)%N; have -> : at_index [::] rows nu = nth [::] rows k by rewrite /at_index /k; congr nth; lia.
have sk : size (nth [::] rows k) = size rows by apply: srow; lia.
by rewrite /N; move: (nth [::] rows k) sk => rw er; rewrite -er; apply: nth_slice; rewrite ?er.
Qed.
End C43.
Example C43_case : (2 <= (size [:: 10; 11; 12; 13; 14; 15]%N)./2)%N /\ window_wnk [:: 10; 11; 12; 13; 14; 15]%N 2 = Some [:: 11; 12; 13; 14]%N /\
  window_wnk [:: 11; 12; 13; 14]%N 1 = window_wnk [:: 10; 11; 12; 13; 14; 15]%N 1 /\ window_wnk [:: 10; 11]%N 2 = Some [:: 11; 11; 11; 11]%N.
Proof. by []. Qed.
Example C43_loc_case : window_loc [:: [:: 1; 2; 3; 4]; [:: 5; 6; 7; 8]; [:: 9; 10; 11; 12]; [:: 13; 14; 15; 16]]%N 1 = Some [:: [:: 6; 7]; [:: 10; 11]]%N.
Proof. by []. Qed.
Print Assumptions C43_window_wnk_partial.
Print Assumptions C43_twice.
Print Assumptions C43_too_large_refuted.
Print Assumptions C43_window_loc.
