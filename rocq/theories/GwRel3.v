(* As GwRel2, where the screened interactions need be related for some polarizations only; a run up to a tolerance and the run of as many iterations. *)
From mathcomp Require Import all_ssreflect all_algebra.
From Verif Require Import GwSolverModel GwRel GwRel2.
Set Implicit Arguments.
Unset Strict Implicit.
Unset Printing Implicit Defensive.
Import GRing.Theory Num.Theory.
Local Open Scope ring_scope.

Section Rel.
Variables (R : numDomainType) (G1 G2 : zmodType) (Rho1 Rho2 P1 P2 W1 W2 X1 X2 : Type).
Variables (RM : R -> R -> Prop) (RG RS : G1 -> G2 -> Prop) (RRho : Rho1 -> Rho2 -> Prop) (RN : R -> R -> Prop) (RP : P1 -> P2 -> Prop) (RW : W1 -> W2 -> Prop) (RX : X1 -> X2 -> Prop).
Variables (calc_rho1 : G1 -> Rho1) (density1 : Rho1 -> R) (hartree_sigma1 fock_sigma1 : Rho1 -> G1).
Variables (polarization1 : G1 -> P1) (screened_interaction1 : bool -> P1 -> W1) (dynamic_part1 : W1 -> W1) (gw_dynamic_sigma1 : W1 -> G1 -> G1) (susceptibility1 : P1 -> W1 -> X1).
Variables (lattice_dyson_g1 : R -> G1 -> G1) (lattice_dyson_g01 : R -> G1) (brentq1 : (R -> R) -> R * R -> R -> option R) (distance1 : G1 -> G1 -> R).
Variables (calc_rho2 : G2 -> Rho2) (density2 : Rho2 -> R) (hartree_sigma2 fock_sigma2 : Rho2 -> G2).
Variables (polarization2 : G2 -> P2) (screened_interaction2 : bool -> P2 -> W2) (dynamic_part2 : W2 -> W2) (gw_dynamic_sigma2 : W2 -> G2 -> G2) (susceptibility2 : P2 -> W2 -> X2).
Variables (lattice_dyson_g2 : R -> G2 -> G2) (lattice_dyson_g02 : R -> G2) (brentq2 : (R -> R) -> R * R -> R -> option R) (distance2 : G2 -> G2 -> R).
Variables (a1 a2 : args R) (tol1 tol2 : R) (hartree fock gw sp1 sp2 : bool).
Notation dyson1 := (dyson_equation calc_rho1 density1 lattice_dyson_g1 lattice_dyson_g01 brentq1 a1).
Notation dyson2 := (dyson_equation calc_rho2 density2 lattice_dyson_g2 lattice_dyson_g02 brentq2 a2).
Hypotheses (h0 : RS 0 0) (hG0 : RG 0 0).
Hypothesis hD : forall x y x' y', RS x y -> RS x' y' -> RS (x + x') (y + y').
Hypothesis hrho : forall x y, RG x y -> RRho (calc_rho1 x) (calc_rho2 y).
Hypothesis hN : forall x y, RRho x y -> RN (density1 x) (density2 y).
Hypothesis hh : hartree -> forall x y, RRho x y -> RS (hartree_sigma1 x) (hartree_sigma2 y).
Hypothesis hf : fock -> forall x y, RRho x y -> RS (fock_sigma1 x) (fock_sigma2 y).
Hypothesis hP : forall x y, RG x y -> RP (polarization1 x) (polarization2 y).
(* the screened interaction exists for this polarization *)
Variable regP : P1 -> Prop.
Hypothesis hW : gw -> forall x y, RP x y -> regP x -> RW (screened_interaction1 sp1 x) (screened_interaction2 sp2 y).
Hypothesis hdyn : gw -> forall x y, RW x y -> RW (dynamic_part1 x) (dynamic_part2 y).
Hypothesis hS : forall w v x y, RW w v -> RG x y -> RS (gw_dynamic_sigma1 w x) (gw_dynamic_sigma2 v y).
Hypothesis hX : forall p q w v, RP p q -> RW w v -> RX (susceptibility1 p w) (susceptibility2 q v).
Notation same_pair := (same_pair RM RG).
(* the Dyson equation can be solved with this self-energy *)
Variable reg : option G1 -> Prop.
Hypothesis hdys : forall mu mu' x y, RM mu mu' -> orel RS x y -> reg x -> orel same_pair (dyson1 mu x) (dyson2 mu' y).
Hypothesis hdist : forall x y x' y', RG x y -> RG x' y' -> (distance1 x x' < tol1) = (distance2 y y' < tol2).

Notation same_locals2 := (@same_locals2 R G1 G2 P1 P2 W1 W2 RM RG RS RP RW).
Notation same_state2 := (@same_state2 R G1 G2 Rho1 Rho2 P1 P2 W1 W2 X1 X2 RM RG RS RRho RN RP RW RX).
Definition sound (sigma : G1) (P : option P1) : Prop := reg (Some sigma) /\ (gw -> if P is Some p then regP p else True).
Notation it1 := (iteration calc_rho1 density1 hartree_sigma1 fock_sigma1 polarization1 screened_interaction1 dynamic_part1 gw_dynamic_sigma1 lattice_dyson_g1
  lattice_dyson_g01 brentq1 distance1 a1 tol1 hartree fock gw sp1).
Notation it2 := (iteration calc_rho2 density2 hartree_sigma2 fock_sigma2 polarization2 screened_interaction2 dynamic_part2 gw_dynamic_sigma2 lattice_dyson_g2
  lattice_dyson_g02 brentq2 distance2 a2 tol2 hartree fock gw sp2).
Lemma iteration_rel3 l m p : same_locals2 l m -> it1 l = Some p -> sound (l_sigma p.1) (l_P p.1) -> exists q, [/\ it2 m = Some q, same_locals2 p.1 q.1 & p.2 = q.2].
Proof.
case=> -[g1 g2 g3 g4] [[h1 h2 h3] [k1 k2 k3]]; rewrite /iteration /=.
have hr := hrho g1; have e1 : hartree -> _ := fun h => hh h hr; have e2 : fock -> _ := fun h => hf h hr; have e3 := hP g1.
set s1 := (if gw then _ + gw_dynamic_sigma1 _ _ else _); set s2 := (if gw then _ + gw_dynamic_sigma2 _ _ else _).
case ed: (dyson1 _ _) => [[g mu]|] //= -[<-] /= [hreg hrP].
have rP : gw -> regP (polarization1 (l_g l)) by move=> h; move: (hrP h); rewrite h.
have e4 : gw -> _ := fun h => hW h e3 (rP h).
have e5 : gw -> _ := fun h => hdyn h (e4 h); have e6 : gw -> _ := fun h => hS (e5 h) g1.
have hs : RS s1 s2.
  have gen (b : bool) x y u v : RS x y -> (b -> RS u v) -> RS (if b then x + u else x) (if b then y + v else y).
    by case: b => hx hu //; apply: hD => //; exact: hu.
  exact: (gen gw _ _ _ _ (gen fock _ _ _ _ (gen hartree _ _ _ _ h0 e1) e2) e6).
have := hdys (x := Some s1) (y := Some s2) g2 hs hreg; rewrite ed.
case: (dyson2 _ _) => [[g' mu']|] //= [/= hg hmu].
eexists; split; first reflexivity; last first.
  by case: (l_old l) (l_old m) g4 => [o|] [o'|] //= ho; rewrite (hdist hg ho).
split; first by split.
by split; split=> /=; (try by case: (hartree) e1 => [e1|_] //=; exact: e1); (try by case: (fock) e2 => [e2|_] //=; exact: e2); (try by case: (gw) e6 => [e6|_] //=; exact: e6);
  (try by case: (gw)); (try by case: (gw) e4 => [e4|_] //=; exact: e4); (try by case: (gw) e5 => [e5|_] //=; exact: e5).
Qed.
Notation loop1 := (loop calc_rho1 density1 hartree_sigma1 fock_sigma1 polarization1 screened_interaction1 dynamic_part1 gw_dynamic_sigma1 lattice_dyson_g1
    lattice_dyson_g01 brentq1 distance1 a1 tol1 hartree fock gw sp1).
Notation loop2 := (loop calc_rho2 density2 hartree_sigma2 fock_sigma2 polarization2 screened_interaction2 dynamic_part2 gw_dynamic_sigma2 lattice_dyson_g2
    lattice_dyson_g02 brentq2 distance2 a2 tol2 hartree fock gw sp2).
Lemma loop_rel3 n l m l' : same_locals2 l m -> (forall i k, (i < n)%N -> loop1 i.+1 l = Some k -> sound (l_sigma k) (l_P k)) -> loop1 n l = Some l' ->
  exists2 m', loop2 n m = Some m' & same_locals2 l' m'.
Proof.
elim: n l m => [|n IH] l m h hreg /=; first by case=> <-; exists m.
case ei: (it1 l) => [[k b]|] //=.
have r1 : sound (l_sigma k) (l_P k) by apply: (hreg 0%N) => //=; rewrite ei; case: (b).
have [[k2 b2] [e2 /= hk eb]] := iteration_rel3 h ei r1; rewrite e2 -eb; case: b ei {e2 eb} => ei.
  by case=> <-; exists k2.
apply: IH => // i k' hi hl; apply: (hreg i.+1) => //; by rewrite [loop1 i.+2 l]/= ei.
Qed.
Lemma loop_set3 n l k : (0 < n)%N || (isSome (l_W l) && isSome (l_P l)) -> gw -> loop1 n l = Some k -> isSome (l_W k) && isSome (l_P k).
Proof.
elim: n l => [|n IH] l /=; first by move=> h _ [<-].
move=> _ hg; rewrite {1}/iteration; case: (dyson1 _ _) => [[g mu]|] //; case: ifP => _; first by case=> <- /=; rewrite hg.
by apply: IH => //=; rewrite hg orbT.
Qed.
Notation solve1 := (solve_iter calc_rho1 density1 hartree_sigma1 fock_sigma1 polarization1 screened_interaction1 dynamic_part1 gw_dynamic_sigma1 susceptibility1 lattice_dyson_g1
    lattice_dyson_g01 brentq1 distance1 a1 tol1 hartree fock gw sp1).
Notation solve2 := (solve_iter calc_rho2 density2 hartree_sigma2 fock_sigma2 polarization2 screened_interaction2 dynamic_part2 gw_dynamic_sigma2 susceptibility2 lattice_dyson_g2
    lattice_dyson_g02 brentq2 distance2 a2 tol2 hartree fock gw sp2).
Lemma solve_iter_rel3 n s t s' : same_state2 s t -> (forall i r, (0 < i <= n)%N -> solve1 i s = Some r -> sound (s_sigma r) (s_P r)) -> solve1 n s = Some s' ->
  exists2 t', solve2 n t = Some t' & same_state2 s' t'.
Proof.
case=> -[s1 s2 s3] [[s4 s5 s6 s7] [[s8 s9 s10] [s11 s12 s13 s14]]] hreg; rewrite /solve_iter.
have h : same_locals2 (Locals (s_g s) (s_mu s) 0 None (s_hartree s) (s_fock s) (s_dyn s) None None None) (Locals (s_g t) (s_mu t) 0 None (s_hartree t) (s_fock t) (s_dyn t) None None None) by [].
have hl i k : (i < n)%N -> loop1 i.+1 (Locals (s_g s) (s_mu s) 0 None (s_hartree s) (s_fock s) (s_dyn s) None None None) = Some k -> sound (l_sigma k) (l_P k).
  move=> hi ek; have hset := loop_set3 (n := i.+1) isT _ ek; move: hreg => /(_ i.+1); rewrite /solve_iter ek.
  rewrite /sound; case: (gw) hset => [/(_ isT)|_]; last by move=> /(_ _ hi erefl) [].
  by case: (l_W k) => [w|] //=; case: (l_P k) => [q|] //= _ /(_ _ hi erefl).
case el: (loop1 n _) => [l|] //; have [m -> [[g1 g2 g3 g4] [[h1 h2 h3] [k1 k2 k3]]]] := loop_rel3 h hl el.
have r := hrho g1; case: (gw).
  case: (l_W l) (l_W m) k2 => [w|] [v|] //= kw; case: (l_P l) (l_P m) k1 => [p|] [q|] //= kp [<-]; eexists; first reflexivity.
  do 3!(split; first by split => //; exact: hN); split=> //=; exact: hX.
case=> <-; eexists; first reflexivity.
do 3!(split; first by split => //; exact: hN); by split.
Qed.
End Rel.

(* with a tolerance: as many iterations as were done, without *)
Section Stop.
Variables (R : numDomainType) (G : zmodType) (Rho P W X : Type).
Variables (calc_rho : G -> Rho) (density : Rho -> R) (hartree_sigma fock_sigma : Rho -> G).
Variables (polarization : G -> P) (screened_interaction : bool -> P -> W) (dynamic_part : W -> W) (gw_dynamic_sigma : W -> G -> G) (susceptibility : P -> W -> X).
Variables (lattice_dyson_g : R -> G -> G) (lattice_dyson_g0 : R -> G) (brentq : (R -> R) -> R * R -> R -> option R) (distance : G -> G -> R).
Variables (a : args R) (tol : R) (hartree fock gw sp : bool).
Hypothesis d0 : forall x y, (distance x y < 0) = false.
Notation it t := (iteration calc_rho density hartree_sigma fock_sigma polarization screened_interaction dynamic_part gw_dynamic_sigma lattice_dyson_g
  lattice_dyson_g0 brentq distance a t hartree fock gw sp).
Notation lp t := (loop calc_rho density hartree_sigma fock_sigma polarization screened_interaction dynamic_part gw_dynamic_sigma lattice_dyson_g
  lattice_dyson_g0 brentq distance a t hartree fock gw sp).
Notation solve t := (solve_iter calc_rho density hartree_sigma fock_sigma polarization screened_interaction dynamic_part gw_dynamic_sigma susceptibility lattice_dyson_g
  lattice_dyson_g0 brentq distance a t hartree fock gw sp).
Lemma it0 l : it 0 l = omap (fun p => (p.1, false)) (it tol l).
Proof. by rewrite /iteration; case: (dyson_equation _ _ _ _ _ _ _ _) => [[g mu]|] //=; case: (l_old l) => [o|] //=; rewrite d0. Qed.
Lemma loop_stop n l : exists m, [/\ (m <= n)%N, lp tol n l = lp 0 m l & forall i, (i <= m)%N -> lp 0 i l = lp tol i l].
Proof.
elim: n l => [|n IH] l; first by exists 0%N; split=> //; case.
have := it0 l; case e: (it tol l) => [[k b]|] /= e0.
  case: b e => e.
    exists 1%N; split=> //=; rewrite ?e ?e0 //; case=> [|[|i]] //= _; by rewrite e e0.
  have [m [h1 h2 h3]] := IH k; exists m.+1; split=> //=; rewrite ?e ?e0 //; case=> [|i] //= hi; rewrite e e0; exact: h3.
by exists 1%N; split=> //=; rewrite ?e ?e0 //; case=> [|[|i]] //= _; rewrite e e0.
Qed.
Lemma solve_stop n s : exists m, [/\ (m <= n)%N, solve tol n s = solve 0 m s & forall i, (i <= m)%N -> solve 0 i s = solve tol i s].
Proof.
have [m [h1 h2 h3]] := loop_stop n (Locals (s_g s) (s_mu s) 0 None (s_hartree s) (s_fock s) (s_dyn s) None None None).
by exists m; split=> //; rewrite /solve_iter ?h2 // => i hi; rewrite h3.
Qed.
End Stop.
