(* As GwRel, with one relation for Green functions and another one for self-energies, and two tolerances. *)
From mathcomp Require Import all_ssreflect all_algebra.
From Verif Require Import GwSolverModel GwRel.
Set Implicit Arguments.
Unset Strict Implicit.
Unset Printing Implicit Defensive.
Import GRing.Theory Num.Theory.
Local Open Scope ring_scope.

Section Rel.
Variables (R : numDomainType) (G1 G2 : zmodType) (Rho1 Rho2 P1 P2 W1 W2 X1 X2 : Type).
Variables (RM : R -> R -> Prop) (RG RS : G1 -> G2 -> Prop) (RRho : Rho1 -> Rho2 -> Prop) (RN : R -> R -> Prop) (RP : P1 -> P2 -> Prop) (RW : W1 -> W2 -> Prop) (RX : X1 -> X2 -> Prop).
(* the attributes of two solvers *)
Definition same_state2 (s : attributes R G1 Rho1 P1 W1 X1) (t : attributes R G2 Rho2 P2 W2 X2) : Prop :=
  [/\ RM (s_mu s) (s_mu t), RM (s_mu0 s) (s_mu0 t) & RG (s_g s) (s_g t)] /\
  [/\ RG (s_g0 s) (s_g0 t), RS (s_sigma s) (s_sigma t), orel RRho (s_rho s) (s_rho t) & orel RN (s_N s) (s_N t)] /\
  [/\ orel RS (s_hartree s) (s_hartree t), orel RS (s_fock s) (s_fock t) & orel RS (s_dyn s) (s_dyn t)] /\
  [/\ orel RW (s_W s) (s_W t), orel RW (s_Wdyn s) (s_Wdyn t), orel RP (s_P s) (s_P t) & orel RX (s_chi s) (s_chi t)].

Variables (calc_rho1 : G1 -> Rho1) (density1 : Rho1 -> R) (hartree_sigma1 fock_sigma1 : Rho1 -> G1).
Variables (polarization1 : G1 -> P1) (screened_interaction1 : bool -> P1 -> W1) (dynamic_part1 : W1 -> W1) (gw_dynamic_sigma1 : W1 -> G1 -> G1) (susceptibility1 : P1 -> W1 -> X1).
Variables (lattice_dyson_g1 : R -> G1 -> G1) (lattice_dyson_g01 : R -> G1) (brentq1 : (R -> R) -> R * R -> R -> option R) (distance1 : G1 -> G1 -> R).
Variables (calc_rho2 : G2 -> Rho2) (density2 : Rho2 -> R) (hartree_sigma2 fock_sigma2 : Rho2 -> G2).
Variables (polarization2 : G2 -> P2) (screened_interaction2 : bool -> P2 -> W2) (dynamic_part2 : W2 -> W2) (gw_dynamic_sigma2 : W2 -> G2 -> G2) (susceptibility2 : P2 -> W2 -> X2).
Variables (lattice_dyson_g2 : R -> G2 -> G2) (lattice_dyson_g02 : R -> G2) (brentq2 : (R -> R) -> R * R -> R -> option R) (distance2 : G2 -> G2 -> R).
Variables (a1 a2 : args R) (tol1 tol2 : R) (hartree fock gw sp1 sp2 : bool).
Notation dyson1 := (dyson_equation calc_rho1 density1 lattice_dyson_g1 lattice_dyson_g01 brentq1 a1).
Notation dyson2 := (dyson_equation calc_rho2 density2 lattice_dyson_g2 lattice_dyson_g02 brentq2 a2).
Hypotheses (h0 : RS 0 0) (hG0 : RG 0 0).
Hypothesis hD : forall x y x' y', RS x y -> RS x' y' -> RS (x + x') (y + y').
Hypothesis hrho : forall x y, RG x y -> RRho (calc_rho1 x) (calc_rho2 y).
Hypothesis hN : forall x y, RRho x y -> RN (density1 x) (density2 y).
Hypothesis hh : hartree -> forall x y, RRho x y -> RS (hartree_sigma1 x) (hartree_sigma2 y).
Hypothesis hf : fock -> forall x y, RRho x y -> RS (fock_sigma1 x) (fock_sigma2 y).
Hypothesis hP : forall x y, RG x y -> RP (polarization1 x) (polarization2 y).
Hypothesis hW : gw -> forall x y, RP x y -> RW (screened_interaction1 sp1 x) (screened_interaction2 sp2 y).
Hypothesis hdyn : gw -> forall x y, RW x y -> RW (dynamic_part1 x) (dynamic_part2 y).
Hypothesis hS : forall w v x y, RW w v -> RG x y -> RS (gw_dynamic_sigma1 w x) (gw_dynamic_sigma2 v y).
Hypothesis hX : forall p q w v, RP p q -> RW w v -> RX (susceptibility1 p w) (susceptibility2 q v).
Notation same_pair := (same_pair RM RG).
(* the Dyson equation can be solved with this self-energy *)
Variable reg : option G1 -> Prop.
Hypothesis hdys : forall mu mu' x y, RM mu mu' -> orel RS x y -> reg x -> orel same_pair (dyson1 mu x) (dyson2 mu' y).
Hypothesis hdist : forall x y x' y', RG x y -> RG x' y' -> (distance1 x x' < tol1) = (distance2 y y' < tol2).

(* see dyson_rel below for this hypothesis *)
Definition same_locals2 (l : locals R G1 P1 W1) (m : locals R G2 P2 W2) : Prop :=
  [/\ RG (l_g l) (l_g m), RM (l_mu l) (l_mu m), RS (l_sigma l) (l_sigma m) & orel RG (l_old l) (l_old m)] /\
  [/\ orel RS (l_hartree l) (l_hartree m), orel RS (l_fock l) (l_fock m) & orel RS (l_dyn l) (l_dyn m)] /\
  [/\ orel RP (l_P l) (l_P m), orel RW (l_W l) (l_W m) & orel RW (l_Wdyn l) (l_Wdyn m)].
Notation it1 := (iteration calc_rho1 density1 hartree_sigma1 fock_sigma1 polarization1 screened_interaction1 dynamic_part1 gw_dynamic_sigma1 lattice_dyson_g1
  lattice_dyson_g01 brentq1 distance1 a1 tol1 hartree fock gw sp1).
Notation it2 := (iteration calc_rho2 density2 hartree_sigma2 fock_sigma2 polarization2 screened_interaction2 dynamic_part2 gw_dynamic_sigma2 lattice_dyson_g2
  lattice_dyson_g02 brentq2 distance2 a2 tol2 hartree fock gw sp2).
Lemma iteration_rel2 l m p : same_locals2 l m -> it1 l = Some p -> reg (Some (l_sigma p.1)) -> exists q, [/\ it2 m = Some q, same_locals2 p.1 q.1 & p.2 = q.2].
Proof.
case=> -[g1 g2 g3 g4] [[h1 h2 h3] [k1 k2 k3]]; rewrite /iteration /=.
have hr := hrho g1; have e1 : hartree -> _ := fun h => hh h hr; have e2 : fock -> _ := fun h => hf h hr; have e3 := hP g1; have e4 : gw -> _ := fun h => hW h e3.
have e5 : gw -> _ := fun h => hdyn h (e4 h); have e6 : gw -> _ := fun h => hS (e5 h) g1.
set s1 := (if gw then _ + gw_dynamic_sigma1 _ _ else _); set s2 := (if gw then _ + gw_dynamic_sigma2 _ _ else _).
have hs : RS s1 s2.
  have gen (b : bool) x y u v : RS x y -> (b -> RS u v) -> RS (if b then x + u else x) (if b then y + v else y).
    by case: b => hx hu //; apply: hD => //; exact: hu.
  exact: (gen gw _ _ _ _ (gen fock _ _ _ _ (gen hartree _ _ _ _ h0 e1) e2) e6).
case ed: (dyson1 _ _) => [[g mu]|] //= -[<-] /= hreg.
have := hdys (x := Some s1) (y := Some s2) g2 hs hreg; rewrite ed.
case: (dyson2 _ _) => [[g' mu']|] //= [/= hg hmu].
eexists; split; first reflexivity; last first.
  by case: (l_old l) (l_old m) g4 => [o|] [o'|] //= ho; rewrite (hdist hg ho).
split; first by split.
by split; split=> /=; (try by case: (hartree) e1 => [e1|_] //=; exact: e1); (try by case: (fock) e2 => [e2|_] //=; exact: e2); (try by case: (gw) e6 => [e6|_] //=; exact: e6);
  (try by case: (gw)); (try by case: (gw) e4 => [e4|_] //=; exact: e4); (try by case: (gw) e5 => [e5|_] //=; exact: e5).
Qed.
Notation loop1 := (loop calc_rho1 density1 hartree_sigma1 fock_sigma1 polarization1 screened_interaction1 dynamic_part1 gw_dynamic_sigma1 lattice_dyson_g1
    lattice_dyson_g01 brentq1 distance1 a1 tol1 hartree fock gw sp1).
Notation loop2 := (loop calc_rho2 density2 hartree_sigma2 fock_sigma2 polarization2 screened_interaction2 dynamic_part2 gw_dynamic_sigma2 lattice_dyson_g2
    lattice_dyson_g02 brentq2 distance2 a2 tol2 hartree fock gw sp2).
Lemma loop_rel2 n l m l' : same_locals2 l m -> (forall i k, (i < n)%N -> loop1 i.+1 l = Some k -> reg (Some (l_sigma k))) -> loop1 n l = Some l' ->
  exists2 m', loop2 n m = Some m' & same_locals2 l' m'.
Proof.
elim: n l m => [|n IH] l m h hreg /=; first by case=> <-; exists m.
case ei: (it1 l) => [[k b]|] //=.
have r1 : reg (Some (l_sigma k)) by apply: (hreg 0%N) => //=; rewrite ei; case: (b).
have [[k2 b2] [e2 /= hk eb]] := iteration_rel2 h ei r1; rewrite e2 -eb; case: b ei {e2 eb} => ei.
  by case=> <-; exists k2.
apply: IH => // i k' hi hl; apply: (hreg i.+1) => //; by rewrite [loop1 i.+2 l]/= ei.
Qed.
Lemma loop_set n l k : (0 < n)%N || (isSome (l_W l) && isSome (l_P l)) -> gw -> loop1 n l = Some k -> isSome (l_W k) && isSome (l_P k).
Proof.
elim: n l => [|n IH] l /=; first by move=> h _ [<-].
move=> _ hg; rewrite {1}/iteration; case: (dyson1 _ _) => [[g mu]|] //; case: ifP => _; first by case=> <- /=; rewrite hg.
by apply: IH => //=; rewrite hg orbT.
Qed.
Notation solve1 := (solve_iter calc_rho1 density1 hartree_sigma1 fock_sigma1 polarization1 screened_interaction1 dynamic_part1 gw_dynamic_sigma1 susceptibility1 lattice_dyson_g1
    lattice_dyson_g01 brentq1 distance1 a1 tol1 hartree fock gw sp1).
Notation solve2 := (solve_iter calc_rho2 density2 hartree_sigma2 fock_sigma2 polarization2 screened_interaction2 dynamic_part2 gw_dynamic_sigma2 susceptibility2 lattice_dyson_g2
    lattice_dyson_g02 brentq2 distance2 a2 tol2 hartree fock gw sp2).
Lemma solve_iter_rel2 n s t s' : same_state2 s t -> (forall i r, (0 < i <= n)%N -> solve1 i s = Some r -> reg (Some (s_sigma r))) -> solve1 n s = Some s' ->
  exists2 t', solve2 n t = Some t' & same_state2 s' t'.
Proof.
case=> -[s1 s2 s3] [[s4 s5 s6 s7] [[s8 s9 s10] [s11 s12 s13 s14]]] hreg; rewrite /solve_iter.
have h : same_locals2 (Locals (s_g s) (s_mu s) 0 None (s_hartree s) (s_fock s) (s_dyn s) None None None) (Locals (s_g t) (s_mu t) 0 None (s_hartree t) (s_fock t) (s_dyn t) None None None) by [].
have hl i k : (i < n)%N -> loop1 i.+1 (Locals (s_g s) (s_mu s) 0 None (s_hartree s) (s_fock s) (s_dyn s) None None None) = Some k -> reg (Some (l_sigma k)).
  move=> hi ek; have hset := loop_set (n := i.+1) isT _ ek; move: hreg => /(_ i.+1); rewrite /solve_iter ek.
  case: (gw) hset => [/(_ isT)|_]; last by move=> /(_ _ hi erefl).
  by case: (l_W k) => [w|] //=; case: (l_P k) => [q|] //= _ /(_ _ hi erefl).
case el: (loop1 n _) => [l|] //; have [m -> [[g1 g2 g3 g4] [[h1 h2 h3] [k1 k2 k3]]]] := loop_rel2 h hl el.
have r := hrho g1; case: (gw).
  case: (l_W l) (l_W m) k2 => [w|] [v|] //= kw; case: (l_P l) (l_P m) k1 => [p|] [q|] //= kp [<-]; eexists; first reflexivity.
  do 3!(split; first by split => //; exact: hN); split=> //=; exact: hX.
case=> <-; eexists; first reflexivity.
do 3!(split; first by split => //; exact: hN); by split.
Qed.
Lemma init_rel2 mu mu' x y : RM (odflt 0 mu) (odflt 0 mu') -> orel RG x y -> reg None ->
  orel same_state2 (@init R G1 Rho1 P1 W1 X1 calc_rho1 density1 lattice_dyson_g1 lattice_dyson_g01 brentq1 a1 mu x)
   (@init R G2 Rho2 P2 W2 X2 calc_rho2 density2 lattice_dyson_g2 lattice_dyson_g02 brentq2 a2 mu' y).
Proof.
move=> hm0 h hr; rewrite /init; have := hdys (x := None) (y := None) hm0 I hr.
case: (dyson1 _ _) => [[g m]|]; case: (dyson2 _ _) => [[g' m']|] //= [/= hg hm].
by case: x y h => [x|] [y|] //= hxy.
Qed.
End Rel.
