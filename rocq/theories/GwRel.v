(* Two runs of the GW iteration whose steps respect given relations have related results. *)
From mathcomp Require Import all_ssreflect all_algebra.
From Verif Require Import GwSolverModel.
Set Implicit Arguments.
Unset Strict Implicit.
Unset Printing Implicit Defensive.
Import GRing.Theory Num.Theory.
Local Open Scope ring_scope.

(* both absent, or both present and related *)
Definition orel (A B : Type) (R : A -> B -> Prop) (x : option A) (y : option B) : Prop :=
  match x, y with Some a, Some b => R a b | None, None => True | _, _ => False end.

Lemma orel_eq (A : Type) (x y : option A) : x = y -> orel eq x y. Proof. by move=> ->; case: y. Qed.

Section Rel.
Variables (R : numDomainType) (G1 G2 : zmodType) (Rho1 Rho2 P1 P2 W1 W2 X1 X2 : Type).
Variables (RM : R -> R -> Prop) (RG : G1 -> G2 -> Prop) (RRho : Rho1 -> Rho2 -> Prop) (RN : R -> R -> Prop) (RP : P1 -> P2 -> Prop) (RW : W1 -> W2 -> Prop) (RX : X1 -> X2 -> Prop).
(* the attributes of two solvers *)
Definition same_state (s : attributes R G1 Rho1 P1 W1 X1) (t : attributes R G2 Rho2 P2 W2 X2) : Prop :=
  [/\ RM (s_mu s) (s_mu t), RM (s_mu0 s) (s_mu0 t) & RG (s_g s) (s_g t)] /\
  [/\ RG (s_g0 s) (s_g0 t), RG (s_sigma s) (s_sigma t), orel RRho (s_rho s) (s_rho t) & orel RN (s_N s) (s_N t)] /\
  [/\ orel RG (s_hartree s) (s_hartree t), orel RG (s_fock s) (s_fock t) & orel RG (s_dyn s) (s_dyn t)] /\
  [/\ orel RW (s_W s) (s_W t), orel RW (s_Wdyn s) (s_Wdyn t), orel RP (s_P s) (s_P t) & orel RX (s_chi s) (s_chi t)].

Variables (calc_rho1 : G1 -> Rho1) (density1 : Rho1 -> R) (hartree_sigma1 fock_sigma1 : Rho1 -> G1).
Variables (polarization1 : G1 -> P1) (screened_interaction1 : bool -> P1 -> W1) (dynamic_part1 : W1 -> W1) (gw_dynamic_sigma1 : W1 -> G1 -> G1) (susceptibility1 : P1 -> W1 -> X1).
Variables (lattice_dyson_g1 : R -> G1 -> G1) (lattice_dyson_g01 : R -> G1) (brentq1 : (R -> R) -> R * R -> R -> option R) (distance1 : G1 -> G1 -> R).
Variables (calc_rho2 : G2 -> Rho2) (density2 : Rho2 -> R) (hartree_sigma2 fock_sigma2 : Rho2 -> G2).
Variables (polarization2 : G2 -> P2) (screened_interaction2 : bool -> P2 -> W2) (dynamic_part2 : W2 -> W2) (gw_dynamic_sigma2 : W2 -> G2 -> G2) (susceptibility2 : P2 -> W2 -> X2).
Variables (lattice_dyson_g2 : R -> G2 -> G2) (lattice_dyson_g02 : R -> G2) (brentq2 : (R -> R) -> R * R -> R -> option R) (distance2 : G2 -> G2 -> R).
Variables (a1 a2 : args R) (tol : R) (hartree fock gw sp1 sp2 : bool).
Notation dyson1 := (dyson_equation calc_rho1 density1 lattice_dyson_g1 lattice_dyson_g01 brentq1 a1).
Notation dyson2 := (dyson_equation calc_rho2 density2 lattice_dyson_g2 lattice_dyson_g02 brentq2 a2).
Hypothesis h0 : RG 0 0.
Hypothesis hD : forall x y x' y', RG x y -> RG x' y' -> RG (x + x') (y + y').
Hypothesis hrho : forall x y, RG x y -> RRho (calc_rho1 x) (calc_rho2 y).
Hypothesis hN : forall x y, RRho x y -> RN (density1 x) (density2 y).
Hypothesis hh : hartree -> forall x y, RRho x y -> RG (hartree_sigma1 x) (hartree_sigma2 y).
Hypothesis hf : fock -> forall x y, RRho x y -> RG (fock_sigma1 x) (fock_sigma2 y).
Hypothesis hP : forall x y, RG x y -> RP (polarization1 x) (polarization2 y).
Hypothesis hW : gw -> forall x y, RP x y -> RW (screened_interaction1 sp1 x) (screened_interaction2 sp2 y).
Hypothesis hdyn : gw -> forall x y, RW x y -> RW (dynamic_part1 x) (dynamic_part2 y).
Hypothesis hS : forall w v x y, RW w v -> RG x y -> RG (gw_dynamic_sigma1 w x) (gw_dynamic_sigma2 v y).
Hypothesis hX : forall p q w v, RP p q -> RW w v -> RX (susceptibility1 p w) (susceptibility2 q v).
Definition same_pair (p : G1 * R) (q : G2 * R) := RG p.1 q.1 /\ RM p.2 q.2.
Hypothesis hdys : forall mu mu' x y, RM mu mu' -> orel RG x y -> orel same_pair (dyson1 mu x) (dyson2 mu' y).
Hypothesis hdist : forall x y x' y', RG x y -> RG x' y' -> (distance1 x x' < tol) = (distance2 y y' < tol).

(* see dyson_rel below for this hypothesis *)
Definition same_locals (l : locals R G1 P1 W1) (m : locals R G2 P2 W2) : Prop :=
  [/\ RG (l_g l) (l_g m), RM (l_mu l) (l_mu m), RG (l_sigma l) (l_sigma m) & orel RG (l_old l) (l_old m)] /\
  [/\ orel RG (l_hartree l) (l_hartree m), orel RG (l_fock l) (l_fock m) & orel RG (l_dyn l) (l_dyn m)] /\
  [/\ orel RP (l_P l) (l_P m), orel RW (l_W l) (l_W m) & orel RW (l_Wdyn l) (l_Wdyn m)].
Notation it1 := (iteration calc_rho1 density1 hartree_sigma1 fock_sigma1 polarization1 screened_interaction1 dynamic_part1 gw_dynamic_sigma1 lattice_dyson_g1
  lattice_dyson_g01 brentq1 distance1 a1 tol hartree fock gw sp1).
Notation it2 := (iteration calc_rho2 density2 hartree_sigma2 fock_sigma2 polarization2 screened_interaction2 dynamic_part2 gw_dynamic_sigma2 lattice_dyson_g2
  lattice_dyson_g02 brentq2 distance2 a2 tol hartree fock gw sp2).
Lemma iteration_rel l m : same_locals l m -> orel (fun p q => same_locals p.1 q.1 /\ p.2 = q.2) (it1 l) (it2 m).
Proof.
case=> -[g1 g2 g3 g4] [[h1 h2 h3] [k1 k2 k3]]; rewrite /iteration /=.
have hr := hrho g1; have e1 : hartree -> _ := fun h => hh h hr; have e2 : fock -> _ := fun h => hf h hr; have e3 := hP g1; have e4 : gw -> _ := fun h => hW h e3.
have e5 : gw -> _ := fun h => hdyn h (e4 h); have e6 : gw -> _ := fun h => hS (e5 h) g1.
set s1 := (if gw then _ + gw_dynamic_sigma1 _ _ else _); set s2 := (if gw then _ + gw_dynamic_sigma2 _ _ else _).
have hs : RG s1 s2.
  have gen (b : bool) x y u v : RG x y -> (b -> RG u v) -> RG (if b then x + u else x) (if b then y + v else y).
    by case: b => hx hu //; apply: hD => //; exact: hu.
  exact: (gen gw _ _ _ _ (gen fock _ _ _ _ (gen hartree _ _ _ _ h0 e1) e2) e6).
have := hdys (x := Some s1) (y := Some s2) g2 hs.
case: (dyson1 _ _) => [[g mu]|]; case: (dyson2 _ _) => [[g' mu']|] //= [/= hg hmu].
split; last first.
  by case: (l_old l) (l_old m) g4 => [o|] [o'|] //= ho; rewrite (hdist hg ho).
split; first by split.
by split; split=> /=; (try by case: (hartree) e1 => [e1|_] //=; exact: e1); (try by case: (fock) e2 => [e2|_] //=; exact: e2); (try by case: (gw) e6 => [e6|_] //=; exact: e6);
  (try by case: (gw)); (try by case: (gw) e4 => [e4|_] //=; exact: e4); (try by case: (gw) e5 => [e5|_] //=; exact: e5).
Qed.
Lemma loop_rel n l m : same_locals l m ->
  orel same_locals (loop calc_rho1 density1 hartree_sigma1 fock_sigma1 polarization1 screened_interaction1 dynamic_part1 gw_dynamic_sigma1 lattice_dyson_g1
    lattice_dyson_g01 brentq1 distance1 a1 tol hartree fock gw sp1 n l)
   (loop calc_rho2 density2 hartree_sigma2 fock_sigma2 polarization2 screened_interaction2 dynamic_part2 gw_dynamic_sigma2 lattice_dyson_g2
    lattice_dyson_g02 brentq2 distance2 a2 tol hartree fock gw sp2 n m).
Proof.
elim: n l m => [|n IH] l m h //=; have := iteration_rel h.
case: (it1 l) => [[l' b]|]; case: (it2 m) => [[m' b']|] //= [/= h' ->].
by case: b' => //; apply: IH.
Qed.
Lemma solve_iter_rel n s t : same_state s t ->
  orel same_state (solve_iter calc_rho1 density1 hartree_sigma1 fock_sigma1 polarization1 screened_interaction1 dynamic_part1 gw_dynamic_sigma1 susceptibility1 lattice_dyson_g1
    lattice_dyson_g01 brentq1 distance1 a1 tol hartree fock gw sp1 n s)
   (solve_iter calc_rho2 density2 hartree_sigma2 fock_sigma2 polarization2 screened_interaction2 dynamic_part2 gw_dynamic_sigma2 susceptibility2 lattice_dyson_g2
    lattice_dyson_g02 brentq2 distance2 a2 tol hartree fock gw sp2 n t).
Proof.
case=> -[s1 s2 s3] [[s4 s5 s6 s7] [[s8 s9 s10] [s11 s12 s13 s14]]]; rewrite /solve_iter.
have h : same_locals (Locals (s_g s) (s_mu s) 0 None (s_hartree s) (s_fock s) (s_dyn s) None None None) (Locals (s_g t) (s_mu t) 0 None (s_hartree t) (s_fock t) (s_dyn t) None None None) by [].
have := loop_rel n h.
case: (loop _ _ _ _ _ _ _ _ _ _ _ _ _ _ _ _ _ _ n _) => [l|]; case: (loop _ _ _ _ _ _ _ _ _ _ _ _ _ _ _ _ _ _ n _) => [m|] //= [[g1 g2 g3 g4] [[h1 h2 h3] [k1 k2 k3]]].
have r := hrho g1; case: gw.
  case: (l_W l) (l_W m) k2 => [w|] [v|] //= kw; case: (l_P l) (l_P m) k1 => [p|] [q|] //= kp.
  do 3!(split; first by split => //; exact: hN); split=> //=; exact: hX.
do 3!(split; first by split => //; exact: hN); by split.
Qed.
Lemma init_rel mu mu' x y : RM (odflt 0 mu) (odflt 0 mu') -> orel RG x y ->
  orel same_state (@init R G1 Rho1 P1 W1 X1 calc_rho1 density1 lattice_dyson_g1 lattice_dyson_g01 brentq1 a1 mu x)
   (@init R G2 Rho2 P2 W2 X2 calc_rho2 density2 lattice_dyson_g2 lattice_dyson_g02 brentq2 a2 mu' y).
Proof.
move=> hm0 h; rewrite /init; have := hdys (x := None) (y := None) hm0 I.
case: (dyson1 _ _) => [[g m]|]; case: (dyson2 _ _) => [[g' m']|] //= [/= hg hm].
by case: x y h => [x|] [y|] //= hxy.
Qed.
End Rel.

Section DysonRel.
Variables (R : numDomainType) (G1 G2 : zmodType) (Rho1 Rho2 : Type) (RM : R -> R -> Prop) (RG : G1 -> G2 -> Prop) (RRho : Rho1 -> Rho2 -> Prop) (RN Rf : R -> R -> Prop).
Variables (calc_rho1 : G1 -> Rho1) (density1 : Rho1 -> R) (lattice_dyson_g1 : R -> G1 -> G1) (lattice_dyson_g01 : R -> G1).
Variables (calc_rho2 : G2 -> Rho2) (density2 : Rho2 -> R) (lattice_dyson_g2 : R -> G2 -> G2) (lattice_dyson_g02 : R -> G2).
Variables (brentq1 brentq2 : (R -> R) -> R * R -> R -> option R) (a1 a2 : args R).
Hypothesis hrho : forall x y, RG x y -> RRho (calc_rho1 x) (calc_rho2 y).
Hypothesis hN : forall x y, RRho x y -> RN (density1 x) (density2 y).
Hypothesis hg : forall mu mu' x y, RM mu mu' -> RG x y -> RG (lattice_dyson_g1 mu x) (lattice_dyson_g2 mu' y).
Hypothesis hg0 : forall mu mu', RM mu mu' -> RG (lattice_dyson_g01 mu) (lattice_dyson_g02 mu').
(* no density asked for, or the same density *)
Definition same_args : Prop :=
  match fixed a1, fixed a2 with
  | None, None => True
  | Some n1, Some n2 => [/\ mu_bracket a1 = mu_bracket a2, N_tol a1 = N_tol a2 & forall x y, RN x y -> Rf (x - n1) (y - n2)]
  | _, _ => False
  end.
Hypothesis ha : same_args.
Hypothesis hb : forall f1 f2 b t, (forall mu mu', RM mu mu' -> Rf (f1 mu) (f2 mu')) -> orel RM (brentq1 f1 b t) (brentq2 f2 b t).
Lemma dyson_rel mu mu' x y : RM mu mu' -> orel RG x y -> orel (same_pair RM RG)
  (dyson_equation calc_rho1 density1 lattice_dyson_g1 lattice_dyson_g01 brentq1 a1 mu x)
  (dyson_equation calc_rho2 density2 lattice_dyson_g2 lattice_dyson_g02 brentq2 a2 mu' y).
Proof.
move=> hmu h; have hd m m' : RM m m' -> RG (dispatch lattice_dyson_g1 lattice_dyson_g01 x m) (dispatch lattice_dyson_g2 lattice_dyson_g02 y m').
  by move=> hm; case: x y h => [x|] [y|] //= h; [exact: hg | exact: hg0].
move: ha; rewrite /same_args /dyson_equation; case: (fixed a1) => [n1|]; last by (case: (fixed a2) => [n2|] //= _; split => //=; exact: hd).
case: (fixed a2) => [n2|] //.
case=> -> -> hr.
set f1 := fun m => density1 _ - n1; set f2 := fun m => density2 _ - n2.
have := hb (f1 := f1) (f2 := f2) (mu_bracket a2) (N_tol a2).
case: (brentq1 _ _ _) => [m|]; case: (brentq2 _ _ _) => [m'|] //= hx.
- have hm : RM m m' by apply: hx => u v huv; apply: hr; apply: hN; apply: hrho; exact: hd.
  by split=> //=; exact: hd.
- by apply: hx => u v huv; apply: hr; apply: hN; apply: hrho; exact: hd.
- by apply: hx => u v huv; apply: hr; apply: hN; apply: hrho; exact: hd.
Qed.
End DysonRel.

(* the stopping criterion max |g - g_old| < tol *)
Section Max.
Variable C : numDomainType.
Lemma bigmax_ge0 (I : Type) (r : seq I) (F : I -> C) : (forall i, 0 <= F i) -> 0 <= \big[Num.max/0]_(i <- r) F i.
Proof.
move=> h; elim: r => [|i r IH]; first by rewrite big_nil.
by rewrite big_cons /Num.max; case: ifP.
Qed.
Lemma bigmax_lt (I : finType) (F : I -> C) (x : C) : (forall i, 0 <= F i) -> (\big[Num.max/0]_i F i < x) = (0 < x) && [forall i, F i < x].
Proof.
move=> h; have -> : [forall i, F i < x] = all (fun i => F i < x) (index_enum I).
  by apply/forallP/allP => [hx i _|hx i] //; apply: hx; rewrite mem_index_enum.
elim: (index_enum I) => [|i r IH]; first by rewrite big_nil /= andbT.
rewrite big_cons Order.POrderTheory.comparable_lt_maxl; last by apply: real_comparable; apply: ger0_real => //; exact: bigmax_ge0.
by rewrite IH /= andbCA.
Qed.
End Max.

(* without fixed particle number an iteration never fails *)
Section Runs.
Variables (R : numDomainType) (G : zmodType) (Rho P W X : Type).
Variables (calc_rho : G -> Rho) (density : Rho -> R) (hartree_sigma fock_sigma : Rho -> G).
Variables (polarization : G -> P) (screened_interaction : bool -> P -> W) (dynamic_part : W -> W) (gw_dynamic_sigma : W -> G -> G) (susceptibility : P -> W -> X).
Variables (lattice_dyson_g : R -> G -> G) (lattice_dyson_g0 : R -> G) (brentq : (R -> R) -> R * R -> R -> option R) (distance : G -> G -> R).
Variables (a : args R) (tol : R) (hartree fock gw spinless : bool).
Notation loop := (loop calc_rho density hartree_sigma fock_sigma polarization screened_interaction dynamic_part gw_dynamic_sigma lattice_dyson_g lattice_dyson_g0 brentq distance a tol hartree fock gw spinless).
Notation solve_iter := (solve_iter calc_rho density hartree_sigma fock_sigma polarization screened_interaction dynamic_part gw_dynamic_sigma susceptibility lattice_dyson_g lattice_dyson_g0 brentq distance a tol hartree fock gw spinless).
Hypothesis ha : N_fix a = None.
Lemma loop_runs n l : exists2 l', loop n l = Some l' & ((0 < n)%N || (isSome (l_W l) && isSome (l_P l)) -> gw -> isSome (l_W l') && isSome (l_P l')).
Proof.
elim: n l => [|n ih] l; first by exists l.
rewrite /= /iteration /dyson_equation /fixed ha; case: ifP => _.
  by eexists; [reflexivity|move=> _ /= ->].
match goal with |- context [loop n ?x] => case: (ih x) => l' -> hl' end.
by exists l' => // _ hg; apply: hl' => //=; rewrite hg orbT.
Qed.
Lemma solve_iter_runs n s : (0 < n)%N -> solve_iter n s <> None.
Proof.
move=> hn; rewrite /solve_iter; match goal with |- context [loop n ?x] => case: (loop_runs n x) => l' -> hl' end.
case hg: gw => //; have := hl'; rewrite hn => /(_ isT hg).
by case: (l_W l') (l_P l') => [?|] [?|].
Qed.
End Runs.
