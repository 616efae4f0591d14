(* C76, C77: the GW iteration. *)
From mathcomp Require Import all_ssreflect all_algebra.
From Verif Require Import GwSolverModel.
Set Implicit Arguments.
Unset Strict Implicit.
Unset Printing Implicit Defensive.
Import Order.TTheory GRing.Theory Num.Theory.
Local Open Scope ring_scope.

Section Thms.
Variables (R : numDomainType) (G : zmodType) (Rho P W X : Type).
Variables (calc_rho : G -> Rho) (density : Rho -> R) (hartree_sigma fock_sigma : Rho -> G).
Variables (polarization : G -> P) (screened_interaction : bool -> P -> W) (dynamic_part : W -> W) (gw_dynamic_sigma : W -> G -> G) (susceptibility : P -> W -> X).
Variables (lattice_dyson_g : R -> G -> G) (lattice_dyson_g0 : R -> G).
Variables (brentq : (R -> R) -> R * R -> R -> option R) (distance : G -> G -> R).
Variables (a : args R) (tol : R) (hartree fock gw spinless : bool).
Notation attributes := (attributes R G Rho P W X).
Notation locals := (locals R G P W).
Notation dyson := (dyson_equation calc_rho density lattice_dyson_g lattice_dyson_g0 brentq a).
Notation iteration := (iteration calc_rho density hartree_sigma fock_sigma polarization screened_interaction dynamic_part gw_dynamic_sigma lattice_dyson_g
  lattice_dyson_g0 brentq distance a tol hartree fock gw spinless).
Notation loop := (loop calc_rho density hartree_sigma fock_sigma polarization screened_interaction dynamic_part gw_dynamic_sigma lattice_dyson_g
  lattice_dyson_g0 brentq distance a tol hartree fock gw spinless).
Notation solve_iter := (solve_iter calc_rho density hartree_sigma fock_sigma polarization screened_interaction dynamic_part gw_dynamic_sigma susceptibility
  lattice_dyson_g lattice_dyson_g0 brentq distance a tol hartree fock gw spinless).

(* the self-energy of a Green's function: the sum of the contributions asked for *)
Definition self_energy (g : G) : G :=
  (if hartree then hartree_sigma (calc_rho g) else 0) + (if fock then fock_sigma (calc_rho g) else 0) +
  (if gw then gw_dynamic_sigma (dynamic_part (screened_interaction spinless (polarization g))) g else 0).
(* one step from a Green's function and chemical potential to the next *)
Definition next (p : G * R) : option (G * R) := dyson p.2 (Some (self_energy p.1)).
Fixpoint is_trace (p : G * R) (t : seq (G * R)) : Prop := if t is q :: t' then next p = Some q /\ is_trace q t' else True.
(* the Green's functions of consecutive steps are close; the starting point does not count *)
Definition close (p q : G * R) : bool := distance q.1 p.1 < tol.
(* the steps end with the first close pair, and otherwise after n steps; the first step has no predecessor to compare with *)
Fixpoint ends (n : nat) (p : G * R) (t : seq (G * R)) : Prop :=
  match n, t with
  | 0%N, [::] => True
  | n'.+1, q :: t' => if close p q then t' = [::] else ends n' q t'
  | _, _ => False
  end.
Definition complete (n : nat) (t : seq (G * R)) : Prop :=
  match n, t with
  | 0%N, [::] => True
  | n'.+1, q :: t' => ends n' q t'
  | _, _ => False
  end.

Lemma iterationE (l : locals) : iteration l =
  if next (l_g l, l_mu l) is Some (g, mu) then
    Some (Locals g mu (self_energy (l_g l)) (Some g) (if hartree then Some (hartree_sigma (calc_rho (l_g l))) else l_hartree l)
      (if fock then Some (fock_sigma (calc_rho (l_g l))) else l_fock l)
      (if gw then Some (gw_dynamic_sigma (dynamic_part (screened_interaction spinless (polarization (l_g l)))) (l_g l)) else l_dyn l)
      (if gw then Some (polarization (l_g l)) else l_P l) (if gw then Some (screened_interaction spinless (polarization (l_g l))) else l_W l)
      (if gw then Some (dynamic_part (screened_interaction spinless (polarization (l_g l)))) else l_Wdyn l),
      if l_old l is Some old then distance g old < tol else false)
  else None.
Proof.
rewrite /iteration /next /=; set s3 := (if gw then _ else _); have -> : s3 = self_energy (l_g l).
  by rewrite /s3 /self_energy; case: hartree; case: fock; case: gw; rewrite ?add0r ?addr0.
by case: (dyson _ _) => [[g mu]|].
Qed.
Definition before (p : G * R) (t : seq (G * R)) : G * R := last p (belast p t).
Definition with_attributes (g : G) (l : locals) : Prop := [/\
  l_sigma l = self_energy g, hartree -> l_hartree l = Some (hartree_sigma (calc_rho g)), fock -> l_fock l = Some (fock_sigma (calc_rho g)) &
  gw -> [/\ l_P l = Some (polarization g), l_W l = Some (screened_interaction spinless (polarization g)), l_Wdyn l = Some (dynamic_part (screened_interaction spinless (polarization g))) &
    l_dyn l = Some (gw_dynamic_sigma (dynamic_part (screened_interaction spinless (polarization g))) g)]].
Lemma loop_trace n (l l' : locals) g0 : l_old l = Some (l_g l) -> with_attributes g0 l -> loop n l = Some l' ->
  exists t, [/\ is_trace (l_g l, l_mu l) t, ends n (l_g l, l_mu l) t, (l_g l', l_mu l') = last (l_g l, l_mu l) t &
    with_attributes (if t is _ :: _ then (last (l_g l, l_mu l) (belast (l_g l, l_mu l) t)).1 else g0) l'].
Proof.
elim: n l g0 => [|n IH] l g0 ho ha /=; first by case=> <-; exists [::]; split.
rewrite iterationE; case e: (next _) => [[g mu]|] //; rewrite ho /=; set l1 := Locals _ _ _ _ _ _ _ _ _ _.
have h1 : with_attributes (l_g l) l1 by split=> //=; [move-> | move-> | move->].
case: ifP => hc.
  by case=> <-; exists [:: (g, mu)]; split=> //=; rewrite /close hc.
move=> h; have [t [t1 t2 t3 t4]] := IH l1 _ erefl h1 h.
exists ((g, mu) :: t); split=> //=; first by rewrite /close hc.
by case: t t1 t2 t3 t4.
Qed.
(* C76: the Green's functions of solve_iter are the steps from the starting point to the first close pair or the given number; the self-energy, polarization and
   screened interaction are those of the last but one Green's function, from which the Dyson equation made the last; the density is the one of the last *)
Theorem C76_trace n (s s' : attributes) : (0 < n)%N -> solve_iter n s = Some s' ->
  exists t, let p := (s_g s, s_mu s) in let g := (last p (belast p t)).1 in
  [/\ is_trace p t, complete n t, (s_g s', s_mu s') = last p t,
      s_sigma s' = self_energy g /\ s_rho s' = Some (calc_rho (s_g s')) /\ s_N s' = Some (density (calc_rho (s_g s'))) &
      [/\ hartree -> s_hartree s' = Some (hartree_sigma (calc_rho g)), fock -> s_fock s' = Some (fock_sigma (calc_rho g)) &
        gw -> exists P W, [/\ s_P s' = Some P, s_W s' = Some W, s_chi s' = Some (susceptibility P W), P = polarization g &
          [/\ W = screened_interaction spinless P, s_Wdyn s' = Some (dynamic_part W) & s_dyn s' = Some (gw_dynamic_sigma (dynamic_part W) g)]]]].
Proof.
case: n => // n _; rewrite /solve_iter /= iterationE /=; case e: (next _) => [[g mu]|] //=; set l1 := Locals _ _ _ _ _ _ _ _ _ _.
have h1 : with_attributes (s_g s) l1 by split=> //=; [move-> | move-> | move->].
case el : (loop n l1) => [l'|] // h.
have [t [t1 t2 t3 t4]] := @loop_trace n l1 l' (s_g s) erefl h1 el; exists ((g, mu) :: t) => /=.
have [a1 a2 a3 a4] : with_attributes (last (s_g s, s_mu s) (belast (g, mu) t)).1 l' by case: t t1 t2 t3 t4.
move: h; case: ifP a4 => hg a4; last first.
  by case=> <- /=; split=> //; split=> // /a4.
have [b1 b2 b3 b4] := a4 erefl; rewrite b1 b2; case=> <- /=; split=> //; split=> // _.
by exists (polarization (last (s_g s, s_mu s) (belast (g, mu) t)).1), (screened_interaction spinless (polarization (last (s_g s, s_mu s) (belast (g, mu) t)).1)).
Qed.
(* the Dyson equation holds for what is returned *)
Theorem C76_dyson n (s s' : attributes) : (0 < n)%N -> solve_iter n s = Some s' -> fixed a = None ->
  s_mu s' = s_mu s /\ s_g s' = lattice_dyson_g (s_mu s') (s_sigma s').
Proof.
move=> n0 /(C76_trace n0) [t [t1 t2 t3 [t4 _] _]] hf.
have hn p q : next p = Some q -> q = (lattice_dyson_g p.2 (self_energy p.1), p.2) by rewrite /next /dyson_equation hf => -[].
have hm p : is_trace p t -> (last p t).2 = p.2.
  by elim: (t) p => [|q u IH] p //= [/hn e /IH ->]; rewrite e.
have em : s_mu s' = s_mu s by move/(congr1 snd): t3 => /= ->; rewrite (hm _ t1).
split=> //; case/lastP: t t1 t2 t3 t4 hm => [|u q] t1 t2 t3 t4 hm; first by case: (n) n0 t2.
move: t1 t3 t4; rewrite last_rcons belast_rcons /= => t1 t3 ->.
have : next (last (s_g s, s_mu s) u) = Some q.
  by elim: u (s_g s, s_mu s) t1 {t2 t3 hm} => [|x u IH] p /= []; [move=> -> | move=> _ /IH].
by move/hn=> e; move: t3; rewrite e => -[-> ->].
Qed.
(* a self-consistent Green's function is left unchanged *)
Theorem C76_fixed_point n (s : attributes) s' : next (s_g s, s_mu s) = Some (s_g s, s_mu s) -> (0 < n)%N -> solve_iter n s = Some s' ->
  s_g s' = s_g s /\ s_mu s' = s_mu s.
Proof.
move=> hfix n0 /(C76_trace n0) [t [t1 _ t3 _ _]].
have : last (s_g s, s_mu s) t = (s_g s, s_mu s).
  by elim: t t1 {t3} => [|q t IH] //= [e]; move: e IH; rewrite hfix => -[<-] IH /IH.
by rewrite -t3 => -[].
Qed.
(* conversely: what is returned after convergence satisfies the equations up to the tolerance: it is the next step of a Green's function close to it *)
Theorem C76_converged n (s s' : attributes) : (0 < n)%N -> solve_iter n s = Some s' ->
  (exists p, [/\ next p = Some (s_g s', s_mu s'), s_sigma s' = self_energy p.1 & distance (s_g s') p.1 < tol]) \/
  exists t, [/\ is_trace (s_g s, s_mu s) t, size t = n & (s_g s', s_mu s') = last (s_g s, s_mu s) t].
Proof.
move=> n0 /(C76_trace n0) [t [t1 t2 t3 [t4 _] _]].
have [hs|hs] := eqVneq (size t) n; first by right; exists t.
left; exists (last (s_g s, s_mu s) (belast (s_g s, s_mu s) t)).
case: n t n0 t1 t2 t3 t4 hs => // n [|q t] // _ [hq t1] t2 t3 t4 hs /=.
have [h1 h2] : next (last (s_g s, s_mu s) (belast q t)) = Some (last q t) /\ close (last (s_g s, s_mu s) (belast q t)) (last q t).
  move: (s_g s, s_mu s) hq {t3 t4} => p hq; move: hs; rewrite /= eqSS.
  elim: n q p t hq t1 t2 => [|n IH] q p [|x t] //= hq [hx t1]; case: ifP => hc; first by move=> -> /=.
  by move=> t2; rewrite eqSS => /(IH x q t hx t1 t2).
rewrite /= in t3.
by split=> //; [rewrite h1 -t3 | move: h2; rewrite /close -t3].
Qed.
(* stopping and continuing is the same as not stopping, as long as the criterion is not met *)
Theorem C76_resume n m (s : attributes) : (forall x y, ~~ (distance x y < tol)) -> (0 < n)%N -> (0 < m)%N ->
  solve_iter (n + m) s = if solve_iter n s is Some s1 then solve_iter m s1 else None.
Proof.
move=> hd n0 m0.
pose same (l l' : locals) := [/\ l_g l = l_g l', l_mu l = l_mu l', l_hartree l = l_hartree l' & l_fock l = l_fock l' /\ l_dyn l = l_dyn l'].
pose same' (l l' : locals) := [/\ same l l', l_sigma l = l_sigma l' & [/\ gw -> l_P l = l_P l', gw -> l_W l = l_W l' & gw -> l_Wdyn l = l_Wdyn l']].
have st (l l' : locals) : same l l' -> match iteration l, iteration l' with Some (x, c), Some (x', c') => [/\ same' x x', c = false & c' = false] | None, None => True | _, _ => False end.
  move=> [h1 h2 h3 [h4 h5]]; rewrite !iterationE h1 h2; case: (next _) => [[g mu]|] //; split=> //.
  - by split=> //=; [split=> //=; rewrite ?h3 ?h4 ?h5 | split; move->].
  - by case: (l_old l) => // x; apply/negbTE.
  - by case: (l_old l') => // x; apply/negbTE.
have lp k (l l' : locals) : (0 < k)%N -> same l l' -> match loop k l, loop k l' with Some x, Some x' => same' x x' | None, None => True | _, _ => False end.
  elim: k l l' => // k IH l l' _ h /=; move: (st _ _ h).
  case: (iteration l) => [[x c]|]; case: (iteration l') => [[x' c']|] // [hs -> ->].
  by case: k IH => [|k] IH //; apply: IH => //; case: hs.
have ld k (l : locals) : loop (k + m) l = if loop k l is Some x then loop m x else None.
  elim: k l => // k IH l /=; have : same l l by [].
  by move/st; case: (iteration l) => [[x c]|] // [_ -> _].
rewrite /solve_iter ld; set l0 := Locals _ _ _ _ _ _ _ _ _ _; case el: (loop n l0) => [x|] //.
have gx : gw -> exists P W Wd, [/\ l_P x = Some P, l_W x = Some W & l_Wdyn x = Some Wd].
  move=> hg; move: el; case: (n) n0 => // n' _ /=.
  have pr k (y : locals) P1 W1 Wd1 : l_P y = Some P1 -> l_W y = Some W1 -> l_Wdyn y = Some Wd1 -> loop k y = Some x -> exists P W Wd, [/\ l_P x = Some P, l_W x = Some W & l_Wdyn x = Some Wd].
    elim: k y P1 W1 Wd1 => [|k IH] y P0 W0 Wd0 e1 e2 e3 /=; first by case=> <-; exists P0, W0, Wd0.
    rewrite iterationE; case: (next _) => [[g mu]|] //; case: (match l_old y with Some _ => _ | None => _ end).
      by case=> <- /=; rewrite hg; eexists; eexists; eexists.
    by apply: (IH _ (polarization (l_g y)) (screened_interaction spinless (polarization (l_g y))) (dynamic_part (screened_interaction spinless (polarization (l_g y))))); rewrite /= hg.
  rewrite iterationE; case: (next _) => [[g mu]|] //=.
  by apply: (pr _ _ (polarization (s_g s)) (screened_interaction spinless (polarization (s_g s))) (dynamic_part (screened_interaction spinless (polarization (s_g s))))); rewrite /= hg.
pose fin (u : attributes) (l : locals) : option attributes := if gw then
      if (l_W l, l_P l) is (Some W_wk, Some P_wk) then
        Some (Attr (l_mu l) (s_mu0 u) (l_g l) (s_g0 u) (l_sigma l) (Some (calc_rho (l_g l))) (Some (density (calc_rho (l_g l)))) (l_hartree l) (l_fock l) (l_dyn l)
          (Some W_wk) (l_Wdyn l) (Some P_wk) (Some (susceptibility P_wk W_wk)))
      else None
    else Some (Attr (l_mu l) (s_mu0 u) (l_g l) (s_g0 u) (l_sigma l) (Some (calc_rho (l_g l))) (Some (density (calc_rho (l_g l)))) (l_hartree l) (l_fock l) (l_dyn l)
          (s_W u) (s_Wdyn u) (s_P u) (s_chi u)).
have [s1 [e1 e2 e3]] : exists s1, [/\ fin s x = Some s1, same x (Locals (s_g s1) (s_mu s1) 0 None (s_hartree s1) (s_fock s1) (s_dyn s1) None None None) &
    forall y y', same' y y' -> fin s y = fin s1 y'].
  rewrite /fin /same'; move: gx; case: (gw) => gx.
    have [P0 [W0 [Wd0 [-> -> ->]]]] := gx erefl; eexists; split; first by [].
      by split.
    by move=> y y' [[-> -> -> [-> ->]] -> [-> // -> // -> //]].
  eexists; split; first by []; first by split.
  by move=> y y' [[-> -> -> [-> ->]] -> _].
rewrite -[if gw then _ else _]/(fin s x) e1; have := lp m _ _ m0 e2.
case: (loop m x) => [y|]; set l1 := Locals _ _ _ _ _ _ _ _ _ _; case: (loop m l1) => [y'|] // h.
exact: e3 h.
Qed.
End Thms.

(* a case with three steps before the criterion is met: 12, 6, 9, 8, 8 *)
Module Case.
Definition half (x : int) : int := (x %/ 2)%Z.
Definition run (a : args [numDomainType of int]) (tol : int) (n : nat) (s : attributes [numDomainType of int] int_ZmodType int int int int) :=
  solve_iter (fun g : int => g) (fun r : int => r) half (fun _ => 0) (fun g => g) (fun _ p => p) (fun w => w) (fun _ _ => 0) (fun p w : int => p + w)
    (fun mu s => mu - s) (fun mu => mu) (fun _ _ _ => None) (fun x y => `|x - y|) a tol true false true false n s.
Definition start : attributes [numDomainType of int] int_ZmodType int int int int := Attr 12 12 12 12 0 None None None None None None None None None.
Theorem C76_case :
  run (Args None 1 (0, 0)) 1 100 start = Some (Attr 12 12 8 12 4 (Some 8) (Some 8) (Some 4) None (Some 0) (Some 8) (Some 8) (Some 8) (Some 16)) /\
  run (Args None 1 (0, 0)) 1 2 start = Some (Attr 12 12 9 12 3 (Some 9) (Some 9) (Some 3) None (Some 0) (Some 6) (Some 6) (Some 6) (Some 12)) /\
  run (Args None 1 (0, 0)) 1 0 start = None.
Proof. by []. Qed.
End Case.

Section Density.
Variables (R : numFieldType) (G : zmodType) (Rho P W X : Type).
Variables (calc_rho : G -> Rho) (density : Rho -> R) (hartree_sigma fock_sigma : Rho -> G).
Variables (polarization : G -> P) (screened_interaction : bool -> P -> W) (dynamic_part : W -> W) (gw_dynamic_sigma : W -> G -> G) (susceptibility : P -> W -> X).
Variables (lattice_dyson_g : R -> G -> G) (lattice_dyson_g0 : R -> G).
Variables (brentq : (R -> R) -> R * R -> R -> option R) (distance : G -> G -> R).
Notation solve_iter a := (solve_iter calc_rho density hartree_sigma fock_sigma polarization screened_interaction dynamic_part gw_dynamic_sigma susceptibility
  lattice_dyson_g lattice_dyson_g0 brentq distance a).
Notation dyson a := (dyson_equation calc_rho density lattice_dyson_g lattice_dyson_g0 brentq a).
(* what root finding promises: a root within the tolerance, relative and absolute, of the returned number *)
Definition root_finder (xtol : R) : Prop :=
  forall f b tol x, brentq f b tol = Some x -> exists x0, f x0 = 0 /\ `|x - x0| <= xtol + tol * `|x0|.
(* the density as a function of the chemical potential *)
Definition filling (sigma : G) (mu : R) : R := density (calc_rho (lattice_dyson_g mu sigma)).

Variables (a : args R) (tol : R) (hartree fock gw spinless : bool).
(* the density reported is the density of the reported Green's function, and that is the solution of the Dyson equation with the reported self-energy and
   chemical potential, which is close to one with the density asked for *)
Theorem C77_filling n xtol (s s' : attributes R G Rho P W X) : root_finder xtol -> (0 < n)%N -> fixed a != None ->
  solve_iter a tol hartree fock gw spinless n s = Some s' ->
  [/\ s_g s' = lattice_dyson_g (s_mu s') (s_sigma s'), s_N s' = Some (filling (s_sigma s') (s_mu s')) &
      exists mu0, Some (filling (s_sigma s') mu0) = N_fix a /\ `|s_mu s' - mu0| <= xtol + N_tol a * `|mu0| ].
Proof.
move=> hb n0 hf /(C76_trace n0) [t [t1 t2 t3 [t4 [t5 t6]] _]].
case/lastP: t t1 t2 t3 t4 => [|u q] t1 t2 t3 t4; first by case: (n) n0 t2.
move: t1 t3 t4; rewrite last_rcons belast_rcons /= => t1 t3 t4.
set p := last _ u in t4; have : dyson a p.2 (Some (s_sigma s')) = Some q.
  rewrite t4 /p; elim: u (s_g s, s_mu s) t1 {t2 t3 t4 p} => [|x u IH] p /= [h1 h2]; first exact: h1.
  exact: IH h2.
have fN : fixed a = N_fix a by move: hf; rewrite /fixed; case: (N_fix a) => // x; case: (x == 0).
rewrite /dyson_equation fN; move: hf; rewrite fN; case: (N_fix a) => // N _ /=.
case e: (brentq _ _ _) => [mu|] // [eq]; move: t3; rewrite -eq => -[e1 e2].
rewrite t6 e1 e2; split=> //.
by have [x0 [/eqP h1 h2]] := hb _ _ _ _ e; exists x0; split=> //; congr Some; apply/eqP; rewrite -subr_eq0.
Qed.
(* hence the error of the density is the tolerance times the size and the compressibility *)
Theorem C77_density_partial n xtol L N N' (s s' : attributes R G Rho P W X) : root_finder xtol -> (0 < n)%N -> N_fix a = Some N -> N != 0 ->
  (forall sigma mu mu', `|filling sigma mu - filling sigma mu'| <= L * `|mu - mu'|) -> 0 <= L ->
  solve_iter a tol hartree fock gw spinless n s = Some s' -> s_N s' = Some N' ->
  exists mu0, `|N' - N| <= L * (xtol + N_tol a * `|mu0|) /\ filling (s_sigma s') mu0 = N.
Proof.
move=> hb n0 hN N0 hl L0 hs hN'.
have hf : fixed a != None by rewrite /fixed hN (negbTE N0).
have [_ h2 [mu0 [h3 h4]]] := C77_filling hb n0 hf hs.
move: h2 h3; rewrite hN hN' => -[->] [<-]; exists mu0; split=> //.
by apply: (le_trans (hl _ _ _)); apply: ler_wpmul2l.
Qed.
(* a density of zero is not asked for *)
Theorem C77_zero_refuted tl b n (s : attributes R G Rho P W X) :
  solve_iter (Args (Some 0) tl b) tol hartree fock gw spinless n s = solve_iter (Args None tl b) tol hartree fock gw spinless n s.
Proof.
have e mu sg : dyson (Args (Some 0) tl b) mu sg = dyson (Args None tl b) mu sg by rewrite /dyson_equation /fixed /= eqxx.
rewrite /GwSolverModel.solve_iter; set l0 := Locals _ _ _ _ _ _ _ _ _ _.
set lo := loop _ _ _ _ _ _ _ _ _ _ _ _ _ _ _ _ _ _; set lo' := loop _ _ _ _ _ _ _ _ _ _ _ _ _ _ _ _ _ _.
suff -> : forall k l, lo k l = lo' k l by [].
pose it0 := iteration calc_rho density hartree_sigma fock_sigma polarization screened_interaction dynamic_part gw_dynamic_sigma lattice_dyson_g
    lattice_dyson_g0 brentq distance (Args None tl b) tol hartree fock gw spinless.
have it l : iteration calc_rho density hartree_sigma fock_sigma polarization screened_interaction dynamic_part gw_dynamic_sigma lattice_dyson_g
    lattice_dyson_g0 brentq distance (Args (Some 0) tl b) tol hartree fock gw spinless l = it0 l.
  by rewrite /it0 /iteration; lazy zeta; rewrite e.
elim=> // k IH l.
rewrite -[lo' _ _]/(if it0 l is Some (l', converged) then if converged then Some l' else lo' k l' else None) -it.
rewrite -[lo _ _]/(if iteration _ _ _ _ _ _ _ _ _ _ _ _ _ _ _ _ _ _ l is Some (l', converged) then if converged then Some l' else lo k l' else None).
by rewrite it; case: (it0 l) => [[l' []]|] //; apply: IH.
Qed.
End Density.

(* N_tol does not bound the error of the density: here the density is c times the chemical potential, and c is asked for *)
Section Toy.
Variables (F : numFieldType) (c tl : F).
Definition toy_brentq (f : F -> F) (b : F * F) (tol : F) : option F := if (f 1 == 0) && (0 <= tol) then Some (1 + tol) else None.
Definition toy_run := solve_iter (fun g : F => g) (fun r : F => c * r) (fun r => r) (fun r => r) (fun g => g) (fun _ p => p) (fun w => w) (fun _ _ => 0)
  (fun p w : F => p + w) (fun mu _ => mu) (fun mu => mu) toy_brentq (fun x y => `|x - y|) (Args (Some c) tl (0, 2%:R)) 1 true true false false.
Theorem C77_density_refuted n s : 1 < c -> 0 < tl -> (0 < n)%N ->
  root_finder toy_brentq 0 /\ exists s' N, toy_run n s = Some s' /\ s_N s' = Some N /\ tl < `|N - c|.
Proof.
move=> c1 t0 n0; split.
  move=> f b tol x; rewrite /toy_brentq; case: andP => // -[/eqP h1 h2] [<-]; exists 1; split=> //.
  by rewrite addrAC subrr add0r normr1 mulr1 add0r ger0_norm.
have cp : 0 < c by apply: lt_trans c1; rewrite ltr01.
have hd mu sg : dyson_equation (fun g : F => g) (fun r : F => c * r) (fun mu _ => mu) (fun mu => mu) toy_brentq (Args (Some c) tl (0, 2%:R)) mu sg = Some (1 + tl, 1 + tl).
  rewrite /dyson_equation /fixed /= (gt_eqF cp) /toy_brentq /= ltW // andbT.
  have -> : c * dispatch (fun mu _ => mu) (fun mu => mu) sg 1 - c == 0 by case: (sg) => [?|]; rewrite /= mulr1 subrr.
  by case: (sg).
pose good (l : locals F F F F) := l_g l = 1 + tl.
pose it := iteration (fun g : F => g) (fun r : F => c * r) (fun r => r) (fun r => r) (fun g => g) (fun _ (p : F) => p) (fun w : F => w) (fun _ _ => 0)
  (fun mu _ => mu) (fun mu => mu) toy_brentq (fun x y => `|x - y|) (Args (Some c) tl (0, 2%:R)) 1 true true false false.
have hi l : exists l' k, it l = Some (l', k) /\ good l' by rewrite /it /iteration; lazy zeta; rewrite hd; eexists; eexists; split.
pose lo := loop (fun g : F => g) (fun r : F => c * r) (fun r => r) (fun r => r) (fun g => g) (fun _ (p : F) => p) (fun w : F => w) (fun _ _ => 0)
  (fun mu _ => mu) (fun mu => mu) toy_brentq (fun x y => `|x - y|) (Args (Some c) tl (0, 2%:R)) 1 true true false false.
have loE k l : lo k.+1 l = if it l is Some (l', converged) then if converged then Some l' else lo k l' else None by [].
have h2 k l : good l -> exists l', lo k l = Some l' /\ good l'.
  elim: k l => [|k IH] l hl; first by exists l.
  by have [l' [b [e g]]] := hi l; rewrite loE e; case: b e => e; [exists l' | apply: IH].
have [l [e g]] : exists l', lo n (Locals (s_g s) (s_mu s) 0 None (s_hartree s) (s_fock s) (s_dyn s) None None None) = Some l' /\ good l'.
  case: (n) n0 => // k _; rewrite loE; set l0 := Locals _ _ _ _ _ _ _ _ _ _.
  by have [l' [b [e g]]] := hi l0; rewrite e; case: b e => e; [exists l' | apply: h2].
rewrite /toy_run /solve_iter -/lo e; eexists; eexists; split; first by []; split; first by [].
by rewrite g mulrDr mulr1 addrAC subrr add0r ger0_norm ?mulr_ge0 ?ltW // -[X in X < _]mul1r ltr_pmul2r.
Qed.
End Toy.
Print Assumptions C76_trace.
Print Assumptions C76_dyson.
Print Assumptions C76_fixed_point.
Print Assumptions C76_converged.
Print Assumptions C76_resume.
Print Assumptions C77_filling.
Print Assumptions C77_density_partial.
Print Assumptions C77_zero_refuted.
Print Assumptions C77_density_refuted.
