(* C116: if the dispersion and the interaction have a smaller period in momentum space (there is hopping and interaction between every q-th cell only), then the GW
   results are the ones of the calculation for the sublattice; in particular a direction without hopping needs a single momentum. *)
From mathcomp Require Import all_ssreflect all_algebra.
From Verif Require Import Base MpiModel MpiProofs MpiSpec FourierModel FourierProofs BubbleModel BubbleProofs MatsubaraModel ImtimeModel RpaModel RpaSpec RpaProofs
  Fring DysonModel GwModel GwSpec GwProofs GwChainModel BseProofs GwSolverModel GwFullModel GwFullProofs GwRel UnitsGwThms SublatticeProofs.
Set Implicit Arguments.
Unset Strict Implicit.
Unset Printing Implicit Defensive.
Import Order.Theory GRing.Theory Num.Theory.
Local Open Scope ring_scope.

Section Gw.
Variables (C : numClosedFieldType) (n1 n2 n3 m1 m2 m3 q1 q2 q3 nb nn L : nat) (z1 z2 z3 beta : C).
Hypothesis z1P : (n1.+1).-primitive_root z1.
Hypothesis z2P : (n2.+1).-primitive_root z2.
Hypothesis z3P : (n3.+1).-primitive_root z3.
(* every q-th cell in each direction *)
Hypotheses (nq1 : n1.+1 = (q1 * m1.+1)%N) (nq2 : n2.+1 = (q2 * m2.+1)%N) (nq3 : n3.+1 = (q3 * m3.+1)%N).
Local Notation K := (site n1 n2 n3).
Local Notation K' := (site m1 m2 m3).
Local Notation w1 := (z1 ^+ q1).
Local Notation w2 := (z2 ^+ q2).
Local Notation w3 := (z3 ^+ q3).
Local Notation t4 := (tensor4 C nb).
Local Notation mat := 'M[C]_nb.
Local Notation Wb := 'I_(2 * nn).-1.
Local Notation Wf := 'I_(2 * nn).
Variables (freq : Wf -> C) (density : (int -> mat) -> mat) (wt : (int -> mat) -> 'I_L.+1 -> mat) (tw : ('I_L.+1 -> C) -> int -> C).
Variables (wtc : (Wb -> C) -> 'I_L.+1 -> C) (tw_plan tw_lib : ('I_L.+1 -> C) -> int -> C).
Variable brentq : (C -> C) -> C * C -> C -> option C.
Variables (nranks nranks' : nat) (sc sc' : schedules).
Variables (e_k : K' -> mat) (V_k : K' -> t4).
(* the same functions on the larger mesh *)
Local Notation pi := (fold (n1 := n1) (n2 := n2) (n3 := n3) m1 m2 m3).
Local Notation emb := (emb n1 n2 n3 q1 q2 q3 (m1 := m1) (m2 := m2) (m3 := m3)).
Local Notation on_sub := (on_sub q1 q2 q3 (n1 := n1) (n2 := n2) (n3 := n3)).
Variables (E_k : K -> mat) (U_k : K -> t4).
Hypotheses (hE : forall k, E_k k = e_k (pi k)) (hU : forall k a b c d, U_k k a b c d = V_k (pi k) a b c d).
Local Notation k2r := (@fourier_k_to_r C n1 n2 n3 z1 z2 z3).
Local Notation r2k := (@fourier_r_to_k C n1 n2 n3 z1 z2 z3).
Local Notation k2r' := (@fourier_k_to_r C m1 m2 m3 w1 w2 w3).
Local Notation r2k' := (@fourier_r_to_k C m1 m2 m3 w1 w2 w3).
Local Notation G := (G C n1 n2 n3 nb nn).
Local Notation G' := (GwFullModel.G C m1 m2 m3 nb nn).
Local Notation chi4 := (chi4 C n1 n2 n3 nb nn).
Local Notation chi4' := (GwFullModel.chi4 C m1 m2 m3 nb nn).
Local Notation Rho := (Rho C n1 n2 n3 nb).
Local Notation Rho' := (GwFullModel.Rho C m1 m2 m3 nb).
Local Notation state := (solver_state C n1 n2 n3 nb nn).
Local Notation state' := (solver_state C m1 m2 m3 nb nn).
Hypotheses (hs : fair_sched nranks sc) (hs' : fair_sched nranks' sc').
(* the transforms are functions of the data, zero for zero data *)
Hypotheses (hd : forall x y, x =1 y -> density x = density y) (hw : forall x y t, x =1 y -> wt x t = wt y t) (hw0 : forall t, wt (fun _ => 0) t = 0).
Hypotheses (twL : forall n, linfun (fun x => tw x n)) (wtcL : forall t, linfun (fun x => wtc x t)) (planL : forall n, linfun (fun x => tw_plan x n)).

(* periodic functions of the momentum; functions on the sublattice *)
Definition g_per (x : G) (y : G') : Prop := forall w k, x (w, k) = y (w, pi k).
Definition rho_per (x : Rho) (y : Rho') : Prop := (forall r, x (emb r) = y r) /\ forall r, ~~ on_sub r -> x r = 0.
Definition P_per (x : chi4) (y : chi4') : Prop := forall w k a b c d, x w k a b c d = y w (pi k) a b c d.
Definition state_per (s : state) (t : state') : Prop := same_state eq g_per rho_per eq P_per P_per P_per s t.

Let f0 : pi 0 = 0. Proof. exact: fold0. Qed.
Let e0 : emb 0 = 0. Proof. exact: (emb0 nq1 nq2 nq3). Qed.
Lemma lin_z (A : Type) (F : (A -> C) -> C) x : linfun F -> (forall a, x a = 0) -> F x = 0.
Proof. by move=> l h; rewrite (lin_scale (c := 0) (x := x) l) ?mul0r // => a; rewrite h mul0r. Qed.
Lemma on_ints_per x y n k : g_per x y -> on_ints x n k = on_ints y n (pi k).
Proof. by move=> h; rewrite /on_ints; apply: eq_bigr => p _; rewrite h. Qed.
Lemma k2r_per (x : K -> C) (y : K' -> C) r : (forall k, x k = y (pi k)) -> k2r x (emb r) = k2r' y r.
Proof. move=> h; rewrite -(k2r_fold z1P z2P z3P nq1 nq2 nq3); exact: k2r_ext. Qed.
Lemma k2r_per_off (x : K -> C) (y : K' -> C) r : (forall k, x k = y (pi k)) -> ~~ on_sub r -> k2r x r = 0.
Proof. move=> h hr; rewrite -[RHS](k2r_off z1P z2P z3P nq1 nq2 nq3 y hr); exact: k2r_ext. Qed.
Lemma r2k_per (x : K -> C) (y : K' -> C) k : (forall r, ~~ on_sub r -> x r = 0) -> (forall r, x (emb r) = y r) -> r2k x k = r2k' y (pi k).
Proof. by move=> h h'; rewrite (r2k_emb z1P z2P z3P nq1 nq2 nq3) //; apply: r2k_ext. Qed.
Lemma rho_per_of x y : g_per x y -> rho_per (calc_rho z1 z2 z3 density nranks sc x) (calc_rho w1 w2 w3 density nranks' sc' y).
Proof.
move=> h; have e k a b : density (fun n => on_ints x n k) a b = density (fun n => on_ints y n (pi k)) a b.
  by rewrite (hd (y := fun n => on_ints y n (pi k))) // => n; exact: on_ints_per.
split=> r; rewrite !calc_rhoE //.
  by apply/matrixP=> a b; rewrite !mxE; apply: (k2r_per (y := fun k => density (fun n => on_ints y n k) a b)).
by move=> hr; apply/matrixP=> a b; rewrite !mxE; apply: (k2r_per_off (y := fun k => density (fun n => on_ints y n k) a b)).
Qed.
Lemma total_per x y : rho_per x y -> total_density x = total_density y.
Proof. by case=> h _; rewrite /total_density; apply: eq_bigr => a _; rewrite -h e0. Qed.
Lemma hartree_per x y : rho_per x y -> g_per (hartree_sigma nn z1 z2 z3 U_k x) (hartree_sigma nn w1 w2 w3 V_k y).
Proof.
case=> h _ w k; rewrite !hartreeE //; apply/matrixP=> a b; rewrite !mxE; apply: eq_bigr => c _; apply: eq_bigr => d _; by rewrite hU f0 -h e0.
Qed.
Lemma fock_per x y : rho_per x y -> g_per (fock_sigma nn z1 z2 z3 nranks sc U_k x) (fock_sigma nn w1 w2 w3 nranks' sc' V_k y).
Proof.
case=> h h0 w k; rewrite !fockE //; apply/matrixP=> a b; rewrite !mxE; apply: r2k_per => r /=.
  by move=> hr; rewrite big1 // => c _; rewrite big1 // => d _; rewrite h0 // mxE mulr0.
apply: eq_bigr => c _; apply: eq_bigr => d _; rewrite h; congr (- _ * _); apply: (k2r_per (y := fun k => V_k k a c d b)) => k'; exact: hU.
Qed.
Lemma g_time_per x y t r : g_per x y -> g_time z1 z2 z3 wt x t (emb r) = g_time w1 w2 w3 wt y t r.
Proof.
move=> h; apply: hw => n; apply/matrixP=> i j; rewrite !mxE; apply: (k2r_per (y := fun k => on_ints y n k i j)) => k; by rewrite (on_ints_per _ _ h).
Qed.
Lemma g_time_off x y t r : g_per x y -> ~~ on_sub r -> g_time z1 z2 z3 wt x t r = 0.
Proof.
move=> h hr; rewrite -(hw0 t); apply: hw => n; apply/matrixP=> i j; rewrite !mxE; apply: (k2r_per_off (y := fun k => on_ints y n k i j)) hr => k; by rewrite (on_ints_per _ _ h).
Qed.
Lemma polarization_per x y : g_per x y -> P_per (polarization z1 z2 z3 beta wt tw_plan tw_lib nranks sc x) (polarization w1 w2 w3 beta wt tw_plan tw_lib nranks' sc' y).
Proof.
move=> h w k a b c d; rewrite !polarizationE //; congr (- _); apply: r2k_per => r.
  by move=> hr; apply: lin_z => [|t]; [exact: to_freq_lin | rewrite (g_time_off _ h hr) mxE mul0r].
by apply: (to_freq_lin _ planL _).1 => t; rewrite -(embN nq1 nq2 nq3) !(g_time_per _ _ h).
Qed.
Lemma tmat_per (x y : t4) : (forall a b c d, x a b c d = y a b c d) -> tmat x = tmat y.
Proof. by move=> h; apply/matrixP=> i j; rewrite !mxE h. Qed.
Lemma screened_per sp x y : P_per x y -> P_per (screened_interaction nranks sc U_k sp x) (screened_interaction nranks' sc' V_k sp y).
Proof.
by move=> h w k; apply/tmat_ext; rewrite !screenedE // (tmat_per (h w k)) (tmat_per (hU k)).
Qed.
Lemma dynamic_per x y : P_per x y -> P_per (dynamic_part U_k x) (dynamic_part V_k y).
Proof. by move=> h w k a b c d; rewrite !dynamicE h hU. Qed.
Lemma chi_per p q x y : P_per p q -> P_per x y -> P_per (susceptibility nranks sc p x) (susceptibility nranks' sc' q y).
Proof. by move=> h h' w k; apply/tmat_ext; rewrite !susceptibilityE // (tmat_per (h w k)) (tmat_per (h' w k)). Qed.
Lemma sigma_per x y g h : P_per x y -> g_per g h ->
  g_per (gw_dynamic_sigma z1 z2 z3 beta wt tw wtc nranks sc x g) (gw_dynamic_sigma w1 w2 w3 beta wt tw wtc nranks' sc' y h).
Proof.
move=> hW hg w k; rewrite !sigma_dynE //; apply/matrixP=> a b; rewrite !mxE; apply: r2k_per => r.
  move=> hr; apply: (lin_z (F := fun x => tw x (fidx w))) => // t; rewrite big1 // => c _; rewrite big1 // => d _; by rewrite (g_time_off _ hg hr) mxE mulr0.
apply: (twL _).1 => t; apply: eq_bigr => c _; apply: eq_bigr => d _; rewrite (g_time_per _ _ hg); congr (- _ * _).
by apply: (wtcL _).1 => v; apply: (k2r_per (y := fun k => y v k a c d b)) => k'; exact: hW.
Qed.
Lemma dyson_per mu mu' x y : mu = mu' -> g_per x y -> g_per (lattice_dyson_g freq nranks sc E_k mu x) (lattice_dyson_g freq nranks' sc' e_k mu' y).
Proof. by move=> -> h w k; rewrite !dysonE // h hE. Qed.
Lemma dyson0_per mu mu' : mu = mu' -> g_per (lattice_dyson_g0 freq nranks sc E_k mu) (lattice_dyson_g0 freq nranks' sc' e_k mu').
Proof. by move=> -> w k; rewrite !dyson0E // hE. Qed.
Lemma distance_per x y x' y' tol : g_per x y -> g_per x' y' -> (distance x x' < tol) = (distance y y' < tol).
Proof.
move=> h h'; rewrite !distance_lt; congr (_ && _); apply/forallP/forallP => H [w k].
  by have [k' <-] := fold_surj nq1 nq2 nq3 k; have := H (w, k'); rewrite h h'.
by have := H (w, pi k); rewrite h h'.
Qed.
Local Notation run := (gw_solve_iter z1 z2 z3 beta freq density wt tw wtc tw_plan tw_lib brentq nranks sc E_k U_k).
Local Notation run' := (gw_solve_iter w1 w2 w3 beta freq density wt tw wtc tw_plan tw_lib brentq nranks' sc' e_k V_k).
Local Notation start := (gw_init z1 z2 z3 freq density brentq nranks sc E_k).
Local Notation start' := (gw_init w1 w2 w3 freq density brentq nranks' sc' e_k).
Hypothesis hb : forall f g b t, f =1 g -> brentq f b t = brentq g b t.
Lemma dyson_equation_per a mu mu' x y : mu = mu' -> orel g_per x y ->
  orel (same_pair eq g_per)
  (dyson_equation (calc_rho z1 z2 z3 density nranks sc) (@total_density C n1 n2 n3 nb) (lattice_dyson_g freq nranks sc E_k) (lattice_dyson_g0 freq nranks sc E_k) brentq a mu x)
  (dyson_equation (calc_rho w1 w2 w3 density nranks' sc') (@total_density C m1 m2 m3 nb) (lattice_dyson_g freq nranks' sc' e_k) (lattice_dyson_g0 freq nranks' sc' e_k) brentq a mu' y).
Proof.
move=> hm hx; apply: (dyson_rel (RN := eq) (Rf := eq) rho_per_of total_per dyson_per dyson0_per _ _ hm hx).
  by rewrite /same_args; case: (fixed a) => // n; split=> // u v ->.
by move=> f1 f2 b t h; apply: orel_eq; apply: hb => m; exact: h.
Qed.
(* C116 *)
Theorem C116_gw_sublattice (a : args C) tol hartree fock gw spinless n s t : state_per s t ->
  orel state_per (run a tol hartree fock gw spinless n s) (run' a tol hartree fock gw spinless n t).
Proof.
move=> h; apply: (solve_iter_rel _ _ _ _ _ _ _ _ _ _ _ _ _ _ h).
- by move=> w k; rewrite !ffunE.
- by move=> x y x' y' hx hx' w k; rewrite !ffunE hx hx'.
- exact: rho_per_of.
- exact: total_per.
- by move=> _; exact: hartree_per.
- by move=> _; exact: fock_per.
- exact: polarization_per.
- by move=> _; exact: screened_per.
- by move=> _; exact: dynamic_per.
- exact: sigma_per.
- exact: chi_per.
- exact: dyson_equation_per.
by move=> *; exact: distance_per.
Qed.
Theorem C116_gw_start (a : args C) mu g g' : orel g_per g g' -> orel state_per (start a mu g) (start' a mu g').
Proof.
move=> hg; apply: init_rel => //; first by move=> w k; rewrite !ffunE.
exact: dyson_equation_per.
Qed.
End Gw.

(* C116: no hopping and no interaction between the planes of a lattice: one momentum in this direction is as good as any number *)
Section Flat.
Variables (C : numClosedFieldType) (n1 n2 n3 nb nn L : nat) (z1 z2 z3 beta : C).
Local Notation mat := 'M[C]_nb.
Local Notation Wb := 'I_(2 * nn).-1.
Local Notation Wf := 'I_(2 * nn).
Variables (freq : Wf -> C) (density : (int -> mat) -> mat) (wt : (int -> mat) -> 'I_L.+1 -> mat) (tw : ('I_L.+1 -> C) -> int -> C).
Variables (wtc : (Wb -> C) -> 'I_L.+1 -> C) (tw_plan tw_lib : ('I_L.+1 -> C) -> int -> C).
Variable brentq : (C -> C) -> C * C -> C -> option C.
Variables (nranks nranks' : nat) (sc sc' : schedules).
Variables (e : 'I_n1.+1 * 'I_n2.+1 -> mat) (V : 'I_n1.+1 * 'I_n2.+1 -> tensor4 C nb).
Local Notation solve a mu tol hartree fock gw spinless n := (obind (gw_solve_iter (n1 := n1) (n2 := n2) (n3 := n3) z1 z2 z3 beta freq density wt tw wtc tw_plan tw_lib brentq nranks sc
  (fun k => e k.1) (fun k => V k.1) a tol hartree fock gw spinless n) (gw_init z1 z2 z3 freq density brentq nranks sc (fun k => e k.1) a mu None)).
Local Notation solve_plane a mu tol hartree fock gw spinless n := (obind (gw_solve_iter (n1 := n1) (n2 := n2) (n3 := 0%N) z1 z2 1 beta freq density wt tw wtc tw_plan tw_lib brentq nranks' sc'
  (fun k => e k.1) (fun k => V k.1) a tol hartree fock gw spinless n) (gw_init z1 z2 1 freq density brentq nranks' sc' (fun k => e k.1) a mu None)).
Theorem C116_planes (a : args C) mu tol hartree fock gw spinless n :
  [/\ (n1.+1).-primitive_root z1, (n2.+1).-primitive_root z2 & (n3.+1).-primitive_root z3] -> fair_sched nranks sc -> fair_sched nranks' sc' ->
  [/\ forall x y, x =1 y -> density x = density y, forall x y t, x =1 y -> wt x t = wt y t, forall t, wt (fun _ => 0) t = 0 & forall f g b t, f =1 g -> brentq f b t = brentq g b t] ->
  [/\ forall n, linfun (fun x => tw x n), forall t, linfun (fun x => wtc x t) & forall n, linfun (fun x => tw_plan x n)] ->
  match solve a mu tol hartree fock gw spinless n, solve_plane a mu tol hartree fock gw spinless n with
  | Some s, Some t => [/\ s_mu s = s_mu t, s_N s = s_N t, forall w k, s_g s (w, k) = s_g t (w, (k.1, 0)) & forall w k, s_sigma s (w, k) = s_sigma t (w, (k.1, 0))] /\
      match s_P s, s_P t with Some x, Some y => forall w k a b c d, x w k a b c d = y w (k.1, 0) a b c d | None, None => True | _, _ => False end /\
      match s_W s, s_W t with Some x, Some y => forall w k a b c d, x w k a b c d = y w (k.1, 0) a b c d | None, None => True | _, _ => False end /\
      match s_chi s, s_chi t with Some x, Some y => forall w k a b c d, x w k a b c d = y w (k.1, 0) a b c d | None, None => True | _, _ => False end
  | None, None => True
  | _, _ => False
  end.
Proof.
case=> z1P z2P z3P hs hs' [hd hw hw0 hb] [twL wtcL planL].
have nq1 : n1.+1 = (1 * n1.+1)%N by rewrite mul1n.
have nq2 : n2.+1 = (1 * n2.+1)%N by rewrite mul1n.
have nq3 : n3.+1 = (n3.+1 * 1)%N by rewrite muln1.
have fk n' (k : 'I_n'.+1) : fold_k n' k = k by apply: ord_inj; rewrite fold_kE modn_small.
have pk (k : site n1 n2 n3) : fold n1 n2 0 k = (k.1, 0) by case: k => [[x y] z]; rewrite /fold /= !fk; congr (_, _); exact: ord1.
pose e' (k : site n1 n2 0) := e k.1; pose V' (k : site n1 n2 0) := V k.1.
have hE (k : site n1 n2 n3) : e k.1 = e' (fold n1 n2 0 k) by rewrite pk.
have hV (k : site n1 n2 n3) i j l m : V k.1 i j l m = V' (fold n1 n2 0 k) i j l m by rewrite pk.
have H1 := C116_gw_start z1P z2P z3P nq1 nq2 nq3 freq (e_k := e') (E_k := fun k => e k.1) hE hs hs' hd hb a mu (g := None) (g' := None) I.
have H2 := C116_gw_sublattice beta z1P z2P z3P nq1 nq2 nq3 freq tw_lib (e_k := e') (V_k := V') (E_k := fun k => e k.1) (U_k := fun k => V k.1) hE hV hs hs' hd hw hw0 twL wtcL planL hb a tol hartree fock gw spinless n.
rewrite !expr1 (prim_expr_order z3P) in H1 H2.
case: (gw_init z1 z2 z3 _ _ _ _ _ _ _ _ _) (gw_init z1 z2 1 _ _ _ _ _ _ _ _ _) H1 => [s|] [t|] //= hst.
have := H2 _ _ hst; case: (gw_solve_iter z1 z2 z3 _ _ _ _ _ _ _ _ _ _ _ _ _ _ _ _ _ _ _ _ _) => [s'|]; case: (gw_solve_iter z1 z2 1 _ _ _ _ _ _ _ _ _ _ _ _ _ _ _ _ _ _ _ _ _) => [t'|] //=.
case=> -[k1 k2 k3] [[k4 k5 k6 k7] [_ [k8 k9 k10 k11]]]; split; last split; last split.
- split=> //; [by case: (s_N s') (s_N t') k7 => [x|] [y|] //= -> | by move=> w k; rewrite k3 pk | by move=> w k; rewrite k5 pk].
- by case: (s_P s') (s_P t') k10 => [x|] [y|] //= h w k i j l m; rewrite h pk.
- by case: (s_W s') (s_W t') k8 => [x|] [y|] //= h w k i j l m; rewrite h pk.
by case: (s_chi s') (s_chi t') k11 => [x|] [y|] //= h w k i j l m; rewrite h pk.
Qed.
End Flat.

(* a chain of four cells with hopping to the second neighbours only, and the chain of two cells with hopping to the neighbours *)
Section Case.
Variables (C : numClosedFieldType) (nb nn L : nat) (ph : int -> 'I_L.+1 -> C).
Lemma root4 : 4.-primitive_root ('i : C).
Proof.
have i2 : ('i : C) ^+ 2 = -1 by exact: sqrCi.
have m1 : (-1 == 1 :> C) = false by apply/negP; rewrite -subr_eq0 -opprD oppr_eq0 -[1 + 1](natrD _ 1 1) pnatr_eq0.
have i1 : ('i == 1 :> C) = false by apply/negP => /eqP e; move: i2; rewrite e expr1n => /eqP; rewrite eq_sym m1.
have i3 : (- 'i == 1 :> C) = false by apply/negP => /eqP e; move: i2; rewrite -sqrrN e expr1n => /eqP; rewrite eq_sym m1.
apply/andP; split=> //; apply/forallP; case=> -[|[|[|[|//]]]] h /=; rewrite unity_rootE //=.
- by rewrite expr1 i1.
- by rewrite i2 m1.
- by rewrite exprS i2 mulrN1 i3.
- by rewrite (exprM _ 2 2) i2 sqrrN expr1n eqxx.
Qed.
Definition sum_f (x : int -> 'M[C]_nb) (t : 'I_L.+1) : 'M[C]_nb := \sum_(p < 2 * nn) ph (fidx p) t *: x (fidx p).
Theorem C116_chain_case : [/\ 4.-primitive_root ('i : C), 4%N = (2 * 2)%N, forall k : 'I_4, 'i ^+ (2 * k) + ('i ^+ (2 * k))^-1 = (-1) ^+ fold_k 1 k + ((-1) ^+ fold_k 1 k)^-1 :> C &
  ((-1) ^+ 0 + ((-1) ^+ 0)^-1 = 2%:R :> C) /\ ((-1) ^+ 1 + ((-1) ^+ 1)^-1 = - 2%:R :> C)] /\
  (forall x y t, x =1 y -> sum_f x t = sum_f y t) /\ (forall t, sum_f (fun _ => 0) t = 0).
Proof.
split; first split; [exact: root4 | by [] | | | split].
- move=> k; rewrite exprM sqrCi fold_kE; suff -> : (-1) ^+ (k %% 2)%N = (-1) ^+ k :> C by [].
  by rewrite modn2 signr_odd.
- by rewrite expr0 expr1 invr1 invrN1 -opprD -[1 + 1](natrD _ 1 1).
- by move=> x y t h; rewrite /sum_f; apply: eq_bigr => p _; rewrite h.
by move=> t; rewrite /sum_f big1 // => p _; rewrite scaler0.
Qed.
End Case.
Print Assumptions C116_gw_sublattice.
Print Assumptions C116_gw_start.
Print Assumptions C116_planes.
Print Assumptions C116_chain_case.
