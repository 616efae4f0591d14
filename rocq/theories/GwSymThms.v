(* C103: a symmetry of the Hamiltonian is a symmetry of the results of the GW solver. *)
From mathcomp Require Import all_ssreflect all_fingroup all_algebra.
From Verif Require Import Base MpiModel MpiProofs MpiSpec FourierModel FourierProofs BubbleModel MatsubaraModel ImtimeModel RpaModel RpaSpec RpaProofs
  MatAlg Fring DysonModel GwModel GwSpec GwProofs GwChainModel BseProofs GwSolverModel GwFullModel GwFullProofs GwRel GwBasisThms.
Set Implicit Arguments.
Unset Strict Implicit.
Unset Printing Implicit Defensive.
Import GRing.Theory Num.Theory.
Local Open Scope ring_scope.

Section Sym.
Variables (C : numClosedFieldType) (n1 n2 n3 nb nn L : nat) (z1 z2 z3 beta : C).
Local Notation K := (site n1 n2 n3).
Local Notation t4 := (tensor4 C nb).
Local Notation mat := 'M[C]_nb.
Local Notation Wb := 'I_(2 * nn).-1.
Local Notation Wf := 'I_(2 * nn).
Variables (freq : Wf -> C) (density : (int -> mat) -> mat) (wt : (int -> mat) -> 'I_L.+1 -> mat) (tw : ('I_L.+1 -> C) -> int -> C).
Variables (wtc : (Wb -> C) -> 'I_L.+1 -> C) (tw_plan tw_lib : ('I_L.+1 -> C) -> int -> C).
Variable brentq : (C -> C) -> C * C -> C -> option C.
Variables (nranks : nat) (sc : schedules).
Variables (A B : K -> K) (T S : mat) (e_k : K -> mat) (V_k : K -> t4).
Local Notation G := (G C n1 n2 n3 nb nn).
Local Notation chi4 := (chi4 C n1 n2 n3 nb nn).
Local Notation Rho := (Rho C n1 n2 n3 nb).
Local Notation state := (solver_state C n1 n2 n3 nb nn).
Local Notation run := (gw_solve_iter z1 z2 z3 beta freq density wt tw wtc tw_plan tw_lib brentq nranks sc e_k V_k).
Local Notation start := (gw_init z1 z2 z3 freq density brentq nranks sc e_k).
(* A acts on momenta, B on lattice vectors, k.r is invariant *)
Definition lattice_symmetry : Prop :=
  [/\ injective A, injective B, A 0 = 0, B 0 = 0 & forall r, B (- r) = - B r] /\ forall k r, phase z1 z2 z3 (A k) (B r) = phase z1 z2 z3 k r.
(* with the orbitals transformed by T (S its inverse) the Hamiltonian is invariant *)
Definition symmetric_input : Prop := [/\ T *m S = 1%:M, forall k, e_k k = rot_g T S (e_k (A k)) & forall q a b c d, V_k q a b c d = rot_V T S (V_k (A q)) a b c d].
Definition sym_g (g : G) : Prop := forall w k, g (w, k) = rot_g T S (g (w, A k)).
Definition sym_rho (r : Rho) : Prop := forall R, r R = rot_rho T S (r (B R)).
Definition sym_W (W : chi4) : Prop := forall w q a b c d, W w q a b c d = rot_V T S (W w (A q)) a b c d.
Definition sym_chi (X : chi4) : Prop := forall w q a b c d, X w q a b c d = rot_chi T S (X w (A q)) a b c d.
Definition oall (X : Type) (P : X -> Prop) (x : option X) : Prop := if x is Some y then P y else True.
(* all attributes *)
Definition symmetric (s : state) : Prop :=
  [/\ sym_g (s_g s), sym_g (s_g0 s), sym_g (s_sigma s) & oall sym_rho (s_rho s)] /\
  [/\ oall sym_g (s_hartree s), oall sym_g (s_fock s) & oall sym_g (s_dyn s)] /\
  [/\ oall sym_W (s_W s), oall sym_W (s_Wdyn s), oall sym_chi (s_P s) & oall sym_chi (s_chi s)].

Definition moved (g : G) : G := [ffun p => g (p.1, A p.2)].
Definition moved_rho (r : Rho) : Rho := fun R => r (B R).
Definition moved4 (X : chi4) : chi4 := fun w q => X w (A q).
Hypothesis hsym : lattice_symmetry.
Hypothesis hin : symmetric_input.
Hypothesis ok : transforms_ok density wt tw wtc tw_plan brentq nranks nranks sc sc T S.
Let hs : fair_sched nranks sc. Proof. by case: ok => -[]. Qed.
Let twL : forall n, linfun (fun x => tw x n). Proof. by case: ok => -[]. Qed.
Let wtcL : forall t, linfun (fun x => wtc x t). Proof. by case: ok => -[]. Qed.
Let planL : forall n, linfun (fun x => tw_plan x n). Proof. by case: ok => -[]. Qed.
Let hwt : forall f f' t, (forall n, f' n = f n) -> wt f' t = wt f t.
Proof.
move=> f f' t h; case: ok => _ [_ hw _]; have TS : T *m S = 1%:M by case: hin.
have ST := mulmx1C TS.
have hr M : rot_g T S (S *m M *m T) = M by rewrite rot_gE !mulmxA TS mul1mx -mulmxA TS mulmx1.
rewrite (hw (fun n => S *m f n *m T)); first by rewrite (hw (fun n => S *m f n *m T) f t) // => n; rewrite hr.
by move=> n; rewrite hr h.
Qed.
Let hden : forall f f', (forall n, f' n = f n) -> density f' = density f.
Proof.
move=> f f' h; case: ok => _ [hw _ _]; have TS : T *m S = 1%:M by case: hin.
have hr M : rot_g T S (S *m M *m T) = M by rewrite rot_gE !mulmxA TS mul1mx -mulmxA TS mulmx1.
rewrite (hw (fun n => S *m f n *m T)); first by rewrite (hw (fun n => S *m f n *m T) f) // => n; rewrite hr.
by move=> n; rewrite hr h.
Qed.
Lemma k2r_moved (f f' : K -> C) r : (forall k, f' k = f (A k)) -> fourier_k_to_r z1 z2 z3 f' r = fourier_k_to_r z1 z2 z3 f (B r).
Proof.
case: hsym => -[iA _ _ _ _] hp h; rewrite /fourier_k_to_r [in RHS](reindex_inj iA); congr (_ / _); apply: eq_bigr => k _.
by rewrite h hp.
Qed.
Lemma r2k_moved (f f' : K -> C) k : (forall r, f' r = f (B r)) -> fourier_r_to_k z1 z2 z3 f' k = fourier_r_to_k z1 z2 z3 f (A k).
Proof.
case: hsym => -[_ iB _ _ _] hp h; rewrite /fourier_r_to_k [in RHS](reindex_inj iB); apply: eq_bigr => r _.
by rewrite h hp.
Qed.
Lemma on_ints_moved g n k : on_ints (moved g) n k = on_ints g n (A k).
Proof. by rewrite /on_ints; apply: eq_bigr => p _; rewrite ffunE. Qed.
Lemma rho_moved g R : calc_rho z1 z2 z3 density nranks sc (moved g) R = calc_rho z1 z2 z3 density nranks sc g (B R).
Proof.
rewrite !calc_rhoE //; apply/matrixP=> a b; rewrite !mxE; apply: k2r_moved => k.
by congr (fun_of_matrix _ a b); apply: hden => n; exact: on_ints_moved.
Qed.
Local Notation V1 := (fun q => V_k (A q)).
Lemma hartree_moved r p : hartree_sigma nn z1 z2 z3 V1 (moved_rho r) p = moved (hartree_sigma nn z1 z2 z3 V_k r) p.
Proof. by case: hsym => -[_ _ hA hB _] _; rewrite [RHS]ffunE !hartreeE /moved_rho hA hB. Qed.
Lemma fock_moved r p : fock_sigma nn z1 z2 z3 nranks sc V1 (moved_rho r) p = moved (fock_sigma nn z1 z2 z3 nranks sc V_k r) p.
Proof.
rewrite [RHS]ffunE !fockE //; apply/matrixP=> a b; rewrite !mxE /=; apply: r2k_moved => R; do 2!(apply: eq_bigr => ? _).
by congr (- _ * _); apply: k2r_moved.
Qed.
Lemma g_time_moved g t r : g_time z1 z2 z3 wt (moved g) t r = g_time z1 z2 z3 wt g t (B r).
Proof.
by apply: hwt => n; apply/matrixP=> a b; rewrite !mxE; apply: k2r_moved => k; rewrite on_ints_moved.
Qed.
Lemma polarization_moved g w q a b c d : polarization z1 z2 z3 beta wt tw_plan tw_lib nranks sc (moved g) w q a b c d =
  moved4 (polarization z1 z2 z3 beta wt tw_plan tw_lib nranks sc g) w q a b c d.
Proof.
rewrite /moved4 !polarizationE //; congr (- _); apply: r2k_moved => r; apply: (to_freq_lin beta planL w).1 => t.
by case: hsym => -[_ _ _ _ hB] _; rewrite !g_time_moved hB.
Qed.
Lemma screened_moved sp P w q : tmat (screened_interaction nranks sc V1 sp (moved4 P) w q) = tmat (moved4 (screened_interaction nranks sc V_k sp P) w q).
Proof. by rewrite /moved4 !screenedE. Qed.
Lemma dynamic_moved W w q a b c d : dynamic_part V1 (moved4 W) w q a b c d = moved4 (dynamic_part V_k W) w q a b c d.
Proof. by []. Qed.
Lemma chi_moved P W w q : tmat (susceptibility nranks sc (moved4 P) (moved4 W) w q) = tmat (moved4 (susceptibility nranks sc P W) w q).
Proof. by rewrite /moved4 !susceptibilityE. Qed.
Lemma sigma_moved W g p : gw_dynamic_sigma z1 z2 z3 beta wt tw wtc nranks sc (moved4 W) (moved g) p = moved (gw_dynamic_sigma z1 z2 z3 beta wt tw wtc nranks sc W g) p.
Proof.
rewrite [RHS]ffunE !sigma_dynE //; apply/matrixP=> a b; rewrite !mxE /=; apply: r2k_moved => r; apply: (twL _).1 => t.
do 2!(apply: eq_bigr => ? _); rewrite g_time_moved; congr (- _ * _); apply: (wtcL _).1 => x; exact: k2r_moved.
Qed.
Lemma dyson_moved mu s p : lattice_dyson_g freq nranks sc (fun k => e_k (A k)) mu (moved s) p = moved (lattice_dyson_g freq nranks sc e_k mu s) p.
Proof. by rewrite [RHS]ffunE !dysonE // ffunE. Qed.
Lemma dyson0_moved mu p : lattice_dyson_g0 freq nranks sc (fun k => e_k (A k)) mu p = moved (lattice_dyson_g0 freq nranks sc e_k mu) p.
Proof. by rewrite [RHS]ffunE !dyson0E. Qed.
(* both steps *)
Let TS : T *m S = 1%:M. Proof. by case: hin. Qed.
Let he k : e_k k = rot_g T S (e_k (A k)). Proof. by case: hin. Qed.
Let hV q a b c d : V_k q a b c d = rot_V T S (V_k (A q)) a b c d. Proof. by case: hin. Qed.
Lemma sym_gE g : sym_g g <-> rotated_g T S (moved g) g.
Proof. by split=> h w k; rewrite h ffunE. Qed.
Lemma sym_rho_step g : sym_g g -> sym_rho (calc_rho z1 z2 z3 density nranks sc g).
Proof. by move=> /sym_gE h R; rewrite (rho_rot z1 z2 z3 ok h) rho_moved. Qed.
Lemma sym_hartree r : sym_rho r -> sym_g (hartree_sigma nn z1 z2 z3 V_k r).
Proof.
move=> h w k; have h' : rotated_rho T S (moved_rho r) r by [].
by rewrite (hartree_rot (V_k := V1) z1 z2 z3 TS hV h') hartree_moved ffunE.
Qed.
Lemma sym_fock r : sym_rho r -> sym_g (fock_sigma nn z1 z2 z3 nranks sc V_k r).
Proof.
move=> h w k; have h' : rotated_rho T S (moved_rho r) r by [].
by rewrite (fock_rot (V_k := V1) z1 z2 z3 TS hV ok h') fock_moved ffunE.
Qed.
Lemma sym_polarization g : sym_g g -> sym_chi (polarization z1 z2 z3 beta wt tw_plan tw_lib nranks sc g).
Proof.
move=> /sym_gE h w q a b c d; rewrite (polarization_rot z1 z2 z3 beta tw_lib ok h).
by rewrite /rot_chi; do 4!(apply: eq_bigr => ? _); rewrite polarization_moved.
Qed.
Lemma sym_screened sp P : sym_chi P -> sym_W (screened_interaction nranks sc V_k sp P).
Proof.
move=> h w q a b c d; have h' : rotated_chi T S (moved4 P) P by [].
rewrite (screened_rotated (V_k := V1) TS hV ok sp h').
by rewrite /rot_V; do 4!(apply: eq_bigr => ? _); rewrite -tmatE screened_moved tmatE.
Qed.
Lemma sym_dynamic W : sym_W W -> sym_W (dynamic_part V_k W).
Proof.
move=> h w q a b c d; have h' : rotated_W T S (moved4 W) W by [].
by rewrite (dynamic_rotated (V_k := V1) hV h').
Qed.
Lemma sym_susceptibility P W : sym_chi P -> sym_W W -> sym_chi (susceptibility nranks sc P W).
Proof.
move=> hP hW w q a b c d; have hP' : rotated_chi T S (moved4 P) P by []. have hW' : rotated_W T S (moved4 W) W by [].
rewrite (chi_rotated TS ok hP' hW').
by rewrite /rot_chi; do 4!(apply: eq_bigr => ? _); rewrite -tmatE chi_moved tmatE.
Qed.
Lemma sym_sigma W g : sym_W W -> sym_g g -> sym_g (gw_dynamic_sigma z1 z2 z3 beta wt tw wtc nranks sc W g).
Proof.
move=> hW /sym_gE h w k; have hW' : rotated_W T S (moved4 W) W by [].
by rewrite (sigma_rotated z1 z2 z3 beta TS ok hW' h) sigma_moved ffunE.
Qed.
Lemma sym_dyson mu s : sym_g s -> sym_g (lattice_dyson_g freq nranks sc e_k mu s).
Proof.
move=> /sym_gE h w k.
by rewrite (dyson_rotated (e_k := fun k => e_k (A k)) freq TS he ok mu h) dyson_moved ffunE.
Qed.
Lemma sym_dyson0 mu : sym_g (lattice_dyson_g0 freq nranks sc e_k mu).
Proof.
move=> w k.
by rewrite (dyson0_rotated (e_k := fun k => e_k (A k)) freq TS he ok mu) dyson0_moved ffunE.
Qed.
(* a run is related to itself *)
Local Notation diag P := (fun x y => x = y /\ P x).
Local Notation rel := (same_state eq (diag sym_g) (diag sym_rho) eq (diag sym_chi) (diag sym_W) (diag sym_chi)).
Lemma odiag (X : Type) (P : X -> Prop) (x : option X) : orel (diag P) x x <-> oall P x.
Proof. by case: x => //= x; split=> // -[]. Qed.
Lemma symE s : symmetric s <-> rel s s.
Proof.
split.
  move=> [[h1 h2 h3 /odiag h4] [[/odiag h5 /odiag h6 /odiag h7] [/odiag h8 /odiag h9 /odiag h10 /odiag h11]]].
  by (do !split) => //; exact: orel_eq.
move=> [[_ _ [_ h1]] [[[_ h2] [_ h3] /odiag h4 _] [[/odiag h5 /odiag h6 /odiag h7] [/odiag h8 /odiag h9 /odiag h10 /odiag h11]]]].
by do !split.
Qed.
Let hq : forall f f' b t, f =1 f' -> brentq f b t = brentq f' b t. Proof. by case: ok => _ []. Qed.
Let dys (a : args C) mu mu' x y : mu = mu' -> orel (diag sym_g) x y -> orel (same_pair eq (diag sym_g))
  (dyson_equation (calc_rho z1 z2 z3 density nranks sc) (@total_density C n1 n2 n3 nb) (lattice_dyson_g freq nranks sc e_k) (lattice_dyson_g0 freq nranks sc e_k) brentq a mu x)
  (dyson_equation (calc_rho z1 z2 z3 density nranks sc) (@total_density C n1 n2 n3 nb) (lattice_dyson_g freq nranks sc e_k) (lattice_dyson_g0 freq nranks sc e_k) brentq a mu' y).
Proof.
apply: (dyson_rel (RM := eq) (RRho := diag sym_rho) (RN := eq) (Rf := eq)).
- by move=> u v [<- h]; split=> //; exact: sym_rho_step.
- by move=> u v [<-].
- by move=> ? m u v -> [<- h]; split=> //; exact: sym_dyson.
- by move=> ? m ->; split=> //; exact: sym_dyson0.
- by rewrite /same_args; case: (fixed a) => // m; split=> // u v ->.
- by move=> f1 f2 b t h; apply: orel_eq; apply: hq => x1; exact: h.
Qed.
(* C103: after any number of iterations from symmetric functions all results are symmetric, with any tolerance *)
Theorem C103_symmetric (a : args C) tol hartree fock gw spinless n s t : symmetric s -> run a tol hartree fock gw spinless n s = Some t -> symmetric t.
Proof.
move=> /symE h e; apply/symE.
suff : orel rel (run a tol hartree fock gw spinless n s) (run a tol hartree fock gw spinless n s) by rewrite e.
apply: solve_iter_rel => //.
- by split=> // w k; rewrite !ffunE rot_gE mulmx0 mul0mx.
- by move=> x y x' y' [<- hx] [<- hx']; split=> // w k; rewrite !ffunE hx hx' !rot_gE mulmxDr mulmxDl.
- by move=> x y [<- hx]; split=> //; exact: sym_rho_step.
- by move=> x y [<-].
- by move=> _ x y [<- hx]; split=> //; exact: sym_hartree.
- by move=> _ x y [<- hx]; split=> //; exact: sym_fock.
- by move=> x y [<- hx]; split=> //; exact: sym_polarization.
- by move=> _ x y [<- hx]; split=> //; exact: sym_screened.
- by move=> _ x y [<- hx]; split=> //; exact: sym_dynamic.
- by move=> u v x y [<- hu] [<- hx]; split=> //; exact: sym_sigma.
- by move=> p q x y [<- hu] [<- hx]; split=> //; exact: sym_susceptibility.
- by move=> mu mu' x y; exact: dys.
- by move=> x y x' y' [<- _] [<- _].
Qed.
(* the constructor *)
Theorem C103_start (a : args C) mu g s : oall sym_g g -> start a mu g = Some s -> symmetric s.
Proof.
move=> hg e; apply/symE; suff : orel rel (start a mu g) (start a mu g) by rewrite e.
apply: init_rel => //; first by split=> // w k; rewrite !ffunE rot_gE mulmx0 mul0mx.
- by move=> m m' x y; exact: dys.
- by case: g hg {e}.
Qed.
End Sym.

(* inversion and the exchange of the first two axes are symmetries of the lattice *)
Theorem C103_inversion (C : numClosedFieldType) n1 n2 n3 (z1 z2 z3 : C) : n1.+1.-primitive_root z1 -> n2.+1.-primitive_root z2 -> n3.+1.-primitive_root z3 ->
  @lattice_symmetry C n1 n2 n3 z1 z2 z3 -%R -%R.
Proof.
move=> p1 p2 p3; split; first by split=> //; [exact: oppr_inj | exact: oppr_inj | exact: oppr0 | exact: oppr0].
by move=> k r; rewrite phase_oppl // phase_oppr // invrK.
Qed.
Theorem C103_exchange (C : numClosedFieldType) n n3 (z z3 : C) : let sw (k : site n n n3) : site n n n3 := (k.1.2, k.1.1, k.2) in
  lattice_symmetry z z z3 sw sw.
Proof.
move=> sw; have i : injective sw by move=> [[a b] c] [[a' b'] c'] [-> -> ->].
by split=> // k r; rewrite /phase /= (mulrC (z ^+ _)).
Qed.

(* a chain of three sites with complex hopping: the orbital pair is exchanged by inversion *)
Section Case.
Variables (C : numClosedFieldType) (z : C).
Hypothesis zP : 3.-primitive_root z.
Let s : 'S_2 := tperm 0 1.
Let T : 'M[C]_2 := perm_mx s.
Let S : 'M[C]_2 := perm_mx s^-1%g.
Let e (k : site 2 0 0) : 'M[C]_2 := phase z 1 1 k (1, 0, 0) *: delta_mx 0 0 + phase z 1 1 (- k) (1, 0, 0) *: delta_mx 1 1.
Let V (_ : site 2 0 0) : tensor4 C 2 := fun a b c d => ((a == b) && (c == d))%:R.
Let density (f : int -> 'M[C]_2) : 'M[C]_2 := (f 0)^T.
Let wt (f : int -> 'M[C]_2) (_ : 'I_1) : 'M[C]_2 := f 0.
Let tw (x : 'I_1 -> C) (_ : int) := x ord0.
Let wtc (x : 'I_(2 * 1).-1 -> C) (_ : 'I_1) := x ord0.
Let brentq (f : C -> C) (b : C * C) (_ : C) := if f b.1 == 0 then Some b.1 else None.
Let sc : schedules := fun _ F r => mpi_view (enum F) 2 r.
Let freq (w : 'I_(2 * 1)) : C := if w == ord0 then - 'i else 'i.
Let a := Args None 0 (0, 0 : C).
Let inv (k : site 2 0 0) : site 2 0 0 := - k.
Let k1 : site 2 0 0 := (1, 0, 0).
Theorem C103_case : [/\ lattice_symmetry z 1 1 inv inv, symmetric_input inv T S e V, transforms_ok density wt tw wtc tw brentq 2 2 sc sc T S, e k1 <> e (inv k1) & exists s t,
  [/\ gw_init z 1 1 freq density brentq 2 sc e a None None = Some s, symmetric inv inv T S s & gw_solve_iter z 1 1 1 freq density wt tw wtc tw tw brentq 2 sc e V a 0 true true true false 3 s = Some t]].
Proof.
have p1 : 1.-primitive_root (1 : C) by apply/andP; split=> //; apply/forallP=> -[[|//] hi1] /=; rewrite unity_rootE expr1 eqxx.
have hl : @lattice_symmetry C 2 0 0 z 1 1 inv inv by exact: C103_inversion.
have sE (i j : 'I_2) : (s i == j) = (i != j) by case: i j => -[|[|//]] hi [[|[|//]] hj]; rewrite /s permE /= -!val_eqE.
have hi : symmetric_input inv T S e V.
  split; first exact: perm_inv.
  - move=> k; apply/matrixP=> i j; rewrite perm_rot !mxE /inv opprK -!val_eqE; case: i j => -[|[|//]] hi [[|[|//]] hj]; rewrite /s !permE /= ?mulr0 ?mulr1 ?addr0 ?add0r //.
  - by move=> q i j k l; rewrite perm_V /V !(inj_eq perm_inj).
have fs : fair_sched 2 sc by move=> i F; exact: fair_all_inorder.
have ht : transforms_ok density wt tw wtc tw brentq 2 2 sc sc T S.
  split; first by split=> // n; split=> // x y h; rewrite /tw /wtc ?h.
  split=> [f f' h|f f' t h|f f' b t h].
  + by rewrite /density h rot_gE rot_rhoE trmxK.
  + by rewrite /wt h.
  + by rewrite /brentq h.
split=> //.
  move/matrixP/(_ 0 0); rewrite !mxE /= mulr1 mulr0 !addr0 mulr1 => h.
  move: h; rewrite mulr0 addr0 /phase /inv /= !muln0 !expr0 !mulr1.
  by move/eqP; rewrite (eq_prim_root_expr zP).
have [s0 es] : exists s, gw_init z 1 1 freq density brentq 2 sc e a None None = Some s by eexists; reflexivity.
have hs := C103_start hl hi ht _ es.
case et: (gw_solve_iter z 1 1 1 freq density wt tw wtc tw tw brentq 2 sc e V a 0 true true true false 3 s0) => [t|]; last by exfalso; move: et; apply: solve_iter_runs.
by exists s0, t; split=> //; apply: hs.
Qed.
End Case.
Print Assumptions C103_symmetric.
Print Assumptions C103_start.
Print Assumptions C103_inversion.
Print Assumptions C103_exchange.
Print Assumptions C103_case.
