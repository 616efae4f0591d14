(* C115: orbitals that do not couple to the others do not notice them: in the GW solver, at a given chemical potential, a subset of orbitals without hopping to and
   without interaction with the rest has the Green function, self-energy, polarization, screened interaction and susceptibility of the calculation without the rest. *)
From mathcomp Require Import all_ssreflect all_algebra.
From Verif Require Import Base MpiModel MpiProofs MpiSpec FourierModel FourierProofs BubbleModel BubbleProofs MatsubaraModel ImtimeModel RpaModel RpaSpec RpaProofs
  Fring DysonModel GwModel GwSpec GwProofs GwChainModel BseProofs GwSolverModel GwFullModel GwFullProofs GwRel GwRel2 GwRel3 UnitsGwThms.
Set Implicit Arguments.
Unset Strict Implicit.
Unset Printing Implicit Defensive.
Import Order.Theory GRing.Theory Num.Theory.
Local Open Scope ring_scope.

Section Matrices.
Variables (C : fieldType) (n : nat).
Implicit Types (s : pred 'I_n) (A B : 'M[C]_n).
(* no element between the subset s and its complement *)
Definition apart s A : Prop := forall i j, s i != s j -> A i j = 0.
Definition proj s : 'M[C]_n := diag_mx (\row_i (s i)%:R).
Lemma apartP s A : apart s A <-> proj s *m A = A *m proj s.
Proof.
rewrite /proj; split=> [h|h i j].
  apply/matrixP=> i j; rewrite mul_diag_mx mul_mx_diag !mxE.
  by have [e|/h ->] := eqVneq (s i) (s j); [rewrite e mulrC | rewrite mulr0 mul0r].
have := congr1 (fun M : 'M_n => M i j) h; rewrite mul_diag_mx mul_mx_diag !mxE.
by case: (s i); case: (s j) => //=; rewrite ?mul1r ?mulr1 ?mul0r ?mulr0.
Qed.
Lemma apart_mul s A B : apart s A -> apart s B -> apart s (A *m B).
Proof. by move=> /apartP a /apartP b; apply/apartP; rewrite mulmxA a -!mulmxA b. Qed.
Lemma apart_add s A B : apart s A -> apart s B -> apart s (A + B).
Proof. by move=> a b i j h; rewrite mxE a // b // addr0. Qed.
Lemma apart_scale s c A : apart s A -> apart s (c *: A).
Proof. by move=> a i j h; rewrite mxE a // mulr0. Qed.
Lemma apart_opp s A : apart s A -> apart s (- A).
Proof. by move=> a i j h; rewrite mxE a // oppr0. Qed.
Lemma apart_scalar s c : apart s c%:M.
Proof. by move=> i j; rewrite mxE; case: (eqVneq i j) => [->|//]; rewrite eqxx. Qed.
Lemma apart_inv s A : apart s A -> apart s (invmx A).
Proof.
move=> h; case uA: (A \in unitmx); last by rewrite /invmx uA.
move/apartP: h => h; apply/apartP.
have : invmx A *m (proj s *m A) *m invmx A = invmx A *m (A *m proj s) *m invmx A by rewrite h.
by rewrite -!mulmxA mulmxV // mulmx1 !mulmxA mulVmx // mul1mx => ->.
Qed.
End Matrices.

Section Sub.
Variables (C : fieldType) (m n : nat) (f : 'I_m -> 'I_n).
Hypothesis fI : injective f.
Implicit Types A B : 'M[C]_n.
Definition inside : pred 'I_n := fun i => i \in codom f.
Definition sub A : 'M[C]_m := \matrix_(i, j) A (f i) (f j).
Lemma insideE i : inside (f i). Proof. exact: codom_f. Qed.
(* a sum of terms that vanish outside *)
Lemma sum_inside (F : 'I_n -> C) : (forall i, ~~ inside i -> F i = 0) -> \sum_i F i = \sum_i F (f i).
Proof.
move=> h; rewrite (bigID inside) /= [X in _ + X]big1 // addr0.
have -> : \sum_i F (f i) = \sum_(j <- codom f) F j by rewrite big_map big_enum.
by rewrite big_uniq //= map_inj_uniq ?enum_uniq.
Qed.
Lemma sub_mul A B : apart inside A -> sub (A *m B) = sub A *m sub B.
Proof.
move=> a; apply/matrixP=> i j; rewrite !mxE sum_inside; first by apply: eq_bigr => k _; rewrite !mxE.
by move=> k hk; rewrite a ?mul0r // insideE (negbTE hk).
Qed.
Lemma sub_add A B : sub (A + B) = sub A + sub B. Proof. by apply/matrixP=> i j; rewrite !mxE. Qed.
Lemma sub_opp A : sub (- A) = - sub A. Proof. by apply/matrixP=> i j; rewrite !mxE. Qed.
Lemma sub_scale c A : sub (c *: A) = c *: sub A. Proof. by apply/matrixP=> i j; rewrite !mxE. Qed.
Lemma sub_scalar c : sub c%:M = c%:M. Proof. by apply/matrixP=> i j; rewrite !mxE (inj_eq fI). Qed.
Lemma sub_inv A : apart inside A -> A \in unitmx -> invmx (sub A) = sub (invmx A).
Proof.
move=> a u; have e : sub A *m sub (invmx A) = 1%:M by rewrite -sub_mul // mulmxV // sub_scalar.
have [uA _] := mulmx1_unit e; by rewrite -[LHS]mulmx1 -e mulmxA mulVmx // mul1mx.
Qed.
End Sub.

Section Pairs.
Variables (C : fieldType) (m n : nat) (f : 'I_m -> 'I_n).
Hypothesis fI : injective f.
Local Notation inn := (inside f).
Definition both (p : 'I_(m * m)) : 'I_(n * n) := pidx (f (pfst p)) (f (psnd p)).
Lemma both_inj : injective both.
Proof.
move=> p q e; rewrite -[p]pidx_eta -[q]pidx_eta; have /eqP := e; rewrite /both pidx_eq !(inj_eq fI).
by case/andP=> /eqP -> /eqP ->.
Qed.
Lemma inside_both a b : inside both (pidx a b) = inn a && inn b.
Proof.
apply/codomP/andP => [[p /eqP]|[/codomP [i ->] /codomP [j ->]]]; last by exists (pidx i j); rewrite /both pidxK1 pidxK2.
by rewrite /both pidx_eq => /andP [/eqP -> /eqP ->]; split; exact: insideE.
Qed.
Definition outside : pred 'I_(n * n) := fun p => ~~ inn (pfst p) && ~~ inn (psnd p).
(* an interaction within the subset and within the rest only; a polarization made of Green functions that do not connect them *)
Definition int_apart (T : tensor4 C n) : Prop := forall a b c d, ~~ [&& inn b == inn a, inn c == inn a & inn d == inn a] -> T a b c d = 0.
Definition pol_apart (T : tensor4 C n) : Prop := forall a b c d, ~~ ((inn d == inn a) && (inn c == inn b)) -> T a b c d = 0.
Definition tsub (T : tensor4 C n) : tensor4 C m := fun a b c d => T (f a) (f b) (f c) (f d).
Lemma tmat_sub T : tmat (tsub T) = sub both (tmat T).
Proof. by apply/matrixP=> i j; rewrite !mxE !pidxK1 !pidxK2. Qed.
Lemma int_pol T : int_apart T -> pol_apart T.
Proof.
move=> h a b c d; case e: (inn d == inn a) => /= e'; apply: h; last by rewrite e !andbF.
by apply/negP=> /and3P [/eqP e1 /eqP e2 _]; rewrite e1 e2 eqxx in e'.
Qed.
Lemma pol_inside T : pol_apart T -> apart (inside both) (tmat T).
Proof.
move=> h i j; rewrite -[i]pidx_eta -[j]pidx_eta tmatE !inside_both => e; apply: h.
by move: e; case: (inn (pfst i)); case: (inn (psnd i)); case: (inn (pfst j)); case: (inn (psnd j)).
Qed.
Lemma pol_outside T : pol_apart T -> apart outside (tmat T).
Proof.
move=> h i j; rewrite -[i]pidx_eta -[j]pidx_eta tmatE /outside !pidxK1 !pidxK2 => e; apply: h.
by move: e; case: (inn (pfst i)); case: (inn (psnd i)); case: (inn (pfst j)); case: (inn (psnd j)).
Qed.
(* the screened interaction *)
Section Screened.
Variables (V P : tensor4 C n) (c : C).
Hypotheses (hV : int_apart V) (hP : pol_apart P).
Let X := 1%:M - (c *: tmat P) *m tmat V.
Let hX s : apart s (tmat P) -> apart s (tmat V) -> apart s X.
Proof. by move=> p v; apply: apart_add; [exact: apart_scalar | apply: apart_opp; apply: apart_mul => //; exact: apart_scale]. Qed.
Let Xi : apart (inside both) X. Proof. apply: hX; apply: pol_inside => //; exact: int_pol. Qed.
Let Xo : apart outside X. Proof. apply: hX; apply: pol_outside => //; exact: int_pol. Qed.
Lemma screened_apart T : tmat T = tmat V *m invmx X -> int_apart T.
Proof.
move=> e a b k l h; rewrite -tmatE e.
have hi : apart (inside both) (tmat V *m invmx X) by apply: apart_mul; [apply: pol_inside; exact: int_pol | exact: apart_inv].
have ho : apart outside (tmat V *m invmx X) by apply: apart_mul; [apply: pol_outside; exact: int_pol | exact: apart_inv].
have [eb|nb] := eqVneq (inn b) (inn a); last by rewrite mxE big1 // => i _; rewrite -[i]pidx_eta tmatE hV ?mul0r // (negbTE nb).
case ia: (inn a); first by apply: hi; rewrite !inside_both eb ia; move: h; rewrite eb ia; case: (inn k); case: (inn l).
by apply: ho; rewrite /outside !pidxK1 !pidxK2 eb ia; move: h; rewrite eb ia; case: (inn k); case: (inn l).
Qed.
Lemma screened_sub : X \in unitmx -> tmat (tsub V) *m invmx (1%:M - (c *: tmat (tsub P)) *m tmat (tsub V)) = sub both (tmat V *m invmx X).
Proof.
move=> u; have vi : apart (inside both) (tmat V) by apply: pol_inside; exact: int_pol.
have pi : apart (inside both) (c *: tmat P) by apply: apart_scale; exact: pol_inside.
rewrite (sub_mul both_inj _ vi) -(sub_inv both_inj Xi u) !tmat_sub; congr (_ *m invmx _).
by rewrite /X sub_add sub_opp (sub_scalar both_inj) (sub_mul both_inj _ pi) sub_scale.
Qed.
End Screened.
End Pairs.

(* a transform of the elements of a matrix function; it may treat diagonal elements differently (known tail) *)
Definition entries (C : fieldType) (d : bool -> (int -> C) -> C) (n : nat) (g : int -> 'M[C]_n) : 'M[C]_n := \matrix_(i, j) d (i == j) (fun w => g w i j).

Section Gw.
Variables (C : numClosedFieldType) (n1 n2 n3 m nb nn L : nat) (z1 z2 z3 beta mu : C) (f : 'I_m -> 'I_nb).
Local Notation K := (site n1 n2 n3).
Local Notation Wb := 'I_(2 * nn).-1.
Local Notation Wf := 'I_(2 * nn).
Variables (freq : Wf -> C) (dens : bool -> (int -> C) -> C) (wt1 : 'I_L.+1 -> bool -> (int -> C) -> C) (tw : ('I_L.+1 -> C) -> int -> C).
Variables (wtc : (Wb -> C) -> 'I_L.+1 -> C) (tw_plan tw_lib : ('I_L.+1 -> C) -> int -> C).
Variable brentq : (C -> C) -> C * C -> C -> option C.
Variables (nranks : nat) (sc : schedules).
Variables (e_k : K -> 'M[C]_nb) (V_k : K -> tensor4 C nb).
Local Notation k2r := (@fourier_k_to_r C n1 n2 n3 z1 z2 z3).
Local Notation r2k := (@fourier_r_to_k C n1 n2 n3 z1 z2 z3).
Local Notation density := (entries dens (n := nb)).
Local Notation density' := (entries dens (n := m)).
Local Notation wt := (fun g t => entries (wt1 t) (n := nb) g).
Local Notation wt' := (fun g t => entries (wt1 t) (n := m) g).
(* the subset alone *)
Local Notation e_k' := (fun k => sub f (e_k k)).
Local Notation V_k' := (fun k => tsub f (V_k k)).
Local Notation G := (G C n1 n2 n3 nb nn).
Local Notation G' := (GwFullModel.G C n1 n2 n3 m nn).
Local Notation chi4 := (chi4 C n1 n2 n3 nb nn).
Local Notation chi4' := (GwFullModel.chi4 C n1 n2 n3 m nn).
Local Notation Rho := (Rho C n1 n2 n3 nb).
Local Notation Rho' := (GwFullModel.Rho C n1 n2 n3 m).
Local Notation state := (solver_state C n1 n2 n3 nb nn).
Local Notation state' := (solver_state C n1 n2 n3 m nn).
Local Notation inn := (inside f).
Hypotheses (fI : injective f) (hs : fair_sched nranks sc).
(* no hopping and no interaction between the subset and the rest *)
Hypotheses (he : forall k, apart inn (e_k k)) (hV : forall k, int_apart f (V_k k)).
(* the transforms are functions of the data and give zero for off-diagonal elements that are zero *)
Definition transform (d : bool -> (int -> C) -> C) : Prop := (forall b x y, x =1 y -> d b x = d b y) /\ d false (fun _ => 0) = 0.
Hypotheses (hd : transform dens) (hw : forall t, transform (wt1 t)).
Hypotheses (twL : forall n, linfun (fun x => tw x n)) (wtcL : forall t, linfun (fun x => wtc x t)) (planL : forall n, linfun (fun x => tw_plan x n)).

Definition g_sub (x : G) (y : G') : Prop := forall p, apart inn (x p) /\ y p = sub f (x p).
Definition rho_sub (x : Rho) (y : Rho') : Prop := forall r, apart inn (x r) /\ y r = sub f (x r).
Definition P_sub (x : chi4) (y : chi4') : Prop := forall w k, pol_apart f (x w k) /\ forall a b c d, y w k a b c d = x w k (f a) (f b) (f c) (f d).
Definition W_sub (x : chi4) (y : chi4') : Prop := forall w k, int_apart f (x w k) /\ forall a b c d, y w k a b c d = x w k (f a) (f b) (f c) (f d).
Definition chi_sub (x : chi4) (y : chi4') : Prop := forall w k a b c d, y w k a b c d = x w k (f a) (f b) (f c) (f d).
Definition mu_sub (x y : C) : Prop := x = mu /\ y = mu.
Definition state_sub (s : state) (t : state') : Prop := same_state2 mu_sub g_sub g_sub rho_sub (fun _ _ => True) P_sub W_sub chi_sub s t.

Lemma k2r_0 (x : K -> C) r : (forall k, x k = 0) -> k2r x r = 0.
Proof. by move=> h; rewrite (@k2r_scale _ _ _ _ _ _ _ 0 x x) ?mul0r // => k; rewrite h mul0r. Qed.
Lemma r2k_0 (x : K -> C) r : (forall k, x k = 0) -> r2k x r = 0.
Proof. by move=> h; rewrite (@r2k_scale _ _ _ _ _ _ _ 0 x x) ?mul0r // => k; rewrite h mul0r. Qed.
Lemma lin_0 (A : Type) (F : (A -> C) -> C) x : linfun F -> (forall a, x a = 0) -> F x = 0.
Proof. by move=> l h; rewrite (lin_scale (c := 0) (x := x) l) ?mul0r // => a; rewrite h mul0r. Qed.
Lemma entries_sub d (x : int -> 'M[C]_nb) (y : int -> 'M[C]_m) : transform d -> (forall n, apart inn (x n) /\ y n = sub f (x n)) ->
  apart inn (entries d x) /\ entries d y = sub f (entries d x).
Proof.
move=> [h1 h2] h; split=> [i j e|]; last first.
  by apply/matrixP=> i j; rewrite !mxE (inj_eq fI); apply: h1 => n; rewrite (h n).2 mxE.
have ij : (i == j) = false by apply/eqP => e'; rewrite e' eqxx in e.
by rewrite mxE ij -h2; apply: h1 => n; rewrite (h n).1.
Qed.
Lemma on_ints_sub x y n k : g_sub x y -> apart inn (on_ints x n k) /\ on_ints y n k = sub f (on_ints x n k).
Proof.
move=> h; split=> [i j e|]; rewrite /on_ints; first by rewrite summxE big1 // => p _; rewrite (h _).1.
by apply/matrixP=> i j; rewrite mxE !summxE; apply: eq_bigr => p _; rewrite (h _).2 mxE.
Qed.
Lemma rho_sub_of x y : g_sub x y -> rho_sub (calc_rho z1 z2 z3 density nranks sc x) (calc_rho z1 z2 z3 density' nranks sc y).
Proof.
move=> h r; rewrite !calc_rhoE //; have e k := entries_sub hd (fun n => on_ints_sub n k h).
split=> [i j ij|]; first by rewrite mxE k2r_0 // => k; exact: (e k).1.
by apply/matrixP=> i j; rewrite !mxE; apply: k2r_ext => k; rewrite (e k).2 mxE.
Qed.
Lemma hartree_sub x y : rho_sub x y -> g_sub (hartree_sigma nn z1 z2 z3 V_k x) (hartree_sigma nn z1 z2 z3 V_k' y).
Proof.
move=> h p; rewrite !hartreeE //; split=> [i j ij|].
  rewrite mxE big1 // => c _; rewrite big1 // => d _; by rewrite hV ?mul0r // [inn j == _]eq_sym (negbTE ij).
apply/matrixP=> i j; rewrite !mxE.
rewrite (sum_inside fI (F := fun c => _)); last by move=> c hc; rewrite big1 // => d _; rewrite hV ?mul0r // !insideE (negbTE hc).
apply: eq_bigr => c _; rewrite (sum_inside fI (F := fun c => _)); last by move=> d hd'; rewrite hV ?mul0r // !insideE (negbTE hd').
by apply: eq_bigr => d _; rewrite (h _).2 mxE.
Qed.
Lemma fock_sub x y : rho_sub x y -> g_sub (fock_sigma nn z1 z2 z3 nranks sc V_k x) (fock_sigma nn z1 z2 z3 nranks sc V_k' y).
Proof.
have z a b c d r : ~~ [&& inn b == inn a, inn c == inn a & inn d == inn a] -> - k2r (fun k => V_k k a b c d) r = 0.
  by move=> h; rewrite k2r_0 ?oppr0 // => k; exact: hV.
move=> h p; rewrite !fockE //; split=> [i j ij|].
  rewrite mxE r2k_0 // => r; rewrite big1 // => c _; rewrite big1 // => d _; by rewrite z ?mul0r // [inn j == _]eq_sym (negbTE ij) !andbF.
apply/matrixP=> i j; rewrite !mxE; apply: r2k_ext => r.
rewrite (sum_inside fI (F := fun c => _)); last by move=> c hc; rewrite big1 // => d _; rewrite z ?mul0r // !insideE (negbTE hc).
apply: eq_bigr => c _; rewrite (sum_inside fI (F := fun c => _)); last by move=> d hd'; rewrite z ?mul0r // !insideE (negbTE hd').
by apply: eq_bigr => d _; rewrite (h _).2 mxE.
Qed.
Lemma g_time_sub x y t r : g_sub x y -> apart inn (g_time z1 z2 z3 wt x t r) /\ g_time z1 z2 z3 wt' y t r = sub f (g_time z1 z2 z3 wt x t r).
Proof.
move=> h; apply: entries_sub => // n; have e k := on_ints_sub n k h.
split=> [i j ij|]; first by rewrite mxE k2r_0 // => k; exact: (e k).1.
by apply/matrixP=> i j; rewrite !mxE; apply: k2r_ext => k; rewrite (e k).2 mxE.
Qed.
Lemma polarization_sub x y : g_sub x y -> P_sub (polarization z1 z2 z3 beta wt tw_plan tw_lib nranks sc x) (polarization z1 z2 z3 beta wt' tw_plan tw_lib nranks sc y).
Proof.
move=> h w k; split=> [a b c d|a b c d]; rewrite !polarizationE //.
  move=> e; rewrite r2k_0 ?oppr0 // => r; apply: lin_0 => [|t]; first exact: to_freq_lin.
  have g t' r' := (g_time_sub t' r' h).1; case e1: (inn d == inn a) e => /= e; last by rewrite g ?mul0r // e1.
  by rewrite [X in _ * X]g ?mulr0 // eq_sym.
congr (- _); apply: r2k_ext => r; apply: (to_freq_lin _ planL _).1 => t; by rewrite !(g_time_sub _ _ h).2 !mxE.
Qed.
Lemma tsub_of (X : tensor4 C nb) (Y : tensor4 C m) : (forall a b c d, Y a b c d = X (f a) (f b) (f c) (f d)) -> tmat Y = tmat (tsub f X).
Proof. by move=> h; apply/matrixP=> i j; rewrite !mxE h. Qed.
Lemma sub_of (X : tensor4 C nb) (Y : tensor4 C m) : tmat Y = sub (both f) (tmat X) -> forall a b c d, Y a b c d = X (f a) (f b) (f c) (f d).
Proof. by rewrite -tmat_sub => h a b c d; rewrite -[LHS]tmatE h tmatE. Qed.
(* the screened interaction exists *)
Definition screens (sp : bool) (P : chi4) : Prop := forall w k, 1%:M - ((if sp then 2%:R else 1) *: tmat (P w k)) *m tmat (V_k k) \in unitmx.
Lemma screened_sub_of sp x y : P_sub x y -> screens sp x -> W_sub (screened_interaction nranks sc V_k sp x) (screened_interaction nranks sc V_k' sp y).
Proof.
move=> h u w k; have [h1 h2] := h w k; split; first exact: (screened_apart (hV k) h1 (screenedE _ hs _ _ _ _)).
by apply: sub_of; rewrite !screenedE // (tsub_of h2) (screened_sub fI (hV k) h1 (u w k)).
Qed.
Lemma dynamic_sub x y : W_sub x y -> W_sub (dynamic_part V_k x) (dynamic_part V_k' y).
Proof.
move=> h w k; have [h1 h2] := h w k; split=> a b c d; last by rewrite !dynamicE h2.
by move=> e; rewrite dynamicE h1 // hV // subr0.
Qed.
Lemma chi_sub_of p q x y : P_sub p q -> W_sub x y -> chi_sub (susceptibility nranks sc p x) (susceptibility nranks sc q y).
Proof.
move=> h h' w k; have [h1 h2] := h w k; have [h3 h4] := h' w k; apply: (sub_of (X := susceptibility nranks sc p x w k) (Y := susceptibility nranks sc q y w k)).
rewrite (susceptibilityE hs) (susceptibilityE hs) (tsub_of h2) (tsub_of h4) (tmat_sub f (p w k)) (tmat_sub f (x w k)).
have p1 := pol_inside h1; have p3 := pol_inside (int_pol h3); have bI := both_inj fI.
by rewrite sub_add (sub_mul bI) ?(sub_mul bI _ p1) //; exact: apart_mul.
Qed.
Lemma sigma_sub x y g h : W_sub x y -> g_sub g h ->
  g_sub (gw_dynamic_sigma z1 z2 z3 beta wt tw wtc nranks sc x g) (gw_dynamic_sigma z1 z2 z3 beta wt' tw wtc nranks sc y h).
Proof.
move=> hW hg p; rewrite !sigma_dynE //.
have z a b c d t r : ~~ [&& inn b == inn a, inn c == inn a & inn d == inn a] -> - W_time z1 z2 z3 wtc x t r a b c d = 0.
  move=> e; rewrite /W_time (lin_0 (F := fun x => wtc x t)) ?oppr0 // => w; by apply: k2r_0 => k; exact: (hW w k).1.
split=> [i j ij|].
  rewrite mxE r2k_0 // => r; apply: (lin_0 (F := fun x => tw x (fidx p.1))) => // t; rewrite big1 // => c _; rewrite big1 // => d _; by rewrite z ?mul0r // [inn j == _]eq_sym (negbTE ij) !andbF.
apply/matrixP=> i j; rewrite !mxE; apply: r2k_ext => r; apply: (twL _).1 => t.
rewrite (sum_inside fI (F := fun c => _)); last by move=> c hc; rewrite big1 // => d _; rewrite z ?mul0r // !insideE (negbTE hc).
apply: eq_bigr => c _; rewrite (sum_inside fI (F := fun c => _)); last by move=> d hd'; rewrite z ?mul0r // !insideE (negbTE hd').
apply: eq_bigr => d _; rewrite (g_time_sub _ _ hg).2 mxE; congr (- _ * _).
by apply: (wtcL _).1 => w; apply: k2r_ext => k; exact: (hW w k).2.
Qed.
(* the Dyson equation has a solution *)
Definition dyson_ok (s : option G) : Prop := forall p : Wf * K, (freq p.1 + mu)%:M - e_k p.2 - (if s is Some x then x p else 0) \in unitmx.
Lemma dyson_sub x y : g_sub x y -> dyson_ok (Some x) -> g_sub (lattice_dyson_g freq nranks sc e_k mu x) (lattice_dyson_g freq nranks sc e_k' mu y).
Proof.
move=> h u p; rewrite !dysonE //; have a : apart inn ((freq p.1 + mu)%:M - e_k p.2 - x p).
  by apply: apart_add; [apply: apart_add; [exact: apart_scalar | apply: apart_opp] | apply: apart_opp; exact: (h p).1].
split; first exact: apart_inv.
by rewrite -(sub_inv fI a (u p)) !sub_add !sub_opp (sub_scalar fI) (h p).2.
Qed.
Lemma dyson0_sub : dyson_ok None -> g_sub (lattice_dyson_g0 freq nranks sc e_k mu) (lattice_dyson_g0 freq nranks sc e_k' mu).
Proof.
move=> u p; rewrite !dyson0E //; have a : apart inn ((freq p.1 + mu)%:M - e_k p.2) by apply: apart_add; [exact: apart_scalar | exact: apart_opp].
have := u p; rewrite subr0 => up.
by split; [exact: apart_inv | rewrite -(sub_inv fI a up) sub_add sub_opp (sub_scalar fI)].
Qed.
Local Notation run := (gw_solve_iter z1 z2 z3 beta freq density wt tw wtc tw_plan tw_lib brentq nranks sc e_k V_k).
Local Notation run' := (gw_solve_iter z1 z2 z3 beta freq density' wt' tw wtc tw_plan tw_lib brentq nranks sc e_k' V_k').
Local Notation start := (gw_init z1 z2 z3 freq density brentq nranks sc e_k).
Local Notation start' := (gw_init z1 z2 z3 freq density' brentq nranks sc e_k').
Lemma dyson_equation_sub a mu1 mu2 x y : fixed a = None -> mu_sub mu1 mu2 -> orel g_sub x y -> dyson_ok x ->
  orel (same_pair mu_sub g_sub)
  (dyson_equation (calc_rho z1 z2 z3 density nranks sc) (@total_density C n1 n2 n3 nb) (lattice_dyson_g freq nranks sc e_k) (lattice_dyson_g0 freq nranks sc e_k) brentq a mu1 x)
  (dyson_equation (calc_rho z1 z2 z3 density' nranks sc) (@total_density C n1 n2 n3 m) (lattice_dyson_g freq nranks sc e_k') (lattice_dyson_g0 freq nranks sc e_k') brentq a mu2 y).
Proof.
move=> fa [-> ->] hx hr; rewrite /dyson_equation fa /=; split=> //=.
by case: x y hx hr => [x|] [y|] //= hx hr; [exact: dyson_sub | exact: dyson0_sub].
Qed.
(* C115: the subset of orbitals in the calculation with all of them, stopped by the tolerance or after n iterations, and the subset alone after as many iterations *)
Theorem C115_gw_subset (a : args C) tol hartree fock gw spinless n s t s' : fixed a = None -> state_sub s t ->
  (forall i r, (0 < i <= n)%N -> run a tol hartree fock gw spinless i s = Some r -> dyson_ok (Some (s_sigma r)) /\ (gw -> if s_P r is Some P then screens spinless P else True)) ->
  run a tol hartree fock gw spinless n s = Some s' ->
  exists k, (k <= n)%N /\ exists2 t', run' a 0 hartree fock gw spinless k t = Some t' & state_sub s' t'.
Proof.
move=> fa hst hreg hr.
have d0 (q : nat) (x y : GwFullModel.G C n1 n2 n3 q nn) : (distance x y < 0) = false by rewrite distance_lt ltxx.
have [k [hk e1 e2]] := solve_stop (calc_rho z1 z2 z3 density nranks sc) (@total_density C n1 n2 n3 nb) (hartree_sigma nn z1 z2 z3 V_k) (fock_sigma nn z1 z2 z3 nranks sc V_k)
  (polarization z1 z2 z3 beta wt tw_plan tw_lib nranks sc) (screened_interaction nranks sc V_k) (dynamic_part V_k) (gw_dynamic_sigma z1 z2 z3 beta wt tw wtc nranks sc)
  (susceptibility nranks sc) (lattice_dyson_g freq nranks sc e_k) (lattice_dyson_g0 freq nranks sc e_k) brentq a tol hartree fock gw spinless (d0 nb) n s.
exists k; split=> //; rewrite /gw_solve_iter e1 in hr.
move: hr; apply: (solve_iter_rel3 (RG := g_sub) (RS := g_sub) (RRho := rho_sub) (RP := P_sub) (RW := W_sub) (regP := screens spinless) (reg := dyson_ok) _ _ _ _ _ _ _ _ _ _ _ _ _ hst).
- by move=> p; rewrite !ffunE; split=> [i j _|]; [rewrite mxE | apply/matrixP=> i j; rewrite !mxE].
- by move=> x y x' y' h h' p; rewrite !ffunE (h p).2 (h' p).2 sub_add; split=> //; apply: apart_add; [exact: (h p).1 | exact: (h' p).1].
- exact: rho_sub_of.
- by [].
- by move=> _; exact: hartree_sub.
- by move=> _; exact: fock_sub.
- exact: polarization_sub.
- by move=> _; exact: screened_sub_of.
- by move=> _; exact: dynamic_sub.
- exact: sigma_sub.
- exact: chi_sub_of.
- by move=> *; exact: dyson_equation_sub.
- by move=> x y x' y' _ _; rewrite !d0.
move=> i r /andP [h1 h2]; rewrite e2 // => hi; apply: hreg hi; by rewrite h1 (leq_trans h2).
Qed.
Theorem C115_gw_start (a : args C) mu0 g g' : fixed a = None -> odflt 0 mu0 = mu -> orel g_sub g g' -> dyson_ok None -> orel state_sub (start a mu0 g) (start' a mu0 g').
Proof.
move=> fa hm hg hr; apply: (init_rel2 _ _ _ _ _ _ _ _ hg hr) => //.
- by move=> p; rewrite !ffunE; split=> [i j _|]; [rewrite mxE | apply/matrixP=> i j; rewrite !mxE].
- by move=> *; exact: dyson_equation_sub.
Qed.
End Gw.

(* C115: the particles of the two parts add up *)
Theorem C115_particles (C : numClosedFieldType) (n1 n2 n3 m m' nb : nat) (f : 'I_m -> 'I_nb) (f' : 'I_m' -> 'I_nb) (rho : Rho C n1 n2 n3 nb) (rho1 : Rho C n1 n2 n3 m) (rho2 : Rho C n1 n2 n3 m') :
  injective f -> injective f' -> (forall i, (i \in codom f') = (i \notin codom f)) -> rho_sub f rho rho1 -> rho_sub f' rho rho2 ->
  total_density rho = total_density rho1 + total_density rho2.
Proof.
move=> fI fI' hc h1 h2; rewrite /total_density.
have e (q : nat) (h : 'I_q -> 'I_nb) : injective h -> \sum_i 'Re (rho 0 (h i) (h i)) = \sum_i if i \in codom h then 'Re (rho 0 i i) else 0.
  by move=> hI; rewrite [RHS](sum_inside hI); [apply: eq_bigr => i _; rewrite codom_f | move=> i /negbTE hi; rewrite -[i \in _]/(inside h i) hi].
transitivity (\sum_i 'Re (rho 0 (f i) (f i)) + \sum_i 'Re (rho 0 (f' i) (f' i))).
  by rewrite (e _ _ fI) (e _ _ fI') -big_split; apply: eq_bigr => i _; rewrite /= hc; case: (i \in codom f); rewrite ?addr0 ?add0r.
by congr (_ + _); apply: eq_bigr => i _; rewrite ?(h1 0).2 ?(h2 0).2 mxE.
Qed.

(* two levels with their own interactions u0 and u1, and the first one alone: plain Fourier sums with any phases, any number of frequencies *)
Section Case.
Variables (C : numClosedFieldType) (nn L : nat) (e u : 'I_2 -> C) (mu : C) (v : 'I_(2 * nn) -> C) (ph : int -> 'I_L.+1 -> C).
Hypotheses (e_real : forall i, e i \is Num.real) (mu_real : mu \is Num.real) (hv : forall w, v w \is Num.real /\ v w != 0).
Definition first (_ : 'I_1) : 'I_2 := ord0.
Definition two_levels : 'M[C]_2 := diag_mx (\row_i e i).
Definition own : tensor4 C 2 := fun a b c d => if [&& b == a, c == a & d == a] then u a else 0.
Definition fsum (t : 'I_L.+1) (_ : bool) (x : int -> C) : C := \sum_(p < 2 * nn) ph (fidx p) t * x (fidx p).
Lemma inside_first a : inside first a = (a == ord0).
Proof. by apply/codomP/eqP => [[i ->]|->] //; exists ord0. Qed.
Theorem C115_two_levels_case : [/\ injective first, apart (inside first) two_levels, int_apart first own & forall t, transform (fsum t)] /\
  (forall w : 'I_(2 * nn), ('i * v w + mu)%:M - two_levels - 0 \in unitmx) /\ sub first two_levels = (e ord0)%:M /\ (forall a b c d, tsub first own a b c d = u ord0).
Proof.
split; [split|split; [|split]].
- by move=> i j _; rewrite !ord1.
- by move=> i j h; rewrite !mxE; case: (eqVneq i j) h => [->|//]; rewrite eqxx.
- move=> a b c d; rewrite /own; case: ifP => //; by case/and3P=> /eqP -> /eqP -> /eqP ->; rewrite eqxx.
- move=> t; split=> [b x y h|]; rewrite /fsum; first by apply: eq_bigr => p _; rewrite h.
  by rewrite big1 // => p _; rewrite mulr0.
- move=> w; rewrite subr0; have -> : ('i * v w + mu)%:M - two_levels = diag_mx (\row_i ('i * v w + mu - e i)).
    by apply/matrixP=> i j; rewrite !mxE; case: (i == j); rewrite ?mulr1n ?mulr0n ?subr0.
  rewrite unitmxE det_diag unitfE prodf_seq_neq0; apply/allP=> i _ /=; rewrite mxE.
  have [rv vN] := hv w; apply: contra vN => /eqP; rewrite -addrA addrC => /(congr1 (fun z => 'Im z)) /=; rewrite Im_rect // ?rpredB //.
  by move=> ->; rewrite raddf0.
- by apply/matrixP=> i j; rewrite !mxE !ord1 eqxx.
by move=> a b c d; rewrite /tsub /own /first !eqxx.
Qed.
End Case.
Print Assumptions C115_gw_subset.
Print Assumptions C115_gw_start.
Print Assumptions C115_particles.
Print Assumptions C115_two_levels_case.
