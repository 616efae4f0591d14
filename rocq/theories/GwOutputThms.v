(* Property C98: what a GWSolver reports after several calls, and storing it. *)
From Coq Require Import String.
From mathcomp Require Import all_ssreflect all_algebra.
From Verif Require Import GwSolverModel GwSolverThms GwOutputModel.
Set Implicit Arguments.
Unset Strict Implicit.
Unset Printing Implicit Defensive.
Import Order.TTheory GRing.Theory Num.Theory.
Local Open Scope ring_scope.

Section Thms.
Variables (R : numDomainType) (G : zmodType) (Rho P W X Gr Pr Wr Gf Pf Wf Xf : Type).
Variables (calc_rho : G -> Rho) (density : Rho -> R) (hartree_sigma fock_sigma : Rho -> G).
Variables (polarization : G -> P) (screened_interaction : bool -> P -> W) (dynamic_part : W -> W) (gw_dynamic_sigma : W -> G -> G) (susceptibility : P -> W -> X).
Variables (lattice_dyson_g : R -> G -> G) (lattice_dyson_g0 : R -> G).
Variables (brentq : (R -> R) -> R * R -> R -> option R) (distance : G -> G -> R) (a : args R).
Variables (fourier_g : G -> Gr) (fourier_P : P -> Pr) (fourier_W : W -> Wr) (pade_g : G -> Gf) (pade_P : P -> Pf) (pade_W : W -> Wf) (pade_X : X -> Xf).
Notation attributes := (attributes R G Rho P W X).
Notation solve_iter := (solve_iter calc_rho density hartree_sigma fock_sigma polarization screened_interaction dynamic_part gw_dynamic_sigma susceptibility
  lattice_dyson_g lattice_dyson_g0 brentq distance a).
Notation init := (@init R G Rho P W X calc_rho density lattice_dyson_g lattice_dyson_g0 brentq a).
Notation calc_real_freq := (calc_real_freq pade_g pade_P pade_W pade_X).
Notation calc_real_space := (calc_real_space fourier_g fourier_P fourier_W).

(* the arguments of one call of solve_iter *)
Record call := Call { c_tol : R; c_hartree : bool; c_fock : bool; c_gw : bool; c_spinless : bool; c_maxiter : nat }.
Definition run (s : attributes) (c : call) : option attributes :=
  solve_iter (c_tol c) (c_hartree c) (c_fock c) (c_gw c) (c_spinless c) (c_maxiter c) s.
(* constructor and a sequence of calls *)
Definition session mu g (cs : seq call) : option attributes := foldl (fun o c => if o is Some s then run s c else None) (init mu g) cs.

Section Keeps.
Variables (tol : R) (hartree fock gw spinless : bool).
Notation iteration := (iteration calc_rho density hartree_sigma fock_sigma polarization screened_interaction dynamic_part gw_dynamic_sigma lattice_dyson_g
  lattice_dyson_g0 brentq distance a tol hartree fock gw spinless).
Notation loop := (loop calc_rho density hartree_sigma fock_sigma polarization screened_interaction dynamic_part gw_dynamic_sigma lattice_dyson_g
  lattice_dyson_g0 brentq distance a tol hartree fock gw spinless).
Lemma loop_keeps n (l l' : locals R G P W) : loop n l = Some l' ->
  [/\ if hartree && (0 < n)%N then is_true (isSome (l_hartree l')) else l_hartree l' = l_hartree l,
      if fock && (0 < n)%N then is_true (isSome (l_fock l')) else l_fock l' = l_fock l & if gw && (0 < n)%N then is_true (isSome (l_dyn l')) else l_dyn l' = l_dyn l].
Proof.
elim: n l => [|n IH] l; first by rewrite !andbF /= => -[->].
rewrite /= iterationE; case: (next _) => [[g mu]|] //; set l1 := Locals _ _ _ _ _ _ _ _ _ _.
have h1 : [/\ if hartree then is_true (isSome (l_hartree l1)) else l_hartree l1 = l_hartree l, if fock then is_true (isSome (l_fock l1)) else l_fock l1 = l_fock l &
    if gw then is_true (isSome (l_dyn l1)) else l_dyn l1 = l_dyn l] by rewrite /l1; split=> /=; [case: hartree | case: fock | case: gw].
rewrite !andbT; case: ifP => [_ [<-]//|_ /IH]; move: h1 => [h1 h2 h3] [k1 k2 k3]; split.
- by move: h1 k1; clear; case: hartree => /= h; [case: (0 < n)%N => // -> | move->].
- by move: h2 k2; clear; case: fock => /= h; [case: (0 < n)%N => // -> | move->].
- by move: h3 k3; clear; case: gw => /= h; [case: (0 < n)%N => // -> | move->].
Qed.
Lemma loop_gw n (l l' : locals R G P W) : gw = false -> loop n l = Some l' -> [/\ l_P l' = l_P l, l_W l' = l_W l & l_Wdyn l' = l_Wdyn l].
Proof.
move=> h0; elim: n l => [|n IH] l /=; first by case=> <-.
rewrite iterationE; case: (next _) => [[g mu]|] //; set l1 := Locals _ _ _ _ _ _ _ _ _ _.
have [h1 h2 h3] : [/\ l_P l1 = l_P l, l_W l1 = l_W l & l_Wdyn l1 = l_Wdyn l] by rewrite /l1 h0.
by case: ifP => [_ [<-]|_ h] //; have [-> -> ->] := IH _ h.
Qed.
End Keeps.

Lemma run_keeps s c s' : run s c = Some s' -> let on := (0 < c_maxiter c)%N in
  [/\ if c_hartree c && on then is_true (isSome (s_hartree s')) else s_hartree s' = s_hartree s,
      if c_fock c && on then is_true (isSome (s_fock s')) else s_fock s' = s_fock s,
      if c_gw c && on then is_true (isSome (s_dyn s')) else s_dyn s' = s_dyn s &
      if c_gw c then is_true [&& isSome (s_P s'), isSome (s_W s') & isSome (s_chi s')] else [/\ s_P s' = s_P s, s_W s' = s_W s, s_Wdyn s' = s_Wdyn s & s_chi s' = s_chi s]].
Proof.
rewrite /run /solve_iter; set l0 := Locals _ _ _ _ _ _ _ _ _ _; case e: loop => [l|] //=.
have [k1 k2 k3] := loop_keeps e; case hg: (c_gw c) k3 => k3; last by case=> <-; split.
by case: (l_W l) => // W0; case: (l_P l) => // P0 [<-]; split.
Qed.

Lemma run_dyson s c s' : (0 < c_maxiter c)%N -> run s c = Some s' -> s_g s' = lattice_dyson_g (s_mu s') (s_sigma s').
Proof.
rewrite /run => n0 /(C76_trace n0) [t [t1 t2 t3 [t4 _] _]].
case/lastP: t t1 t2 t3 t4 => [|u q] t1 t2 t3 t4; first by case: (c_maxiter c) n0 t2.
move: t1 t3 t4; rewrite last_rcons belast_rcons /= => t1 t3 t4.
set p := last _ u in t4; have : dyson_equation calc_rho density lattice_dyson_g lattice_dyson_g0 brentq a p.2 (Some (s_sigma s')) = Some q.
  rewrite t4 /p; elim: u (s_g s, s_mu s) t1 {t2 t3 t4 p} => [|x u IH] p /= [h1 h2]; first exact: h1.
  exact: IH h2.
rewrite /dyson_equation; case: (fixed a) => [N|] /=; last by case=> eq; move: t3; rewrite -eq => -[-> ->].
by case: (brentq _ _ _) => [mu|] // [eq]; move: t3; rewrite -eq => -[-> ->].
Qed.

(* C98: the real-frequency functions are available exactly when some call computed the Hartree term and some call computed the Fock term *)
Theorem C98_real_freq_error mu g cs s : session mu g cs = Some s ->
  calc_real_freq s = None <-> ~~ (has (fun c => c_hartree c && (0 < c_maxiter c)%N) cs && has (fun c => c_fock c && (0 < c_maxiter c)%N) cs).
Proof.
have H s0 : foldl (fun o c => if o is Some s then run s c else None) s0 cs = Some s -> exists2 s1, s0 = Some s1 &
   isSome (s_hartree s) = isSome (s_hartree s1) || has (fun c => c_hartree c && (0 < c_maxiter c)%N) cs /\
   isSome (s_fock s) = isSome (s_fock s1) || has (fun c => c_fock c && (0 < c_maxiter c)%N) cs.
  elim: cs s0 => [|c cs IH] s0 /=; first by move=> ->; exists s; rewrite ?orbF.
  move/IH => [s1 + [h1 h2]]; case: s0 => // s0 e; exists s0 => //; rewrite h1 h2.
  have [k1 k2 _ _] := run_keeps e; move: k1 k2.
  by case: ifP => _ => [->|->]; case: ifP => _ => [->|->]; rewrite ?orbT.
move=> /H [s1 + [h1 h2]]; rewrite /init; case: dyson_equation => [[g0 mu0]|] //.
have z : forall s1', Some s1' = Some s1 -> s_hartree s1' = None -> s_fock s1' = None ->
    calc_real_freq s = None <-> ~~ (has (fun c => c_hartree c && (0 < c_maxiter c)%N) cs && has (fun c => c_fock c && (0 < c_maxiter c)%N) cs).
  move=> s1' [->] e1 e2; rewrite e1 /= in h1; rewrite e2 /= in h2; rewrite -h1 -h2 /GwOutputModel.calc_real_freq.
  by case: (s_hartree s) => [x|]; case: (s_fock s) => [y|].
by case: g => [g|] /z; apply.
Qed.

(* C98: the real-space functions exactly when some call included GW *)
Theorem C98_real_space_error mu g cs s : session mu g cs = Some s -> calc_real_space s = None <-> ~~ has c_gw cs.
Proof.
have H s0 : foldl (fun o c => if o is Some s then run s c else None) s0 cs = Some s -> exists2 s1, s0 = Some s1 &
   isSome (s_P s) = isSome (s_P s1) || has c_gw cs /\ isSome (s_W s) = isSome (s_W s1) || has c_gw cs.
  elim: cs s0 => [|c cs IH] s0 /=; first by move=> ->; exists s; rewrite ?orbF.
  move/IH => [s1 + [h1 h2]]; case: s0 => // s0 e; exists s0 => //; rewrite h1 h2.
  have [_ _ _] := run_keeps e.
  by case: ifP => _ => [/and3P[-> -> _]|[-> -> _ _]]; rewrite ?orbT.
move=> /H [s1 + [h1 h2]]; rewrite /init; case: dyson_equation => [[g0 mu0]|] //.
have z : forall s1', Some s1' = Some s1 -> s_P s1' = None -> s_W s1' = None -> calc_real_space s = None <-> ~~ has c_gw cs.
  move=> s1' [->] e1 e2; rewrite e1 /= in h1; rewrite e2 /= in h2; rewrite /GwOutputModel.calc_real_space.
  by move: h1 h2; case: (s_P s) => [x|] /= <-; case: (s_W s) => [y|] //=.
by case: g => [g|] /z; apply.
Qed.

(* C98: after a call with all three contributions, everything reported belongs to that call: the self-energies, the polarization, the interactions and the
   susceptibility are those of one Green's function g, and the Green's function reported solves the Dyson equation with their sum *)
Theorem C98_report mu g cs c s : session mu g (rcons cs c) = Some s -> c_hartree c -> c_fock c -> c_gw c -> (0 < c_maxiter c)%N ->
  exists g1, let rho := calc_rho g1 in let P0 := polarization g1 in let W0 := screened_interaction (c_spinless c) P0 in
  let sigma := hartree_sigma rho + fock_sigma rho + gw_dynamic_sigma (dynamic_part W0) g1 in
  [/\ s_sigma s = sigma, s_g s = lattice_dyson_g (s_mu s) sigma,
      calc_real_freq s = Some (Collection (s_mu s) (s_mu0 s) (pade_g (s_g0 s)) (pade_g (s_g s)) (hartree_sigma rho) (fock_sigma rho)
        (Some (pade_P P0)) (Some (pade_W W0)) (Some (pade_X (susceptibility P0 W0))) (Some (pade_W (dynamic_part W0)))) &
      calc_real_space s = Some (RealSpace (fourier_g (s_g0 s)) (fourier_g (s_g s)) (fourier_g sigma) (fourier_P P0) (fourier_W W0))].
Proof.
rewrite /session -cats1 foldl_cat /=; case: (foldl _ _ _) => [s0|] // e h1 h2 h3 h4; move: e; rewrite /run h1 h2 h3 => e.
have [t [t1 t2 t3 [t4 [t5 t6]] [u1 u2 u3]]] := C76_trace h4 e.
set g1 := (last _ (belast _ t)).1 in t4 u1 u2 u3; exists g1.
have [P0 [W0 [v1 v2 v3 v4 [v5 v6 v7]]]] := u3 isT.
rewrite /GwOutputModel.calc_real_freq /GwOutputModel.calc_real_space (u1 isT) (u2 isT) v1 v2 v3 v6 -v4 -v5 t4 /self_energy /= -v4 -v5; split=> //.
by rewrite (run_dyson h4 (c := c) (s := s0) (s' := s)) /run ?h1 ?h2 ?h3 // t4 /self_energy -v4 -v5.
Qed.

(* C98 refuted as stated: a call without GW, Hartree or Fock leaves the corresponding functions of an earlier call beside its own Green's function *)
Theorem C98_stale_refuted s c s' rf rf' : run s c = Some s' -> calc_real_freq s = Some rf -> calc_real_freq s' = Some rf' ->
  [/\ c_gw c = false -> [/\ rf_P rf' = rf_P rf, rf_W rf' = rf_W rf, rf_chi rf' = rf_chi rf & rf_Wdyn rf' = rf_Wdyn rf],
      c_hartree c = false -> rf_hartree rf' = rf_hartree rf & c_fock c = false -> rf_fock rf' = rf_fock rf].
Proof.
move=> /run_keeps [k1 k2 _ k4]; rewrite /GwOutputModel.calc_real_freq.
case e1: (s_hartree s) => [x|] //; case e2: (s_fock s) => [y|] // [<-].
case e3: (s_hartree s') => [x'|] //; case e4: (s_fock s') => [y'|] // [<-] /=; split=> h.
- by move: k4; rewrite h => -[-> -> -> ->].
- by move: k1; rewrite h /= e1 e3 => -[].
- by move: k2; rewrite h /= e2 e4 => -[].
Qed.
End Thms.

(* C98: V_wr is the transform of V_k at every frequency of the mesh *)
Theorem C98_static (K Rs A : Type) (fourier : (K -> A) -> Rs -> A) zero bmesh V_k w r : w \in bmesh -> V_wr fourier zero bmesh V_k w r = fourier V_k r.
Proof.
move=> hw; rewrite /V_wr; congr (fourier _ r); rewrite /V_wk.
have H (acc : nat -> K -> A) : acc w = V_k \/ w \in bmesh -> foldl (fun acc w => fun w' => if w' == w then V_k else acc w') acc bmesh w = V_k.
  elim: bmesh acc {hw} => [|w0 b IH] acc /=; first by case.
  by rewrite inE => h; apply: IH; rewrite /=; case: eqP h => [_|_ /= [->|->]]; [left | left | right].
by apply: H; right.
Qed.

Section Storage.
Variables (Val : Type) (new : Val -> Val -> Val -> option (dict Val)).
Lemma lookup_cat (d e : dict Val) k : lookup (d ++ e)%SEQ k = if lookup d k is Some v then Some v else lookup e k.
Proof. by elim: d => [|[k' v] d IH] //=; case: String.eqb. Qed.
Lemma lookup_filter (d : dict Val) k0 k : k <> k0 -> lookup [seq p <- d | ~~ String.eqb k0 p.1] k = lookup d k.
Proof.
move=> hk; elim: d => [|[k' v] d IH] //=; case: (String.eqb_spec k0 k') => [e|_] /=; last by rewrite IH.
by case: (String.eqb_spec k k') => // e'; case: hk; rewrite e' e.
Qed.
Lemma lookup_popped (d : dict Val) k0 : lookup [seq p <- d | ~~ String.eqb k0 p.1] k0 = None.
Proof. by elim: d => [|[k' v] d IH] //=; case e: (String.eqb k0 k'); rewrite //= e. Qed.
(* C98: a stored solver is restored with every attribute it had, whatever was computed before, and a new timer; the constructor of the restored object
   must not fail and may not set attributes that the stored one lacks *)
Theorem C98_storage obj ret e_k V_k wmesh (t : Val) : lookup obj "e_k" = Some e_k -> lookup obj "V_k" = Some V_k -> lookup obj "wmesh" = Some wmesh ->
  lookup obj "timer" = Some t -> new e_k V_k wmesh = Some ret -> (forall k, lookup ret k <> None -> lookup obj k <> None) ->
  exists d obj', [/\ reduce_to_dict obj = Some d, lookup d "timer" = None, factory_from_dict new d = Some obj',
    lookup obj' "timer" = lookup ret "timer" & forall k, k <> "timer"%string -> lookup obj' k = lookup obj k].
Proof.
move=> h1 h2 h3 ht hn hr; rewrite /reduce_to_dict /pop ht; set d := [seq _ <- _ | _].
exists d, (d ++ ret)%SEQ; split=> //; first exact: lookup_popped.
- by rewrite /factory_from_dict !lookup_filter // h1 h2 h3 hn.
- by rewrite lookup_cat lookup_popped.
move=> k hk; rewrite lookup_cat lookup_filter //; case e: (lookup obj k) => [v|] //.
by case e': (lookup ret k) => [v|] //; case: (hr k); rewrite ?e'.
Qed.
End Storage.

(* A case on integers: a call with GW and one without; the second Green's function is new, the polarization and interaction are those of the first *)
Section Case.
Definition toy_run (gw : bool) (n : nat) s := @run [numDomainType of int] int_ZmodType int int int int id id (fun r => r) (fun _ => 1) (fun g => 2 * g) (fun _ p => p + 1) (fun w => w - 1)
  (fun w g => w + g) (fun p w => p * w) (fun mu s => mu - s) (fun mu => mu) (fun _ _ _ => None) (fun x y => `|x - y|) (Args None 1 (0, 0)) s
  (Call 1 true true gw false n).
Definition toy_freq s := @calc_real_freq [numDomainType of int] int_ZmodType int int int int int int int int id id id id s.
Theorem C98_case : let s0 := Attr 3 3 3 3 0 None None None None None None None None None in
  let s1 := Attr 3 3 (-10%:Z) 3 13 (Some (-10%:Z)) (Some (-10%:Z)) (Some 3) (Some 1) (Some 9) (Some 7) (Some 6) (Some 6) (Some 42) in
  let s2 := Attr 3 3 12 3 (-9%:Z) (Some 12) (Some 12) (Some (-10%:Z)) (Some 1) (Some 9) (Some 7) (Some 6) (Some 6) (Some 42) in
  [/\ toy_run true 1 s0 = Some s1, toy_run false 1 s1 = Some s2, toy_freq s0 = None,
      toy_freq s1 = Some (Collection 3 3 3 (-10%:Z) 3 1 (Some 6) (Some 7) (Some 42) (Some 6)) &
      toy_freq s2 = Some (Collection 3 3 3 12 (-10%:Z) 1 (Some 6) (Some 7) (Some 42) (Some 6))].
Proof. by split; reflexivity. Qed.
Theorem C98_storage_case : let d := [:: ("e_k", 1%N); ("V_k", 2%N); ("wmesh", 3%N); ("timer", 4%N); ("mu", 5%N)]%string in
  let new (e v w : nat) := Some [:: ("e_k", e); ("V_k", v); ("wmesh", w); ("mu", 0%N); ("timer", 9%N)]%string in
  omap (fun d => (lookup d "timer", lookup d "mu")) (obind (factory_from_dict new) (reduce_to_dict d)) = Some (Some 9%N, Some 5%N).
Proof. by []. Qed.
End Case.
Print Assumptions C98_real_freq_error.
Print Assumptions C98_real_space_error.
Print Assumptions C98_report.
Print Assumptions C98_stale_refuted.
Print Assumptions C98_static.
Print Assumptions C98_storage.
Print Assumptions C98_case.
Print Assumptions C98_storage_case.
