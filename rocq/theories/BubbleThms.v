(* C19 (lattice transforms), C20 (bubble in real space = in momentum space), C09 (bubble from the self-energy). *)
From mathcomp Require Import all_ssreflect all_algebra all_field.
From Verif Require Import Fring Base MatAlg MpiModel MpiProofs MpiSpec FourierModel FourierProofs.
From Verif Require Import BubbleModel BubbleSpec BubbleProofs.
Set Implicit Arguments.
Unset Strict Implicit.
Unset Printing Implicit Defensive.
Import GRing.Theory Num.Theory.
Local Open Scope ring_scope.

Section Main.
Variables (C : numClosedFieldType) (n1 n2 n3 nb : nat) (z1 z2 z3 : C).
Hypothesis z1P : (n1.+1).-primitive_root z1.
Hypothesis z2P : (n2.+1).-primitive_root z2.
Hypothesis z3P : (n3.+1).-primitive_root z3.
Local Notation CF := (Num.ClosedField.fieldType C).
Local Notation K := (site n1 n2 n3).
Local Notation gfun := (gfun CF n1 n2 n3 nb).

Let charC : (ncells n1 n2 n3)%:R != 0 :> C.
Proof. by rewrite pnatr_eq0 /ncells !muln_eq0. Qed.

(* C19: scalar functions, matrix-valued Green's functions at every frequency, rank-four bubbles under every
   distribution of the (w, n) points *)
Theorem C19_lattice_transforms (f : K -> C) (x : K) :
  fourier_r_to_k z1 z2 z3 (fourier_k_to_r z1 z2 z3 f) x = f x /\
  fourier_k_to_r z1 z2 z3 (fourier_r_to_k z1 z2 z3 f) x = f x.
Proof. exact (conj (@k2rK CF n1 n2 n3 z1 z2 z3 z1P z2P z3P charC f x) (@r2kK CF n1 n2 n3 z1 z2 z3 z1P z2P z3P charC f x)). Qed.

Theorem C19_green_function (g : gfun) (n : int) (x : K) :
  fourier_wr_to_wk z1 z2 z3 (fourier_wk_to_wr z1 z2 z3 g) n x = g n x /\
  fourier_wk_to_wr z1 z2 z3 (fourier_wr_to_wk z1 z2 z3 g) n x = g n x.
Proof. exact (conj (@wk2wrK CF n1 n2 n3 nb z1 z2 z3 z1P z2P z3P charC g n x) (@wr2wkK CF n1 n2 n3 nb z1 z2 z3 z1P z2P z3P charC g n x)). Qed.

Lemma C19_bubble_proof nw nn nranks nranks' sched sched' (chi : chi_wn CF n1 n2 n3 nb nw nn) w n x a b c d :
  fair_all nranks sched -> fair_all nranks' sched' ->
  chi0q_from_chi0r z1 z2 z3 nranks sched (chi0r_from_chi0q z1 z2 z3 nranks' sched' chi) w n x a b c d =
    chi w n x a b c d /\
  chi0r_from_chi0q z1 z2 z3 nranks sched (chi0q_from_chi0r z1 z2 z3 nranks' sched' chi) w n x a b c d =
    chi w n x a b c d.
Proof.
move=> h h'; split.
- rewrite /chi0q_from_chi0r (fair_all_map _ _ h) /=.
  rewrite (@r2k_ext _ _ _ _ _ _ _ _ (fourier_k_to_r z1 z2 z3 (fun k => chi w n k a b c d))).
    exact: (k2rK z1P z2P z3P charC).
  by move=> r; rewrite /chi0r_from_chi0q (fair_all_map _ _ h').
- rewrite /chi0r_from_chi0q (fair_all_map _ _ h) /=.
  rewrite (@k2r_ext _ _ _ _ _ _ _ _ (fourier_r_to_k z1 z2 z3 (fun k => chi w n k a b c d))).
    exact: (r2kK z1P z2P z3P charC).
  by move=> r; rewrite /chi0q_from_chi0r (fair_all_map _ _ h').
Qed.
Theorem C19_bubble nw nn nranks nranks' sched sched' (chi : chi_wn CF n1 n2 n3 nb nw nn) w n x a b c d :
  fair_all nranks sched -> fair_all nranks' sched' ->
  chi0q_from_chi0r z1 z2 z3 nranks sched (chi0r_from_chi0q z1 z2 z3 nranks' sched' chi) w n x a b c d =
    chi w n x a b c d /\
  chi0r_from_chi0q z1 z2 z3 nranks sched (chi0q_from_chi0r z1 z2 z3 nranks' sched' chi) w n x a b c d =
    chi w n x a b c d.
Proof. exact (@C19_bubble_proof nw nn nranks nranks' sched sched' chi w n x a b c d). Qed.

(* C20: g_wk -> g_wr -> chi0_wnr -> chi0_wnk gives the documented momentum sum, for every distribution of the
   work; so does the direct routine; and so does the version without MPI *)
Lemma C20_proof (beta : C) nw nn nranks nranks' sched sched' order (g : gfun) w n q a b c d :
  fair_all nranks sched -> fair_all nranks' sched' -> perm_eq order (enum [finType of K]) ->
  let g_wr := fourier_wk_to_wr z1 z2 z3 g in
  [/\ chi0q_from_chi0r z1 z2 z3 nranks' sched' (chi0r_from_gr_PH beta nranks sched (nw := nw) (nn := nn) g_wr) w n q a b c d
      = bubble_spec beta g (bidx w) (fidx n) q a b c d,
      chi0q_from_chi0r z1 z2 z3 nranks' sched' (chi0r_from_gr_PH_nompi beta order (nw := nw) (nn := nn) g_wr) w n q a b c d
      = bubble_spec beta g (bidx w) (fidx n) q a b c d
    & chi0q_from_g_wk_PH beta (nw := nw) (nn := nn) g w n q a b c d = bubble_spec beta g (bidx w) (fidx n) q a b c d].
Proof.
move=> h h' ho g_wr.
have e : fourier_r_to_k z1 z2 z3 (fun r => chi0r_kernel (C := CF) beta g_wr (bidx w) (fidx n) r a b c d) q =
         bubble_spec (C := CF) beta g (bidx w) (fidx n) q a b c d.
  by rewrite /g_wr (bubble_r_is_k _ z1P z2P z3P charC) chi0_n_E.
split.
- rewrite /chi0q_from_chi0r (fair_all_map _ _ h') /= -e; apply: r2k_ext => r.
  by rewrite /chi0r_from_gr_PH (fair_all_map _ _ h).
- rewrite /chi0q_from_chi0r (fair_all_map _ _ h') /= -e; apply: r2k_ext => r.
  by rewrite /chi0r_from_gr_PH_nompi fillE (perm_mem ho) mem_enum.
- exact: chi0_n_E.
Qed.
Theorem C20_bubble_real_space_is_momentum_space (beta : C) nw nn nranks nranks' sched sched' order (g : gfun) w n q a b c d :
  fair_all nranks sched -> fair_all nranks' sched' -> perm_eq order (enum [finType of K]) ->
  let g_wr := fourier_wk_to_wr z1 z2 z3 g in
  [/\ chi0q_from_chi0r z1 z2 z3 nranks' sched' (chi0r_from_gr_PH beta nranks sched (nw := nw) (nn := nn) g_wr) w n q a b c d
      = bubble_spec beta g (bidx w) (fidx n) q a b c d,
      chi0q_from_chi0r z1 z2 z3 nranks' sched' (chi0r_from_gr_PH_nompi beta order (nw := nw) (nn := nn) g_wr) w n q a b c d
      = bubble_spec beta g (bidx w) (fidx n) q a b c d
    & chi0q_from_g_wk_PH beta (nw := nw) (nn := nn) g w n q a b c d = bubble_spec beta g (bidx w) (fidx n) q a b c d].
Proof. exact (@C20_proof beta nw nn nranks nranks' sched sched' order g w n q a b c d). Qed.

(* C09, what holds: at zero bosonic frequency the bubble from (e_k, sigma) is the bubble of the Green's function
   solving Dyson's equation *)
Lemma C09_static_proof (beta mu : C) (iw : int -> C) (e : K -> 'M[C]_nb) (sigma : int -> 'M[C]_nb) (g : gfun) n q a b c d :
  (forall k, solves_dyson iw mu e sigma g n k) ->
  chi0_n_from_e_k_sigma_w_PH (C := CF) beta iw mu e sigma 0 q n a b c d = bubble_spec (C := CF) beta g 0 n q a b c d.
Proof.
move=> h; rewrite chi0_e_k_sigma_E /bubble_spec; congr (_ * _); apply: eq_bigr => k _.
by rewrite addr0 /dyson_inv (invmx_uniq (h k)) (invmx_uniq (h (k - q))).
Qed.
Theorem C09_static_bubble_from_self_energy_partial (beta mu : C) (iw : int -> C) (e : K -> 'M[C]_nb)
    (sigma : int -> 'M[C]_nb) (g : gfun) n q a b c d :
  (forall k, solves_dyson iw mu e sigma g n k) ->
  chi0_n_from_e_k_sigma_w_PH (C := CF) beta iw mu e sigma 0 q n a b c d = bubble_spec (C := CF) beta g 0 n q a b c d.
Proof. exact (@C09_static_proof beta mu iw e sigma g n q a b c d). Qed.
End Main.

(* C20: summing the bubble over frequency and momentum at once is the momentum average of the frequency sum *)
Section Sums.
Variables (C : fieldType) (n1 n2 n3 nb : nat).
Lemma C20_sums_proof (beta : C) nw nn nranks sched (chi : chi_wn C n1 n2 n3 nb nw nn) w a b c d : fair_all nranks sched ->
  chi0q_sum_nu_q beta chi w a b c d =
  (\sum_k chi0q_sum_nu beta nranks sched chi w k a b c d) / (ncells n1 n2 n3)%:R.
Proof.
move=> fs; rewrite /chi0q_sum_nu_q.
have -> : foldl (fun acc (p : 'I_(2 * nn) * site n1 n2 n3) => acc + chi w p.1 p.2 a b c d) 0 (index_enum _) =
    \sum_k \sum_n chi w n k a b c d.
  by rewrite exchange_big pair_bigA /= foldl_add add0r.
rewrite mulrAC; congr (_ / _); rewrite mulr_suml; apply: eq_bigr => k _.
rewrite /chi0q_sum_nu fair_all_map //=; by rewrite foldl_add add0r.
Qed.
Theorem C20_sum_over_frequency_and_momentum (beta : C) nw nn nranks sched (chi : chi_wn C n1 n2 n3 nb nw nn) w a b c d :
  fair_all nranks sched ->
  chi0q_sum_nu_q beta chi w a b c d =
  (\sum_k chi0q_sum_nu beta nranks sched chi w k a b c d) / (ncells n1 n2 n3)%:R.
Proof. exact (@C20_sums_proof beta nw nn nranks sched chi w a b c d). Qed.
End Sums.

(* C09, refuted: with any injective non-zero assignment of Matsubara frequencies (one site, one orbital, no
   dispersion, no self-energy, mu = 0) the two bubbles differ at EVERY non-zero bosonic frequency. *)
Section Refute.
Variables (C : numClosedFieldType) (iw : int -> C) (beta : C).
Hypothesis iw_inj : injective iw.
Hypothesis iw_neq0 : forall n, iw n != 0.
Hypothesis beta_neq0 : beta != 0.
Local Notation CF := (Num.ClosedField.fieldType C).
Let e0 : site 0 0 0 -> 'M[C]_1 := fun=> 0.
Let s0 : int -> 'M[C]_1 := fun=> 0.
Let g0 : int -> site 0 0 0 -> 'M[C]_1 := fun n _ => ((iw n)^-1)%:M.

Lemma C09_refute_proof (w n : int) : w != 0 ->
  (forall m k, solves_dyson (C := CF) iw 0 e0 s0 g0 m k) /\
  chi0_n_from_e_k_sigma_w_PH (C := CF) beta iw 0 e0 s0 w 0 n 0 0 0 0 <> bubble_spec (C := CF) beta g0 w n 0 0 0 0 0.
Proof.
move=> w0; split.
  by move=> m k; rewrite /solves_dyson addr0 !subr0 -scalar_mxM mulfV.
rewrite chi0_e_k_sigma_E /bubble_spec /ncells !muln1 invr1 mulr1.
have K1 (f : site 0 0 0 -> C) : \sum_k f k = f 0.
  rewrite (bigD1 (0 : site 0 0 0)) //= big1 ?addr0 // => k.
  by case/negP; case: k => [[k1 k2] k3]; rewrite !ord1.
rewrite !K1 /e0 /s0 /g0 /dyson_inv !addr0 !subr0 invmx_scalar !mxE /= !mulr1n.
move/(mulfI (_ : - beta != 0)); rewrite oppr_eq0 => /(_ beta_neq0).
move/(mulfI (_ : (iw n)^-1 != 0)); rewrite invr_eq0 => /(_ (iw_neq0 n)) /invr_inj /iw_inj.
by move/esym/eqP; rewrite -subr_eq0 addrAC subrr add0r (negbTE w0).
Qed.
Theorem C09_bubble_from_self_energy_refuted (w n : int) : w != 0 ->
  (forall m k, solves_dyson (C := CF) iw 0 e0 s0 g0 m k) /\
  chi0_n_from_e_k_sigma_w_PH (C := CF) beta iw 0 e0 s0 w 0 n 0 0 0 0 <> bubble_spec (C := CF) beta g0 w n 0 0 0 0 0.
Proof. exact (@C09_refute_proof w n). Qed.
End Refute.

Print Assumptions C19_lattice_transforms.
Print Assumptions C19_green_function.
Print Assumptions C19_bubble.
Print Assumptions C20_bubble_real_space_is_momentum_space.
Print Assumptions C09_static_bubble_from_self_energy_partial.
Print Assumptions C09_bubble_from_self_energy_refuted.

(* non-vacuity: roots of unity of every order exist in the algebraic numbers, runs on any number of ranks exist,
   and i(2n+1) is an injective non-zero choice of Matsubara frequencies *)
Example C19_instance n1 n2 n3 : exists z1 z2 z3 : algC,
  [/\ (n1.+1).-primitive_root z1, (n2.+1).-primitive_root z2 & (n3.+1).-primitive_root z3].
Proof.
have [z1 h1] := C_prim_root_exists (ltn0Sn n1); have [z2 h2] := C_prim_root_exists (ltn0Sn n2).
by have [z3 h3] := C_prim_root_exists (ltn0Sn n3); exists z1, z2, z3.
Qed.
Example C20_instance : fair_all 3 (mpi_view (enum [finType of site 1 2 0]) 3).
Proof. exact: fair_all_inorder. Qed.
Example C09_instance : let iw (n : int) : algC := 'i * (2%:R * n%:~R + 1) in
  injective iw /\ forall n, iw n != 0.
Proof.
split=> [x y|n].
  move/(mulfI (neq0Ci _)) /addIr /(mulfI (_ : 2%:R != 0)) => h.
  have {}h : x%:~R = y%:~R :> algC by apply: h; rewrite pnatr_eq0.
  by apply/eqP; rewrite -(eqr_int [numDomainType of algC]) h.
rewrite mulf_neq0 ?neq0Ci //.
rewrite -[1 : algC]/(1%:~R) -[2%:R : algC]/(2%:~R) -intrM -intrD intr_eq0.
apply/eqP => h; have : (2 %| (2 * n + 1)%R)%Z by rewrite h dvdz0.
by rewrite addrC rpredDr ?dvdz_mulr ?dvdzz.
Qed.
