(* C24, C25, C26, C58 (documented product), C59 (FFT product), C60 (parity), C61 (mesh check). *)
From mathcomp Require Import all_ssreflect all_algebra all_field.
From mathcomp Require Import zify.
From Verif Require Import Fring Base MpiModel MpiProofs MpiSpec FourierModel FourierProofs BubbleModel ImtimeModel.
From Verif Require Import EliashbergModel EliashbergSpec GwSpec GwProofs.
Set Implicit Arguments.
Unset Strict Implicit.
Unset Printing Implicit Defensive.
Import Order.Theory GRing.Theory Num.Theory.
Local Open Scope ring_scope.

Section Main.
Variables (C : fieldType) (n1 n2 n3 nb nw : nat) (beta : C) (cj : C -> C).
Add Ring Cring : (fld_rt C).
Local Notation K := (site n1 n2 n3).
Local Notation t4 := (tensor4 C nb).
Local Notation mat := 'M[C]_nb.
Local Notation gfun := (gfun C n1 n2 n3 nb).
Local Notation N := ((ncells n1 n2 n3)%:R : C).
Local Notation wk := ('I_(2 * nw) -> K -> mat).

Lemma FE ng nranks sched (g : gfun) (delta : wk) F : fair_all nranks sched ->
  eliashberg_g_delta_g_product cj ng nranks sched g delta = Some F ->
  forall w k d c, F w k d c = pair_amplitude cj (fun k a b => g (fidx w) k a b) (fun k a b => delta w k a b) k d c.
Proof.
move=> fs; rewrite /eliashberg_g_delta_g_product; case: ifP => // _ [<-] w k d c.
by rewrite fair_all_map // mxE.
Qed.

Lemma productE ng gsize nranks sched ksched (gamma : int -> K -> t4) (g : gfun) (delta : wk) D :
  fair_all nranks sched -> fair_all nranks ksched ->
  eliashberg_product beta cj ng gsize nranks sched ksched gamma g delta = Some D ->
  forall w k a b, D w k a b = - (\sum_(w' < 2 * nw) \sum_(k' : K) \sum_c \sum_d
    gamma (fidx w - fidx w') (k - k') c a d b *
    pair_amplitude cj (fun k a b => g (fidx w') k a b) (fun k a b => delta w' k a b) k' d c) / (2%:R * N * beta).
Proof.
move=> fs fks; rewrite /eliashberg_product; case: ifP => // _.
case E : (eliashberg_g_delta_g_product cj ng nranks sched g delta) => [F|] // [<-] w k a b.
rewrite fair_all_map // mxE summxE pair_bigA /= mulrC -sumrN !mulr_suml; apply: eq_bigr => -[w' k'] _ /=.
rewrite mxE mulr_suml -sumrN mulr_suml; apply: eq_bigr => c _; rewrite -sumrN !mulr_suml; apply: eq_bigr => d _.
rewrite (FE fs E) !invfM; fring C.
Qed.

Lemma pair_lin (G : K -> 'I_nb -> 'I_nb -> C) (x : C) (d1 d2 d3 : K -> 'I_nb -> 'I_nb -> C) k d c :
  (forall e f, d3 k e f = x * d1 k e f + d2 k e f) ->
  pair_amplitude cj G d3 k d c = x * pair_amplitude cj G d1 k d c + pair_amplitude cj G d2 k d c.
Proof.
move=> h; rewrite /pair_amplitude mulr_sumr -big_split; apply: eq_bigr => e _.
rewrite mulr_sumr -big_split; apply: eq_bigr => f _; rewrite h /=; fring C.
Qed.
(* four nested sums of terms, combined linearly *)
Lemma sum4_lin (T1 T2 T3 T4 : finType) (x y : C) (f g h : T1 -> T2 -> T3 -> T4 -> C) :
  (forall a b c d, f a b c d = x * g a b c d + h a b c d) ->
  - (\sum_a \sum_b \sum_c \sum_d f a b c d) / y =
  x * (- (\sum_a \sum_b \sum_c \sum_d g a b c d) / y) + - (\sum_a \sum_b \sum_c \sum_d h a b c d) / y.
Proof.
move=> H.
have -> : \sum_a \sum_b \sum_c \sum_d f a b c d =
   x * (\sum_a \sum_b \sum_c \sum_d g a b c d) + \sum_a \sum_b \sum_c \sum_d h a b c d.
  rewrite mulr_sumr -big_split; apply: eq_bigr => a _; rewrite mulr_sumr -big_split; apply: eq_bigr => b _.
  rewrite mulr_sumr -big_split; apply: eq_bigr => c _; rewrite mulr_sumr -big_split; apply: eq_bigr => d _.
  by rewrite H.
set p := \sum_a _; set q := \sum_a _; fring C.
Qed.

(* C24: linear in the gap and in the vertex, for every run *)
Lemma C24_delta_proof ng gsize nranks sched ksched nranks' sched' ksched' (gamma : int -> K -> t4) (g : gfun) (x : C)
    (d1 d2 d3 : wk) D1 D2 D3 w k a b :
  fair_all nranks sched -> fair_all nranks ksched -> fair_all nranks' sched' -> fair_all nranks' ksched' ->
  (forall w k, d3 w k = x *: d1 w k + d2 w k) ->
  eliashberg_product beta cj ng gsize nranks sched ksched gamma g d1 = Some D1 ->
  eliashberg_product beta cj ng gsize nranks sched ksched gamma g d2 = Some D2 ->
  eliashberg_product beta cj ng gsize nranks' sched' ksched' gamma g d3 = Some D3 ->
  D3 w k a b = x * D1 w k a b + D2 w k a b.
Proof.
move=> f1 f2 f3 f4 h e1 e2 e3; rewrite (productE f1 f2 e1) (productE f1 f2 e2) (productE f3 f4 e3).
apply: sum4_lin => w' k' c d; rewrite (@pair_lin _ x (fun k a b => d1 w' k a b) (fun k a b => d2 w' k a b)).
  fring C.
by move=> e f; rewrite h !mxE.
Qed.
Theorem C24_linear_in_gap ng gsize nranks sched ksched nranks' sched' ksched' (gamma : int -> K -> t4) (g : gfun) (x : C)
    (d1 d2 d3 : wk) D1 D2 D3 w k a b :
  fair_all nranks sched -> fair_all nranks ksched -> fair_all nranks' sched' -> fair_all nranks' ksched' ->
  (forall w k, d3 w k = x *: d1 w k + d2 w k) ->
  eliashberg_product beta cj ng gsize nranks sched ksched gamma g d1 = Some D1 ->
  eliashberg_product beta cj ng gsize nranks sched ksched gamma g d2 = Some D2 ->
  eliashberg_product beta cj ng gsize nranks' sched' ksched' gamma g d3 = Some D3 ->
  D3 w k a b = x * D1 w k a b + D2 w k a b.
Proof. exact (@C24_delta_proof ng gsize nranks sched ksched nranks' sched' ksched' gamma g x d1 d2 d3 D1 D2 D3 w k a b). Qed.

Lemma C24_gamma_proof ng gsize nranks sched ksched (g1 g2 g3 : int -> K -> t4) (g : gfun) (x : C) (delta : wk) D1 D2 D3 w k a b :
  fair_all nranks sched -> fair_all nranks ksched ->
  (forall n k a b c d, g3 n k a b c d = x * g1 n k a b c d + g2 n k a b c d) ->
  eliashberg_product beta cj ng gsize nranks sched ksched g1 g delta = Some D1 ->
  eliashberg_product beta cj ng gsize nranks sched ksched g2 g delta = Some D2 ->
  eliashberg_product beta cj ng gsize nranks sched ksched g3 g delta = Some D3 ->
  D3 w k a b = x * D1 w k a b + D2 w k a b.
Proof.
move=> f1 f2 h e1 e2 e3; rewrite (productE f1 f2 e1) (productE f1 f2 e2) (productE f1 f2 e3).
apply: sum4_lin => w' k' c d; rewrite h; fring C.
Qed.
Theorem C24_linear_in_vertex ng gsize nranks sched ksched (g1 g2 g3 : int -> K -> t4) (g : gfun) (x : C) (delta : wk)
    D1 D2 D3 w k a b :
  fair_all nranks sched -> fair_all nranks ksched ->
  (forall n k a b c d, g3 n k a b c d = x * g1 n k a b c d + g2 n k a b c d) ->
  eliashberg_product beta cj ng gsize nranks sched ksched g1 g delta = Some D1 ->
  eliashberg_product beta cj ng gsize nranks sched ksched g2 g delta = Some D2 ->
  eliashberg_product beta cj ng gsize nranks sched ksched g3 g delta = Some D3 ->
  D3 w k a b = x * D1 w k a b + D2 w k a b.
Proof. exact (@C24_gamma_proof ng gsize nranks sched ksched g1 g2 g3 g x delta D1 D2 D3 w k a b). Qed.

(* C58: with a Green's function obeying G(-w)_ab = conj(G(w)_ba) the product is the one of the theory page; the formula
   printed in the header is the same map applied to the transposed gap *)
Lemma C58_proof ng gsize nranks sched ksched (gamma : int -> K -> t4) (g : gfun) (delta : wk) D w k a b :
  fair_all nranks sched -> fair_all nranks ksched -> conj_symmetric cj (fun n k a b => g n k a b) ->
  eliashberg_product beta cj ng gsize nranks sched ksched gamma g delta = Some D ->
  D w k a b = eliashberg_doc beta gamma (fun n k a b => g n k a b) (fun w k a b => delta w k a b) w k a b /\
  D w k a b = eliashberg_header beta gamma (fun n k a b => g n k a b) (fun w k a b => delta w k b a) w k a b.
Proof.
move=> f1 f2 cs e; rewrite (productE f1 f2 e).
have main : - (\sum_(w' < 2 * nw) \sum_(k' : K) \sum_c \sum_d
    gamma (fidx w - fidx w') (k - k') c a d b *
    pair_amplitude cj (fun k a b => g (fidx w') k a b) (fun k a b => delta w' k a b) k' d c) / (2%:R * N * beta) =
  eliashberg_doc beta gamma (fun n k a b => g n k a b) (fun w k a b => delta w k a b) w k a b.
  rewrite /eliashberg_doc; congr (- _ / _); apply: eq_bigr => w' _; apply: eq_bigr => k' _; apply: eq_bigr => c _.
  apply: eq_bigr => d _; rewrite /pair_amplitude mulr_sumr; apply: eq_bigr => e' _; rewrite mulr_sumr; apply: eq_bigr => f _.
  by rewrite cs !mulrA.
split; rewrite main // /eliashberg_doc /eliashberg_header; congr (- _ / _).
apply: eq_bigr => w' _; apply: eq_bigr => k' _; apply: eq_bigr => c _; apply: eq_bigr => d _; exact: exchange_big.
Qed.
Theorem C58_documented_product ng gsize nranks sched ksched (gamma : int -> K -> t4) (g : gfun) (delta : wk) D w k a b :
  fair_all nranks sched -> fair_all nranks ksched -> conj_symmetric cj (fun n k a b => g n k a b) ->
  eliashberg_product beta cj ng gsize nranks sched ksched gamma g delta = Some D ->
  D w k a b = eliashberg_doc beta gamma (fun n k a b => g n k a b) (fun w k a b => delta w k a b) w k a b /\
  D w k a b = eliashberg_header beta gamma (fun n k a b => g n k a b) (fun w k a b => delta w k b a) w k a b.
Proof. exact (@C58_proof ng gsize nranks sched ksched gamma g delta D w k a b). Qed.

(* C60: an even vertex and an even Green's function map even gaps to even gaps and odd ones to odd ones *)
Lemma C60_proof ng gsize nranks sched ksched (gamma : int -> K -> t4) (g : gfun) (delta : wk) D (sgn : C) w k a b :
  fair_all nranks sched -> fair_all nranks ksched ->
  (forall n q a b c d, gamma n (- q) a b c d = gamma n q a b c d) ->
  (forall n q a b, g n (- q) a b = g n q a b) -> (forall w q a b, delta w (- q) a b = sgn * delta w q a b) ->
  eliashberg_product beta cj ng gsize nranks sched ksched gamma g delta = Some D ->
  D w (- k) a b = sgn * D w k a b.
Proof.
move=> f1 f2 eg gg ed e; rewrite !(productE f1 f2 e) mulrA mulrN; congr (- _ / _).
rewrite mulr_sumr; apply: eq_bigr => w' _; rewrite sum_opp mulr_sumr; apply: eq_bigr => k' _.
rewrite mulr_sumr; apply: eq_bigr => c _; rewrite mulr_sumr; apply: eq_bigr => d _.
rewrite -opprD eg; have -> : pair_amplitude cj (fun k a b => g (fidx w') k a b) (fun k a b => delta w' k a b) (- k') d c =
  sgn * pair_amplitude cj (fun k a b => g (fidx w') k a b) (fun k a b => delta w' k a b) k' d c.
  rewrite /pair_amplitude mulr_sumr; apply: eq_bigr => e' _; rewrite mulr_sumr; apply: eq_bigr => f _.
  rewrite ed opprK !gg. by rewrite mulrCA.
by rewrite mulrCA.
Qed.
Theorem C60_momentum_parity ng gsize nranks sched ksched (gamma : int -> K -> t4) (g : gfun) (delta : wk) D (sgn : C) w k a b :
  fair_all nranks sched -> fair_all nranks ksched ->
  (forall n q a b c d, gamma n (- q) a b c d = gamma n q a b c d) ->
  (forall n q a b, g n (- q) a b = g n q a b) -> (forall w q a b, delta w (- q) a b = sgn * delta w q a b) ->
  eliashberg_product beta cj ng gsize nranks sched ksched gamma g delta = Some D ->
  D w (- k) a b = sgn * D w k a b.
Proof. exact (@C60_proof ng gsize nranks sched ksched gamma g delta D sgn w k a b). Qed.

(* C61: a call is accepted only if every frequency difference lies on the mesh of the vertex (bosonic, indices -(m-1)..m-1,
   m non-negative frequencies) and every frequency of the gap on the mesh of the Green's function *)
Lemma C61_proof ng m nranks sched ksched (gamma : int -> K -> t4) (g : gfun) (delta : wk) D :
  eliashberg_product beta cj ng (2 * m).-1 nranks sched ksched gamma g delta = Some D ->
  forall w w' : 'I_(2 * nw), [/\ - (m%:Z - 1) <= fidx w - fidx w' <= m%:Z - 1 & - ng%:Z <= fidx w <= ng%:Z - 1].
Proof.
rewrite /eliashberg_product /eliashberg_g_delta_g_product; case: ifP => // h1; case: ifP => // h2 _ w w'.
have := ltn_ord w; have := ltn_ord w'; rewrite /fidx; split; lia.
Qed.
Theorem C61_accepted_meshes_cover ng m nranks sched ksched (gamma : int -> K -> t4) (g : gfun) (delta : wk) D :
  eliashberg_product beta cj ng (2 * m).-1 nranks sched ksched gamma g delta = Some D ->
  forall w w' : 'I_(2 * nw), [/\ - (m%:Z - 1) <= fidx w - fidx w' <= m%:Z - 1 & - ng%:Z <= fidx w <= ng%:Z - 1].
Proof. exact (@C61_proof ng m nranks sched ksched gamma g delta D). Qed.
(* meshes that are large enough are accepted, except the smallest one, m = 2 nw, whose 4 nw - 1 frequencies would do *)
Lemma C61_accept_proof ng m nranks sched ksched (gamma : int -> K -> t4) (g : gfun) (delta : wk) :
  isSome (eliashberg_product beta cj ng (2 * m).-1 nranks sched ksched gamma g delta) = (((2 * nw < m) || (nw == 0)) && (nw <= ng))%N.
Proof.
rewrite /eliashberg_product /eliashberg_g_delta_g_product; case: ltnP => h1 /=; last case: ltnP => h2 /=; apply/esym; lia.
Qed.
Theorem C61_acceptance ng m nranks sched ksched (gamma : int -> K -> t4) (g : gfun) (delta : wk) :
  isSome (eliashberg_product beta cj ng (2 * m).-1 nranks sched ksched gamma g delta) = (((2 * nw < m) || (nw == 0)) && (nw <= ng))%N.
Proof. exact (@C61_accept_proof ng m nranks sched ksched gamma g delta). Qed.
End Main.

Section Fft.
Variables (C : fieldType) (n1 n2 n3 nb nw L : nat) (z1 z2 z3 beta : C) (cj : C -> C).
Hypothesis z1P : n1.+1.-primitive_root z1.
Hypothesis z2P : n2.+1.-primitive_root z2.
Hypothesis z3P : n3.+1.-primitive_root z3.
Hypothesis charC : (ncells n1 n2 n3)%:R != 0 :> C.
Add Ring Cring : (fld_rt C).
Local Notation K := (site n1 n2 n3).
Local Notation t4 := (tensor4 C nb).
Local Notation mat := 'M[C]_nb.
Local Notation gfun := (gfun C n1 n2 n3 nb).
Local Notation N := ((ncells n1 n2 n3)%:R : C).
Local Notation wk := ('I_(2 * nw) -> K -> mat).
Local Notation k2r := (@fourier_k_to_r C n1 n2 n3 z1 z2 z3).
Local Notation r2k := (@fourier_r_to_k C n1 n2 n3 z1 z2 z3).
Variables (wt : ('I_(2 * nw) -> mat) -> 'I_L.+1 -> mat) (tw : ('I_L.+1 -> C) -> 'I_(2 * nw) -> C).

Lemma gap_contract (gamma : K -> t4) (F : K -> 'I_nb -> 'I_nb -> C) k a b :
  r2k (fun r => \sum_c \sum_d (- 2%:R^-1) * k2r (fun q => gamma q c a d b) r * k2r (fun q => F q d c) r) k =
  gap_conv gamma F k a b.
Proof.
have e c d : r2k (fun r => (- 2%:R^-1) * k2r (fun q => gamma q c a d b) r * k2r (fun q => F q d c) r) k =
  - 2%:R^-1 * ((\sum_q gamma q c a d b * F (k - q) d c) / N).
  rewrite -(conv_sum z1P z2P z3P charC (fun q => gamma q c a d b) (fun q => F q d c)) /fourier_r_to_k mulr_sumr.
  by apply: eq_bigr => r _; rewrite -mulrA mulrCA.
rewrite r2k_sum; under eq_bigr => c _.
  rewrite r2k_sum; under eq_bigr do rewrite e.
  over.
rewrite /gap_conv invfM.
transitivity (- 2%:R^-1 * (\sum_c \sum_d \sum_(q : K) gamma q c a d b * F (k - q) d c) / N).
  by rewrite mulr_sumr mulr_suml; apply: eq_bigr => c _; rewrite mulr_sumr mulr_suml; apply: eq_bigr => d _; rewrite mulrA.
have -> : \sum_c \sum_d \sum_(q : K) gamma q c a d b * F (k - q) d c =
  \sum_(k' : K) \sum_c \sum_d gamma (k - k') c a d b * F k' d c.
  under eq_bigr do rewrite exchange_big /=.
  rewrite exchange_big /= (sum_subl k); apply: eq_bigr => q _; apply: eq_bigr => c _; apply: eq_bigr => d _.
  by rewrite opprB addrCA subrr addr0.
set s := \sum_k' _; fring C.
Qed.

(* the pair amplitude at imaginary time t and momentum q *)
Let F_t (g : gfun) (delta : wk) t (q : K) d c : C :=
  wt (fun w => \matrix_(i, j) pair_amplitude cj (fun k a b => g (fidx w) k a b) (fun k a b => delta w k a b) q i j) t d c.

Lemma wk_to_trE (F : wk) t r d c : (forall t i j, linfun_mx (fun x => wt x t i j)) ->
  wk_to_tr z1 z2 z3 wt F t r d c = k2r (fun q => wt (fun w => F w q) t d c) r.
Proof.
move=> lin; rewrite /wk_to_tr /fourier_k_to_r.
transitivity (wt (fun w => \sum_q ((phase z1 z2 z3 q r)^-1 / N) *: F w q) t d c).
  case: (lin t d c) => e _; apply: e => w; apply/matrixP => x y; rewrite mxE summxE mulr_suml.
  by apply: eq_bigr => q _; rewrite mxE mulrAC.
rewrite (linfun_mx_sum _ _ _ (lin t d c)) mulr_suml; apply: eq_bigr => q _.
by rewrite mulrAC.
Qed.

Lemma F_tE ng nranks sched (g : gfun) (delta : wk) F t q d c : fair_all nranks sched ->
  (forall t i j, linfun_mx (fun x => wt x t i j)) ->
  eliashberg_g_delta_g_product cj ng nranks sched g delta = Some F ->
  wt (fun w => F w q) t d c = F_t g delta t q d c.
Proof.
move=> fs lin e; case: (lin t d c) => ext _; apply: ext => w; apply/matrixP => i j.
by rewrite (FE fs e) mxE.
Qed.

(* the constant part: momentum convolution with the amplitude at time zero *)
Lemma constantE ng nranks sched (gamma : K -> t4) (g : gfun) (delta : wk) F k a b : fair_all nranks sched ->
  (forall t i j, linfun_mx (fun x => wt x t i j)) ->
  eliashberg_g_delta_g_product cj ng nranks sched g delta = Some F ->
  r2k (fun r => eliashberg_constant_gamma_f_product (fun r a b c d => k2r (fun q => gamma q a b c d) r)
      (wk_to_tr z1 z2 z3 wt F) r a b) k = gap_conv gamma (F_t g delta ord0) k a b.
Proof.
move=> fs lin e; rewrite -gap_contract; apply: r2k_ext => r; rewrite mxE.
apply: eq_bigr => c _; apply: eq_bigr => d _; congr (_ * _); rewrite wk_to_trE //; apply: k2r_ext => q.
exact: F_tE fs lin e.
Qed.

(* C59: the FFT product, for any linear time transforms *)
Lemma C59_proof ng nranks sched tsched (gamma_t : 'I_L.+1 -> K -> t4) (gamma_c : K -> t4) (g : gfun) (delta : wk) D w k a b :
  fair_all nranks sched -> fair_all nranks tsched ->
  (forall t i j, linfun_mx (fun x => wt x t i j)) -> (forall w, linfun (fun x => tw x w)) ->
  eliashberg_product_fft z1 z2 z3 cj wt tw ng L.+1 nranks sched tsched
    (fun t r a b c d => k2r (fun q => gamma_t t q a b c d) r) (fun r a b c d => k2r (fun q => gamma_c q a b c d) r) g delta
    = Some D ->
  D w k a b = tw (fun t => gap_conv (gamma_t t) (F_t g delta t) k a b) w + gap_conv gamma_c (F_t g delta ord0) k a b.
Proof.
move=> fs fts lwt ltw; rewrite /eliashberg_product_fft.
case E : (eliashberg_g_delta_g_product cj ng nranks sched g delta) => [F|] //.
rewrite /eliashberg_dynamic_gamma_f_product eqxx /= => -[<-]; rewrite mxE.
set st := eliashberg_constant_gamma_f_product _ _.
set dyn := fun r t => \sum_c \sum_d (- 2%:R^-1) * k2r (fun q => gamma_t t q c a d b) r * k2r (fun q => F_t g delta t q d c) r.
rewrite (r2k_ext z1 z2 z3 (g := fun r => 1 * tw (dyn r) w + st r a b)); last first.
  move=> r; rewrite !mxE mul1r; congr (_ + _); case: (ltw w) => ext _; apply: ext => t.
  rewrite fair_all_map // mxE /=; apply: eq_bigr => c _; apply: eq_bigr => d _; congr (_ * _).
  rewrite wk_to_trE //; apply: k2r_ext => q; exact: F_tE fs lwt E.
rewrite r2k_lin mul1r; congr (_ + _); last exact: constantE fs lwt E.
rewrite {1}/fourier_r_to_k -(linfun_sum _ _ _ (ltw w)); case: (ltw w) => ext _; apply: ext => t.
by rewrite -gap_contract.
Qed.
Theorem C59_fft_product ng nranks sched tsched (gamma_t : 'I_L.+1 -> K -> t4) (gamma_c : K -> t4) (g : gfun) (delta : wk) D w k a b :
  fair_all nranks sched -> fair_all nranks tsched ->
  (forall t i j, linfun_mx (fun x => wt x t i j)) -> (forall w, linfun (fun x => tw x w)) ->
  eliashberg_product_fft z1 z2 z3 cj wt tw ng L.+1 nranks sched tsched
    (fun t r a b c d => k2r (fun q => gamma_t t q a b c d) r) (fun r a b c d => k2r (fun q => gamma_c q a b c d) r) g delta
    = Some D ->
  D w k a b = tw (fun t => gap_conv (gamma_t t) (F_t g delta t) k a b) w + gap_conv gamma_c (F_t g delta ord0) k a b.
Proof. exact (@C59_proof ng nranks sched tsched gamma_t gamma_c g delta D w k a b). Qed.

(* a vanishing dynamic part gives the same as the reduced routine (which solve_eliashberg then calls) *)
Lemma C59_reduced_proof ng nranks sched tsched nranks' sched' (gamma_t : 'I_L.+1 -> K -> t4) (gamma_c : K -> t4) (g : gfun)
    (delta : wk) D D' w k a b :
  fair_all nranks sched -> fair_all nranks tsched -> fair_all nranks' sched' ->
  (forall t i j, linfun_mx (fun x => wt x t i j)) -> (forall w, linfun (fun x => tw x w)) ->
  (forall t q a b c d, gamma_t t q a b c d = 0) ->
  eliashberg_product_fft z1 z2 z3 cj wt tw ng L.+1 nranks sched tsched
    (fun t r a b c d => k2r (fun q => gamma_t t q a b c d) r) (fun r a b c d => k2r (fun q => gamma_c q a b c d) r) g delta
    = Some D ->
  eliashberg_product_fft_constant z1 z2 z3 cj wt ng nranks' sched' (fun r a b c d => k2r (fun q => gamma_c q a b c d) r) g delta
    = Some D' ->
  D w k a b = D' w k a b.
Proof.
move=> fs fts fs' lwt ltw z e; rewrite (C59_proof w k a b fs fts lwt ltw e) /eliashberg_product_fft_constant.
case E : (eliashberg_g_delta_g_product cj ng nranks' sched' g delta) => [F|] // [<-]; rewrite mxE.
rewrite (constantE gamma_c k a b fs' lwt E) (_ : tw _ w = 0) ?add0r //.
rewrite -(linfun0 (ltw w)); apply: (proj1 (ltw w)) => t; rewrite /gap_conv big1 ?oppr0 ?mul0r // => k' _.
by apply: big1 => c _; apply: big1 => d _; rewrite z mul0r.
Qed.
Theorem C59_reduced_product ng nranks sched tsched nranks' sched' (gamma_t : 'I_L.+1 -> K -> t4) (gamma_c : K -> t4) (g : gfun)
    (delta : wk) D D' w k a b :
  fair_all nranks sched -> fair_all nranks tsched -> fair_all nranks' sched' ->
  (forall t i j, linfun_mx (fun x => wt x t i j)) -> (forall w, linfun (fun x => tw x w)) ->
  (forall t q a b c d, gamma_t t q a b c d = 0) ->
  eliashberg_product_fft z1 z2 z3 cj wt tw ng L.+1 nranks sched tsched
    (fun t r a b c d => k2r (fun q => gamma_t t q a b c d) r) (fun r a b c d => k2r (fun q => gamma_c q a b c d) r) g delta
    = Some D ->
  eliashberg_product_fft_constant z1 z2 z3 cj wt ng nranks' sched' (fun r a b c d => k2r (fun q => gamma_c q a b c d) r) g delta
    = Some D' ->
  D w k a b = D' w k a b.
Proof. exact (@C59_reduced_proof ng nranks sched tsched nranks' sched' gamma_t gamma_c g delta D D' w k a b). Qed.
(* time meshes of different size are rejected *)
Lemma C59_mesh_proof ng Lg nranks sched tsched gamma_t gamma_c (g : gfun) (delta : wk) : Lg != L.+1 ->
  eliashberg_product_fft z1 z2 z3 cj wt tw ng Lg nranks sched tsched gamma_t gamma_c g delta = None.
Proof.
move=> h; rewrite /eliashberg_product_fft /eliashberg_dynamic_gamma_f_product eq_sym h.
by case: eliashberg_g_delta_g_product.
Qed.
Theorem C59_mesh_mismatch ng Lg nranks sched tsched gamma_t gamma_c (g : gfun) (delta : wk) : Lg != L.+1 ->
  eliashberg_product_fft z1 z2 z3 cj wt tw ng Lg nranks sched tsched gamma_t gamma_c g delta = None.
Proof. exact (@C59_mesh_proof ng Lg nranks sched tsched gamma_t gamma_c g delta). Qed.

(* C25: for a static vertex the direct sum and the reduced FFT product agree when the time transform evaluates the
   amplitude at time zero as the frequency average *)
Lemma C25_proof ng ng' gsize nranks sched ksched nranks' sched' (gamma : K -> t4) (g : gfun) (delta : wk) D D' w k a b :
  fair_all nranks sched -> fair_all nranks ksched -> fair_all nranks' sched' ->
  (forall t i j, linfun_mx (fun x => wt x t i j)) -> (forall x, wt x ord0 = beta^-1 *: \sum_w x w) ->
  eliashberg_product beta cj ng gsize nranks sched ksched (fun _ => gamma) g delta = Some D ->
  eliashberg_product_fft_constant z1 z2 z3 cj wt ng' nranks' sched' (fun r a b c d => k2r (fun q => gamma q a b c d) r) g delta
    = Some D' ->
  D w k a b = D' w k a b.
Proof.
move=> fs fks fs' lwt avg e; rewrite (productE fs fks e) /eliashberg_product_fft_constant.
case E : (eliashberg_g_delta_g_product cj ng' nranks' sched' g delta) => [F|] // [<-]; rewrite mxE.
rewrite (constantE gamma k a b fs' lwt E) /gap_conv [2%:R * N * beta]mulrC invfM mulrA; congr (_ / _).
rewrite mulNr; congr (- _); rewrite exchange_big /= mulr_suml; apply: eq_bigr => k' _.
rewrite exchange_big /= mulr_suml; apply: eq_bigr => c _.
rewrite exchange_big /= mulr_suml; apply: eq_bigr => d _.
rewrite /F_t avg mxE summxE -mulr_sumr mulrC mulrCA; congr (_ * (_ * _)).
by apply: eq_bigr => w' _; rewrite mxE.
Qed.
Theorem C25_sum_is_fft ng ng' gsize nranks sched ksched nranks' sched' (gamma : K -> t4) (g : gfun) (delta : wk) D D' w k a b :
  fair_all nranks sched -> fair_all nranks ksched -> fair_all nranks' sched' ->
  (forall t i j, linfun_mx (fun x => wt x t i j)) -> (forall x, wt x ord0 = beta^-1 *: \sum_w x w) ->
  eliashberg_product beta cj ng gsize nranks sched ksched (fun _ => gamma) g delta = Some D ->
  eliashberg_product_fft_constant z1 z2 z3 cj wt ng' nranks' sched' (fun r a b c d => k2r (fun q => gamma q a b c d) r) g delta
    = Some D' ->
  D w k a b = D' w k a b.
Proof. exact (@C25_proof ng ng' gsize nranks sched ksched nranks' sched' gamma g delta D D' w k a b). Qed.

(* C24 for the FFT product *)
Lemma F_t_lin (g : gfun) (x : C) (d1 d2 d3 : wk) t q d c : (forall t i j, linfun_mx (fun x => wt x t i j)) ->
  (forall w k, d3 w k = x *: d1 w k + d2 w k) -> F_t g d3 t q d c = x * F_t g d1 t q d c + F_t g d2 t q d c.
Proof.
move=> lin h; rewrite /F_t; case: (lin t d c) => ext l; rewrite -l; apply: ext => w; apply/matrixP => i j; rewrite !mxE.
by apply: pair_lin => e f; rewrite h !mxE.
Qed.
Lemma gap_conv_lin (gamma : K -> t4) (x : C) (F1 F2 F3 : K -> 'I_nb -> 'I_nb -> C) k a b :
  (forall q d c, F3 q d c = x * F1 q d c + F2 q d c) ->
  gap_conv gamma F3 k a b = x * gap_conv gamma F1 k a b + gap_conv gamma F2 k a b.
Proof.
move=> h; rewrite /gap_conv mulrA -mulrDl mulrN -opprD; congr (- _ / _).
rewrite mulr_sumr -big_split; apply: eq_bigr => k' _; rewrite mulr_sumr -big_split; apply: eq_bigr => c _.
by rewrite mulr_sumr -big_split; apply: eq_bigr => d _; rewrite h /=; fring C.
Qed.
Lemma C24_fft_proof ng nranks sched tsched (gamma_t : 'I_L.+1 -> K -> t4) (gamma_c : K -> t4) (g : gfun) (x : C)
    (d1 d2 d3 : wk) D1 D2 D3 w k a b :
  fair_all nranks sched -> fair_all nranks tsched ->
  (forall t i j, linfun_mx (fun x => wt x t i j)) -> (forall w, linfun (fun x => tw x w)) ->
  (forall w k, d3 w k = x *: d1 w k + d2 w k) ->
  let fft := eliashberg_product_fft z1 z2 z3 cj wt tw ng L.+1 nranks sched tsched
    (fun t r a b c d => k2r (fun q => gamma_t t q a b c d) r) (fun r a b c d => k2r (fun q => gamma_c q a b c d) r) g in
  fft d1 = Some D1 -> fft d2 = Some D2 -> fft d3 = Some D3 ->
  D3 w k a b = x * D1 w k a b + D2 w k a b.
Proof.
move=> fs fts lwt ltw h fft e1 e2 e3.
rewrite (C59_proof w k a b fs fts lwt ltw e1) (C59_proof w k a b fs fts lwt ltw e2) (C59_proof w k a b fs fts lwt ltw e3).
have H t q d c := F_t_lin g t q d c lwt h.
rewrite (gap_conv_lin _ _ _ _ (H ord0)).
have -> : tw (fun t => gap_conv (gamma_t t) (F_t g d3 t) k a b) w =
  x * tw (fun t => gap_conv (gamma_t t) (F_t g d1 t) k a b) w + tw (fun t => gap_conv (gamma_t t) (F_t g d2 t) k a b) w.
  case: (ltw w) => ext l; rewrite -l; apply: ext => t; exact: gap_conv_lin (H t).
fring C.
Qed.
Theorem C24_fft_linear_in_gap ng nranks sched tsched (gamma_t : 'I_L.+1 -> K -> t4) (gamma_c : K -> t4) (g : gfun) (x : C)
    (d1 d2 d3 : wk) D1 D2 D3 w k a b :
  fair_all nranks sched -> fair_all nranks tsched ->
  (forall t i j, linfun_mx (fun x => wt x t i j)) -> (forall w, linfun (fun x => tw x w)) ->
  (forall w k, d3 w k = x *: d1 w k + d2 w k) ->
  let fft := eliashberg_product_fft z1 z2 z3 cj wt tw ng L.+1 nranks sched tsched
    (fun t r a b c d => k2r (fun q => gamma_t t q a b c d) r) (fun r a b c d => k2r (fun q => gamma_c q a b c d) r) g in
  fft d1 = Some D1 -> fft d2 = Some D2 -> fft d3 = Some D3 ->
  D3 w k a b = x * D1 w k a b + D2 w k a b.
Proof. exact (@C24_fft_proof ng nranks sched tsched gamma_t gamma_c g x d1 d2 d3 D1 D2 D3 w k a b). Qed.
End Fft.

(* C26 *)
Section Gamma.
Variables (C : fieldType) (nb : nat) (W K : Type) (cj : {rmorphism C -> C}).
Add Ring Cring2 : (fld_rt C).
Local Notation t4 := (tensor4 C nb).
Lemma margin (x : C) : (1 - x) *+ 2 - (x + x *+ 2) = 2%:R - 5%:R * x.
Proof. rewrite mulr_natl !mulrS !mulr0n; fring C. Qed.
Lemma C26_triplet_proof (U_d U_m : t4) (phi_d phi_m : W -> K -> t4) w k a b c d :
  construct_gamma_triplet_rpa cj U_d U_m phi_d phi_m w k a b c d = gamma_triplet_doc cj U_d U_m (phi_d w k) (phi_m w k) a b c d.
Proof. rewrite /construct_gamma_triplet_rpa /transpose_ac /gamma_triplet_doc rmorphB rmorphN; fring C. Qed.
Theorem C26_triplet_documented (U_d U_m : t4) (phi_d phi_m : W -> K -> t4) w k a b c d :
  construct_gamma_triplet_rpa cj U_d U_m phi_d phi_m w k a b c d = gamma_triplet_doc cj U_d U_m (phi_d w k) (phi_m w k) a b c d.
Proof. exact (@C26_triplet_proof U_d U_m phi_d phi_m w k a b c d). Qed.

(* the singlet vertex is the documented formula with the opposite sign of the density ladder *)
Lemma C26_singlet_proof (U_d U_m : t4) (phi_d phi_m : W -> K -> t4) w k a b c d :
  construct_gamma_singlet_rpa cj U_d U_m phi_d phi_m w k a b c d =
  gamma_singlet_doc cj U_d U_m (fun a b c d => - phi_d w k a b c d) (phi_m w k) a b c d.
Proof.
rewrite /construct_gamma_singlet_rpa /transpose_ac /gamma_singlet_doc opprK rmorphD rmorphM rmorph_nat; fring C.
Qed.
Theorem C26_singlet_sign (U_d U_m : t4) (phi_d phi_m : W -> K -> t4) w k a b c d :
  construct_gamma_singlet_rpa cj U_d U_m phi_d phi_m w k a b c d =
  gamma_singlet_doc cj U_d U_m (fun a b c d => - phi_d w k a b c d) (phi_m w k) a b c d.
Proof. exact (@C26_singlet_proof U_d U_m phi_d phi_m w k a b c d). Qed.

Lemma C26_partial_proof (U_d U_m : t4) (phi_d phi_m : W -> K -> t4) w k a b c d : 2%:R != 0 :> C ->
  (construct_gamma_singlet_rpa cj U_d U_m phi_d phi_m w k a b c d = gamma_singlet_doc cj U_d U_m (phi_d w k) (phi_m w k) a b c d)
  <-> phi_d w k c b a d = 0.
Proof.
move=> h; rewrite C26_singlet_proof /gamma_singlet_doc opprK !rmorphD rmorphN; split.
  move/addrI/addrI/eqP; rewrite -subr_eq0 opprK -mulr2n -mulr_natl mulf_eq0 (negbTE h) fmorph_eq0 => /eqP //.
by move=> ->; rewrite rmorph0 oppr0.
Qed.
(* missing: every singlet vertex *)
Theorem C26_singlet_partial (U_d U_m : t4) (phi_d phi_m : W -> K -> t4) w k a b c d : 2%:R != 0 :> C ->
  (construct_gamma_singlet_rpa cj U_d U_m phi_d phi_m w k a b c d = gamma_singlet_doc cj U_d U_m (phi_d w k) (phi_m w k) a b c d)
  <-> phi_d w k c b a d = 0.
Proof. exact (@C26_partial_proof U_d U_m phi_d phi_m w k a b c d). Qed.
End Gamma.

Theorem C26_singlet_refuted : exists (U_d U_m : tensor4 [fieldType of algC] 1) (phi_d phi_m : unit -> unit -> tensor4 [fieldType of algC] 1),
  forall a b c d, construct_gamma_singlet_rpa (@conjC [numClosedFieldType of algC]) U_d U_m phi_d phi_m tt tt a b c d <>
  gamma_singlet_doc (@conjC [numClosedFieldType of algC]) U_d U_m (phi_d tt tt) (phi_m tt tt) a b c d.
Proof.
exists (fun _ _ _ _ => 0), (fun _ _ _ _ => 0), (fun _ _ _ _ _ _ => 1), (fun _ _ _ _ _ _ => 0) => a b c d.
have h : 2%:R != 0 :> algC by rewrite pnatr_eq0.
move/(@C26_partial_proof [fieldType of algC] 1 unit unit [rmorphism of (@conjC [numClosedFieldType of algC])] (fun _ _ _ _ => 0) (fun _ _ _ _ => 0)
  (fun _ _ _ _ _ _ => 1) (fun _ _ _ _ _ _ => 0) tt tt a b c d h) => /eqP.
by rewrite oner_eq0.
Qed.

(* C27 *)
Section Scalar.
Variables (R : numFieldType) (thr atol rtol : R).
Hypothesis thr0 : 0 <= thr.
Hypothesis atol0 : 0 <= atol.
Hypothesis rtol0 : 0 <= rtol.
Local Notation test := (allclose_by_scalar_multiplication thr atol rtol).
Local Notation kept x := (thr < `|x|).

Lemma kept_neq0 (x : R) : kept x -> x != 0.
Proof. by move=> h; rewrite -normr_gt0; exact: le_lt_trans thr0 h. Qed.
Lemma keep_scale (c : R) (d : seq R) : (forall x, x \in d -> kept (c * x) = kept x) ->
  [seq x <- [seq c * x | x <- d] | kept x] = [seq c * x | x <- [seq x <- d | kept x]].
Proof.
elim: d => //= x d IH h; rewrite h ?mem_head // IH; last by move=> y yd; apply: h; rewrite in_cons yd orbT.
by case: ifP.
Qed.
Lemma ratios (c : R) (d : seq R) : all (fun x => kept x) d -> [seq p.1 / p.2 | p <- zip [seq c * x | x <- d] d] = nseq (size d) c.
Proof. by elim: d => //= x d IH /andP[kx kd]; rewrite IH // mulfK // kept_neq0. Qed.

(* proportional vectors with the same numerically vanishing entries, not all vanishing, are accepted *)
Lemma C27_true_proof (c : R) (d : seq R) : (forall x, x \in d -> kept (c * x) = kept x) -> has (fun x => kept x) d ->
  test [seq c * x | x <- d] d = Some true.
Proof.
move=> h k; rewrite /allclose_by_scalar_multiplication /np_divide /= keep_scale // size_map eqxx ratios; last first.
  by apply/allP => x; rewrite mem_filter => /andP[].
move: k; rewrite has_count -size_filter; case: (size _) => //= n _; congr Some.
have cc : close atol rtol c c by rewrite /close subrr normr0 addr_ge0 ?mulr_ge0.
by rewrite cc /=; elim: n => //= n ->; rewrite cc.
Qed.
(* missing: entries near the threshold *)
Theorem C27_proportional_accepted_partial (c : R) (d : seq R) :
  (forall x, x \in d -> kept (c * x) = kept x) -> has (fun x => kept x) d -> test [seq c * x | x <- d] d = Some true.
Proof. exact (@C27_true_proof c d). Qed.

(* vectors of the same length without vanishing entries that are accepted are proportional within the tolerance *)
Lemma C27_false_proof (d1 d2 : seq R) : size d1 = size d2 -> all (fun x => kept x) d1 -> all (fun x => kept x) d2 ->
  test d1 d2 = Some true ->
  exists c, forall i, (i < size d2)%N -> `|d1`_i - c * d2`_i| <= (atol + rtol * `|c|) * `|d2`_i|.
Proof.
move=> s k1 k2; rewrite /allclose_by_scalar_multiplication /np_divide /= (all_filterP k1) (all_filterP k2) s eqxx.
case E : [seq p.1 / p.2 | p <- zip d1 d2] => [|c r] // [hh]; have /allP h : all (fun y => close atol rtol y c) (c :: r) by []; exists c => i lt.
have sz : size (zip d1 d2) = size d2 by rewrite size_zip s minnn.
have := h (d1`_i / d2`_i).
have -> : d1`_i / d2`_i \in c :: r.
  rewrite -E; apply/mapP; exists (nth (0, 0) (zip d1 d2) i); first by rewrite mem_nth ?sz.
  by rewrite nth_zip.
have nz : d2`_i != 0 by move/allP: k2 => K2; apply: kept_neq0; apply: K2; rewrite mem_nth.
move=> /(_ isT); rewrite /close -(ler_pmul2r (x := `|d2`_i|)) ?normr_gt0 // -normrM mulrBl divfK //.
Qed.
(* missing: vectors of which some entries are below the threshold *)
Theorem C27_accepted_is_proportional_partial (d1 d2 : seq R) :
  size d1 = size d2 -> all (fun x => kept x) d1 -> all (fun x => kept x) d2 -> test d1 d2 = Some true ->
  exists c, forall i, (i < size d2)%N -> `|d1`_i - c * d2`_i| <= (atol + rtol * `|c|) * `|d2`_i|.
Proof. exact (@C27_false_proof d1 d2). Qed.
End Scalar.

(* counterexamples for all tolerances as in the code: thr 1e-7, atol 1e-10, numpy's rtol 1e-5 *)
Section ScalarRefuted.
Variables (R : numFieldType) (thr atol rtol : R).
Hypothesis thr0 : 0 < thr.
Hypothesis thr1 : thr < 1.
Hypothesis atol0 : 0 <= atol.
Hypothesis rtol0 : 0 <= rtol.
Hypothesis small : atol + rtol *+ 2 < (1 - thr) *+ 2.
Local Notation test := (@allclose_by_scalar_multiplication R thr atol rtol).
Let k1 : (thr < `|1 : R|) = true. Proof. by rewrite normr1. Qed.
Let k2 : (thr < `|2%:R : R|) = true. Proof. by rewrite ger0_norm ?ler0n // (lt_trans thr1) // ltr1n. Qed.
Let k0 : (thr < `|0 : R|) = false. Proof. by rewrite normr0; apply/negbTE; rewrite -real_leNgt ?real0 ?gtr0_real // ltW. Qed.
Let cc (x : R) : close atol rtol x x. Proof. by rewrite /close subrr normr0 addr_ge0 ?mulr_ge0. Qed.
(* orthogonal vectors are accepted *)
Theorem C27_orthogonal_refuted : test [:: 1; 0] [:: 0; 1] = Some true.
Proof. by rewrite /allclose_by_scalar_multiplication /= k1 k0 /= cc. Qed.
(* and so are vectors with a different number of non-zero entries, through broadcasting *)
Theorem C27_broadcast_refuted : test [:: 1; 0; 0] [:: 2%:R; 2%:R; 2%:R] = Some true.
Proof. by rewrite /allclose_by_scalar_multiplication /= k1 k0 k2 /= cc. Qed.
(* proportional vectors are not accepted when one entry falls below the threshold in one vector only *)
Theorem C27_proportional_refuted : exists d : seq R, test [seq 2%:R * x | x <- d] d = Some false.
Proof.
exists [:: 1; thr]; rewrite /allclose_by_scalar_multiplication /= mulr1 k1 k2.
have -> : (thr < `|thr|) = false by rewrite gtr0_norm // ltxx.
have -> : (thr < `|2%:R * thr|) = true by rewrite gtr0_norm ?mulr_gt0 ?ltr0n // mulr_natl mulr2n ltr_addl.
rewrite /= !divr1 /close subrr normr0 distrC -{2}[2%:R]mulr1 -mulrBr.
have -> : `|2%:R * (1 - thr)| = (1 - thr) *+ 2 by rewrite ger0_norm ?mulr_natl // mulrn_wge0 // subr_ge0 ltW.
have -> : (rtol * `|2%:R|) = rtol *+ 2 by rewrite normr_nat mulr_natr.
rewrite addr_ge0 ?mulrn_wge0 //= andbT; congr Some; apply/negbTE.
have h1 : 0 <= 1 - thr by rewrite subr_ge0 ltW.
by apply/negP => /(lt_le_trans small); rewrite ltxx.
Qed.
(* two vectors without entries above the threshold raise an exception *)
Theorem C27_empty_exception : test [:: 0] [:: 0] = None.
Proof. by rewrite /allclose_by_scalar_multiplication /= k0. Qed.
End ScalarRefuted.
(* the tolerances of the code meet the hypotheses *)
Example C27_tolerances : let thr := (10%:R ^+ 7)^-1 : algC in let atol := (10%:R ^+ 10)^-1 in let rtol := (10%:R ^+ 5)^-1 in
  [/\ 0 < thr, thr < 1 & atol + rtol *+ 2 < (1 - thr) *+ 2].
Proof.
move=> thr atol rtol.
have le n : (0 < n)%N -> (10%:R ^+ n)^-1 <= (10%:R)^-1 :> algC.
  by case: n => // n _; rewrite lef_pinv ?posrE ?exprn_gt0 ?ltr0n // exprS ler_pemulr ?ler0n // exprn_ege1 // ler1n.
have t1 : (10%:R)^-1 < 1 :> algC by rewrite invf_lt1 ?ltr0n ?ltr1n.
split; first by rewrite invr_gt0 exprn_gt0 // ltr0n.
  apply: le_lt_trans t1; exact: (le 7%N).
apply: (@le_lt_trans _ _ (10%:R^-1 + 10%:R^-1 *+ 2)); first by apply: ler_add; rewrite ?ler_muln2r; [exact: (le 10%N) | exact: (le 5%N)].
apply: (@lt_le_trans _ _ ((1 - 10%:R^-1) *+ 2)); last by rewrite ler_muln2r ler_add2l ler_opp2; exact: (le 7%N).
rewrite -subr_gt0; set x := 10%:R^-1.
have -> : (1 - x) *+ 2 - (x + x *+ 2) = 2%:R - 5%:R * x by exact: (@margin [fieldType of algC]).
by rewrite subr_gt0 ltr_pdivr_mulr ?ltr0n // -natrM ltr_nat.
Qed.
(* a case of the accepted pairs: complex factor and a vanishing entry *)
Example C27_case : allclose_by_scalar_multiplication (2%:R^-1 : algC) 0 0 [seq 'i * x | x <- [:: 1; 0; 2%:R]] [:: 1; 0; 2%:R] = Some true.
Proof.
apply: C27_true_proof => //; first by rewrite invr_ge0 ler0n.
- by move=> x _; rewrite normrM normCi mul1r.
- by rewrite /= normr1 invf_lt1 ?ltr0n ?ltr1n.
Qed.
Example C27_case2 : all (fun x : algC => 2%:R^-1 < `|x|) [:: 'i; 2%:R] /\ size [:: 'i : algC; 2%:R] = size [:: 1 : algC; 1].
Proof. by split=> //=; rewrite normCi normr_nat invf_lt1 ?ltr0n ?ltr1n // (@lt_trans _ _ 1) ?ltr1n // invf_lt1 ?ltr0n ?ltr1n. Qed.

(* a case of C24, C25, C58, C59, C60: two momenta, a vertex that depends on the momentum, a non-zero product *)
Section Cases.
Local Notation A := [fieldType of algC].
Local Notation K := (site 1 0 0).
Let g : gfun A 1 0 0 1 := fun _ _ => 1.
Let delta : 'I_(2 * 1) -> K -> 'M[A]_1 := fun _ _ => 1.
Let gamma : K -> tensor4 A 1 := fun q _ _ _ _ => (q == 0)%:R.
Let wt (x : 'I_(2 * 1) -> 'M[A]_1) (t : 'I_1) : 'M[A]_1 := 1^-1 *: \sum_w x w.
Let tw (x : 'I_1 -> A) (w : 'I_(2 * 1)) : A := x ord0.
Example C25_case nranks (sched : nat -> seq ('I_(2 * 1) * K)) (ksched : nat -> seq K) :
  fair_all nranks sched -> fair_all nranks ksched ->
  [/\ (forall t i j, linfun_mx (fun x => wt x t i j)), (forall w, linfun (fun x => tw x w)),
      exists D, eliashberg_product 1 conjC 1 4 nranks sched ksched (fun _ => gamma) g delta = Some D /\
        forall w k a b, D w k a b = - 2%:R^-1 &
      exists D, eliashberg_product_fft_constant (-1) 1 1 conjC wt 1 nranks sched
        (fun r a b c d => fourier_k_to_r (-1) 1 1 (fun q => gamma q a b c d) r) g delta = Some D].
Proof.
move=> fs fks; split.
- move=> t i j; split=> [x y h|c x y]; rewrite /wt !mxE !summxE.
    by congr (_ * _); apply: eq_bigr => w _; rewrite h.
  rewrite mulrCA -mulrDr; congr (_ * _); rewrite mulr_sumr -big_split.
  by apply: eq_bigr => w _; rewrite !mxE.
- by move=> w; split=> // x y h; rewrite /tw h.
- case E : (eliashberg_product 1 conjC 1 4 nranks sched ksched (fun _ => gamma) g delta) => [D|]; last by [].
  exists D; split=> // w k a b; rewrite (productE fs fks E).
  have e (w' : 'I_(2 * 1)) : \sum_(k' : K) \sum_c \sum_d gamma (k - k') c a d b *
    pair_amplitude conjC (fun k a b => g (fidx w') k a b) (fun k a b => delta w' k a b) k' d c = 1.
    rewrite (eq_bigr (fun k' => (k' == k)%:R)); last first.
      move=> k' _; rewrite !big_ord1 /gamma subr_eq0 eq_sym /pair_amplitude !big_ord1 /g /delta !mxE /= conjC1.
      by rewrite !mulr1.
    rewrite (bigD1 k) //= eqxx big1; first exact: addr0.
    by move=> k' /negbTE ->.
  under eq_bigr do rewrite e.
  rewrite big_const_ord iter_addr_0 mulr1 /ncells -!natrM mulNr; congr (- _).
  by rewrite (_ : (2 * (2 * 1 * 1) = 2 * 2)%N) // natrM invfM mulrA divff ?mul1r // pnatr_eq0.
- by eexists.
Qed.
End Cases.

Print Assumptions C24_linear_in_gap.
Print Assumptions C24_linear_in_vertex.
Print Assumptions C24_fft_linear_in_gap.
Print Assumptions C25_sum_is_fft.
Print Assumptions C26_triplet_documented.
Print Assumptions C26_singlet_sign.
Print Assumptions C26_singlet_partial.
Print Assumptions C26_singlet_refuted.
Print Assumptions C27_proportional_accepted_partial.
Print Assumptions C27_accepted_is_proportional_partial.
Print Assumptions C27_orthogonal_refuted.
Print Assumptions C27_broadcast_refuted.
Print Assumptions C27_proportional_refuted.
Print Assumptions C27_empty_exception.
Print Assumptions C58_documented_product.
Print Assumptions C59_fft_product.
Print Assumptions C59_reduced_product.
Print Assumptions C59_mesh_mismatch.
Print Assumptions C60_momentum_parity.
Print Assumptions C61_accepted_meshes_cover.
Print Assumptions C61_acceptance.
