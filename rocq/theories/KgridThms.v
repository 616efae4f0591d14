(* C95 (momentum grids and their interpolation). *)
From mathcomp Require Import all_ssreflect all_algebra all_field.
From mathcomp Require Import zify.
From Verif Require Import SymmetryModel FourierModel FourierProofs KgridModel.
Set Implicit Arguments.
Unset Strict Implicit.
Unset Printing Implicit Defensive.
Import Order.TTheory GRing.Theory Num.Theory.
Local Open Scope ring_scope.

(* an index of an array with the given shape *)
Fixpoint inside (shape idx : seq nat) : bool :=
  match shape, idx with [::], [::] => true | m :: ds, k :: l => (k < m)%N && inside ds l | _, _ => false end.
Lemma inside_size shape idx : inside shape idx -> size idx = size shape.
Proof. by elim: shape idx => [|m ds ih] [|k l] //= /andP[_ /ih ->]. Qed.
Lemma inside_nth shape idx a : inside shape idx -> (a < size shape)%N -> (nth 0 idx a < nth 0 shape a)%N.
Proof. by elim: shape idx a => [|m ds ih] [|k l] [|a] //= /andP[h /ih hi] //; apply: hi. Qed.
Lemma ravel_lt shape idx : inside shape idx -> (ravel shape idx < vol shape)%N.
Proof.
elim: shape idx => [|m ds ih] [|k l] //= /andP[h /ih]; rewrite -/(vol ds) /vol /= -/(vol ds) => h2.
apply: (@leq_trans (k * vol ds + vol ds)%N); first by rewrite ltn_add2l.
by rewrite -mulSnr leq_mul2r h orbT.
Qed.
Lemma ravelK shape idx : inside shape idx -> unravel shape (ravel shape idx) = idx.
Proof.
elim: shape idx => [|m ds ih] [|k l] //= /andP[h hi]; have lt := ravel_lt hi; rewrite -/(vol ds).
have v0 : (0 < vol ds)%N by apply: leq_ltn_trans lt.
by rewrite divnMDl // divn_small // addn0 modnMDl modn_small // ih.
Qed.
Lemma unravel_inside shape p : (p < vol shape)%N -> inside shape (unravel shape p).
Proof.
elim: shape p => [|m ds ih] p //=; rewrite /vol /= -/(vol ds) => h; have v0 : (0 < vol ds)%N by case: (vol ds) h => //; rewrite muln0.
by rewrite ltn_divLR // h ih // ltn_mod.
Qed.
Lemma unravelK shape p : (p < vol shape)%N -> ravel shape (unravel shape p) = p.
Proof.
elim: shape p => [|m ds ih] p /=; first by rewrite /vol /=; case: p.
rewrite -/(vol ds) /vol /= -/(vol ds) => h; have v0 : (0 < vol ds)%N by case: (vol ds) h => //; rewrite muln0.
by rewrite ih ?ltn_mod // -divn_eq.
Qed.
Lemma vol_gt0 shape : all (ltn 0%N) shape -> (0 < vol shape)%N.
Proof. by elim: shape => //= m ds ih /andP[h /ih]; rewrite /vol /= muln_gt0 => ->; rewrite andbT. Qed.
Lemma reshape_same (A : Type) from to (f : seq nat -> A) : vol from = vol to ->
  exists g, reshape from to f = Some g /\ forall idx, inside to idx -> exists idx', [/\ inside from idx', ravel from idx' = ravel to idx & g idx = f idx'].
Proof.
move=> e; rewrite /reshape e eqxx; eexists; split; first by []; move=> idx hi.
by exists (unravel from (ravel to idx)); split=> //; [apply: unravel_inside | apply: unravelK]; rewrite e; apply: ravel_lt.
Qed.

Section Grid.
Variables (R : realFieldType) (C : Type).
Local Notation vec := 'rV[R]_3.
Definition grid_point (nk i : seq nat) : vec := \row_a ((nth 0%N i a)%:R / (nth 0%N nk a)%:R).
Variables (units : 'M[R]_3) (nk : seq nat).
Hypotheses (u0 : units \in unitmx) (n3 : size nk = 3%N) (npos : all (ltn 0%N) nk).
(* C95: relative coordinates; the mesh point with index i has the coordinates i_a / n_a *)
Theorem C95_relative (k_vec : nat -> vec) : exists k_rel, [/\ get_relative_k k_vec units = Some k_rel, forall l, k_rel l *m units = k_vec l &
  forall l i, inside nk i -> k_vec l = k_value units nk i -> k_rel l = grid_point nk i].
Proof.
rewrite /get_relative_k u0; exists (fun l => ((invmx units)^T *m (k_vec l)^T)^T); split=> //.
  by move=> l; rewrite trmx_mul !trmxK mulmxKV.
by move=> l i hi ->; rewrite trmx_mul !trmxK /k_value mulmxK.
Qed.
(* numpy's round is exact closer than one half *)
Definition rounds (round : R -> int) : Prop := forall (x : R) (m : int), `|x - m%:~R| < 2%:R^-1 -> round x = m.
(* C95: the index of a mesh point is recovered, even from relative coordinates with an error below half the mesh spacing *)
Theorem C95_index (round : R -> int) (k_rel : nat -> vec) l i : rounds round -> inside nk i ->
  (forall a : 'I_3, `|k_rel l ord0 a - grid_point nk i ord0 a| < (2%:R * (nth 0%N nk a)%:R)^-1) -> get_kidx round k_rel nk l = map Posz i.
Proof.
move=> rd hi close; have si := inside_size hi.
apply: (@eq_from_nth _ 0) => [|a]; rewrite !size_map -enumT size_enum_ord ?si ?n3 // => ha.
have na : (nth 0%N nk a)%:R != 0 :> R by rewrite pnatr_eq0 -lt0n; apply: (all_nthP 0%N npos); rewrite n3.
rewrite (nth_map (Ordinal ha)) ?size_enum_ord // (nth_map 0%N) ?si ?n3 //.
have -> : nth (Ordinal ha) (enum 'I_3) a = Ordinal ha by apply: val_inj; rewrite /= nth_enum_ord.
apply: rd; have := close (Ordinal ha); rewrite mxE /= invfM.
have p0 : 0 < (nth 0%N nk a)%:R :> R by rewrite lt0r na ler0n.
rewrite -(ltr_pmul2r p0) mulfVK //; congr (_ < _).
by rewrite -[X in _ * X = _](ger0_norm (ltW p0)) -normrM mulrBl mulfVK.
Qed.
(* C95: the dispersion on the mesh *)
Theorem C95_dispersion (hopping : (nat -> vec) -> nat -> nat -> nat -> C) (H : vec -> nat -> nat -> C) : (forall ks a b l, hopping ks a b l = H (ks l) a b) ->
  exists e_k, ek_tb_dispersion hopping units nk = Some e_k /\ forall i a b, inside nk i -> e_k (ravel nk i) a b = H (grid_point nk i) a b.
Proof.
move=> hH; rewrite /ek_tb_dispersion; have [kr [-> _ h]] := C95_relative (mesh_values units nk); exists (fun l a b => hopping kr a b l); split=> //.
by move=> i a b hi; rewrite hH (h _ _ hi) // /mesh_values ravelK.
Qed.
(* the coordinates of the grid planes *)
Definition planes (nk shape : seq nat) : seq (seq R) := [seq [seq i%:R / (nth 0%N nk a)%:R | i <- iota 0 (nth 0%N shape a)] | a <- iota 0 3].
Lemma components_grid shape k : size shape = 3%N -> all (ltn 0%N) shape -> (forall i, inside shape i -> k (ravel shape i) = grid_point nk i) ->
  k_components k (vol shape) shape = Some (planes nk shape).
Proof.
case: shape => [|m1 [|m2 [|m3 []]]] // _ /= /and4P[p1 p2 p3 _] hk; rewrite /k_components.
have vv : vol [:: 3%N; vol [:: m1; m2; m3]] = vol [:: 3%N; m1; m2; m3] by rewrite /vol /= !muln1.
have [g [-> hg]] := reshape_same (fun idx => if idx is [:: a; l] then k l ord0 (inord a) else 0) vv; congr Some.
have val_ a i : (a < 3)%N -> inside [:: m1; m2; m3] i -> g (a :: i) = (nth 0%N i a)%:R / (nth 0%N nk a)%:R.
  move=> ha hi; have h4 : inside [:: 3%N; m1; m2; m3] (a :: i) by rewrite /= ha.
  have [idx [h1 h2 ->]] := hg _ h4; have -> : idx = [:: a; ravel [:: m1; m2; m3] i].
    rewrite -(ravelK h1) h2; have hh : inside [:: 3%N; vol [:: m1; m2; m3]] [:: a; ravel [:: m1; m2; m3] i] by rewrite /inside ha (ravel_lt hi).
    rewrite -[RHS](ravelK hh); congr unravel; rewrite /= !muln1; by case: i hi {h4 h2 hh} => [|? [|? [|? []]]] //= _; rewrite ?muln1 ?addn0.
  by rewrite hk // mxE inordK.
rewrite /planes /=; congr [:: _; _; _]; apply/eq_in_map => i; rewrite mem_iota /= add0n => hi; rewrite val_ //= ?hi ?p1 ?p2 ?p3 //.
Qed.
(* C95: the axes of the grid *)
Theorem C95_components k_rel : get_relative_k (mesh_values units nk) units = Some k_rel -> k_components k_rel (vol nk) nk = Some (planes nk nk).
Proof.
have [kr [-> _ h]] := C95_relative (mesh_values units nk) => -[<-]; apply: components_grid => // i hi.
by apply: h => //; rewrite /mesh_values ravelK.
Qed.
End Grid.

Section Interpolators.
Variables (R : realFieldType) (C : eqType).
Local Notation vec := 'rV[R]_3.
Variables (regular : seq (seq R) -> (seq nat -> C) -> option (vec -> C)) (nearest linear : seq (vec * C) -> option (vec -> C)).
(* scipy's interpolators reproduce the data: on a regular grid with increasing axes of at least two points, and at distinct points *)
Definition reproduces_grid : Prop := forall axes v g, size axes = 3%N -> all (fun ax => (1 < size ax)%N && sorted <%R ax) axes -> regular axes v = Some g ->
  forall i, inside (map size axes) i -> g (\row_a nth 0 (nth [::] axes a) (nth 0%N i a)) = v i.
Definition reproduces_points (f : seq (vec * C) -> option (vec -> C)) : Prop := forall points g, uniq (map fst points) -> f points = Some g -> forall p, p \in points -> g p.1 = p.2.
Variables (units : 'M[R]_3) (nk : seq nat).
Hypotheses (u0 : units \in unitmx) (n3 : size nk = 3%N) (npos : all (ltn 0%N) nk).
Hypotheses (rG : reproduces_grid) (rN : reproduces_points nearest) (rL : reproduces_points linear).
(* the index of the same momentum in the first zone *)
Definition wrap (i : seq nat) : seq nat := [seq (x.1 %% x.2)%N | x <- zip i nk].
Lemma wrap_inside shape i : size shape = size nk -> inside shape i -> inside nk (wrap i).
Proof.
rewrite /wrap; clear n3; elim: nk shape i npos => [|m ds ih] [|m' ds'] [|k l] //= /andP[m0 h0] [hs] /andP[_ hi].
by rewrite ltn_mod m0 (ih ds').
Qed.
Lemma wrap_small i : inside nk i -> wrap i = i.
Proof. by rewrite /wrap; clear n3; elim: nk i npos => [|m ds ih] [|k l] //= /andP[_ h0] /andP[hk /ih ->] //; rewrite modn_small. Qed.
Lemma nk_neq0 a : (a < 3)%N -> (nth 0%N nk a)%:R != 0 :> R.
Proof. by move=> ha; rewrite pnatr_eq0 -lt0n; apply: (all_nthP 0%N npos); rewrite n3. Qed.
Lemma grid_inj (i j : seq nat) : size i = 3%N -> size j = 3%N -> grid_point R nk i = grid_point R nk j -> i = j.
Proof.
move=> si sj e; apply: (@eq_from_nth _ 0%N); rewrite ?si ?sj // => a ha; move/rowP/(_ (Ordinal ha)): e; rewrite !mxE /=.
by move/(mulIf (invr_neq0 (nk_neq0 ha)))/eqP; rewrite eqr_nat => /eqP.
Qed.
Lemma extend_ok (values : nat -> C) : exists v k, extend_data_on_boundary R true values (vol nk) nk = Some (v, k, planes R nk (map S nk)) /\
  forall i, inside (map S nk) i -> v i = values (ravel nk (wrap i)) /\ k (ravel (map S nk) i) = grid_point R nk i.
Proof.
rewrite /extend_data_on_boundary /reshape.
have v1 s : vol [:: vol s] = vol s by rewrite {1}/vol /= muln1.
rewrite !v1 !eqxx; set k := fun p => \row_a _; rewrite (@components_grid R nk).
- eexists; eexists; split; first by []; move=> i hi; split; last by rewrite /k ravelK.
  by rewrite /= !divn1 ravelK.
- by rewrite size_map n3.
- by apply/allP => x /mapP[y _ ->].
by move=> i hi; rewrite /k ravelK.
Qed.
Definition domain (extend_boundary : bool) : seq nat := if extend_boundary then map S nk else nk.
Lemma planes_sorted shape : size shape = 3%N -> all (ltn 1%N) shape -> all (fun ax => (1 < size ax)%N && sorted <%R ax) (planes R nk shape).
Proof.
move=> s3 h; apply/allP => ax /mapP[a]; rewrite mem_iota => /andP[_ ha] ->; rewrite size_map size_iota; apply/andP; split.
  by apply: (all_nthP 0%N h); rewrite s3.
have p0 : 0 < (nth 0%N nk a)%:R^-1 :> R by rewrite invr_gt0 lt0r nk_neq0 ?ler0n.
rewrite sorted_map; apply: sub_sorted (iota_ltn_sorted 0 _) => i j; by rewrite /= ltr_pmul2r // ltr_nat.
Qed.
(* C95: with the boundary the interpolated function takes the value of the susceptibility at every grid point of the closed zone, in particular the same
   values on opposite faces; without it at the mesh points *)
Theorem C95_rel_interpolator (values : nat -> C) extend_boundary kind g i : (kind = Regular -> extend_boundary = false -> all (ltn 1%N) nk) ->
  get_rel_k_chi_interpolator regular nearest linear true values (vol nk) units nk extend_boundary kind = Some g ->
  inside (domain extend_boundary) i -> g (grid_point R nk i) = values (ravel nk (wrap i)).
Proof.
move=> h1; rewrite /get_rel_k_chi_interpolator; have [kr [ek _ hk]] := C95_relative nk u0 (mesh_values units nk).
rewrite ek (C95_components u0 n3 npos ek); set data := (if extend_boundary then _ else _) => eg hi.
have sd : size (domain extend_boundary) = 3%N by rewrite /domain; case: extend_boundary hi {data eg h1}; rewrite ?size_map n3.
have [v [k [ed hv]]] : exists v k, data = Some (domain extend_boundary, v, k, planes R nk (domain extend_boundary)) /\
    forall i, inside (domain extend_boundary) i -> v i = values (ravel nk (wrap i)) /\ k (ravel (domain extend_boundary) i) = grid_point R nk i.
  rewrite /data /domain; case: extend_boundary hi {data eg h1 sd} => hi.
    by have [v [k [-> hv]]] := extend_ok values; exists v, k.
  rewrite /reshape (_ : vol [:: vol nk] = vol nk) ?eqxx; last by rewrite {1}/vol /= muln1.
  eexists; exists kr; split; first by []; move=> j hj; split; last by apply: hk; rewrite // /mesh_values ravelK.
  by rewrite /= divn1 wrap_small.
rewrite ed in eg.
have pts f : reproduces_points f -> f [seq (k p, v (unravel (domain extend_boundary) p)) | p <- iota 0 (vol (domain extend_boundary))] = Some g -> g (grid_point R nk i) = values (ravel nk (wrap i)).
  move=> rf ef; have un : uniq (map fst [seq (k p, v (unravel (domain extend_boundary) p)) | p <- iota 0 (vol (domain extend_boundary))]).
    rewrite -map_comp map_inj_in_uniq ?iota_uniq // => p q; rewrite !mem_iota !add0n /= => hp hq.
    have ip := unravel_inside hp; have iq := unravel_inside hq.
    rewrite -(unravelK hp) -(unravelK hq) (proj2 (hv _ ip)) (proj2 (hv _ iq)) => /grid_inj e.
    by rewrite e // ?(inside_size ip) ?(inside_size iq) sd.
  have := rf _ _ un ef (k (ravel (domain extend_boundary) i), v i) _ => /=; rewrite (proj2 (hv _ hi)) (proj1 (hv _ hi)); apply.
  by apply/mapP; exists (ravel (domain extend_boundary) i); rewrite ?mem_iota ?add0n ?ravel_lt // (proj2 (hv _ hi)) ravelK // (proj1 (hv _ hi)).
case: kind eg h1 => // eg h1; [| exact: pts rN eg | exact: pts rL eg].
have srt : all (ltn 1%N) (domain extend_boundary).
  rewrite /domain; case: extend_boundary h1 {data eg hi sd ed hv pts} => [_|]; last by apply.
  by rewrite all_map; apply/allP => x /(allP npos).
have sz : [seq size x | x <- planes R nk (domain extend_boundary)] = domain extend_boundary.
  rewrite /planes -map_comp; apply: (@eq_from_nth _ 0%N) => [|a]; rewrite size_map size_iota ?sd // => ha.
  by case: a ha => [|[|[|a]]] // _; rewrite /= size_map size_iota.
have := rG _ (planes_sorted sd srt) eg (i := i); rewrite sz => /(_ _ hi); rewrite (proj1 (hv _ hi)) => <- //; congr g.
apply/rowP => a; rewrite !mxE (nth_map 0%N) ?size_iota // nth_iota // add0n.
have ha : (nth 0%N i a < nth 0%N (domain extend_boundary) a)%N.
  by apply: inside_nth hi _; rewrite sd.
by rewrite (nth_map 0%N) ?size_iota // nth_iota.
Qed.
(* C95: with a numpy that has no np.float the default call raises *)
Theorem C95_numpy_refuted (values : nat -> C) nv kind : get_rel_k_chi_interpolator regular nearest linear false values nv units nk true kind = None.
Proof.
rewrite /get_rel_k_chi_interpolator /extend_data_on_boundary /reshape; case: (get_relative_k _ _) => // k; case: (k_components _ _ _) => // ks.
by case: eqP => // _; case: eqP.
Qed.
Lemma split_point (n i j : nat) (t t' : int) : (i < n)%N -> (j < n)%N -> i%:R / n%:R + t%:~R = j%:R / n%:R + t'%:~R :> R -> i = j /\ t = t'.
Proof.
move=> hi hj; have n0 : (n%:R : R) != 0 by rewrite pnatr_eq0; case: n hi {hj}.
move/(congr1 (fun x => x * n%:R)); rewrite !mulrDl !mulfVK // => e.
have {}e : (i%:Z + t * n%:Z = j%:Z + t' * n%:Z)%R.
  by apply: (@intr_inj R); rewrite !rmorphD !rmorphM.
have ij : i = j.
  have := congr1 (modz^~ n%:Z) e; rewrite ![_%:Z + _]addrC !modzMDl !modz_nat !modn_small // => -[].
  by [].
split=> //; move: e; rewrite ij => /addrI /mulIf; apply; by case: n hi {n0 hj}.
Qed.
(* C95: in absolute coordinates, with copies of the zone: the value at a mesh point shifted by a reciprocal lattice vector *)
Theorem C95_abs_interpolator (values : nat -> C) (extend_bz : seq int) g i x y z : uniq extend_bz -> get_abs_k_chi_interpolator linear values (vol nk) units nk extend_bz = Some g ->
  inside nk i -> x \in extend_bz -> y \in extend_bz -> z \in extend_bz ->
  g (k_value units nk i + x%:~R *: row ord0 units + y%:~R *: row (inord 1) units + z%:~R *: row (inord 2) units) = values (ravel nk i).
Proof.
move=> un; rewrite /get_abs_k_chi_interpolator eqxx => eg hi hx hy hz.
pose shift (t : int * (int * int)) : vec := \row_a (nth 0 [:: t.1; t.2.1; t.2.2] a)%:~R.
set points := (X in linear X) in eg.
have ep : points = [seq ((grid_point R nk (unravel nk p.2) + shift p.1) *m units, values p.2) | p <- [seq (t, l) | t <- [seq (a, b) | a <- extend_bz, b <- [seq (b, c) | b <- extend_bz, c <- extend_bz]], l <- iota 0 (vol nk)]].
  rewrite /points map_allpairs -[[seq \row_a _ | a <- extend_bz, b <- _]](map_allpairs shift (fun a b => (a, b))) allpairs_mapl.
  by apply: eq_allpairs => t l /=; congr (_, _); rewrite trmx_mul !trmxK mulmxDl.
have up : uniq (map fst points).
  rewrite ep -map_comp map_inj_in_uniq; last first.
    move=> [[a [b c]] l] [[a' [b' c']] l'] /allpairsP[[t1 l1] [_ h1 [_ e1]]] /allpairsP[[t2 l2] [_ h2 [_ e2]]] /= /(congr1 (mulmx^~ (invmx units))).
    rewrite !mulmxK // => e; move: h1 h2; rewrite -e1 -e2 !mem_iota !add0n /= => h1 h2.
    have i1 := unravel_inside h1; have i2 := unravel_inside h2.
    have co k (hk : (k < 3)%N) : nth 0%N (unravel nk l) k = nth 0%N (unravel nk l') k /\ nth 0 [:: a; b; c] k = nth 0 [:: a'; b'; c'] k.
      move/rowP/(_ (Ordinal hk)): e; rewrite !mxE /=; apply: split_point; by apply: inside_nth; rewrite ?n3.
    have [_ /= ->] := co 0%N isT; have [_ /= ->] := co 1%N isT; have [_ /= ->] := co 2%N isT; congr (_, _).
    rewrite -(unravelK h1) -(unravelK h2); congr ravel; apply: (@eq_from_nth _ 0%N); rewrite ?(inside_size i1) ?(inside_size i2) // n3 => k /co[].
    by [].
  apply: allpairs_uniq; rewrite ?iota_uniq //; last by move=> [a b] [c d] _ _ [-> ->].
  apply: allpairs_uniq => //; last by move=> [a b] [c d] _ _ [-> ->].
  by apply: allpairs_uniq => //; move=> [a b] [c d] _ _ [-> ->].
have := rL up eg (p := ((grid_point R nk i + shift (x, (y, z))) *m units, values (ravel nk i))) => /= <-.
  congr g; rewrite mulmxDl -!addrA; congr (_ + _); apply/rowP => a; rewrite !mxE !big_ord_recl big_ord0 !mxE addr0 /=; congr (_ + (_ * units _ _ + _ * units _ _));
    by apply: val_inj; rewrite /= inordK.
rewrite ep; apply/mapP; exists ((x, (y, z)), ravel nk i); rewrite /= ?ravelK //.
by rewrite !allpairs_f // mem_iota ravel_lt.
Qed.
End Interpolators.

(* the C++ and the python function *)
Section Fourier.
Variables (R : realFieldType) (C : numClosedFieldType) (cis : R -> C) (n1 n2 n3 : nat) (lattice : 'M[R]_3).
Local Notation K := (site n1 n2 n3).
Theorem C95_fourier_cpp (chi : K -> C) before k : fourier_interpolation_cpp cis lattice chi before k = fourier_interpolation cis lattice chi k.
Proof.
rewrite /fourier_interpolation_cpp /fourier_interpolation mulr0 -[RHS]add0r.
have -> : \sum_r chi r * cis (\sum_a - (k ord0 a * r_value lattice r ord0 a)) = \sum_(r <- enum [finType of K]) cis (- dot k (r_value lattice r)) * chi r.
  rewrite -big_enum; apply: eq_bigr => r _ /=; rewrite mulrC; congr (cis _ * _); rewrite sumrN; congr (- _).
  rewrite !big_ord_recl big_ord0 addr0 /dot addrA; congr (_ + _ * _ + _ * _); congr (_ _ _); apply: val_inj; by rewrite /= inordK.
have gen x l : foldl (fun out r => out + cis (- dot k (r_value lattice r)) * chi r) x l = x + \sum_(r <- l) cis (- dot k (r_value lattice r)) * chi r.
  by elim: l x => [|r l ih] x /=; rewrite ?big_nil ?addr0 // ih big_cons addrA.
exact: gen.
Qed.
Variables (z1 z2 z3 : C) (units : 'M[R]_3) (tau : R).
Hypotheses (p1 : n1.+1.-primitive_root z1) (p2 : n2.+1.-primitive_root z2) (p3 : n3.+1.-primitive_root z3).
(* b_a . a_b = 2 pi delta_ab *)
Hypothesis (dual : units *m lattice^T = tau%:M).
Definition nk3 : seq nat := [:: n1.+1; n2.+1; n3.+1].
Definition idx3 (k : K) : seq nat := [:: val k.1.1; val k.1.2; val k.2].
(* exp(i x) at the products of mesh momenta and lattice vectors *)
Hypothesis (cisE : forall m1 m2 m3 : nat, cis (- (tau * (m1%:R / n1.+1%:R + m2%:R / n2.+1%:R + m3%:R / n3.+1%:R))) = (z1 ^+ m1 * z2 ^+ m2 * z3 ^+ m3)^-1).
Lemma dot_mesh (k r : K) : \sum_a (k_value units nk3 (idx3 k)) ord0 a * (r_value lattice r) ord0 a =
  tau * ((k.1.1 * r.1.1)%:R / n1.+1%:R + (k.1.2 * r.1.2)%:R / n2.+1%:R + (k.2 * r.2)%:R / n3.+1%:R).
Proof.
transitivity ((k_value units nk3 (idx3 k) *m (r_value lattice r)^T) ord0 ord0).
  by rewrite mxE; apply: eq_bigr => a _; rewrite !mxE.
rewrite /k_value /r_value trmx_mul mulmxA -[_ *m units *m _]mulmxA dual mul_mx_scalar -scalemxAl mxE; congr (_ * _).
rewrite mxE !big_ord_recl big_ord0 addr0 !mxE /= addrA; congr (_ + _ + _); by rewrite natrM mulrAC.
Qed.
(* C95: at a mesh momentum k the interpolation gives the transform used everywhere else at the momentum -k *)
Theorem C95_fourier (chi : K -> C) (k : K) : fourier_interpolation cis lattice chi (k_value units nk3 (idx3 k)) = fourier_r_to_k z1 z2 z3 chi (- k).
Proof.
apply: eq_bigr => r _; rewrite sumrN dot_mesh cisE mulrC; congr (_ * _); by rewrite phase_oppl.
Qed.
(* C95: so it reproduces chi(k) on the mesh exactly when chi(r) is even *)
Theorem C95_fourier_even (chi : K -> C) : (forall k, fourier_interpolation cis lattice chi (k_value units nk3 (idx3 k)) = fourier_r_to_k z1 z2 z3 chi k) <->
  (forall r, chi (- r) = chi r).
Proof.
split=> h; last first.
  move=> k; rewrite C95_fourier /fourier_r_to_k sum_opp; apply: eq_bigr => r _.
  by rewrite h (phase_oppl p1 p2 p3) (phase_oppr p1 p2 p3 k r) invrK.
have e q : chi q = fourier_k_to_r z1 z2 z3 (fourier_r_to_k z1 z2 z3 chi) q.
  by rewrite (r2kK p1 p2 p3) // /ncells pnatr_eq0 !muln_eq0.
move=> r; rewrite [LHS]e [RHS]e /fourier_k_to_r; congr (_ / _); rewrite sum_opp; apply: eq_bigr => k _.
by rewrite (phase_oppl p1 p2 p3 k (- r)) (phase_oppr p1 p2 p3 k r) invrK -h C95_fourier opprK.
Qed.
End Fourier.

(* functions with the properties asked of numpy and scipy *)
Section Oracles.
Definition round_rat (x : rat) : int := (numq (x + 2%:R^-1) %/ denq (x + 2%:R^-1))%Z.
Lemma round_rat_ok : rounds round_rat.
Proof.
move=> x m; rewrite ltr_norml => /andP[h1 h2]; rewrite /round_rat; set y := x + _.
have d0 : 0 < (denq y)%:~R :> rat by rewrite ltr0z denq_gt0.
have l1 : m%:~R <= y by move: (ltW h1); rewrite ler_subr_addl ler_subl_addr.
have l2 : y < (m + 1)%:~R.
  move: h2; rewrite ltr_subl_addr -(ltr_add2r 2%:R^-1) => h2; apply: lt_le_trans h2 _.
  by rewrite addrAC addrC rmorphD ler_add2l.
have e : y = (numq y)%:~R / (denq y)%:~R by rewrite divq_num_den.
have nz : denq y != 0 by rewrite denq_neq0.
have a1 : m * denq y <= numq y by rewrite -(@ler_int rat_numDomainType) rmorphM /= -ler_pdivl_mulr // -e.
have a2 : numq y < (m + 1) * denq y by rewrite -(@ltr_int rat_numDomainType) rmorphM /= -ltr_pdivr_mulr // -e.
have := denq_gt0 y; move: a1 a2 nz; move: (numq y) (denq y) => p d a1 a2 nz d1.
apply/eqP; rewrite eq_le; apply/andP; split; last by rewrite lez_divRL.
by rewrite -ltz_addr1 ltz_divLR.
Qed.
Variables (R : realFieldType) (C : eqType) (c0 : C).
Definition lookup_points (points : seq ('rV[R]_3 * C)) : option ('rV[R]_3 -> C) :=
  Some (fun k => nth c0 (map snd points) (index k (map fst points))).
Definition lookup_grid (axes : seq (seq R)) (v : seq nat -> C) : option ('rV[R]_3 -> C) :=
  Some (fun k : 'rV[R]_3 => v [seq index (k ord0 a) (nth [::] axes a) | a : 'I_3 <- enum 'I_3]).
Lemma lookup_points_ok : reproduces_points lookup_points.
Proof.
move=> points g un [<-] p hp; have hm : p.1 \in map fst points by apply: map_f.
have hi : (index p points < size points)%N by rewrite index_mem.
have -> : index p.1 (map fst points) = index p points.
  rewrite -{1}(nth_index p hp) -(nth_map _ p.1) // index_uniq // size_map //.
by rewrite (nth_map p) // nth_index.
Qed.
Lemma lookup_grid_ok : reproduces_grid lookup_grid.
Proof.
move=> axes v g s3 srt [<-] i hi; congr v; have si : size i = 3%N by rewrite (inside_size hi) size_map.
apply: (@eq_from_nth _ 0%N) => [|a]; rewrite size_map size_enum_ord ?si // => ha.
rewrite (nth_map (Ordinal ha)) ?size_enum_ord // mxE.
have -> : nth (Ordinal ha) (enum 'I_3) a = Ordinal ha by apply: val_inj; rewrite /= nth_enum_ord.
have hs : (a < size axes)%N by rewrite s3.
rewrite /= index_uniq //; first by have := inside_nth hi; rewrite size_map s3 => /(_ a ha); rewrite (nth_map [::]).
by have /andP[_ /lt_sorted_uniq] := all_nthP [::] srt a hs.
Qed.
End Oracles.

(* a 2 x 3 x 1 mesh in an oblique lattice *)
Section Case.
Definition units_case : 'M[rat]_3 := \matrix_(i, j) ((i == j) || (j < i)%N)%:R.
Definition nk_case : seq nat := [:: 2; 3; 1]%N.
Theorem C95_case (values : nat -> nat) kind : kind <> Unknown ->
  [/\ units_case \in unitmx, size nk_case = 3%N, all (ltn 0%N) nk_case & rounds round_rat] /\
  [/\ reproduces_grid (@lookup_grid rat_realFieldType nat_eqType) & reproduces_points (@lookup_points rat_realFieldType nat_eqType 0%N)] /\
  exists g, [/\ get_rel_k_chi_interpolator (@lookup_grid _ _) (lookup_points 0%N) (lookup_points 0%N) true values (vol nk_case) units_case nk_case true kind = Some g,
    g (grid_point _ nk_case [:: 2; 3; 1]%N) = values 0%N & g (grid_point _ nk_case [:: 1; 3; 0]%N) = values 3%N].
Proof.
move=> hk; have u0 : units_case \in unitmx.
  rewrite unitmxE unitfE det_trig ?big_ord_recl ?big_ord0 ?mxE //; last first.
  by apply/is_trig_mxP => i j h; rewrite mxE -(inj_eq val_inj) /= (ltn_eqF h) ltnNge (ltnW h).
have rG := @lookup_grid_ok rat_realFieldType nat_eqType; have rP := @lookup_points_ok rat_realFieldType nat_eqType 0%N.
split; first by split=> //; apply: round_rat_ok.
split=> //.
have [g eg] : exists g, get_rel_k_chi_interpolator (@lookup_grid _ _) (lookup_points 0%N) (lookup_points 0%N) true values (vol nk_case) units_case nk_case true kind = Some g.
  rewrite /get_rel_k_chi_interpolator; have [kr [ek _ hh]] := C95_relative nk_case u0 (mesh_values units_case nk_case).
  rewrite ek (C95_components u0 _ _ ek) //; have [|v [k [-> _]]] := @extend_ok rat_realFieldType nat_eqType nk_case _ values; rewrite //.
  by case: kind hk => [|||/(_ erefl)] // _; eexists; reflexivity.
exists g; split=> //.
  by rewrite (C95_rel_interpolator u0 _ _ rG rP rP _ eg).
by rewrite (C95_rel_interpolator u0 _ _ rG rP rP _ eg).
Qed.
(* three cells in a row: chi(r) different from zero at r = 1 only *)
Local Notation C := [numClosedFieldType of algC].
Theorem C95_fourier_refuted : exists (z : C) (cis : rat -> C), [/\ 3.-primitive_root z,
  (forall m1 m2 m3 : nat, cis (- (1 * (m1%:R / 3%:R + m2%:R / 1%:R + m3%:R / 1%:R))) = (z ^+ m1 * 1 ^+ m2 * 1 ^+ m3)^-1) &
  exists (chi : site 2 0 0 -> C) (k : site 2 0 0),
    fourier_interpolation cis 1%:M chi (k_value 1%:M (nk3 2 0 0) (idx3 k)) <> fourier_r_to_k z 1 1 chi k].
Proof.
have [z zP] := C_prim_root_exists (isT : (0 < 3)%N).
have z3 : z ^+ 3 = 1 by exact: prim_expr_order zP.
pose cis (x : rat) : C := z ^ numq (x * 3%:R).
have cE m1 m2 m3 : cis (- (1 * (m1%:R / 3%:R + m2%:R / 1%:R + m3%:R / 1%:R))) = (z ^+ m1 * 1 ^+ m2 * 1 ^+ m3)^-1.
  rewrite !expr1n !mulr1 /cis mul1r mulNr !mulrDl mulfVK ?pnatr_eq0 // -!natrM -!natrD.
  have -> : - (m1 + m2 * 3 + m3 * 3)%:R = (- (m1 + m2 * 3 + m3 * 3)%:Z)%:~R :> rat by rewrite rmorphN.
  by rewrite numq_int -exprnN !exprD (mulnC m2) (mulnC m3) !exprM z3 !expr1n !mulr1.
exists z, cis; split=> //.
pose chi (r : site 2 0 0) : C := (r == (1, 0, 0))%:R; exists chi, (1, 0, 0) => e.
have p1 : 1.-primitive_root (1 : C) by apply/andP; split=> //; apply/forallP => i; rewrite ord1 /= unity_rootE expr1 eqxx.
have dual : (1%:M : 'M[rat]_3) *m 1%:M^T = 1%:M by rewrite trmx1 mulmx1.
move: e; rewrite (@C95_fourier _ _ cis 2 0 0 1%:M z 1 1 1%:M 1 zP p1 p1 dual cE) /fourier_r_to_k.
have one k : \sum_r phase z 1 1 k r * chi r = z ^+ k.1.1.
  rewrite (bigD1 ((1, 0, 0) : site 2 0 0)) //= big1 => [|r /negbTE h]; last by rewrite /chi h mulr0.
  by rewrite /chi eqxx mulr1 addr0 /phase /= !expr1n !mulr1 muln1.
rewrite !one /= => /eqP; by rewrite (eq_prim_root_expr zP).
Qed.
End Case.
Print Assumptions C95_relative.
Print Assumptions C95_index.
Print Assumptions C95_dispersion.
Print Assumptions C95_components.
Print Assumptions C95_rel_interpolator.
Print Assumptions C95_numpy_refuted.
Print Assumptions C95_abs_interpolator.
Print Assumptions C95_fourier_cpp.
Print Assumptions C95_fourier.
Print Assumptions C95_fourier_even.
Print Assumptions C95_case.
Print Assumptions C95_fourier_refuted.
