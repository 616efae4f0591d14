From mathcomp Require Import all_ssreflect all_algebra zify.
From Verif Require Import Fring FourierModel FourierProofs MatsubaraModel ImtimeModel BubbleProofs.
Set Implicit Arguments.
Unset Strict Implicit.
Unset Printing Implicit Defensive.
Import GRing.Theory Num.Theory.
Local Open Scope ring_scope.

Section P.
Variables (C : numClosedFieldType) (M : nat).
Local Notation L := M.+1.
Variables (beta zh : C) (ex : C -> C) (freq : statistic -> int -> C).
Add Ring Cring : (fld_rt (Num.ClosedField.fieldType C)).
Add Field Cfield : (fld_ft (Num.ClosedField.fieldType C)).
Local Notation CF := (Num.ClosedField.fieldType C).
Local Notation T := 'I_L.+1.

Let L0 : L%:R != 0 :> C. Proof. by rewrite pnatr_eq0. Qed.

Lemma wslot_lt w : (wslot L w < L)%N.
Proof. by rewrite /wslot -ltz_nat gez0_abs ?modz_ge0 // ltz_mod. Qed.

Lemma wmesh_bound s n w : w \in wmesh s n -> (- n%:Z <= w) && (w < n%:Z).
Proof.
move=> /mapP [k]; rewrite mem_iota add0n => /andP [_ hk] ->.
by case: s hk => /= hk; lia.
Qed.

Lemma wslot_inj s n : (2 * n <= L)%N -> {in wmesh s n &, injective (wslot L)}.
Proof.
move=> hn w v /wmesh_bound hw /wmesh_bound hv; rewrite /wslot => h.
have {}h : ((w + L%:Z)%R %% L%:Z)%Z = ((v + L%:Z)%R %% L%:Z)%Z.
  by rewrite -(gez0_abs (modz_ge0 (w + L%:Z) _)) // h gez0_abs // modz_ge0.
move/eqP: h; rewrite eqz_mod_dvd => /dvdzP [q hq].
have hq' : w - v = q * L%:Z by rewrite -hq; lia.
have [q0|q0] := eqVneq q 0; first by move: hq'; rewrite q0 mul0r; lia.
have : (`|w - v| < L)%N by lia.
rewrite hq' abszM absz_nat; have : (0 < `|q|)%N by lia.
by case: `|q|%N => // m _; rewrite mulSn ltnNge leq_addr.
Qed.

(* orthogonality of the discrete exponentials *)
Section Roots.
Hypothesis zP : L.-primitive_root (zh ^+ 2).
Lemma ortho (s k : nat) : (s < L)%N -> (k < L)%N ->
  \sum_(j < L) ((zh ^+ 2) ^- (k * j) * (zh ^+ 2) ^+ (j * s)) = L%:R *+ (s == k).
Proof.
move=> hs hk; set z := zh ^+ 2.
transitivity (\sum_(j < L) z ^+ (j * ((Ordinal hs : 'I_L) - Ordinal hk : 'I_L)%R)).
  apply: eq_bigr => j _; rewrite [in RHS]mulnC (@z_addl CF M z zP) mulrC; congr (_ * _).
    by rewrite /= mulnC.
  by rewrite (@z_oppl CF M z zP).
by rewrite (@sum_phase1 CF M z zP) subr_eq0.
Qed.
Lemma zh_neq0 : zh != 0.
Proof.
apply/eqP=> h; have := @z_neq0 CF M _ zP; rewrite h.
by rewrite expr0n /= eqxx.
Qed.

(* the discrete transforms invert each other *)
Lemma fft_round (x : nat -> C) (s : nat) : (s < L)%N ->
  fft_backward zh (fun t : T => L%:R^-1 * fft_forward zh x t) s%:Z = x s.
Proof.
move=> hs; rewrite /fft_backward /fft_forward absz_nat.
under eq_bigr => j _.
  rewrite inordK ?(leqW (ltn_ord j)) // mulr_sumr mulr_suml.
  under eq_bigr => k _ do rewrite mulrA -[_ * _ * _ * _]mulrA.
  over.
rewrite exchange_big /=.
under eq_bigr => k _ do rewrite -mulr_sumr (ortho hs (ltn_ord k)).
rewrite (bigD1 (Ordinal hs)) //= eqxx mulr1n big1 ?addr0; last first.
  move=> k; rewrite -val_eqE eq_sym /= => /negbTE ->; rewrite mulr0n mulr0 //.
by rewrite mulrAC mulVf // mul1r.
Qed.
End Roots.

(* filling the slots *)
Lemma slots_fill (v : int -> C) (x0 : nat -> C) (ws : seq int) w :
  {in ws &, injective (wslot L)} -> w \in ws ->
  foldl (fun (x : nat -> C) w => fun k => if k == wslot L w then v w else x k) x0 ws (wslot L w) = v w.
Proof.
elim/last_ind: ws => // ws u IH inj; rewrite mem_rcons inE foldl_rcons.
have [->|ne] := eqVneq w u; first by rewrite eqxx.
move=> /= hw; rewrite ifN ?IH //.
- by move=> a b ha hb; apply: inj; rewrite mem_rcons inE ?ha ?hb orbT.
- by apply: contra ne => /eqP /inj -> //; rewrite mem_rcons inE ?hw ?eqxx ?orbT.
Qed.

(* the three poles carry the first three moments *)
Lemma coefs_moments s (m1 m2 m3 : C) : let a := coefs s m1 m2 m3 in let b := poles C s in
  [/\ a.1.1 + a.1.2 + a.2 = m1,
      a.1.1 * b.1.1 + a.1.2 * b.1.2 + a.2 * b.2 = m2 &
      a.1.1 * b.1.1 ^+ 2 + a.1.2 * b.1.2 ^+ 2 + a.2 * b.2 ^+ 2 = m3].
Proof.
have k6 : 6%:R * 6%:R^-1 = 1 :> C by rewrite mulfV // pnatr_eq0.
have e2 : 2%:R^-1 = 3%:R * 6%:R^-1 :> C.
  by rewrite (_ : 6 = 3 * 2)%N // natrM invfM mulrA mulfV ?pnatr_eq0 // mul1r.
have e3 : 3%:R^-1 = 2%:R * 6%:R^-1 :> C.
  by rewrite (_ : 6 = 2 * 3)%N // natrM invfM mulrA mulfV ?pnatr_eq0 // mul1r.
set h := 6%:R^-1 in k6 e2 e3.
case: s; rewrite /coefs /poles /= e2 ?e3 -/h.
- split.
  + transitivity (m1 + (6%:R * h - 1) * m3); [nring (Num.ClosedField.fieldType C) | by rewrite k6 subrr mul0r addr0].
  + transitivity (6%:R * h * m2); [nring (Num.ClosedField.fieldType C) | by rewrite k6 mul1r].
  + transitivity (6%:R * h * m3); [nring (Num.ClosedField.fieldType C) | by rewrite k6 mul1r].
- split.
  + transitivity (6%:R * h * (m1 - m3) + m3); [nring (Num.ClosedField.fieldType C) | by rewrite k6 mul1r subrK].
  + transitivity (4%:R * h * (1 - 6%:R * h) * (m1 - m3) + 6%:R * h * m2 + (6%:R * h - 1) * m3); [nring (Num.ClosedField.fieldType C) |].
    by rewrite k6 subrr mulr0 !mul0r add0r mul1r addr0.
  + transitivity (2%:R * h * ((6%:R * h) * (6%:R * h) - 1) * (m1 - m3) + m3); [nring (Num.ClosedField.fieldType C) |].
    by rewrite k6 mul1r subrr mulr0 mul0r add0r.
Qed.

(* jump of the pole functions over the interval *)
Definition jump_ok (s : statistic) (b : C) :=
  if s is Fermion then (1 + ex (- beta * b) != 0) && (1 + ex (beta * b) != 0)
  else (ex (- beta * b) - 1 != 0) && (1 - ex (b * beta) != 0).
Hypothesis ex0 : ex 0 = 1.

Lemma tau0 : @tau C L beta ord0 = 0. Proof. by rewrite /tau mulr0 mul0r. Qed.
Lemma tauL : @tau C L beta ord_max = beta. Proof. by rewrite /tau /= mulfK. Qed.

Lemma aux1 (E : C) : 1 + E != 0 -> E / (1 + E) = 1 - 1 / (1 + E).
Proof. by move=> h; rewrite -[X in _ = X - _](mulfV h) -mulrBl addrAC subrr add0r. Qed.
Lemma aux2 (E : C) : E - 1 != 0 -> E / (E - 1) = 1 / (E - 1) + 1.
Proof. by move=> h; rewrite -[X in _ = _ + X](mulfV h) -mulrDl (addrC 1) subrK. Qed.
Lemma aux3 (E : C) : 1 - E != 0 -> 1 / (1 - E) = E / (1 - E) + 1.
Proof. by move=> h; rewrite -[X in _ = _ + X](mulfV h) -mulrDl (addrC E) subrK. Qed.
Lemma one_jump s b : jump_ok s b ->
  one beta ex s b beta = (if s is Fermion then -1 else 1) * (one beta ex s b 0 + 1).
Proof.
have eN : - b * beta = - beta * b by rewrite !mulNr mulrC.
case: s => /= /andP [h1 h2]; rewrite /oneFermion /oneBoson subrr subr0 !mulr0 ex0 ?eN ?(mulrC b beta).
- case: ifP => _; first by rewrite aux1 // opprB mulN1r opprD opprK.
  by rewrite mulN1r opprD opprK aux1 // addrAC subrr add0r.
- rewrite [RHS]mul1r; case: ifP => _; first exact: aux2.
  by rewrite (mulrC b) in h2; apply: aux3.
Qed.

(* round trip of the transforms with the same moments: exact at every frequency of the mesh as soon as the
   run-time check on the mesh sizes passes *)
Lemma round_trip s n m1 m2 m3 (g : int -> C) w : L.-primitive_root (zh ^+ 2) -> beta != 0 ->
  (2 * n <= L)%N -> w \in wmesh s n ->
  tau_to_w_mom (L := L) beta zh ex freq s (m2, m3) (w_to_tau_mom (L := L) beta zh ex freq s n (m1, m2, m3) g) w = g w.
Proof.
move=> zP beta0 hn hw; rewrite /tau_to_w_mom /w_to_tau_mom /=.
set a := coefs s m1 m2 m3; set gin := foldl _ _ _.
have ne : (ord0 == ord_max :> T) = false by [].
rewrite ?eqxx ?ne.
set G0 := fft_forward zh gin ord0 * _ + tail_t _ _ _ _ ord0.
set m1' := (X in coefs s X m2 m3).
have -> : m1' = m1.
  rewrite /m1'; case: (s); first by rewrite mulN1r opprB addrAC subrr add0r.
  by rewrite mul1r opprB addrAC subrr add0r.
rewrite -/a.
transitivity (fft_backward (L := L) zh (fun t => L%:R^-1 * fft_forward (L := L) zh (fun k => beta * gin k) t)
                (wslot L w)%:Z + tail_w freq s a w).
  congr (_ + _); rewrite /fft_backward; apply: eq_bigr => j _; congr (_ * _).
  have hj : (inord j == ord_max :> T) = false.
    by apply/negbTE; rewrite -val_eqE /= inordK ?(leqW (ltn_ord j)) // neq_ltn ltn_ord.
  have -> : fft_forward zh (fun k => beta * gin k) (inord j : T) = beta * fft_forward zh gin (inord j : T).
    by rewrite /fft_forward mulr_sumr; apply: eq_bigr => k _; rewrite mulrA.
  rewrite hj addrK; set S := fft_forward _ _ _.
  have hz : zh ^+ (inord j : T) != 0 by rewrite expf_neq0 // (zh_neq0 zP).
  case: (s); rewrite ?mulr1.
    by rewrite -!mulrA (mulrC S) (mulVKf hz) mulrCA.
  by rewrite mulrAC mulrC mulrA.
rewrite (fft_round zP) ?wslot_lt // /gin.
have inj := wslot_inj (s := s) hn.
by rewrite (slots_fill (fun w => beta^-1 * (g w - tail_w freq s a w)) _ inj hw) mulVKf // subrK.
Qed.

(* ---- the transform depends on the data only, and is linear ---- *)
Variables V0 V1 : 'I_8 -> C.
Lemma fit_lin s (k : C) (f g : T -> C) :
  let F x := fit_derivatives (L := L) beta V0 V1 s x in
  F (fun t => k * f t + g t) = (k * (F f).1 + (F g).1, k * (F f).2 + (F g).2).
Proof.
move=> F; rewrite /F /fit_derivatives /=.
have lin (V : 'I_8 -> C) (u v : T -> C) (p q : 'I_8 -> T) (d : 'I_8 -> C) :
   \sum_m V m * ((k * u (p m) + v (p m) - (k * u (q m) + v (q m))) / d m) =
   k * (\sum_m V m * ((u (p m) - u (q m)) / d m)) + \sum_m V m * ((v (p m) - v (q m)) / d m).
  rewrite mulr_sumr -big_split; apply: eq_bigr => m _ /=.
  fring (Num.ClosedField.fieldType C).
have l1 V := lin V f g (fun m => inord m.+1) (fun=> ord0).
have l2 V := lin V f g (fun=> ord_max) (fun m => inord (L - m.+1)).
rewrite !l1 !l2; clear F; case: (s); congr (_, _); fring (Num.ClosedField.fieldType C).
Qed.

Lemma coefs_lin s (k m1 m2 m3 n1 n2 n3 : C) :
  let a := coefs s m1 m2 m3 in let b := coefs s n1 n2 n3 in
  coefs s (k * m1 + n1) (k * m2 + n2) (k * m3 + n3) =
  (k * a.1.1 + b.1.1, k * a.1.2 + b.1.2, k * a.2 + b.2).
Proof. by case: s => /=; congr (_, _, _); fring (Num.ClosedField.fieldType C). Qed.
Lemma tail_t_lin s (k : C) (a b : C * C * C) (t : T) :
  tail_t (L := L) beta ex s (k * a.1.1 + b.1.1, k * a.1.2 + b.1.2, k * a.2 + b.2) t =
  k * tail_t (L := L) beta ex s a t + tail_t (L := L) beta ex s b t.
Proof. rewrite /tail_t /=; fring (Num.ClosedField.fieldType C). Qed.
Lemma tail_w_lin s (k : C) (a b : C * C * C) w :
  tail_w freq s (k * a.1.1 + b.1.1, k * a.1.2 + b.1.2, k * a.2 + b.2) w =
  k * tail_w freq s a w + tail_w freq s b w.
Proof. rewrite /tail_w /=; fring (Num.ClosedField.fieldType C). Qed.

Lemma tau_to_w_mom_lin s (k : C) (mf mg : C * C) (f g : T -> C) w :
  let F m x := tau_to_w_mom (L := L) beta zh ex freq s m x w in
  F (k * mf.1 + mg.1, k * mf.2 + mg.2) (fun t => k * f t + g t) = k * F mf f + F mg g.
Proof.
move=> F; rewrite /F /tau_to_w_mom.
set m1 := match s with Fermion => - (k * _ + _ + _) | _ => _ end.
set m1f := match s with Fermion => - (f ord0 + _) | _ => _ end.
set m1g := match s with Fermion => - (g ord0 + _) | _ => _ end.
have -> : m1 = k * m1f + m1g by rewrite /m1 /m1f /m1g; case: (s); fring (Num.ClosedField.fieldType C).
rewrite coefs_lin tail_w_lin; move: (coefs s m1f _ _) (coefs s m1g _ _) => cf cg.
set X := fft_backward _ _ _; set Y := fft_backward _ _ _; set Z := fft_backward _ _ _.
have -> : X = k * Y + Z; last fring (Num.ClosedField.fieldType C).
rewrite /X /Y /Z /fft_backward mulr_sumr -big_split; apply: eq_bigr => j _.
rewrite tail_t_lin /=; fring (Num.ClosedField.fieldType C).
Qed.
Lemma tau_to_w_lin s (k : C) (f g : T -> C) w :
  let F x := tau_to_w (L := L) beta zh ex freq V0 V1 s x w in
  F (fun t => k * f t + g t) = k * F f + F g.
Proof. by move=> F; rewrite /F /tau_to_w fit_lin tau_to_w_mom_lin. Qed.
Lemma tau_to_w_ext s (f g : T -> C) w : f =1 g ->
  tau_to_w (L := L) beta zh ex freq V0 V1 s f w = tau_to_w (L := L) beta zh ex freq V0 V1 s g w.
Proof.
move=> e; rewrite /tau_to_w.
have -> : fit_derivatives (L := L) beta V0 V1 s f = fit_derivatives (L := L) beta V0 V1 s g.
  rewrite /fit_derivatives !e; congr (_ - _ * _, - (_ + _ * _) * _ / _); apply: eq_bigr => m _; by rewrite e.
rewrite /tau_to_w_mom !e; congr (_ + _); rewrite /fft_backward; apply: eq_bigr => j _; by rewrite e.
Qed.

(* ---- zero bosonic frequency: trapezoidal rule plus the quadrature error on the tail ---- *)
Lemma trapz_lin (k : C) (f g : T -> C) :
  trapz (C := CF) (L := L) beta (fun t => k * f t + g t) = k * trapz (C := CF) (L := L) beta f + trapz (C := CF) (L := L) beta g.
Proof.
rewrite /trapz !foldl_add !add0r big_split -mulr_sumr /=.
fring (Num.ClosedField.fieldType C).
Qed.
Lemma zero_frequency (m23 : C * C) (g : T -> C) :
  freq Boson 0 = 0 -> (forall b, (b == (poles C Boson).1.1) || (b == (poles C Boson).1.2) || (b == (poles C Boson).2) ->
    jump_ok Boson b) ->
  let a := coefs Boson (- (g ord0 - g ord_max)) m23.1 m23.2 in
  tau_to_w_mom (L := L) beta zh ex freq Boson m23 g 0 =
  trapz (C := CF) (L := L) beta g + (tail_w freq Boson a 0 - trapz (C := CF) (L := L) beta (tail_t (L := L) beta ex Boson a)).
Proof.
move=> f0 jo a; rewrite /tau_to_w_mom -/a.
have [h1 _ _] := coefs_moments Boson (- (g ord0 - g ord_max)) m23.1 m23.2.
move: h1; rewrite -/a => h1; clearbody a.
rewrite [X in _ = _ + X]addrC addrA; congr (_ + _).
have -> : wslot L 0 = 0%N by rewrite /wslot add0r modzz.
set h : T -> C := fun t => g t - tail_t beta ex Boson a t.
have hh : h ord0 = h ord_max.
  rewrite /h /tail_t tau0 tauL !(one_jump (s := Boson)) ?jo ?eqxx ?orbT // !mul1r.
  have -> : g ord_max = g ord0 + (a.1.1 + a.1.2 + a.2) by rewrite h1 opprB addrC subrK.
  by fring (Num.ClosedField.fieldType C).
have -> : trapz (C := CF) (L := L) beta g - trapz (C := CF) (L := L) beta (tail_t beta ex Boson a) = trapz (C := CF) (L := L) beta h.
  rewrite addrC -mulN1r -trapz_lin /trapz !foldl_add.
  by rewrite /h !add0r !mulN1r ![- tail_t _ _ _ _ _ + _]addrC; under eq_bigr do rewrite mulN1r addrC.
rewrite /trapz foldl_add add0r -hh -[_ - _ - _]addrA -opprD -mulrDl.
have -> : 2%:R^-1 + 2%:R^-1 = 1 :> C by rewrite -[X in X + _]mul1r -[X in _ + X]mul1r -mulrDl -(natrD _ 1 1) mulfV // pnatr_eq0.
rewrite mul1r hh big_ord_recr /= addrK mulr_suml /fft_backward; apply: eq_bigr => j _.
rewrite absz0 muln0 expr0 !mulr1 mulrC; congr (_ * _); rewrite /h.
by have -> : inord j = widen_ord (leqnSn L) j by apply: val_inj; rewrite /= inordK // leqW // ltn_ord.
Qed.
End P.
