(* C91 (vertex of the Hubbard atom). *)
From mathcomp Require Import all_ssreflect all_algebra all_field.
From mathcomp Require Import zify.
From Verif Require Import Fring MatsubaraSum HubbardAtomModel HubbardAtomThms.
Set Implicit Arguments.
Unset Strict Implicit.
Unset Printing Implicit Defensive.
Import Order.TTheory GRing.Theory Num.Theory.
Local Open Scope ring_scope.

Section Vertex.
Variables (C : numClosedFieldType) (exp tan : C -> C) (pi beta U : C).
Add Ring CringQ : (fld_rt C).
Add Field CfieldQ : (fld_ft (Num.ClosedField.fieldType C)).
Local Notation nu := (fermion pi beta).
Local Notation om := (boson pi beta).
Local Notation aa := (U * U * 4%:R^-1).
Local Notation e := (exp (beta * U * 2%:R^-1)).
Local Notation chi := (chi_ph_magnetic exp beta U).
Local Notation B2 := (cB exp beta U * cB exp beta U).
Hypothesis par : parameters exp pi beta U.
(* C91: the vertex solves the Bethe-Salpeter equation *)
Local Notation gamma := (gamma_ph_magnetic exp tan beta U).
Local Notation chi0 := (chi0_m beta U).
Local Notation A2 := (cA U * cA U).
(* the transition frequency squared of the bubble *)
Local Notation zz m n := (- nu n * (nu n + om m)).
Lemma z_reflect m n : zz m (- n - m - 1) = zz m n.
Proof.
have -> : nu (- n - m - 1) = - (nu n + om m) by rewrite nu_shift -nu_reflect; congr nu; lia.
by fring C.
Qed.
Lemma den_reflect m n : denominator U (om m) (nu (- n - m - 1)) = denominator U (om m) (nu n).
Proof.
have -> : nu (- n - m - 1) = - (nu n + om m) by rewrite nu_shift -nu_reflect; congr nu; lia.
by rewrite /denominator; fring C.
Qed.
Lemma denE m n : denominator U (om m) (nu n) = (zz m n + aa) * (zz m n + aa) - aa * (om m * om m).
Proof. by rewrite /denominator; fring C. Qed.
Lemma z_neq0 m n : zz m n <> 0.
Proof. by case: par => p b _ _ _; apply/eqP; rewrite nu_shift mulf_neq0 ?oppr_eq0 ?nu_neq0. Qed.
Lemma A2E : A2 = - aa.
Proof.
have -> : aa = U * 2%:R^-1 * (U * 2%:R^-1) by rewrite -[4%N]/(2 * 2)%N natrM invfM; fring C.
have i2 : 'i * 'i = -1 :> C by rewrite -expr2 sqrCi.
have -> : cA U * cA U = 'i * 'i * (U * 2%:R^-1 * (U * 2%:R^-1)) by rewrite /cA; fring C.
by rewrite i2 mulN1r.
Qed.
Lemma chi_sum m n (v : int -> C) V1 V2 : (forall k, v (- k - m - 1) = v k) ->
  lim (win^~ (fun k => v k * chi_b1 exp beta U (om m) (nu k))) V1 -> lim (win^~ (fun k => v k * chi_b2 exp beta U (om m) (nu k))) V2 ->
  lim (win^~ (fun k => v k * chi (om m) (nu k) (nu n)))
    (2%:R * v n * chi_b0 exp beta U (om m) (nu n) + V1 * chi_b1 exp beta U (om m) (nu n) + V2 * chi_b2 exp beta U (om m) (nu n)).
Proof.
move=> hv l1 l2; set b0 := chi_b0 exp beta U (om m); set a0 := chi_a0 beta U (om m).
set b1 := chi_b1 exp beta U (om m); set b2 := chi_b2 exp beta U (om m).
have := lim_wadd (lim_wadd (lim_wadd (lim_at n (fun k => v k * (b0 (nu k) + a0 (nu k)))) (lim_at (- n - m - 1) (fun k => v k * (b0 (nu k) - a0 (nu k)))))
  (lim_wscale (b1 (nu n)) l1)) (lim_wscale (b2 (nu n)) l2).
move=> H; apply: lim_eq (lim_wext _ H) _ => [k|].
  rewrite /chi_ph_magnetic (kron par) (kron' par) eq_sym; have -> : (n == - k - m - 1) = (k == - n - m - 1) by lia.
  by rewrite -/b0 -/a0 -/b1 -/b2; fring C.
rewrite hv; have -> : b0 (nu (- n - m - 1)) = b0 (nu n) by rewrite /b0 /chi_b0 den_reflect z_reflect.
have -> : a0 (nu (- n - m - 1)) = a0 (nu n) by rewrite /a0 /chi_a0 den_reflect z_reflect.
by rewrite (mulr2n 1); fring C.
Qed.
Lemma chi_reflect m n1 n2 : chi (om m) (nu (- n1 - m - 1)) (nu n2) =
  (if n1 == n2 then 1 else 0) * (chi_b0 exp beta U (om m) (nu n1) - chi_a0 beta U (om m) (nu n1)) +
  (if n1 == - n2 - m - 1 then 1 else 0) * (chi_b0 exp beta U (om m) (nu n1) + chi_a0 beta U (om m) (nu n1)) +
  chi_b1 exp beta U (om m) (nu n1) * chi_b1 exp beta U (om m) (nu n2) + chi_b2 exp beta U (om m) (nu n1) * chi_b2 exp beta U (om m) (nu n2).
Proof.
rewrite /chi_ph_magnetic (kron par) (kron' par) /chi_b0 /chi_a0 /chi_b1 /chi_b2 den_reflect z_reflect.
have -> : (n2 == - (- n1 - m - 1) - m - 1) = (n1 == n2) by lia.
have -> : (n2 == - n1 - m - 1) = (n1 == - n2 - m - 1) by lia.
by congr (_ + _ + _); rewrite addrC.
Qed.
(* the sum over the internal frequency *)
Lemma gamma_chi m n1 n2 S SB :
  lim (win^~ (fun k => chi (om m) (nu k) (nu n2))) S -> lim (win^~ (fun k => 1 / (zz m k - B2) * chi (om m) (nu k) (nu n2))) SB ->
  lim (win^~ (fun k => gamma (om m) (nu n1) (nu k) * chi (om m) (nu k) (nu n2)))
    (- (1 / beta / beta) * (gamma_b0 exp beta U (om m) (nu n1) * (chi (om m) (nu n1) (nu n2) + chi (om m) (nu (- n1 - m - 1)) (nu n2)) +
       gamma_a0 beta U (om m) (nu n1) * (chi (om m) (nu n1) (nu n2) - chi (om m) (nu (- n1 - m - 1)) (nu n2)) +
       gamma_D exp tan beta U (om m) / (zz m n1 - B2) * SB - U * S)).
Proof.
move=> l1 l2; set gb := gamma_b0 _ _ _ _ _; set ga := gamma_a0 _ _ _ _.
have := lim_wadd (lim_wadd (lim_wadd (lim_at n1 (fun k => (gb + ga) * chi (om m) (nu k) (nu n2))) (lim_at (- n1 - m - 1) (fun k => (gb - ga) * chi (om m) (nu k) (nu n2))))
  (lim_wscale (gamma_D exp tan beta U (om m) / (zz m n1 - B2)) l2)) (lim_wscale (- U) l1).
move=> /(lim_wscale (- (1 / beta / beta))) H; apply: lim_eq (lim_wext _ H) _ => [k|].
  rewrite /gamma_ph_magnetic (kron par) (kron' par) -/gb -/ga; fring C.
fring C.
Qed.
Lemma chi0E m n : chi0 (om m) (nu n) (nu n) = beta * zz m n / denominator U (om m) (nu n).
Proof.
case: (par) => p b u _ _; rewrite /chi0_m /kronecker eqxx mulr1 (addrC (om m)) nu_shift !(GE par) /denominator !nu_shift.
have /eqP := lt0r_neq0 (gap p b u n); have /eqP := lt0r_neq0 (gap p b u (n + m)); move: (nu n) (nu (n + m)) => x y h1 h2; move: aa h1 h2 => c h1 h2; ffield C; by do ?split.
Qed.
Local Notation s m := (sqrtC (U * (1 - cC exp beta U (om m)))).
Local Notation d m := (cD exp beta U (om m)).
Local Notation q m := ('i * sqrtC (U * U * U * 4%:R^-1) * sqrtC (U * U / (1 - cC exp beta U (om m)) - om m * om m)).
Lemma residual m n1 n2 S SB : zz m n1 - B2 <> 0 -> zz m n1 - A2 <> 0 ->
  chi (om m) (nu n1) (nu n2) / chi0 (om m) (nu n1) (nu n1) - (if n1 == n2 then 1 else 0) -
    - (1 / beta / beta) * (gamma_b0 exp beta U (om m) (nu n1) * (chi (om m) (nu n1) (nu n2) + chi (om m) (nu (- n1 - m - 1)) (nu n2)) +
       gamma_a0 beta U (om m) (nu n1) * (chi (om m) (nu n1) (nu n2) - chi (om m) (nu (- n1 - m - 1)) (nu n2)) +
       gamma_D exp tan beta U (om m) / (zz m n1 - B2) * SB - U * S) =
  (beta * (s m * (zz m n1 - d m) * chi_b1 exp beta U (om m) (nu n2) + q m * chi_b2 exp beta U (om m) (nu n2)) +
    gamma_D exp tan beta U (om m) * SB - U * (zz m n1 - B2) * S) / (beta * beta * (zz m n1 - B2)).
Proof.
rewrite chi_reflect chi0E {1 2 3}/chi_ph_magnetic (kron par) (kron' par).
have -> : (n2 == n1) = (n1 == n2) by rewrite eq_sym.
have -> : (n2 == - n1 - m - 1) = (n1 == - n2 - m - 1) by lia.
rewrite /gamma_b0 /gamma_a0 /chi_b0 /chi_a0 /chi_b1 /chi_b2.
have /eqP d1 : denominator U (om m) (nu n1) != 0 by case: (par) => p b u _ _; exact: den_neq0.
have /eqP d2 : denominator U (om m) (nu n2) != 0 by case: (par) => p b u _ _; exact: den_neq0.
have z1 := @z_neq0 m n1; have /eqP b0 : beta != 0 by case: (par) => p b _ _ _; rewrite lt0r_neq0.
have t2 := @two_neq0 C; rewrite (mulr2n 1) in t2 *.
move: (zz m n1) (zz m n2) (denominator _ _ (nu n1)) (denominator _ _ (nu n2)) z1 d1 d2 => z z2 D1 D2 z1 d1 d2.
move: (gamma_D _ _ _ _ _) (cA U) (cB _ _ _) (s m) (d m) => gD A B s d; move: (if _ then _ else _) (if _ then _ else _) (sqrtC _) (sqrtC _) => k1 k2 q1 q2.
move: 'i => I h1 h2; ffield C; by do ?split.
Qed.
(* the algebra of the symmetric sector *)
Lemma sector (b V z1 z2 D2 BB k t dd r x0 x1 Q P I g : C) :
  b * (t * t) = V * b + V * (t * t) * (x1 - dd * x0) -> - b * (t * t) * dd = V * (- b * BB - t * t * dd * (x1 - dd * x0) + r * r * x0) ->
  P * I = Q - x1 - (BB + (1 + 1) * k) * x0 -> g * (V * Q - b) = - b * V * P -> V * Q - b <> 0 ->
  - b * (BB - dd) = V * (P * x0 - (BB - dd) * (x1 + (BB + (1 + 1) * k) * x0)) ->
  - b * (r * r) = V * P * b - V * (r * r) * (x1 + (BB + (1 + 1) * k) * x0) ->
  b * (t * (z1 - dd) * (t * (z2 - dd) / D2) + r * (r / D2)) +
    g * (b / D2 + t * (x0 + (BB - dd) * I) * (t * (z2 - dd) / D2) + r * I * (r / D2)) -
    V * (z1 - BB) * (b * (z2 - BB) / D2 + t * (x1 - dd * x0) * (t * (z2 - dd) / D2) + r * x0 * (r / D2)) = 0.
Proof.
move=> hA hB hI hG /eqP hQ hC hD.
have C' : g * (x0 + (BB - dd) * I) = - b * (BB - dd).
  apply: (mulIf hQ); have -> : g * (x0 + (BB - dd) * I) * (V * Q - b) = g * (V * Q - b) * (x0 + (BB - dd) * I) by fring C.
  rewrite hG; have -> : - b * V * P * (x0 + (BB - dd) * I) = - b * (V * (P * x0 + (BB - dd) * (P * I))) by fring C.
  rewrite hI; have -> : V * (P * x0 + (BB - dd) * (Q - x1 - (BB + (1 + 1) * k) * x0)) = V * (P * x0 - (BB - dd) * (x1 + (BB + (1 + 1) * k) * x0)) + V * (BB - dd) * Q by fring C.
  by rewrite -hC; fring C.
have D' : g * (b + r * r * I) = - b * (r * r).
  apply: (mulIf hQ); have -> : g * (b + r * r * I) * (V * Q - b) = g * (V * Q - b) * (b + r * r * I) by fring C.
  rewrite hG; have -> : - b * V * P * (b + r * r * I) = - b * (V * P * b + V * (r * r) * (P * I)) by fring C.
  rewrite hI; have -> : V * P * b + V * (r * r) * (Q - x1 - (BB + (1 + 1) * k) * x0) = V * P * b - V * (r * r) * (x1 + (BB + (1 + 1) * k) * x0) + V * (r * r) * Q by fring C.
  by rewrite -hD; fring C.
have E : V * (b * (z2 - BB) + t * t * (z2 - dd) * (x1 - dd * x0) + r * r * x0) = b * (t * t) * (z2 - dd).
  have -> : b * (t * t) * (z2 - dd) = b * (t * t) * z2 + - b * (t * t) * dd by fring C.
  by rewrite hA hB; fring C.
have -> : b * (t * (z1 - dd) * (t * (z2 - dd) / D2) + r * (r / D2)) +
    g * (b / D2 + t * (x0 + (BB - dd) * I) * (t * (z2 - dd) / D2) + r * I * (r / D2)) -
    V * (z1 - BB) * (b * (z2 - BB) / D2 + t * (x1 - dd * x0) * (t * (z2 - dd) / D2) + r * x0 * (r / D2)) =
    (b * (t * t) * (z1 - dd) * (z2 - dd) + b * (r * r) + (g * (b + r * r * I) + t * t * (z2 - dd) * (g * (x0 + (BB - dd) * I))) -
     (z1 - BB) * (V * (b * (z2 - BB) + t * t * (z2 - dd) * (x1 - dd * x0) + r * r * x0))) / D2 by fring C.
by rewrite C' D' E; fring C.
Qed.
(* the sum of 1 / (z - B^2) over all frequencies *)
Definition tan_sum (m : int) : Prop := lim (win^~ (fun n => 1 / (zz m n - B2)))
  (beta * tan (beta * 4%:R^-1 * (sqrtC (4%:R * cB exp beta U * cB exp beta U - om m * om m) - 'i * om m)) / sqrtC (4%:R * cB exp beta U * cB exp beta U - om m * om m)).
(* no factor of the vertex divides by zero *)
Definition finite (m n1 : int) : Prop := (forall n, zz m n - B2 <> 0) /\ zz m n1 - A2 <> 0 /\
  U * tan (beta * 4%:R^-1 * (sqrtC (4%:R * cB exp beta U * cB exp beta U - om m * om m) - 'i * om m)) / sqrtC (4%:R * cB exp beta U * cB exp beta U - om m * om m) - 1 <> 0.
Lemma inner_sum m n2 x0 x1 Q : (forall n, zz m n - B2 <> 0) -> (B2 + aa) * (B2 + aa) - aa * (om m * om m) <> 0 ->
  lim (win^~ (fun n => 1 / denominator U (om m) (nu n))) x0 -> lim (win^~ (fun n => zz m n / denominator U (om m) (nu n))) x1 ->
  lim (win^~ (fun n => 1 / (zz m n - B2))) Q ->
  let I := (Q - x1 - (B2 + (1 + 1) * aa) * x0) / ((B2 + aa) * (B2 + aa) - aa * (om m * om m)) in
  let b1 := s m * (zz m n2 - d m) / denominator U (om m) (nu n2) in let b2 := q m / denominator U (om m) (nu n2) in
  lim (win^~ (fun k => chi (om m) (nu k) (nu n2)))
   (beta * (zz m n2 - B2) / denominator U (om m) (nu n2) + s m * (x1 - d m * x0) * b1 + q m * x0 * b2) /\
  lim (win^~ (fun k => 1 / (zz m k - B2) * chi (om m) (nu k) (nu n2)))
   (beta / denominator U (om m) (nu n2) + s m * (x0 + (B2 - d m) * I) * b1 + q m * I * b2).
Proof.
move=> hz hP l0 l1 lQ I b1 b2.
have dn n : denominator U (om m) (nu n) <> 0 by apply/eqP; case: (par) => p b u _ _; exact: den_neq0.
have t2 := @two_neq0 C.
have lI : lim (win^~ (fun n => 1 / (zz m n - B2) * (1 / denominator U (om m) (nu n)))) I.
  have := lim_wscale (((B2 + aa) * (B2 + aa) - aa * (om m * om m))^-1) (lim_wadd (lim_wadd lQ (lim_wscale (- 1) l1)) (lim_wscale (- (B2 + (1 + 1) * aa)) l0)).
  move=> H; apply: lim_eq (lim_wext _ H) _ => [n|]; last by rewrite /I; fring C.
  have := dn n; rewrite denE; move: (hz n) hP; move: (zz m n) (B2) (aa) (om m * om m) => z BB c ww h1 h2 h3; ffield C; by do ?split.
split.
  have v1 : lim (win^~ (fun k => 1 * chi_b1 exp beta U (om m) (nu k))) (s m * (x1 - d m * x0)).
    have := lim_wadd (lim_wscale (s m) l1) (lim_wscale (- (s m * d m)) l0) => H; apply: lim_eq (lim_wext _ H) _ => [n|]; last by fring C.
    by rewrite /chi_b1; fring C.
  have v2 : lim (win^~ (fun k => 1 * chi_b2 exp beta U (om m) (nu k))) (q m * x0).
    have H := lim_wscale (q m) l0; apply: lim_wext H => n; by rewrite /chi_b2; fring C.
  have H := @chi_sum m n2 (fun _ => 1) _ _ (fun _ => erefl) v1 v2; apply: lim_eq (lim_wext _ H) _ => [n|]; first by rewrite mul1r.
  rewrite /b1 /b2 -/(chi_b1 exp beta U (om m) (nu n2)) -/(chi_b2 exp beta U (om m) (nu n2)); congr (_ + _ + _).
  by rewrite /chi_b0; move: (dn n2) t2; rewrite (mulr2n 1) => h h'; ffield C; do ?split.
have v1 : lim (win^~ (fun k => 1 / (zz m k - B2) * chi_b1 exp beta U (om m) (nu k))) (s m * (x0 + (B2 - d m) * I)).
  have := lim_wadd (lim_wscale (s m) l0) (lim_wscale (s m * (B2 - d m)) lI) => H; apply: lim_eq (lim_wext _ H) _ => [n|]; last by fring C.
  rewrite /chi_b1; move: (dn n) (hz n); move: (zz m n) (denominator _ _ _) (B2) (s m) (d m) => z D BB t dd h h'; ffield C; by do ?split.
have v2 : lim (win^~ (fun k => 1 / (zz m k - B2) * chi_b2 exp beta U (om m) (nu k))) (q m * I).
  have H := lim_wscale (q m) lI; apply: lim_wext H => n; by rewrite /chi_b2; fring C.
have hv k : 1 / (zz m (- k - m - 1) - B2) = 1 / (zz m k - B2) by rewrite z_reflect.
have H := @chi_sum m n2 _ _ _ hv v1 v2; apply: lim_eq H _.
rewrite /b1 /b2 -/(chi_b1 exp beta U (om m) (nu n2)) -/(chi_b2 exp beta U (om m) (nu n2)); congr (_ + _ + _).
rewrite /chi_b0; move: (dn n2) (hz n2) t2; rewrite (mulr2n 1); move: (zz m n2) (denominator _ _ _) => z D h h' h''; ffield C; by do ?split.
Qed.
Lemma gammaD_E m Q : Q = beta * tan (beta * 4%:R^-1 * (sqrtC (4%:R * cB exp beta U * cB exp beta U - om m * om m) - 'i * om m)) / sqrtC (4%:R * cB exp beta U * cB exp beta U - om m * om m) ->
  U * Q - beta <> 0 -> gamma_D exp tan beta U (om m) * (U * Q - beta) = - beta * U * ((B2 + aa) * (B2 + aa) - aa * (om m * om m)).
Proof.
case: (par) => p b u _ _; have b0 : beta <> 0 by apply/eqP; rewrite lt0r_neq0.
have u0 : U <> 0 by apply/eqP; rewrite lt0r_neq0.
have f0 : 4%:R <> 0 :> C by apply/eqP; rewrite pnatr_eq0.
rewrite /gamma_D; set X := tan _; set y := sqrtC _ => QE.
have -> : U * X / y = U * Q / beta.
  rewrite QE; move: (y^-1) (X) => y' X'.
  by ffield C.
rewrite expr2; move: (om m) (cB _ _ _) (4%:R) f0 => w B f f0 h; by ffield C; do ?split.
Qed.
Lemma bse m n1 n2 x0 x1 Q : (B2 + aa) * (B2 + aa) - aa * (om m * om m) <> 0 ->
  lim (win^~ (fun n => 1 / denominator U (om m) (nu n))) x0 -> lim (win^~ (fun n => zz m n / denominator U (om m) (nu n))) x1 ->
  Q = beta * tan (beta * 4%:R^-1 * (sqrtC (4%:R * cB exp beta U * cB exp beta U - om m * om m) - 'i * om m)) / sqrtC (4%:R * cB exp beta U * cB exp beta U - om m * om m) ->
  lim (win^~ (fun n => 1 / (zz m n - B2))) Q -> finite m n1 ->
  beta * (s m * s m) = U * beta + U * (s m * s m) * (x1 - d m * x0) ->
  - beta * (s m * s m) * d m = U * (- beta * B2 - s m * s m * d m * (x1 - d m * x0) + q m * q m * x0) ->
  - beta * (B2 - d m) = U * (((B2 + aa) * (B2 + aa) - aa * (om m * om m)) * x0 - (B2 - d m) * (x1 + (B2 + (1 + 1) * aa) * x0)) ->
  - beta * (q m * q m) = U * ((B2 + aa) * (B2 + aa) - aa * (om m * om m)) * beta - U * (q m * q m) * (x1 + (B2 + (1 + 1) * aa) * x0) ->
  lim (win^~ (fun k => gamma (om m) (nu n1) (nu k) * chi (om m) (nu k) (nu n2)))
   (chi (om m) (nu n1) (nu n2) / chi0 (om m) (nu n1) (nu n1) - (if n1 == n2 then 1 else 0)).
Proof.
move=> hP l0 l1 QE lQ [hz [hA hT]] eA eB eC eD; have [S SB] := inner_sum n2 hz hP l0 l1 lQ.
apply: lim_eq (gamma_chi n1 S SB) _; apply/eqP; rewrite eq_sym -subr_eq0; apply/eqP; rewrite residual //.
case: (par) => p b u _ _; have b0 : beta <> 0 by apply/eqP; rewrite lt0r_neq0.
have hQ : U * Q - beta <> 0.
  move=> h; apply: hT; apply/eqP; rewrite -(mulrI_eq0 _ (mulfI (introN eqP b0))); apply/eqP; rewrite -[RHS]h QE.
  set X := tan _; set y := sqrtC _; by fring C.
rewrite /chi_b1 /chi_b2; have hG := gammaD_E QE hQ.
have I_E : ((B2 + aa) * (B2 + aa) - aa * (om m * om m)) * ((Q - x1 - (B2 + (1 + 1) * aa) * x0) / ((B2 + aa) * (B2 + aa) - aa * (om m * om m))) = Q - x1 - (B2 + (1 + 1) * aa) * x0.
  by rewrite mulrC mulfVK //; apply/eqP.
by rewrite (sector (zz m n1) (zz m n2) (denominator U (om m) (nu n2)) eA eB I_E hG hQ eC eD) mul0r.
Qed.
Lemma bubble m n1 n2 k : chi0 (om m) (nu n1) (nu k) = (if k == n1 then 1 else 0) * chi0 (om m) (nu n1) (nu n1) /\
  chi0 (om m) (nu n1) (nu n2) = (if n1 == n2 then 1 else 0) * chi0 (om m) (nu n1) (nu n1).
Proof.
have K : forall j, chi0 (om m) (nu n1) (nu j) = (if j == n1 then 1 else 0) * chi0 (om m) (nu n1) (nu n1).
  move=> j; rewrite /chi0_m !(kron par) eqxx; case: (j =P n1) => [->|_]; first by rewrite mul1r.
  by rewrite mulr0 !mul0r.
by split; rewrite K // eq_sym.
Qed.
Hypotheses (sumT : tanh_sum exp pi beta U) (sumT2 : tanh_sum2 exp pi beta U) (expV : exp_inverse exp beta U).
(* C91: chi = chi_0 + chi_0 Gamma chi *)
Definition bethe_salpeter (m n1 n2 : int) : Prop :=
  lim (fun N => chi0 (om m) (nu n1) (nu n2) +
         win N (fun k => chi0 (om m) (nu n1) (nu k) * win N (fun k' => gamma (om m) (nu k) (nu k') * chi (om m) (nu k') (nu n2))))
      (chi (om m) (nu n1) (nu n2)).
Lemma bethe_salpeterE m n1 n2 : bethe_salpeter m n1 n2 <-> lim (win^~ (fun k => gamma (om m) (nu n1) (nu k) * chi (om m) (nu k) (nu n2)))
   (chi (om m) (nu n1) (nu n2) / chi0 (om m) (nu n1) (nu n1) - (if n1 == n2 then 1 else 0)).
Proof.
case: (par) => p b u ep ar; have b0 : beta != 0 by rewrite lt0r_neq0.
have c0 : chi0 (om m) (nu n1) (nu n1) != 0.
  have /eqP z0 := @z_neq0 m n1; rewrite chi0E; apply: mulf_neq0; [exact: mulf_neq0 | by rewrite invr_eq0 den_neq0].
have W N : ((absz n1).+1 <= N)%N -> win N (fun k => chi0 (om m) (nu n1) (nu k) * win N (fun k' => gamma (om m) (nu k) (nu k') * chi (om m) (nu k') (nu n2))) =
    chi0 (om m) (nu n1) (nu n1) * win N (fun k' => gamma (om m) (nu n1) (nu k') * chi (om m) (nu k') (nu n2)).
  move=> hN; rewrite -(win_at (fun k => chi0 (om m) (nu n1) (nu n1) * win N (fun k' => gamma (om m) (nu k) (nu k') * chi (om m) (nu k') (nu n2))) hN).
  by apply: win_ext => k; rewrite (proj1 (bubble m n1 n2 k)) mulrA.
split=> H.
  have H' := lim_scale (chi0 (om m) (nu n1) (nu n1))^-1 (lim_add (lim_const (- chi0 (om m) (nu n1) (nu n2))) H).
  apply: lim_eq (@lim_eventually _ _ _ _ (absz n1).+1 _ H') _ => [N hN|].
    by rewrite addKr (W N hN) mulKf.
  rewrite (proj2 (bubble m n1 n2 n1)) mulrDr mulrN mulrCA mulVf // mulr1 mulrC addrC //.
apply: lim_eq (lim_add (lim_const (chi0 (om m) (nu n1) (nu n2))) (lim_eventually W (lim_scale (chi0 (om m) (nu n1) (nu n1)) H))) _.
rewrite (proj2 (bubble m n1 n2 n1)) mulrBr mulrC [_ * (_ / _)]mulrC mulfVK //; fring C.
Qed.
Theorem C91_bethe_salpeter : 3%:R <= e -> forall m n1 n2, tan_sum m -> finite m n1 -> bethe_salpeter m n1 n2.
Proof.
move=> he m n1 n2 lQ fin; case: (par) => p b u ep ar.
have e0 : 1 + e <> 0 by apply/eqP; rewrite lt0r_neq0 // addr_gt0 ?ltr01.
have e1 : e <> 0 by apply/eqP; rewrite lt0r_neq0.
have u0 : U <> 0 by apply/eqP; rewrite lt0r_neq0.
have b0 : beta <> 0 by apply/eqP; rewrite lt0r_neq0.
have t2 : 2%:R <> 0 :> C by exact: two_neq0.
have f4 : 4%:R = 2%:R * 2%:R :> C by rewrite -natrM.
have t4 : 2%:R * 2%:R <> 0 :> C by rewrite -f4; apply/eqP; rewrite pnatr_eq0.
have f3 : 3%:R = 2%:R + 1 :> C by rewrite -[3%N]/(2 + 1)%N natrD.
have B2' : B2 = aa * ((3%:R - e) / (1 + e)) by rewrite B2E ler0_norm ?subr_le0 // mulNr mulrN opprK.
have hP : (B2 + aa) * (B2 + aa) - aa * (om m * om m) <> 0.
  have -> : B2 + aa = U * U / (1 + e).
    rewrite B2' f3 f4; move: (e) e0 t2 t4 => E; rewrite (mulr2n 1) => e0 t2 t4; ffield C; by do ?split.
  apply/eqP; rewrite lt0r_neq0 // ltr_spaddl //.
    by rewrite !mulr_gt0 ?invr_gt0 ?addr_gt0 ?ltr01.
  by rewrite -mulrN mulr_ge0 ?oppr_ge0 ?im_sq // ?mulr_ge0 ?invr_ge0 ?ler0n ?(ltW u) //; apply: im_om.
apply/bethe_salpeterE.
have [m0|m0] := eqVneq m 0; last first.
  have s0 := sum0 p b u ar sumT m0; have s1 := sum1 p b u ar sumT m0.
  have cC0 : cC exp beta U (om m) = 0 by rewrite /cC om_eq0 // (negbTE m0).
  have zE n : zz m n / denominator U (om m) (nu n) = - (nu n * (nu n + om m)) / denominator U (om m) (nu n) by rewrite [- nu n * _]mulNr.
  have {}s1 := lim_wext zE s1.
  have /eqP g0 := lt0r_neq0 (gap_om p b u m).
  have hs : s m * s m = U by rewrite -expr2 sqrtCK cC0 subr0 mulr1.
  have hd : d m = aa by rewrite /cD cC0 addr0 subr0 divr1 mulr1.
  have hq : q m * q m = - (U * aa * (U * U - om m * om m)).
    rewrite cC0 subr0 divr1; set r1 := sqrtC _; set r2 := sqrtC (_ - _).
    have -> : 'i * r1 * r2 * ('i * r1 * r2) = ('i * 'i) * (r1 * r1) * (r2 * r2) by fring C.
    have -> : r1 * r1 = U * aa by rewrite -expr2 sqrtCK; fring C.
    have -> : r2 * r2 = U * U - om m * om m by rewrite -expr2 sqrtCK.
    have -> : 'i * 'i = -1 :> C by rewrite -expr2 sqrCi.
    by fring C.
  apply: (bse n2 hP s0 s1 erefl lQ fin); rewrite ?hs ?hd ?hq ?B2' ?f3 ?f4;
    move: (e) (om m) e0 e1 t2 t4 g0 => E w; rewrite (mulr2n 1) => e0 e1 t2 t4 g0; by ffield C; do ?split.
have om0 : om 0 = 0 by rewrite /boson addr0 mulr0 mul0r.
rewrite m0 in lQ fin hP *.
case: expV => ex1 ex2.
have cE : cC exp beta U (om 0) = - (beta * U / 2%:R / (1 + e^-1)) by rewrite om0 /cC eqxx ex1 !mulNr.
have c1 : 1 - cC exp beta U (om 0) <> 0.
  apply/eqP; rewrite lt0r_neq0 // cE opprK addr_gt0 ?ltr01 // divr_gt0 ?mulr_gt0 ?invr_gt0 ?ltr0n // addr_gt0 ?ltr01 ?invr_gt0 //.
have gn n : - (nu n * nu n) + aa <> 0 by apply/eqP/lt0r_neq0/gap.
have sE0 n : 1 / denominator U (om 0) (nu n) = 1 / (- (nu n * nu n) + aa) ^+ 2 by rewrite om0 /denominator addr0 expr2.
have s0 := lim_wext sE0 sumT2.
have sE n : zz 0 n / denominator U (om 0) (nu n) = 1 / (- (nu n * nu n) + aa) + - aa * (1 / (- (nu n * nu n) + aa) ^+ 2).
  rewrite om0 /denominator addr0 expr2; have := gn n; move: (nu n) (aa) => x c h; ffield C; by do ?split.
have s1 := lim_wext sE (lim_wadd sumT (lim_wscale (- aa) sumT2)).
have hs : s 0 * s 0 = U * (1 - cC exp beta U (om 0)) by rewrite -expr2 sqrtCK.
have hq : q 0 * q 0 = - (U * aa * (U * U / (1 - cC exp beta U (om 0)))).
  rewrite om0 mul0r subr0; set r1 := sqrtC _; set r2 := sqrtC (_ / _).
  have -> : 'i * r1 * r2 * ('i * r1 * r2) = ('i * 'i) * (r1 * r1) * (r2 * r2) by fring C.
  have -> : r1 * r1 = U * aa by rewrite -expr2 sqrtCK; fring C.
  have -> : r2 * r2 = U * U / (1 - cC exp beta U 0) by rewrite -expr2 sqrtCK.
  have -> : 'i * 'i = -1 :> C by rewrite -expr2 sqrCi.
  by fring C.
have C2 : 2%:R * (1 + e) + beta * U * e <> 0 by apply/eqP; rewrite lt0r_neq0 // addr_gt0 ?mulr_gt0 ?addr_gt0 ?ltr01 ?ltr0n.
have E1 : 1 + e^-1 <> 0 by apply/eqP; rewrite lt0r_neq0 // addr_gt0 ?ltr01 ?invr_gt0.
apply: (bse n2 hP s0 s1 erefl lQ fin); rewrite ?hs ?hq /cD ?B2' ?f3 ?f4 ?cE ?om0 ?expr2;
  move: C2 t2 t4 E1 e1 e0; rewrite !(mulr2n 1); move: (e) => E C2 t2 t4 E1 e1 e0;
  (have h4 : (1 + 1) * (E + 1) - - (beta * U * E) <> 0 by rewrite opprK (addrC E));
  by ffield C; do ?split.
Qed.
(* below beta U = 2 log 3 it is violated: at every finite transfer and every n2 it fails at one of any two frequencies n1 of different energy *)
Theorem C91_bethe_salpeter_refuted : ~ (3%:R <= e) -> forall m n1 n1' n2, m != 0 -> tan_sum m -> finite m n1 -> finite m n1' -> zz m n1 <> zz m n1' ->
  ~ (bethe_salpeter m n1 n2 /\ bethe_salpeter m n1' n2).
Proof.
move=> he m n1 n1' n2 m0 lQ fin fin' hz [/bethe_salpeterE H /bethe_salpeterE H']; apply: he.
case: (par) => p b u ep ar; have s0 := sum0 p b u ar sumT m0; have s1 := sum1 p b u ar sumT m0.
have e0 : 1 + e <> 0 by apply/eqP; rewrite lt0r_neq0 // addr_gt0 ?ltr01.
have u0 : U <> 0 by apply/eqP; rewrite lt0r_neq0.
have b0 : beta <> 0 by apply/eqP; rewrite lt0r_neq0.
have er : 3%:R - e \is Num.real by rewrite realB ?realn ?gtr0_real.
have cC0 : cC exp beta U (om m) = 0 by rewrite /cC om_eq0 // (negbTE m0).
have zE n : zz m n / denominator U (om m) (nu n) = - (nu n * (nu n + om m)) / denominator U (om m) (nu n) by rewrite [- nu n * _]mulNr.
have {}s1 := lim_wext zE s1.
have /eqP g0 := lt0r_neq0 (gap_om p b u m).
have hs : s m * s m = U by rewrite -expr2 sqrtCK cC0 subr0 mulr1.
have hd : d m = aa by rewrite /cD cC0 addr0 subr0 divr1 mulr1.
have hq : q m * q m = - (U * aa * (U * U - om m * om m)).
  rewrite cC0 subr0 divr1; set r1 := sqrtC _; set r2 := sqrtC (_ - _).
  have -> : 'i * r1 * r2 * ('i * r1 * r2) = ('i * 'i) * (r1 * r1) * (r2 * r2) by fring C.
  have -> : r1 * r1 = U * aa by rewrite -expr2 sqrtCK; fring C.
  have -> : r2 * r2 = U * U - om m * om m by rewrite -expr2 sqrtCK.
  have -> : 'i * 'i = -1 :> C by rewrite -expr2 sqrCi.
  by fring C.
have aa0 : 0 < aa by rewrite !mulr_gt0 ?invr_gt0 ?ltr0n.
have hP : (B2 + aa) * (B2 + aa) - aa * (om m * om m) <> 0.
  have rB : B2 + aa \is Num.real by rewrite B2E realD ?realN ?realM ?realV ?ger0_real ?addr_ge0 ?ler01 ?(ltW u) ?(ltW ep) ?ler0n.
  apply/eqP; rewrite lt0r_neq0 // ltr_spaddr //; last by rewrite -expr2 -realEsqr.
  rewrite -mulrN mulr_gt0 // oppr_gt0 lt_neqAle im_sq; last exact: im_om.
  by rewrite mulf_eq0 om_eq0 // (negbTE m0).
have [hzB [hA hT]] := fin; have [_ [hA' _]] := fin'.
have [S SB] := inner_sum n2 hzB hP s0 s1 lQ; move: S SB; set Sv := (X in lim _ X -> _); set SBv := (X in _ -> lim _ X -> _) => S SB.
have zero n : zz m n - A2 <> 0 -> lim (win^~ (fun k => gamma (om m) (nu n) (nu k) * chi (om m) (nu k) (nu n2)))
     (chi (om m) (nu n) (nu n2) / chi0 (om m) (nu n) (nu n) - (if n == n2 then 1 else 0)) ->
   beta * (s m * (zz m n - d m) * chi_b1 exp beta U (om m) (nu n2) + q m * chi_b2 exp beta U (om m) (nu n2)) + gamma_D exp tan beta U (om m) * SBv - U * (zz m n - B2) * Sv = 0.
  move=> h L; have R := residual n2 Sv SBv (hzB n) h; rewrite (lim_uniq (gamma_chi n S SB) L) subrr in R.
  move/esym/eqP: R; rewrite mulf_eq0 invr_eq0 => /orP[/eqP //|]; rewrite !mulf_eq0 orbb => /orP[] /eqP //; by move/hzB.
have R := zero n1 hA H; have R' := zero n1' hA' H'.
have /eqP : (zz m n1 - zz m n1') * (beta * s m * chi_b1 exp beta U (om m) (nu n2) - U * Sv) = 0.
  rewrite -[RHS]subr0 -{1}R -R'; fring C.
rewrite mulf_eq0 subr_eq0 => /orP[/eqP //|]; rewrite subr_eq0 => /eqP; rewrite /chi_b1 /Sv hd.
have /eqP d0 := den_neq0 p b u m n2; move: (denominator _ _ _) d0 => D d0.
have -> (x y : C) : s m * x * (s m * y / D) = s m * s m * x * y / D by fring C.
have -> (x : C) : q m * x * (q m / D) = q m * q m * x / D by fring C.
have -> (x : C) : beta * s m * (s m * x / D) = beta * (s m * s m) * x / D by fring C.
rewrite hs hq => E; have {}E : B2 = aa * ((3%:R - e) / (1 + e)).
  have F (z BB k X ww : C) : U * U - ww <> 0 -> 1 + X <> 0 -> BB - k * ((3%:R - X) / (1 + X)) = (beta * U * (z - k) / D -
      U * (beta * (z - BB) / D + U * (k * (2%:R * (beta / U * ((X - 1) / (1 + X))) / (U * U - ww)) - k * (2%:R * (beta / U * ((X - 1) / (1 + X))) / (U * U - ww))) * (z - k) / D +
         - (U * k * (U * U - ww)) * (2%:R * (beta / U * ((X - 1) / (1 + X))) / (U * U - ww)) / D)) * D / (beta * U).
    have f3 : 3%:R = 1 + 1 + 1 :> C by rewrite -[3%N]/(1 + 1 + 1)%N !natrD.
    by move=> h1 h2; rewrite f3 (mulr2n 1); ffield C; do ?split.
  apply/eqP; rewrite -subr_eq0; apply/eqP; rewrite (F (zz m n2) _ aa e _ g0 e0).
  by move/eqP: E; rewrite -subr_eq0 => /eqP ->; rewrite !mul0r.
move: E; rewrite B2E -mulrN; move/(mulfI (lt0r_neq0 aa0)); rewrite -mulNr; move/(divIf (introN eqP e0)) => E.
by rewrite -subr_le0 -eqr_normN -[X in X == _]opprK E.
Qed.
End Vertex.
Print Assumptions C91_bethe_salpeter.
Print Assumptions C91_bethe_salpeter_refuted.
