(* C41, C69, C70, C71: what is written in a file, words and decimal numbers, is what is read. *)
From Coq Require Import String Ascii ZArith QArith Lia Qpower Field.
From mathcomp Require Import all_ssreflect.
From mathcomp Require Import zify.
From Verif Require Import ParamModel WannierModel.
Set Implicit Arguments.
Unset Strict Implicit.
Unset Printing Implicit Defensive.
Local Open Scope nat_scope.
Local Open Scope string_scope.

(* written numbers: digits from the left to the right, with or without a sign *)
Definition digit_char (d : nat) : ascii := ascii_of_nat (48 + d).
Arguments digit_char : simpl never.
Definition numeral (ds : seq nat) : string := foldr (fun d s => String (digit_char d) s) "" ds.
Definition digits (ds : seq nat) : bool := all (fun d => d < 10) ds.
Fixpoint value (ds : seq nat) : Z := if ds is d :: r then (Z.of_nat d * 10 ^ Z.of_nat (size r) + value r)%Z else 0%Z.
Inductive sgn := Plus | Minus | Bare.
Definition sgn_text (g : sgn) : string := match g with Plus => "+" | Minus => "-" | Bare => "" end.
Definition signed (g : sgn) (z : Z) : Z := if g is Minus then (- z)%Z else z.
Definition exponent_text (x : option (bool * sgn * seq nat)) : string :=
  if x is Some (up, g, es) then (if up then "E" else "e") ++ sgn_text g ++ numeral es else "".
Definition exponent_value (x : option (bool * sgn * seq nat)) : Z := if x is Some (_, g, es) then signed g (value es) else 0%Z.
Definition exponent_ok (x : option (bool * sgn * seq nat)) : bool := if x is Some (_, _, es) then digits es && (es != [::]) else true.
(* words separated by white space *)
Fixpoint all_chars (p : ascii -> bool) (s : string) : bool := if s is String c s' then p c && all_chars p s' else true.
Definition blank (s : string) : bool := all_chars is_space s && (s != "").
Definition word (s : string) : bool := all_chars (fun c => ~~ is_space c) s && (s != "").
Definition line (b : string) (ws : seq (string * string)) : string := b ++ foldr (fun p s => p.1 ++ p.2 ++ s) "" ws.

Lemma app_assoc_s (a b c : string) : (a ++ b) ++ c = a ++ b ++ c.
Proof. by elim: a => //= x a ->. Qed.
Lemma app_nil_s (a : string) : a ++ "" = a. Proof. by elim: a => //= x a ->. Qed.
Lemma digit_ok d : d < 10 -> digit (digit_char d) = Some (Z.of_nat d).
Proof.
have /allP h : all (fun d => digit (digit_char d) == Some (Z.of_nat d)) (iota 0 10) by vm_compute.
by move=> hd; apply/eqP/h; rewrite mem_iota.
Qed.
Definition no_sign (s : string) : bool := if s is String c _ then ~~ Ascii.eqb c "-" && ~~ Ascii.eqb c "+" else true.
Lemma digit_nosign d s : d < 10 -> no_sign (String (digit_char d) s).
Proof.
have /allP h : all (fun d => no_sign (String (digit_char d) "")) (iota 0 10) by vm_compute.
by move=> hd; apply: (h d); rewrite mem_iota.
Qed.
Lemma sign_bare s : no_sign s -> sign s = (1%Z, s).
Proof. by case: s => [|[[] [] [] [] [] [] [] []] s]. Qed.
Lemma spanS c s acc k d : digit c = Some d -> span (String c s) acc k = span s (acc * 10 + d)%Z k.+1.
Proof. by move=> h; rewrite [LHS]/= h. Qed.
Lemma valueS d ds : value (d :: ds) = (Z.of_nat d * 10 ^ Z.of_nat (size ds) + value ds)%Z. Proof. by []. Qed.
Lemma pow_size (A : Type) (d : A) ds : (10 ^ Z.of_nat (size (d :: ds)) = 10 * 10 ^ Z.of_nat (size ds))%Z.
Proof. rewrite -Z.pow_succ_r; [congr (_ ^ _)%Z; exact: Nat2Z.inj_succ | exact: Nat2Z.is_nonneg]. Qed.
Lemma span_numeral ds s acc k : digits ds -> span (numeral ds ++ s) acc k = span s (acc * 10 ^ Z.of_nat (size ds) + value ds)%Z (size ds + k).
Proof.
elim: ds acc k => [|d ds ih] acc k; first by rewrite Z.mul_1_r Z.add_0_r.
move=> /andP[hd hs]; rewrite -[numeral _ ++ s]/(String (digit_char d) (numeral ds ++ s)) (spanS _ _ _ (digit_ok hd)) ih // pow_size valueS [size (_ :: _)]/= addSnnS.
congr (span _ _ _); ring.
Qed.
Definition not_digit (s : string) : bool := if s is String c _ then ~~ isSome (digit c) else true.
Lemma span_stop s acc k : not_digit s -> span s acc k = (acc, k, s).
Proof. by case: s => [|c s] //=; case: (digit c). Qed.
Lemma nosign_numeral ds s : digits ds -> (ds != [::]) || no_sign s -> no_sign (numeral ds ++ s).
Proof.
case: ds => [_ h|d ds]; first exact: h.
by move=> /andP[hd _] _; exact: digit_nosign.
Qed.
Lemma sign_text g ds s : digits ds -> (ds != [::]) || no_sign s -> sign (sgn_text g ++ numeral ds ++ s) = (signed g 1, numeral ds ++ s).
Proof.
move=> hd h; have := nosign_numeral hd h; move: (numeral ds ++ s) => t ht.
by case: g; [| |exact: sign_bare].
Qed.
Lemma signedM g z : (signed g 1 * z)%Z = signed g z. Proof. by case: g; rewrite /signed; lia. Qed.
(* C41: integers *)
Theorem C41_integers g ds : digits ds -> ds != [::] -> read_int (sgn_text g ++ numeral ds) = Some (signed g (value ds)).
Proof.
move=> hd h0; rewrite /read_int -[numeral ds]app_nil_s sign_text ?h0 // span_numeral // span_stop // addn0 signedM /= eqxx andbT.
by rewrite lt0n size_eq0 h0.
Qed.
Lemma exponent_read x : exponent_ok x -> read_exponent (exponent_text x) = Some (exponent_value x).
Proof. by case: x => [[[up g] es]|] //= /andP[hd h0]; case: up => /=; apply: C41_integers. Qed.
Lemma exponent_stop x : not_digit (exponent_text x). Proof. by case: x => [[[[] g] es]|]. Qed.
(* C41: decimal numbers, with or without an exponent *)
Theorem C41_decimals g ds fs x : digits ds -> digits fs -> (ds ++ fs != [::])%SEQ -> exponent_ok x -> exists q,
  read_float (sgn_text g ++ numeral ds ++ "." ++ numeral fs ++ exponent_text x) = Some q /\
  Qeq q (inject_Z (signed g 1) * (inject_Z (value ds) + inject_Z (value fs) / (10 # 1) ^ Z.of_nat (size fs)) * (10 # 1) ^ exponent_value x)%Q.
Proof.
move=> hd hf h0 hx; rewrite /read_float sign_text //=; last by rewrite orbT.
rewrite span_numeral // span_stop // span_numeral // span_stop ?exponent_stop // !addn0 exponent_read //.
rewrite ifT; last by rewrite -size_cat lt0n size_eq0.
eexists; split; first reflexivity.
rewrite ?Z.mul_0_l ?Z.add_0_l.
have t0 : ~ ((10 # 1) == 0)%Q by [].
have p0 : ~ ((10 # 1) ^ Z.of_nat (size fs) == 0)%Q by apply: Qpower_not_0.
have e10 : (inject_Z (10 ^ Z.of_nat (size fs)) == (10 # 1) ^ Z.of_nat (size fs))%Q by rewrite Zpower_Qpower //; lia.
rewrite Qpower_minus // inject_Z_mult inject_Z_plus inject_Z_mult e10.
by field.
Qed.
Lemma float_whole g ds x : digits ds -> ds != [::] -> exponent_ok x ->
  read_float (sgn_text g ++ numeral ds ++ exponent_text x) = Some (inject_Z (signed g (value ds)) * (10 # 1) ^ exponent_value x)%Q.
Proof.
move=> hd h0 hx; rewrite /read_float sign_text ?h0 // span_numeral // span_stop ?exponent_stop // addn0 Z.mul_0_l Z.add_0_l.
have -> : (if exponent_text x is String "."%char r then span r (value ds) 0 else (value ds, 0, exponent_text x)) = (value ds, 0, exponent_text x) by case: (x) => [[[[] ?] ?]|].
by rewrite exponent_read // addn0 ifT ?lt0n ?size_eq0 // signedM Z.sub_0_r.
Qed.
(* C41: numbers without a point *)
Theorem C41_whole g ds x : digits ds -> ds != [::] -> exponent_ok x ->
  exists q, read_float (sgn_text g ++ numeral ds ++ exponent_text x) = Some q /\ Qeq q (inject_Z (signed g (value ds)) * (10 # 1) ^ exponent_value x)%Q.
Proof. by move=> hd h0 hx; rewrite float_whole //; eexists. Qed.
Lemma split_word u w s : all_chars (fun c => ~~ is_space c) w -> split_ u (w ++ s) = split_ (u ++ w) s.
Proof.
elim: w u => [|c w ih] u; first by rewrite app_nil_s.
by move=> /andP[/negbTE hc hw]; rewrite [LHS]/= hc ih // app_assoc_s.
Qed.
Lemma split_blank b s : all_chars is_space b -> split_ "" (b ++ s) = split_ "" s.
Proof. by elim: b => [|c b ih] // /andP[hc hb]; rewrite [LHS]/= hc ih. Qed.
Lemma split_end u b s : u != "" -> blank b -> split_ u (b ++ s) = u :: split_ "" s.
Proof.
move=> hu /andP[]; case: b => [|c b] // /andP[hc hb] _; rewrite [LHS]/= hc split_blank //; by case: u hu.
Qed.
(* C41: the words of a line *)
Theorem C41_words b ws : all_chars is_space b -> all (fun p => word p.1 && blank p.2) ws -> words (line b ws) = [seq p.1 | p <- ws].
Proof.
move=> hb; rewrite /words /line split_blank //; elim: ws => [|[w c] ws ih] // /andP[/andP[/andP[hw w0] hc] hs].
rewrite -[foldr _ _ _]/(w ++ c ++ foldr (fun p s => p.1 ++ p.2 ++ s) "" ws) split_word // split_end //.
by rewrite ih.
Qed.
(* C41: also when the line ends with the last word *)
Theorem C41_last_word b ws w : all_chars is_space b -> all (fun p => word p.1 && blank p.2) ws -> word w -> words (line b ws ++ w) = rcons [seq p.1 | p <- ws] w.
Proof.
move=> hb; rewrite /words /line app_assoc_s split_blank //; elim: ws => [_ /andP[hw w0]|[v c] ws ih /andP[/andP[/andP[hv v0] hc] hs] h].
  by rewrite -[w]app_nil_s [_ ++ (w ++ "")]/= split_word // app_nil_s; case: w w0 {hw}.
rewrite -[foldr _ _ _]/(v ++ c ++ foldr (fun p s => p.1 ++ p.2 ++ s) "" ws) !app_assoc_s split_word // split_end //.
by rewrite ih.
Qed.
(* a line of a file of hoppings *)
Theorem C41_text_case : words "   -1    0   12  -0.125000  1.5E-02" = [:: "-1"; "0"; "12"; "-0.125000"; "1.5E-02"] /\
  [/\ "-1" = sgn_text Minus ++ numeral [:: 1], "12" = sgn_text Bare ++ numeral [:: 1; 2], value [:: 1; 2] = 12%Z,
    "-0.125000" = sgn_text Minus ++ numeral [:: 0] ++ "." ++ numeral [:: 1; 2; 5; 0; 0; 0] ++ exponent_text None &
    "1.5E-02" = sgn_text Bare ++ numeral [:: 1] ++ "." ++ numeral [:: 5] ++ exponent_text (Some (true, Minus, [:: 0; 2]))].
Proof. by vm_compute. Qed.
Print Assumptions C41_integers.
Print Assumptions C41_decimals.
Print Assumptions C41_whole.
Print Assumptions C41_words.
Print Assumptions C41_last_word.
Print Assumptions C41_text_case.
