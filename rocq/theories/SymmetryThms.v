(* C28: enforce_symmetry; C29: check_symmetry. *)
From Coq Require Import String.
From mathcomp Require Import all_ssreflect all_algebra.
From mathcomp Require Import zify.
From Verif Require Import SymmetryModel SymmetrySpec SymmetryProofs.
Set Implicit Arguments.
Unset Strict Implicit.
Unset Printing Implicit Defensive.
Import Order.Theory GRing.Theory Num.Theory.
Local Open Scope ring_scope.

(* what a call may contain *)
Definition valid_call (variables symmetries : arg) : bool :=
  [&& size (as_list variables) == size (as_list symmetries),
      all (fun v => has (String.eqb v) [:: "frequency"; "momentum"; "orbital"]%string) (as_list variables) &
      all (fun s => has (String.eqb s) [:: "even"; "odd"]%string) (as_list symmetries)].
Local Notation iseven s := (String.eqb s "even").

Section Enforce.
Variable C : numFieldType.
Local Notation gf := (gf C).
Local Notation parity := (@parity C).
Variables (n1 n2 n3 : nat).
Local Notation proper := (proper n1 n2 n3).
(* the object a reference points to *)
Local Notation at_ st r g := (List.nth_error st r = Some g).

Lemma known_has v : has (String.eqb v) [:: "frequency"; "momentum"; "orbital"]%string = known C v.
Proof. by rewrite /known /symmetrize_fct /=; do 3 case: (String.eqb _ _). Qed.
Lemma valid_has s : has (String.eqb s) [:: "even"; "odd"]%string = valid_symmetry s.
Proof. by rewrite /valid_symmetry /= orbF. Qed.
Lemma all_zip T S (p : pred T) (q : pred S) (l : seq T) (m : seq S) : size l = size m ->
  all (fun x => p x.1 && q x.2) (zip l m) = all p l && all q m.
Proof. by elim: l m => [|x l ih] [|y m] //= [] /ih ->; rewrite -!andbA; congr (_ && _); rewrite andbCA. Qed.
Lemma valid_requests vs ss : valid_call vs ss -> valids C (requests vs ss).
Proof.
move=> /and3P[/eqP sz hv hs]; rewrite /valids all_zip //; apply/andP; split.
  by rewrite (eq_all (a2 := fun v => has (String.eqb v) [:: "frequency"; "momentum"; "orbital"]%string)) // => v; rewrite known_has.
by rewrite (eq_all (a2 := fun v => has (String.eqb v) [:: "even"; "odd"]%string)) // => v; rewrite valid_has.
Qed.
Lemma nth_error_rcons T (s : seq T) x i :
  List.nth_error (rcons s x) i = if (i < size s)%N then List.nth_error s i else if i == size s then Some x else None.
Proof. by elim: s i => [|y s ih] [|i] //=; [case: i | rewrite ih ltnS eqSS]. Qed.
Local Notation ap g s x := (@app C ((nfreq g)./2) (dims g) (norb g) s x).
Implicit Types (st : store C) (g : gf).
Lemma enforce_spec st r vs ss g : valid_call vs ss -> at_ st r g -> proper g -> exists st' g',
  [/\ enforce_symmetry st r vs ss = Some (st', size st), at_ st' (size st) g',
      (forall i, (i < size st)%N -> List.nth_error st' i = List.nth_error st i), same_shape g g' &
      forall n k a b, inside g n k a b -> data g' n k a b = ap g (nf nf0 (requests vs ss)) (data g) n k a b].
Proof.
move=> vc e pr; have vr := valid_requests vc; case/and3P: vc => /eqP sz hv hs.
have e1 : List.nth_error (rcons st g) (size st) = Some g by rewrite nth_error_rcons ltnn eqxx.
have := loop_run (requests vs ss) e1.
have kn : all (fun p => known C p.1) (requests vs ss) by apply: sub_all vr => p /andP[].
have [g' -> [sh d]] := run_app (s0 := nf0) (x := data g) pr kn (fun n k a b _ => esym (app0 _ _ _ _ n k a b)).
case=> st2 e2 h; exists st2, g'; split => //.
- rewrite /enforce_symmetry sz eqxx /= e.
  rewrite (eq_all (a2 := fun v => has (String.eqb v) [:: "frequency"; "momentum"; "orbital"]%string)); last by move=> v; rewrite known_has.
  rewrite hv /= (eq_all (a2 := fun v => has (String.eqb v) [:: "even"; "odd"]%string)); last by move=> v; rewrite valid_has.
  by rewrite hs /= e2.
- by rewrite h eqxx.
- by move=> i hi; rewrite h nth_error_rcons hi; case: eqP => // ei; rewrite ei ltnn in hi.
Qed.

(* a valid call on a proper function succeeds, returns a new function of the same shape and leaves every existing one,
   in particular its argument, as it is *)
Theorem C28_call_succeeds st r vs ss g : valid_call vs ss -> at_ st r g -> proper g -> exists st' g',
  [/\ enforce_symmetry st r vs ss = Some (st', size st), at_ st' (size st) g', same_shape g g' &
      forall i, (i < size st)%N -> List.nth_error st' i = List.nth_error st i].
Proof. by move=> vc e pr; have [st' [g' [? ? ? ? _]]] := enforce_spec vc e pr; exists st', g'; split. Qed.

(* anything else is refused *)
Lemma C28_refused_proof (st : store C) r vs ss : ~~ valid_call vs ss -> enforce_symmetry st r vs ss = None.
Proof.
rewrite /valid_call /enforce_symmetry; case: eqP => [_|//].
rewrite (eq_all (a2 := fun v => if symmetrize_fct C v is Some _ then true else false)); last by move=> v; rewrite known_has.
rewrite [X in _ && (_ && X)](eq_all (a2 := valid_symmetry)); last by move=> v; rewrite valid_has.
by case: (all _ _) => //=; case: (all _ _).
Qed.
Theorem C28_invalid_call_refused (st : store C) r vs ss : ~~ valid_call vs ss -> enforce_symmetry st r vs ss = None.
Proof. exact: C28_refused_proof. Qed.

(* a successful call was valid and is described by enforce_spec *)
Lemma enforce_inv st r vs ss g st' r' g' : enforce_symmetry st r vs ss = Some (st', r') -> at_ st r g -> proper g ->
  at_ st' r' g' -> valid_call vs ss /\ same_shape g g' /\
  forall n k a b, inside g n k a b -> data g' n k a b = ap g (nf nf0 (requests vs ss)) (data g) n k a b.
Proof.
move=> he e pr e'; case: (boolP (valid_call vs ss)) => vc; last by move: he; rewrite C28_refused_proof.
have [st2 [g2 [h1 h2 _ h4 h5]]] := enforce_spec vc e pr.
by move: he e'; rewrite h1 => -[<- <-]; rewrite h2 => -[<-].
Qed.

(* the returned function has the symmetry requested last for each variable *)
Lemma C28_frequency_proof st r vs ss g st' r' g' e : enforce_symmetry st r vs ss = Some (st', r') -> at_ st r g ->
  proper g -> at_ st' r' g' -> last_request "frequency" (requests vs ss) = Some e -> frequency_symmetric (iseven e) g'.
Proof.
move=> he er pr er' lr; have [vc [sh d]] := enforce_inv he er pr er'; have pr' := same_proper sh pr.
have [i1 _ _ _ _] := nf_invP (valid_requests vc); rewrite lr /= in i1.
have [_ s2 s3 _ s5] := sh; have hf := proper_half pr.
move=> n k a b; rewrite /inside /nk -s2 -s3 -s5 => hi; case: (hi) => hn hk ha hb.
rewrite !d //; last by split=> //; lia.
rewrite /app i1 /cf /rf; set c := cm _ _ _ _; set o := co _ _ _ _ _; set p := rm _ _ _; set q := ro _ _ _ _.
set H := (nfreq g)./2 in hf *.
case: (ltnP n H) => lt.
  have -> : ((nfreq g).-1 - n < H)%N = false by lia.
  have -> : (H + (H.-1 - n))%N = ((nfreq g).-1 - n)%N by lia.
  by rewrite !mulrA parity_sq.
have -> : ((nfreq g).-1 - n < H)%N by lia.
have -> : (H + (H.-1 - ((nfreq g).-1 - n)))%N = n by lia.
by rewrite !mulrA mulr1.
Qed.
Theorem C28_frequency_symmetric st r vs ss g st' r' g' e : enforce_symmetry st r vs ss = Some (st', r') -> at_ st r g ->
  proper g -> at_ st' r' g' -> last_request "frequency" (requests vs ss) = Some e -> frequency_symmetric (iseven e) g'.
Proof. exact: C28_frequency_proof. Qed.

Lemma momentum_ap g m (z : bool) k : proper g -> (k < nk g)%N ->
  (forall e, m = Some e -> ~~ e -> z) -> forall e, m = Some e ->
  cm C (dims g) m z (inv_idx (dims g) k) = parity e * cm C (dims g) m z k /\
  (inv_idx (dims g) k != k -> rm (dims g) m (inv_idx (dims g) k) = rm (dims g) m k).
Proof.
move=> pr hk hz e em; have gd := proper_dims pr; have kK := inv_idxK gd hk.
rewrite /cm /rm kK em; case: (eqVneq (inv_idx (dims g) k) k) => [ek|ne].
  split=> //.
  by case: e em => em; [rewrite mul1r | rewrite (hz _ em) // mulr0].
case: (ltngtP k (inv_idx (dims g) k)) => [lt|lt|ek]; last by rewrite -ek eqxx in ne.
  by rewrite parity_sq.
by rewrite mulr1.
Qed.
Lemma C28_momentum_proof st r vs ss g st' r' g' e : enforce_symmetry st r vs ss = Some (st', r') -> at_ st r g ->
  proper g -> at_ st' r' g' -> last_request "momentum" (requests vs ss) = Some e -> momentum_symmetric n1 n2 n3 (iseven e) g'.
Proof.
move=> he er pr er' lr; have [vc [sh d]] := enforce_inv he er pr er'; have pr' := same_proper sh pr.
have gd := proper_dims pr.
have vr := valid_requests vc; have [_ i2 i3 _ _] := nf_invP vr; rewrite lr /= in i2.
have [_ s2 s3 _ s5] := sh; case: (pr) => _ _ ed _ _.
move=> n i j l a b h1 h2 h3; rewrite /inside /nk -s2 -s3 -s5 => hi; case: (hi) => hn hk ha hb.
have hz : ~~ iseven e -> mz (nf nf0 (requests vs ss)).
  rewrite i3 => ne; elim/last_ind: (requests vs ss) vr lr => // rs [v s] ih.
  rewrite /valids all_rcons => /andP[/andP[/= _ vs'] vr]; rewrite last_rcons has_rcons /=.
  case: (String.eqb v "momentum") => [[es]|lr] /=; first by rewrite odd_even // es ne.
  by rewrite ih.
rewrite -(negi3 h1 h2 h3) -ed -inv_idxE //.
have hki : (inv_idx (dims g) (kpos n2 n3 i j l) < nk g)%N by apply: inv_idx_lt.
rewrite !d //; set k := kpos n2 n3 i j l in hk hki hi *.
have hz' e' : fm (nf nf0 (requests vs ss)) = Some e' -> ~~ e' -> mz (nf nf0 (requests vs ss)).
  by rewrite i2 => -[<-].
have [c r0] := momentum_ap pr hk hz' i2; rewrite /app {}c.
case: (eqVneq (inv_idx (dims g) k) k) => [ek|/r0 ->]; last by rewrite !mulrA [parity _ * _]mulrC.
by rewrite ek !mulrA [parity _ * _]mulrC.
Qed.
Theorem C28_momentum_symmetric st r vs ss g st' r' g' e : enforce_symmetry st r vs ss = Some (st', r') -> at_ st r g ->
  proper g -> at_ st' r' g' -> last_request "momentum" (requests vs ss) = Some e -> momentum_symmetric n1 n2 n3 (iseven e) g'.
Proof. exact: C28_momentum_proof. Qed.

(* orbitals: with at most three of them (for four and more see C28_orbital_refuted) *)
Lemma C28_orbital_proof st r vs ss g st' r' g' e : enforce_symmetry st r vs ss = Some (st', r') -> at_ st r g ->
  proper g -> at_ st' r' g' -> (norb g <= 3)%N ->
  last_request "orbital" (requests vs ss) = Some e -> orbital_symmetric (iseven e) g'.
Proof.
move=> he er pr er' no lr; have [vc [sh d]] := enforce_inv he er pr er'; have pr' := same_proper sh pr.
have [_ _ _ i4] := nf_invP (valid_requests vc); rewrite lr => -[u eo [eu hz]].
have [_ s2 s3 _ s5] := sh.
move=> n k a b; rewrite /inside /nk -s2 -s3 -s5 => hi; case: (hi) => hn hk ha hb.
rewrite !d //; rewrite /app eo; set c := cf _ _ _ _; set m := cm _ _ _ _ _; rewrite -!mulrA.
rewrite [RHS]mulrCA; congr (_ * _); rewrite [RHS]mulrCA; congr (_ * _).
rewrite /co /ro i4; case: (ltngtP a b) => lt.
- rewrite mate_small ?mem_triu ?lt //= eu parityM.
  by rewrite [parity u * parity _]mulrC !mulrA.
- rewrite mate_small ?mem_triu ?lt //= eu parityM !mulrA.
  by rewrite [parity (iseven e) * _]mulrC -!mulrA [parity (iseven e) * _]mulrA parity_sq mul1r.
- rewrite lt; case: (boolP (iseven e)) => ev; first by rewrite mul1r.
  by rewrite hz // mul0r mulr0.
Qed.
Theorem C28_orbital_symmetric_partial st r vs ss g st' r' g' e : enforce_symmetry st r vs ss = Some (st', r') -> at_ st r g ->
  proper g -> at_ st' r' g' -> (norb g <= 3)%N ->
  last_request "orbital" (requests vs ss) = Some e -> orbital_symmetric (iseven e) g'.
Proof. exact: C28_orbital_proof. Qed.

(* applying it twice: the same function up to one sign change for every odd orbital request *)
Lemma C28_twice_proof st r vs ss g st1 r1 g1 st2 r2 g2 : at_ st r g -> proper g ->
  enforce_symmetry st r vs ss = Some (st1, r1) -> at_ st1 r1 g1 ->
  enforce_symmetry st1 r1 vs ss = Some (st2, r2) -> at_ st2 r2 g2 ->
  scaled ((-1) ^+ odd_orbital_requests (requests vs ss)) g1 g2.
Proof.
move=> er pr he1 er1 he2 er2; have [vc [sh1 d1]] := enforce_inv he1 er pr er1.
have pr1 := same_proper sh1 pr; have [_ [sh2 d2]] := enforce_inv he2 er1 pr1 er2.
split=> // n k a b hi; rewrite d2 //; have [_ s2 s3 _ s5] := sh1.
have gd := proper_dims pr.
have hi0 : inside g n k a b by move: hi; rewrite /inside /nk s2 s3 s5.
rewrite -s2 -s3 -s5 (@app_eq _ _ _ _ gd _ _ (ap g (nf nf0 (requests vs ss)) (data g))); first last.
- exact/(insideP _ _ _ _ pr).
- by move=> n' k' a' b' /(insideP _ _ _ _ pr) hi'; rewrite d1.
have [_ _ _ i4 i5] := nf_invP (valid_requests vc).
rewrite twiceE //; last exact/(insideP _ _ _ _ pr).
  rewrite d1 //; congr (_ * _); move: i5; case: (last_request _ _) => [x [u -> _]|[-> ->]]; last by rewrite expr0.
  by rewrite -signr_odd; case: (odd _); rewrite /SymmetrySpec.parity ?expr1 ?expr0.
move=> u l eo nl; rewrite i4; move: i5; case: (last_request _ _) => [x [u' eo' _]|[eo' _]]; rewrite eo' // in eo.
by move: nl; case: eo => _ <-; rewrite negbK; case: (odd_orbital_requests _).
Qed.
Theorem C28_applied_twice st r vs ss g st1 r1 g1 st2 r2 g2 : at_ st r g -> proper g ->
  enforce_symmetry st r vs ss = Some (st1, r1) -> at_ st1 r1 g1 ->
  enforce_symmetry st1 r1 vs ss = Some (st2, r2) -> at_ st2 r2 g2 ->
  scaled ((-1) ^+ odd_orbital_requests (requests vs ss)) g1 g2.
Proof. exact: C28_twice_proof. Qed.
Lemma C28_idempotent_proof st r vs ss g st1 r1 g1 st2 r2 g2 : at_ st r g -> proper g ->
  ~~ odd (odd_orbital_requests (requests vs ss)) ->
  enforce_symmetry st r vs ss = Some (st1, r1) -> at_ st1 r1 g1 ->
  enforce_symmetry st1 r1 vs ss = Some (st2, r2) -> at_ st2 r2 g2 -> scaled 1 g1 g2.
Proof.
move=> er pr ev he1 er1 he2 er2; have := C28_twice_proof er pr he1 er1 he2 er2.
by rewrite -signr_odd (negbTE ev).
Qed.
Theorem C28_idempotent_partial st r vs ss g st1 r1 g1 st2 r2 g2 : at_ st r g -> proper g ->
  ~~ odd (odd_orbital_requests (requests vs ss)) ->
  enforce_symmetry st r vs ss = Some (st1, r1) -> at_ st1 r1 g1 ->
  enforce_symmetry st1 r1 vs ss = Some (st2, r2) -> at_ st2 r2 g2 -> scaled 1 g1 g2.
Proof. exact: C28_idempotent_proof. Qed.

Lemma has_In (p : pred (string * string)) l : has p l -> exists2 x, List.In x l & p x.
Proof. by elim: l => //= x l ih /orP[px|/ih[y hy py]]; [exists x => //; left | exists y => //; right]. Qed.
Lemma opp_fixed (x : C) : x = - x -> x = 0.
Proof. by move=> e; apply/eqP; have := mulrn_eq0 x 2; rewrite /= => <-; rewrite mulr2n {1}e addNr. Qed.
(* a function that already has all requested symmetries is kept, up to the same sign *)
Lemma C28_keeps_proof st r vs ss g st' r' g' : at_ st r g -> proper g ->
  enforce_symmetry st r vs ss = Some (st', r') -> at_ st' r' g' ->
  (forall v s, List.In (v, s) (requests vs ss) -> symmetric n1 n2 n3 v (iseven s) g) ->
  (norb g <= 3)%N -> scaled ((-1) ^+ odd_orbital_requests (requests vs ss)) g g'.
Proof.
move=> er pr he er' hs no; have [vc [sh d]] := enforce_inv he er pr er'.
have vr := valid_requests vc; have [i1 i2 i3 i4 i5] := nf_invP vr.
have lastIn v s : last_request v (requests vs ss) = Some s -> List.In (v, s) (requests vs ss).
  elim/last_ind: (requests vs ss) {vr i1 i2 i3 i4 i5 d hs} => // rs [v' s'] ih; rewrite last_rcons -cats1 /=.
  case: String.eqb_spec => [-> [->]|_ /ih h]; apply/List.in_app_iff; [right; left|left] => //.
have gd := proper_dims pr; have hf := proper_half pr; have ed : dims g = [:: n1; n2; n3] by case: pr.
split=> // n k a b hi; have hi' := (insideP _ _ _ _ pr).1 hi; rewrite d //; case: (hi) => hn hk ha hb.
rewrite /app; set s := nf nf0 _ in i1 i2 i3 i4 i5 *.
have ho n' k' : (n' < nfreq g)%N -> (k' < nk g)%N ->
   co C (fo s) (oz s) a b * data g n' k' (ro (norb g) (fo s) a b).1 (ro (norb g) (fo s) a b).2 =
   (-1) ^+ odd_orbital_requests (requests vs ss) * data g n' k' a b.
  move=> hn' hk'; move: i5; case el: (last_request _ _) => [x|]; last first.
    by case=> -> c0; rewrite /co /ro i4 c0 expr0 /=; case: eqP.
  have {}el := hs _ _ (lastIn _ _ el); case=> u eo [eu hz]; rewrite eo.
  have -> : (-1) ^+ odd_orbital_requests (requests vs ss) = parity (~~ odd (odd_orbital_requests (requests vs ss))) :> C.
    by rewrite -signr_odd; case: (odd _); rewrite /SymmetrySpec.parity ?expr1 ?expr0.
  have e2 a' b' : (a' < norb g)%N -> (b' < norb g)%N -> data g n' k' b' a' = parity (iseven x) * data g n' k' a' b'.
    by move=> ha' hb'; apply: el.
  rewrite /co /ro /=; case: (ltngtP a b) => lt.
  - rewrite mate_small ?mem_triu ?lt //= e2 // eu parityM mulrA //.
  - by [].
  - rewrite -lt; case: (posnP (odd_orbital_requests (requests vs ss))) => c0; first by rewrite i4 c0 mul1r.
    have z : data g n' k' a a = 0.
      have : has (fun p => String.eqb p.1 "orbital" && String.eqb p.2 "odd") (requests vs ss) by rewrite has_count.
      case/has_In => -[v s'] inr /= /andP[/String.eqb_eq ev' /String.eqb_eq es]; apply: opp_fixed.
      by move: inr; rewrite ev' es => /hs /(_ n' k' a a) h; rewrite {1}h // mulN1r.
    by rewrite z !mulr0.
have hm n' a' b' : (n' < nfreq g)%N -> (a' < norb g)%N -> (b' < norb g)%N ->
   cm C (dims g) (fm s) (mz s) k * data g n' (rm (dims g) (fm s) k) a' b' = data g n' k a' b'.
  move=> hn' ha' hb'.
  have e2 e : List.In ("momentum"%string, e) (requests vs ss) ->
      data g n' (inv_idx (dims g) k) a' b' = parity (iseven e) * data g n' k a' b'.
    move=> /hs sy; have := hk; rewrite /nk ed => /kpos_ex [i [j [l [h1 h2 h3 ek]]]].
    rewrite inv_idxE -?ed // ed ek negi3 //; apply: sy; rewrite -?ek //.
  rewrite /cm /rm; case: (eqVneq (inv_idx (dims g) k) k) => [ek|ne].
    rewrite ek ltnn; have -> : (if fm s is Some _ then k else k) = k by case: (fm s).
    rewrite i3; case: ifP => [|_]; last by rewrite mul1r.
    case/has_In => -[v s'] inr /= /andP[/String.eqb_eq ev' /String.eqb_eq es].
    rewrite mul0r; apply/esym/opp_fixed; move: inr; rewrite ev' es => /e2.
    by rewrite ek {1}/SymmetrySpec.parity /= mulN1r.
  rewrite i2; case el: (last_request _ _) => [x|] /=; last by rewrite mul1r.
  by case: ifP => _; rewrite ?mul1r // (e2 _ (lastIn _ _ el)) mulrA parity_sq mul1r.
have hfr a' b' : (a' < norb g)%N -> (b' < norb g)%N ->
   cf C (nfreq g)./2 (ff s) n * data g (rf (nfreq g)./2 (ff s) n) k a' b' = data g n k a' b'.
  move=> ha' hb'; rewrite /cf /rf i1; case el: (last_request _ _) => [x|] /=; last by rewrite mul1r.
  have sy := hs _ _ (lastIn _ _ el); case: (ltnP n _) => lt; last by rewrite mul1r.
  have -> : ((nfreq g)./2 + ((nfreq g)./2.-1 - n))%N = ((nfreq g).-1 - n)%N by lia.
  by rewrite (sy n k a' b') // mulrA parity_sq mul1r.
have [q1 q2 q3 q4] := ins_rep gd s hi'; rewrite -/(nk g) in q2.
rewrite -(proper_half pr) in q1.
rewrite -!mulrA ho //.
rewrite [cm _ _ _ _ _ * (_ * _)]mulrCA hm // mulrCA hfr //.
Qed.
Theorem C28_keeps_symmetric_functions st r vs ss g st' r' g' : at_ st r g -> proper g ->
  enforce_symmetry st r vs ss = Some (st', r') -> at_ st' r' g' ->
  (forall v s, List.In (v, s) (requests vs ss) -> symmetric n1 n2 n3 v (iseven s) g) ->
  (norb g <= 3)%N -> scaled ((-1) ^+ odd_orbital_requests (requests vs ss)) g g'.
Proof. exact: C28_keeps_proof. Qed.
End Enforce.

Section Witnesses.
Variable C : numFieldType.
Local Notation at_ st r g := (List.nth_error st r = Some g).
Definition unit_at (p : nat * nat) : array C := fun _ _ a b => if (a, b) == p then 1 else 0.
Definition witness (no : nat) (x : array C) : gf C := Gf true 2 [:: 1; 1; 1]%N 2 no x.
Lemma witness_proper no x : proper 1%N 1%N 1%N (witness no x). Proof. by []. Qed.
Lemma unfold_orbital no x s : valid_symmetry s -> exists st' g',
  [/\ enforce_symmetry [:: witness no x] 0%N (Str "orbital") (Str s) = Some (st', 1%N), at_ st' 1%N g',
   same_shape (witness no x) g' &
   forall a b, (a < no)%N -> (b < no)%N -> data g' 0%N 0%N a b = orb_val no (iseven s) x 0%N 0%N a b].
Proof.
move=> vs; rewrite /enforce_symmetry /= vs /=; eexists; eexists; split; [by []|by []|by []|].
by move=> a b ha hb; apply: orbital_valE.
Qed.
(* with four or more orbitals the result of the orbital symmetrization is not symmetric *)
Lemma C28_orbital_refuted_proof no s : (4 <= no)%N -> valid_symmetry s -> exists g : gf C, [/\ proper 1%N 1%N 1%N g, norb g = no &
  exists st' g', [/\ enforce_symmetry [:: g] 0%N (Str "orbital") (Str s) = Some (st', 1%N), at_ st' 1%N g' &
    ~ orbital_symmetric (iseven s) g']].
Proof.
move=> h4 vs; exists (witness no (unit_at (2, 1)%N)); split=> //.
have [st' [g' [e1 e2 [_ s2 s3 _ s5] d]]] := unfold_orbital no (unit_at (2, 1)%N) vs; exists st', g'; split=> // sy.
have := sy 0%N 0%N 0%N 3%N; rewrite /inside /nk -s2 -s3 -s5 => /(_ _); rewrite !d; [|lia..].
rewrite /orb_val /= mate_big //= /unit_at /= mulr0 mulr1 => h.
have {}h : 0 = parity C (iseven s) by apply: h; split=> //; lia.
by move: h; rewrite /SymmetrySpec.parity; case: ifP => _ /esym /eqP; rewrite ?oppr_eq0 oner_eq0.
Qed.
Theorem C28_orbital_refuted no s : (4 <= no)%N -> valid_symmetry s -> exists g : gf C, [/\ proper 1%N 1%N 1%N g, norb g = no &
  exists st' g', [/\ enforce_symmetry [:: g] 0%N (Str "orbital") (Str s) = Some (st', 1%N), at_ st' 1%N g' &
    ~ orbital_symmetric (iseven s) g']].
Proof. exact: C28_orbital_refuted_proof. Qed.
(* two orbitals, orbital odd: the second application changes the sign, so applying twice is not applying once *)
Lemma one_neq : (1 : C) <> -1.
Proof. by move=> /opp_fixed /eqP; rewrite oner_eq0. Qed.
Lemma C28_idempotent_refuted_proof : exists st1 st2 (g g1 g2 : gf C), [/\ proper 1%N 1%N 1%N g,
  enforce_symmetry [:: g] 0%N (Str "orbital") (Str "odd") = Some (st1, 1%N), at_ st1 1%N g1,
  enforce_symmetry st1 1%N (Str "orbital") (Str "odd") = Some (st2, 2%N) & at_ st2 2%N g2 /\ ~ scaled 1 g1 g2].
Proof.
have vc : valid_call (Str "orbital") (Str "odd") by [].
set g := witness 2 (unit_at (1, 0)%N).
have pr : proper 1%N 1%N 1%N g by [].
have [st1 [g1 [e1 e2 [s1 s2 s3 s4 s5] d]]] := unfold_orbital 2 (unit_at (1, 0)%N) (isT : valid_symmetry "odd").
have sz1 : size st1 = 2%N.
  by move: e1; rewrite /enforce_symmetry /= => -[<-].
have pr1 : proper 1%N 1%N 1%N g1.
  by apply: (same_proper (g := g)) => //; rewrite /same_shape -s2 -s3 -s5 -s1 -s4.
have [st2 [g2 [f1 f2 _ _]]] := C28_call_succeeds vc e2 pr1; rewrite sz1 in f1 f2.
exists st1, st2, g, g1, g2; split=> //; split=> // sc.
have sc2 := C28_applied_twice (erefl : at_ [:: g] 0%N g) pr e1 e2 f1 f2.
have i : inside g1 0%N 0%N 0%N 1%N by rewrite /inside /nk -s2 -s3 -s5.
have := sc.2 _ _ _ _ i; rewrite (sc2.2 _ _ _ _ i) expr1 d //.
rewrite /orb_val /= /unit_at /= !mulr1 => /esym; exact: one_neq.
Qed.
Theorem C28_idempotent_refuted : exists st1 st2 (g g1 g2 : gf C), [/\ proper 1%N 1%N 1%N g,
  enforce_symmetry [:: g] 0%N (Str "orbital") (Str "odd") = Some (st1, 1%N), at_ st1 1%N g1,
  enforce_symmetry st1 1%N (Str "orbital") (Str "odd") = Some (st2, 2%N) & at_ st2 2%N g2 /\ ~ scaled 1 g1 g2].
Proof. exact: C28_idempotent_refuted_proof. Qed.
End Witnesses.

Section Check.
Variable C : numFieldType.
Local Notation gf := (gf C).
Local Notation parity := (@parity C).
Variables (n1 n2 n3 : nat) (rtol atol atol0 : C).
Hypotheses (r0 : 0 <= rtol) (r1 : rtol < 1) (a0 : 0 <= atol) (a00 : 0 <= atol0).
Local Notation proper := (proper n1 n2 n3).
Implicit Types (g : gf).
Local Notation check := (check_symmetry rtol atol0).

Lemma checkE g : proper g -> exists f, check_frequency_symmetry rtol g atol = Some f /\ exists o,
  check_orbital_symmetry rtol g atol = Some o /\ check g atol = Some (f, check_momentum_symmetry rtol atol0 g atol, o).
Proof.
move=> pr; have hf := proper_half pr; case: pr => fer _ _ np _.
have hf2 : (nfreq g - (nfreq g)./2)%N = (nfreq g)./2 by rewrite {1}hf addnK.
rewrite /check_symmetry check_oE // /check_frequency_symmetry fer /= hf2 eqxx /=.
by eexists; split; first by []; eexists; split; first by [].
Qed.
(* the call never fails on a proper function *)
Theorem C29_check_succeeds g : proper g -> exists r, check g atol = Some r.
Proof. by move=> /checkE [f [_ [o [_ ->]]]]; eexists. Qed.

Definition freq_cl g s : Prop := forall n k a b, (n < (nfreq g)./2)%N -> (k < nk g)%N -> (a < norb g)%N -> (b < norb g)%N ->
  close rtol atol (data g ((nfreq g)./2.-1 - n)%N k a b) (s * data g ((nfreq g)./2 + n)%N k a b).
Lemma freq_result g f : proper g -> check_frequency_symmetry rtol g atol = Some f ->
  match f with Some true => freq_cl g 1 | Some false => freq_cl g (-1) /\ ~ freq_cl g 1 | None => ~ freq_cl g 1 /\ ~ freq_cl g (-1) end.
Proof.
move=> pr; have hf := proper_half pr; case: pr => fer _ _ np _.
have hf2 : (nfreq g - (nfreq g)./2)%N = (nfreq g)./2 by rewrite {1}hf addnK.
rewrite /check_frequency_symmetry fer /= hf2 eqxx /=.
pose c (s : C) := all (fun a => allclose3 rtol (nfreq g)./2 (nk g) (norb g) atol
  (fun n k b => data g ((nfreq g)./2.-1 - n)%N k a b) (fun n k b => s * data g ((nfreq g)./2 + n)%N k a b)) (iota 0 (norb g)).
rewrite -/(c 1) -/(c (-1)).
have cP s : reflect (freq_cl g s) (c s).
  apply: (iffP allP) => [h n k a b hn hk ha hb|h a].
    have ia : a \in iota 0 (norb g) by rewrite mem_iota.
    by have /allclose3P := h a ia; apply.
  by rewrite mem_iota /= add0n => ha; apply/allclose3P => n k b hn hk hb; apply: h.
by case: (cP 1) => [h1 [<-]|h1] //; case: (cP (-1)) => [h2 [<-]|h2 [<-]].
Qed.

(* a reported sign holds within the tolerances *)
Lemma C29_frequency_proof g f m o e : proper g -> check g atol = Some (f, m, o) -> f = Some e -> frequency_about rtol atol e g.
Proof.
move=> pr ec ef; have hf := proper_half pr; have [f' [h1 [o' [h2 h3]]]] := checkE pr; move: ec; rewrite h3 => -[ef' _ _].
have := freq_result pr h1; rewrite ef' ef => h n k a b hn [hn' hk ha hb].
have cl : freq_cl g (parity e) by case: e h {ef} => // -[].
have := cl ((nfreq g)./2.-1 - n)%N k a b _ hk ha hb.
have -> : ((nfreq g)./2.-1 - ((nfreq g)./2.-1 - n))%N = n by lia.
have -> : ((nfreq g)./2 + ((nfreq g)./2.-1 - n))%N = ((nfreq g).-1 - n)%N by lia.
by apply; lia.
Qed.
Theorem C29_frequency_sign_holds g f m o e : proper g -> check g atol = Some (f, m, o) -> f = Some e -> frequency_about rtol atol e g.
Proof. exact: C29_frequency_proof. Qed.

Lemma mem_flatten_contrib T (c : T -> option (seq bool)) (l : seq T) e x s :
  all (eq_op^~ e) (flatten [seq odflt [::] (c y) | y <- l]) -> List.In x l -> c x = Some s -> all (eq_op^~ e) s.
Proof.
elim: l => //= y l ih; rewrite all_cat => /andP[h1 h2] [e1|hx] ec; last exact: ih.
by move: h1; rewrite e1 ec.
Qed.
Lemma in_In (T : eqType) (x : T) l : x \in l -> List.In x l.
Proof. by elim: l => //= y l ih; rewrite inE => /orP[/eqP ->|/ih]; [left|right]. Qed.

Lemma C29_momentum_proof g f m o e : proper g -> check g atol = Some (f, m, o) -> m = Some e ->
  momentum_about n1 n2 n3 rtol atol atol0 e g.
Proof.
move=> pr ec em; have gd := proper_dims pr; have [f' [h1 [o' [h2 h3]]]] := checkE pr; move: ec; rewrite h3 => -[_ em' _].
move: em'; rewrite em check_mE; case: ifP => // al /overallP [_ als] i j l h1' h2' h3'.
have ed : dims g = [:: n1; n2; n3] by case: pr.
set k := kpos n2 n3 i j l; set k' := kpos _ _ _ _ _.
have hk : (k < nk g)%N by rewrite /nk ed; apply: kpos_lt.
have ek : k' = inv_idx (dims g) k by rewrite inv_idxE // ed negi3.
have ik : k \in iota 0 (nk g) by rewrite mem_iota.
have := allP al _ ik; case ec: (contrib_m rtol atol0 g atol k) => [s|] // _.
have hs := mem_flatten_contrib als (in_In ik) ec.
move: ec; rewrite /contrib_m -ek; case: ifP => [/andP[/allclose3P c1 /allclose3P c2] _|_].
  by left; split=> n a b [hn _ ha hb]; [have := c1 n a b hn ha hb | have := c2 n a b hn ha hb]; rewrite /close subr0 normr0 mulr0 addr0.
right=> n a b [hn _ ha hb]; move: ec; case: ifP => [_|nk'].
  case: ifP => [_ [es]|/negbFE /allclose3P c _]; first by left; move: hs; rewrite -es /= andbT => /eqP <-.
  by right; have := c n a b hn ha hb; rewrite /close sub0r normrN.
case: ifP => [/allclose3P c [es]|_].
  by move: hs; rewrite -es /= andbT => /eqP <-; have := c n a b hn ha hb; rewrite /close /about mul1r.
case: ifP => // /allclose3P c [es].
by move: hs; rewrite -es /= andbT => /eqP <-; have := c n a b hn ha hb.
Qed.
Theorem C29_momentum_sign_holds g f m o e : proper g -> check g atol = Some (f, m, o) -> m = Some e ->
  momentum_about n1 n2 n3 rtol atol atol0 e g.
Proof. exact: C29_momentum_proof. Qed.

Lemma C29_orbital_proof g f m o e : proper g -> (norb g <= 3)%N -> check g atol = Some (f, m, o) -> o = Some e ->
  orbital_about rtol atol e g.
Proof.
move=> pr no ec eo; have [f' [h1 [o' [h2 h3]]]] := checkE pr; move: ec; rewrite h3 => -[_ _ eo'].
have np : nparticle g = 2%N by case: pr.
move: h2; rewrite check_oE // eo' eo => -[]; case: ifP => // al /overallP [_]; rewrite all_cat => /andP[als ald].
move=> n k a b [hn hk ha hb]; split=> [lt|ab].
  have iu : (a, b) \in triu (norb g) by rewrite mem_triu /= lt hb.
  have iz := mate_zip iu; rewrite (mate_small no iu) in iz.
  have := allP al _ iz; case ec: (contrib_o rtol g atol _) => [s|] // _.
  have hs := mem_flatten_contrib als (in_In iz) ec.
  move: ec; rewrite /contrib_o /=; case: ifP => [/allclose2P c [es]|_].
    by move: hs; rewrite -es /= andbT => /eqP <-; have := c n k hn hk; rewrite /about mul1r.
  case: ifP => // /allclose2P c [es].
  by move: hs; rewrite -es /= andbT => /eqP <-; have := c n k hn hk.
case: e ald {eo als} => ald; [by left|right].
have : ~~ has (diag_big rtol g atol) (iota 0 (norb g)) by rewrite has_count; case: (count _ _) ald.
move=> /hasPn /(_ a); rewrite mem_iota /= add0n => /(_ ha) /negbNE /allclose2P /(_ n k hn hk).
by rewrite /close subr0 normr0 mulr0 addr0 -ab.
Qed.
Theorem C29_orbital_sign_holds_partial g f m o e : proper g -> (norb g <= 3)%N -> check g atol = Some (f, m, o) -> o = Some e ->
  orbital_about rtol atol e g.
Proof. exact: C29_orbital_proof. Qed.

(* neither even nor odd within the tolerances: None *)
Lemma C29_none_proof g f m o : proper g -> check g atol = Some (f, m, o) ->
  ((forall e, ~ frequency_about rtol atol e g) -> f = None) /\
  ((forall e, ~ momentum_about n1 n2 n3 rtol atol atol0 e g) -> m = None).
Proof.
move=> pr ec; split=> h.
  by case ef: f ec => [e|] // ec; case: (h e); apply: (C29_frequency_proof pr ec erefl).
by case em: m ec => [e|] // ec; case: (h e); apply: (C29_momentum_proof pr ec erefl).
Qed.
Theorem C29_none_if_neither g f m o : proper g -> check g atol = Some (f, m, o) ->
  ((forall e, ~ frequency_about rtol atol e g) -> f = None) /\
  ((forall e, ~ momentum_about n1 n2 n3 rtol atol atol0 e g) -> m = None).
Proof. exact: C29_none_proof. Qed.

(* exactly symmetric functions are recognised *)
Lemma close_refl x : close rtol atol x x.
Proof. by rewrite /close subrr normr0 addr_ge0 // mulr_ge0. Qed.
Lemma not_close_opp x : atol < `|x| -> ~~ close rtol atol (- x) x.
Proof.
move=> h; rewrite /close -opprD normrN -mulr2n normrMn mulr2n.
rewrite -real_ltNge ?rpredD ?rpredM ?ger0_real ?normr_ge0 //; first by apply: ltr_le_add => //; rewrite ler_pimull // ltW.
Qed.
Lemma C29_frequency_recognised_proof g f m o e : proper g -> check g atol = Some (f, m, o) -> frequency_symmetric e g ->
  (exists n k a b, inside g n k a b /\ atol < `|data g n k a b|) -> f = Some e.
Proof.
move=> pr ec sy big; have hf := proper_half pr; have [f' [h1 [o' [h2 h3]]]] := checkE pr; move: ec; rewrite h3 => -[<- _ _].
have cl : freq_cl g (parity e).
  move=> n k a b hn hk ha hb; rewrite -(sy ((nfreq g)./2 + n)%N k a b); last by split=> //; lia.
  have -> : ((nfreq g).-1 - ((nfreq g)./2 + n))%N = ((nfreq g)./2.-1 - n)%N by lia.
  exact: close_refl.
have {h1 h3} := freq_result pr h1; case: e sy cl => sy cl; first by case: f' => [[]|] //; case=> ha hb; [case: (hb cl)|case: (ha cl)].
have ncl : ~ freq_cl g 1.
  case: big => n [k [a [b [[hn hk ha hb] big]]]] h.
  have sy' : `|data g ((nfreq g).-1 - n)%N k a b| = `|data g n k a b| by rewrite sy // mulN1r normrN.
  case: (ltnP n (nfreq g)./2) => lt.
    have := h ((nfreq g)./2.-1 - n)%N k a b; rewrite mul1r.
    have -> : ((nfreq g)./2.-1 - ((nfreq g)./2.-1 - n))%N = n by lia.
    have -> : ((nfreq g)./2 + ((nfreq g)./2.-1 - n))%N = ((nfreq g).-1 - n)%N by lia.
    have e2 : data g n k a b = - data g ((nfreq g).-1 - n)%N k a b by rewrite sy // mulN1r opprK.
    rewrite {1}e2 (negbTE (not_close_opp _)) ?sy' // => hh; apply: notF; apply: hh => //; lia.
  have := h (n - (nfreq g)./2)%N k a b; rewrite mul1r.
  have -> : ((nfreq g)./2.-1 - (n - (nfreq g)./2))%N = ((nfreq g).-1 - n)%N by lia.
  have -> : ((nfreq g)./2 + (n - (nfreq g)./2))%N = n by lia.
  rewrite sy // mulN1r (negbTE (not_close_opp _)) // => hh; apply: notF; apply: hh => //; lia.
by case: f' => [[]|] //; case.
Qed.
Theorem C29_frequency_recognised g f m o e : proper g -> check g atol = Some (f, m, o) -> frequency_symmetric e g ->
  (exists n k a b, inside g n k a b /\ atol < `|data g n k a b|) -> f = Some e.
Proof. exact: C29_frequency_recognised_proof. Qed.

Lemma C29_momentum_recognised_proof g f m o e : proper g -> check g atol = Some (f, m, o) -> momentum_symmetric n1 n2 n3 e g ->
  (exists n k a b, [/\ inside g n k a b, atol < `|data g n k a b| & atol0 + rtol * `|data g n k a b| < `|data g n k a b| ]) ->
  m = Some e.
Proof.
move=> pr ec sy big; have gd := proper_dims pr; have [f' [h1 [o' [h2 h3]]]] := checkE pr; move: ec; rewrite h3 => -[_ <- _].
have ed : dims g = [:: n1; n2; n3] by case: pr.
have sy' n k a b : inside g n k a b -> data g n (inv_idx (dims g) k) a b = parity e * data g n k a b.
  move=> hi; case: (hi) => hn; rewrite {1}/nk ed => /kpos_ex [i [j [l [q1 q2 q3 ek]]]] ha hb.
  have hk : (k < nk g)%N by case: hi.
  rewrite inv_idxE -?ed // ed ek negi3 //; apply: sy; rewrite -?ek //.
have con k : (k < nk g)%N -> exists2 s, contrib_m rtol atol0 g atol k = Some s & all (eq_op^~ e) s.
  move=> hk; rewrite /contrib_m; case: ifP => [_|nz]; first by exists [::].
  case: eqP => [ek|ne].
    case: ifP => [nz2|_]; last by exists [::].
    exists [:: true] => //=; rewrite andbT; case: e sy sy' => // _ sy'; exfalso; move/negP: nz2; apply.
    apply/allclose3P => n a b hn ha hb; have := sy' n k a b; rewrite -ek mulN1r => z.
    have {}z : data g n k a b = 0 by apply: opp_fixed; apply: z.
    by rewrite z /close subrr normr0 mulr0 addr0.
  case: ifP => [/allclose3P c|nc].
    case: e sy sy' => _ sy'; first by exists [:: true].
    exfalso; move/negP: nz; apply.
    have sm n a b : (n < nfreq g)%N -> (a < norb g)%N -> (b < norb g)%N -> `|data g n k a b| <= atol.
      move=> hn ha hb; rewrite real_leNgt ?ger0_real ?normr_ge0 //; apply/negP => bg.
      have := c n a b hn ha hb; rewrite sy' // mulN1r.
      have e3 : data g n k a b = - (- data g n k a b) by rewrite opprK.
      by rewrite {1}e3 (negbTE (not_close_opp _)) // normrN.
    apply/andP; split; apply/allclose3P => n a b hn ha hb; rewrite /close subr0 normr0 mulr0 addr0 ?sy' //.
      exact: sm.
    by rewrite mulN1r normrN; apply: sm.
  case: e sy sy' => _ sy'.
    exfalso; move/negP: nc; apply; apply/allclose3P => n a b hn ha hb.
    by rewrite sy' // mul1r; apply: close_refl.
  case: ifP => [_|/negP []]; first by exists [:: false].
  by apply/allclose3P => n a b hn ha hb; rewrite sy' //; apply: close_refl.
rewrite check_mE; have -> : all (fun i => contrib_m rtol atol0 g atol i != None) (iota 0 (nk g)).
  by apply/allP => k; rewrite mem_iota /= add0n => /con [s ->].
apply/overallP; split; last first.
  apply/allP => x /flattenP [s /mapP [k]]; rewrite mem_iota /= add0n => /con [s' -> /allP h] ->.
  exact: h.
case: big => n [k [a [b [hi b1 b2]]]]; case: (hi) => hn hk ha hb.
have [s ec es] := con _ hk; have ik : k \in iota 0 (nk g) by rewrite mem_iota.
have ns : s != [::].
  apply/eqP => s0; move: ec; rewrite s0 /contrib_m; case: ifP => [/andP[/allclose3P /(_ n a b hn ha hb)]|_].
    by rewrite /close subr0 normr0 mulr0 addr0 lt_geF.
  by repeat case: ifP => //; move=> /negbFE /allclose3P /(_ n a b hn ha hb); rewrite /close sub0r normrN lt_geF.
have : head true s \in flatten [seq odflt [::] (contrib_m rtol atol0 g atol i) | i <- iota 0 (nk g)].
  apply/flattenP; exists s; first by apply/mapP; exists k; rewrite ?ec.
  by case: (s) ns => //= x t _; rewrite inE eqxx.
by case: (flatten _).
Qed.
Theorem C29_momentum_recognised g f m o e : proper g -> check g atol = Some (f, m, o) -> momentum_symmetric n1 n2 n3 e g ->
  (exists n k a b, [/\ inside g n k a b, atol < `|data g n k a b| & atol0 + rtol * `|data g n k a b| < `|data g n k a b| ]) ->
  m = Some e.
Proof. exact: C29_momentum_recognised_proof. Qed.

(* orbitals, at most three: an even function is recognised as soon as there is an off-diagonal pair; an odd one only if
   every pair of orbitals has a value beyond the tolerance (see C29_orbital_odd_refuted) *)
Lemma C29_orbital_recognised_proof g f m o e : proper g -> check g atol = Some (f, m, o) -> (2 <= norb g <= 3)%N ->
  orbital_symmetric e g ->
  (~~ e -> forall a b, (a < b < norb g)%N -> exists n k, [/\ (n < nfreq g)%N, (k < nk g)%N & atol < `|data g n k a b| ]) ->
  o = Some e.
Proof.
move=> pr ec /andP[no2 no3] sy big; have [f' [h1 [o' [h2 h3]]]] := checkE pr; move: ec; rewrite h3 => -[_ _ <-].
have np : nparticle g = 2%N by case: pr.
move: h2; rewrite check_oE // => -[<-].
have con ul : ul \in zip (triu (norb g)) (tril (norb g)) -> contrib_o rtol g atol ul = Some [:: e].
  case: ul => u l /zip_mate /= [hu]; rewrite (mate_small no3 hu) => ->; case: u hu => a b.
  rewrite mem_triu /= => /andP[lt hb]; have ha := ltn_trans lt hb; rewrite /contrib_o /=.
  case: e sy big => sy big.
    have -> // : allclose2 rtol (nfreq g) (nk g) atol (fun n k => data g n k a b) (fun n k => data g n k b a).
    by apply/allclose2P => n k hn hk; rewrite (sy n k a b) // mul1r close_refl.
  have [|n [k [hn hk bg]]] := big isT a b; first by rewrite lt hb.
  have -> : allclose2 rtol (nfreq g) (nk g) atol (fun n k => data g n k a b) (fun n k => data g n k b a) = false.
    apply/negbTE/allclose2P => /(_ n k hn hk); rewrite (sy n k a b) // mulN1r.
    have e3 : data g n k a b = - (- data g n k a b) by rewrite opprK.
    by rewrite {1}e3 (negbTE (not_close_opp _)) // normrN.
  have -> // : allclose2 rtol (nfreq g) (nk g) atol (fun n k => data g n k a b) (fun n k => -1 * data g n k b a).
  by apply/allclose2P => n' k' hn' hk'; rewrite (sy n' k' a b) // mulrA mulrNN !mul1r close_refl.
have -> : all (fun i => contrib_o rtol g atol i != None) (zip (triu (norb g)) (tril (norb g))).
  by apply/allP => ul /con ->.
have i01 : ((0, 1), mate (norb g) (0, 1))%N \in zip (triu (norb g)) (tril (norb g)).
  by apply: mate_zip; rewrite mem_triu.
apply/overallP; split.
  have : e \in flatten [seq odflt [::] (contrib_o rtol g atol i) | i <- zip (triu (norb g)) (tril (norb g))].
    by apply/flattenP; exists [:: e]; rewrite ?inE //; apply/mapP; exists ((0, 1), mate (norb g) (0, 1))%N; rewrite ?con.
  by case: (flatten _).
rewrite all_cat; apply/andP; split.
  by apply/allP => x /flattenP [s /mapP [ul /con ->] ->]; rewrite inE.
case: e sy {big con} => sy; first by apply/allP => x; rewrite mem_nseq => /andP[_].
have -> // : count (diag_big rtol g atol) (iota 0 (norb g)) = 0%N.
apply/eqP; rewrite -leqn0 leqNgt -has_count; apply/hasPn => a; rewrite mem_iota /= add0n => ha.
apply/negPn/allclose2P => n k hn hk; have z : data g n k a a = 0.
  by apply: opp_fixed; rewrite {1}(sy n k a a) // mulN1r.
by rewrite z /close subrr normr0 mulr0 addr0.
Qed.
Theorem C29_orbital_recognised_partial g f m o e : proper g -> check g atol = Some (f, m, o) -> (2 <= norb g <= 3)%N ->
  orbital_symmetric e g ->
  (~~ e -> forall a b, (a < b < norb g)%N -> exists n k, [/\ (n < nfreq g)%N, (k < nk g)%N & atol < `|data g n k a b| ]) ->
  o = Some e.
Proof. exact: C29_orbital_recognised_proof. Qed.

(* the symmetry that enforce_symmetry produces in frequency and momentum is the one check_symmetry reports *)
Lemma C29_after_proof (st : store C) r vs ss g st' r' g' f m o : enforce_symmetry st r vs ss = Some (st', r') ->
  List.nth_error st r = Some g -> proper g -> List.nth_error st' r' = Some g' -> check g' atol = Some (f, m, o) ->
  (exists n k a b, [/\ inside g' n k a b, atol < `|data g' n k a b| & atol0 + rtol * `|data g' n k a b| < `|data g' n k a b| ]) ->
  (forall e, last_request "frequency" (requests vs ss) = Some e -> f = Some (iseven e)) /\
  (forall e, last_request "momentum" (requests vs ss) = Some e -> m = Some (iseven e)).
Proof.
move=> he er pr er' ec big; have pr' : proper g'.
  by have [_ [sh _]] := enforce_inv he er pr er'; apply: same_proper pr.
split=> e lr.
  apply: (C29_frequency_recognised_proof pr' ec); first exact: (C28_frequency_proof he er pr er' lr).
  by case: big => n [k [a [b [hi b1 b2]]]]; exists n, k, a, b.
by apply: (C29_momentum_recognised_proof pr' ec) => //; exact: (C28_momentum_proof he er pr er' lr).
Qed.
Theorem C29_reports_the_enforced_symmetry (st : store C) r vs ss g st' r' g' f m o :
  enforce_symmetry st r vs ss = Some (st', r') ->
  List.nth_error st r = Some g -> proper g -> List.nth_error st' r' = Some g' -> check g' atol = Some (f, m, o) ->
  (exists n k a b, [/\ inside g' n k a b, atol < `|data g' n k a b| & atol0 + rtol * `|data g' n k a b| < `|data g' n k a b| ]) ->
  (forall e, last_request "frequency" (requests vs ss) = Some e -> f = Some (iseven e)) /\
  (forall e, last_request "momentum" (requests vs ss) = Some e -> m = Some (iseven e)).
Proof. exact: C29_after_proof. Qed.
End Check.

Section CheckWitnesses.
Variable C : numFieldType.
Variables (rtol atol atol0 : C).
Hypotheses (r0 : 0 <= rtol) (r1 : rtol < 1) (a0 : 0 <= atol) (a1 : atol < 1).
Local Notation check := (check_symmetry rtol atol0).
Definition two_at (p q : nat * nat) (c : C) : array C := fun _ _ a b => if (a, b) == p then 1 else if (a, b) == q then c else 0.

(* four or more orbitals: an even function is not recognised *)
Lemma C29_orbital_refuted_proof no : (4 <= no)%N -> exists g : gf C, [/\ proper 1%N 1%N 1%N g, norb g = no,
  orbital_symmetric true g & exists f m, check g atol = Some (f, m, None)].
Proof.
move=> h4; set g := witness no (two_at (0, 3)%N (3, 0)%N 1).
have pr : proper 1%N 1%N 1%N g by [].
exists g; split=> //.
  move=> n k a b _; rewrite mul1r /g /= /two_at.
  have sw (p q x y : nat) : ((p, q) == (x, y)) = ((q, p) == (y, x)) by rewrite !xpair_eqE andbC.
  by rewrite (sw b a 0%N) (sw b a 3%N); case: ((a, b) == (3, 0)%N); case: ((a, b) == (0, 3)%N).
have [f [_ [o [h2 h3]]]] := checkE rtol atol atol0 pr; exists f, (check_momentum_symmetry rtol atol0 g atol).
rewrite h3; congr (Some (_, _, _)); move: h2; rewrite check_oE // => -[<-].
have iu : (0, 3)%N \in triu no by rewrite mem_triu.
have -> // : all (fun i => contrib_o rtol g atol i != None) (zip (triu (norb g)) (tril (norb g))) = false.
apply/negbTE/allPn; exists ((0, 3), mate no (0, 3))%N; first exact: mate_zip.
rewrite mate_big // /contrib_o negbK /=.
have big c : c = 0 -> ~ close rtol atol 1 c.
  by move=> ->; rewrite /close subr0 normr0 mulr0 addr0 normr1 lt_geF.
case: allclose2P => [/(_ 0%N 0%N isT isT) h|_]; first by case: (big _ _ h).
by case: allclose2P => [/(_ 0%N 0%N isT isT) h|_] //; case: (big _ _ h); rewrite mulr0.
Qed.
Theorem C29_orbital_refuted no : (4 <= no)%N -> exists g : gf C, [/\ proper 1%N 1%N 1%N g, norb g = no,
  orbital_symmetric true g & exists f m, check g atol = Some (f, m, None)].
Proof. exact: C29_orbital_refuted_proof. Qed.
(* three orbitals: an odd function with one vanishing pair is not recognised *)
Lemma C29_orbital_odd_refuted_proof : exists g : gf C, [/\ proper 1%N 1%N 1%N g, norb g = 3%N,
  orbital_symmetric false g, data g 0%N 0%N 0%N 1%N = 1 & exists f m, check g atol = Some (f, m, None)].
Proof.
set g := witness 3 (two_at (0, 1)%N (1, 0)%N (-1)); have pr : proper 1%N 1%N 1%N g by [].
exists g; split=> //.
  move=> n k a b [_ _]; rewrite /g /= => ha hb; rewrite /two_at mulN1r.
  by case: a ha => [|[|[|//]]] _; case: b hb => [|[|[|//]]] _ //=; rewrite ?opprK ?oppr0.
have [f [_ [o [h2 h3]]]] := checkE rtol atol atol0 pr; exists f, (check_momentum_symmetry rtol atol0 g atol).
rewrite h3; congr (Some (_, _, _)); move: h2; rewrite check_oE // => -[<-].
case: ifP => // _; case eo: (overall_sign _) => [e|] //; exfalso; move: eo => /overallP [_].
rewrite all_cat => /andP[al _].
have c1 : contrib_o rtol g atol ((0, 1), (1, 0))%N = Some [:: false].
  rewrite /contrib_o /=; case: allclose2P => [/(_ 0%N 0%N isT isT)|_].
    rewrite /two_at /= /close opprK -mulr2n normrMn normr1 normrN normr1 mulr1 mulr2n => h; exfalso.
    by have := le_lt_trans h (ltr_add a1 r1); rewrite ltxx.
  case: allclose2P => // -[] n k _ _; rewrite /two_at /= mulrNN mulr1.
  exact: close_refl.
have c2 : contrib_o rtol g atol ((0, 2), (2, 0))%N = Some [:: true].
  by rewrite /contrib_o /=; case: allclose2P => // -[] n k _ _; rewrite /two_at /=; apply: close_refl.
by move: al; rewrite c1 c2 /=; case: e.
Qed.
Theorem C29_orbital_odd_refuted : exists g : gf C, [/\ proper 1%N 1%N 1%N g, norb g = 3%N,
  orbital_symmetric false g, data g 0%N 0%N 0%N 1%N = 1 & exists f m, check g atol = Some (f, m, None)].
Proof. exact: C29_orbital_odd_refuted_proof. Qed.
End CheckWitnesses.

(* a case: eight frequencies, a 4 x 3 x 1 mesh, two orbitals; the values are all different *)
Section Example.
Let x : array rat_numFieldType := fun n k a b => (100 * n + 10 * k + 2 * a + b)%:R.
Let g : gf rat_numFieldType := Gf true 8 [:: 4; 3; 1]%N 2 2 x.
Example C28_case_proper : proper 4%N 3%N 1%N g. Proof. by []. Qed.
Example C28_case_call : valid_call (Strs [:: "frequency"; "momentum"; "orbital"]%string) (Strs [:: "odd"; "even"; "odd"]%string).
Proof. by []. Qed.
Example C28_case : exists st' g', enforce_symmetry [:: g] 0%N (Strs [:: "frequency"; "momentum"; "orbital"]%string)
  (Strs [:: "odd"; "even"; "odd"]%string) = Some (st', 1%N) /\ List.nth_error st' 1%N = Some g' /\
  frequency_symmetric false g' /\ momentum_symmetric 4%N 3%N 1%N true g' /\ orbital_symmetric false g'.
Proof.
have [st' [g' [e1 e2 _ _]]] := C28_call_succeeds C28_case_call (erefl : List.nth_error [:: g] 0%N = Some g) C28_case_proper.
exists st', g'; split=> //; split=> //; split; [|split].
- exact: (C28_frequency_symmetric (e := "odd") e1 _ C28_case_proper e2).
- exact: (C28_momentum_symmetric (e := "even") e1 _ C28_case_proper e2).
- exact: (C28_orbital_symmetric_partial (e := "odd") e1 _ C28_case_proper e2).
Qed.
(* an even function in frequency is reported as such *)
Let y : array rat_numFieldType := fun n k a b => (if (n < 4)%N then n else (7 - n)%N)%:R.
Example C29_case : exists m o, check_symmetry 2%:R^-1 2%:R^-1 (Gf true 8 [:: 2; 1; 1]%N 2 2 y) 2%:R^-1 = Some (Some true, m, o).
Proof.
set h := Gf _ _ _ _ _ _; set t := 2%:R^-1.
have pr : proper 2%N 1%N 1%N h by [].
have t0 : 0 <= t by rewrite invr_ge0 ler0n.
have t1 : t < 1 by rewrite invf_lt1 ?ltr1n ?ltr0n.
clearbody t; have [[[f m] o] e] := C29_check_succeeds t t t pr.
exists m, o; rewrite e; congr (Some (_, _, _)).
apply: (@C29_frequency_recognised _ _ _ _ t t t t0 t1 t0 t0 h f m o true pr e).
  move=> n k a b [hn _ _ _]; rewrite mul1r /h /y /=; rewrite /h /= in hn.
  by congr (_%:R); case: (ltnP n 4) => ?; case: (ltnP (7 - n) 4) => ?; lia.
exists 1%N, 0%N, 0%N, 0%N; split; first by [].
by rewrite /h /y /= normr1.
Qed.
End Example.

Print Assumptions C28_call_succeeds.
Print Assumptions C28_invalid_call_refused.
Print Assumptions C28_frequency_symmetric.
Print Assumptions C28_momentum_symmetric.
Print Assumptions C28_orbital_symmetric_partial.
Print Assumptions C28_orbital_refuted.
Print Assumptions C28_applied_twice.
Print Assumptions C28_idempotent_partial.
Print Assumptions C28_idempotent_refuted.
Print Assumptions C28_keeps_symmetric_functions.
Print Assumptions C29_check_succeeds.
Print Assumptions C29_frequency_sign_holds.
Print Assumptions C29_momentum_sign_holds.
Print Assumptions C29_orbital_sign_holds_partial.
Print Assumptions C29_none_if_neither.
Print Assumptions C29_frequency_recognised.
Print Assumptions C29_momentum_recognised.
Print Assumptions C29_orbital_recognised_partial.
Print Assumptions C29_reports_the_enforced_symmetry.
Print Assumptions C29_orbital_refuted.
Print Assumptions C29_orbital_odd_refuted.
