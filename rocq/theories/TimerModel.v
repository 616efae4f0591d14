(* Model of python/triqs_tprf/ase_timing.py: Timer and the decorator timer.
   The k-th call of time.time() in the process returns clock k; the state counts the calls. Names are elements of a totally
   ordered type (Python strings). Formatting of the report (column widths, percentages, bars) is not modelled, except for the
   division by the total. function_timer is not modelled. *)
From mathcomp Require Import all_ssreflect all_algebra.
Set Implicit Arguments.
Unset Strict Implicit.
Unset Printing Implicit Defensive.
Import GRing.Theory Num.Theory Order.Theory.
Local Open Scope ring_scope.

Section Timer.
Variables (R : realDomainType) (d : unit) (N : orderType d).
Variable clock : nat -> R.
(* the name of the row for the remaining time, line 147 *)
Variable other : N.
Local Notation path := (seq N).
Local Notation table := (seq (path * R)).
(* dictionaries *)
Definition keys (m : table) : seq path := [seq e.1 | e <- m].
Definition get (m : table) (p : path) : R := nth 0 [seq e.2 | e <- m] (index p (keys m)).
Definition set (m : table) (p : path) (v : R) : table :=
  if p \in keys m then [seq (if e.1 == p then (p, v) else e) | e <- m] else rcons m (p, v).
(* lines 70-74 *)
Record timer := Timer { timers : table; t0 : R; running : path; print_levels : nat; ticks : nat }.
Definition make (levels start_tick : nat) : timer := Timer [::] (clock start_tick) [::] levels start_tick.+1.
Inductive error := IndexError | RuntimeError | KeyError | ZeroDivisionError.
(* lines 80-83 *)
Definition start (tm : timer) (name : N) : timer :=
  let names := rcons (running tm) name in
  Timer (set (timers tm) names (get (timers tm) names - clock (ticks tm))) (t0 tm) (rcons (running tm) name) (print_levels tm) (ticks tm).+1.
(* lines 85-96 *)
Definition stop (tm : timer) (name : option N) : timer * option error :=
  if running tm is x :: s then
    let top := last x s in
    let names := running tm in
    let popped := Timer (timers tm) (t0 tm) (belast x s) (print_levels tm) (ticks tm) in
    if odflt top name != top then (popped, Some RuntimeError)
    else if names \in keys (timers tm) then
      (Timer (set (timers tm) names (get (timers tm) names + clock (ticks tm))) (t0 tm) (belast x s) (print_levels tm) (ticks tm).+1, None)
    else (popped, Some KeyError)
  else (tm, Some IndexError).
(* comparison of tuples of strings *)
Fixpoint tle (a b : path) : bool :=
  match a, b with
  | [::], _ => true
  | _, [::] => false
  | x :: a', y :: b' => if x == y then tle a' b' else (x < y)%O
  end.
(* lines 141-153: exclusive times and the remaining time *)
Definition parent (p : path) : path := take (size p).-1 p.
Definition subtract (levels : nat) (st : table * R) (names : path) : table * R :=
  let t := get st.1 names in
  if (1 < size names)%N then
    if (size names < levels + 1)%N then (set st.1 (parent names) (get st.1 (parent names) - t), st.2) else st
  else (st.1, st.2 - t).
Definition has_parents (ks : seq path) : bool := all (fun p : path => (size p <= 1)%N || (parent p \in ks)) ks.
Record report := Report { rows : seq (path * R * R); report_total : R }.
Definition make_report (m : table) (levels : nat) (tot : R) : report + error :=
  let ks := sort tle (keys m) in
  if ~~ has_parents ks then inr KeyError
  else if tot == 0 then inr ZeroDivisionError
  else
    let st := foldl (subtract levels) (m, tot) ks in
    let exclusive := set st.1 [:: other] st.2 in
    let inclusive := set m [:: other] st.2 in
    inl (Report [seq (p, get inclusive p, get exclusive p) | p <- rcons ks [:: other] & (size p <= levels)%N] tot).
(* lines 122-178 *)
Fixpoint stop_all (fuel : nat) (tm : timer) : timer * option error :=
  if fuel is fuel'.+1 then
    if running tm is [::] then (tm, None)
    else let: (tm', e) := stop tm None in if e is Some _ then (tm', e) else stop_all fuel' tm'
  else (tm, None).
Definition write (tm : timer) : timer * option (report + error) :=
  let were_running := running tm in
  let: (tm1, e) := stop_all (size (running tm)) tm in
  if e is Some x then (tm1, Some (inr x))
  else if timers tm1 is [::] then (tm1, None)
  else
    let tot := clock (ticks tm1) - t0 tm1 in
    let tm2 := Timer (timers tm1) (t0 tm1) (running tm1) (print_levels tm1) (ticks tm1).+1 in
    match make_report (timers tm2) (print_levels tm2) tot with
    | inr x => (tm2, Some (inr x))
    | inl r => (foldl start tm2 were_running, Some (inl r))
    end.
(* lines 182-184 *)
Definition add (tm other_timer : timer) : timer :=
  Timer (foldl (fun m e => set m e.1 (get m e.1 + e.2)) (timers tm) (timers other_timer)) (t0 tm) (running tm) (print_levels tm) (ticks tm).

(* programs that use the timer *)
Inductive outcome := Returned | Failed of error | Wrote of option report.
Inductive op := Start of N | Stop of option N | Write.
Definition step (tm : timer) (o : op) : timer * outcome :=
  match o with
  | Start name => (start tm name, Returned)
  | Stop name => let: (tm', e) := stop tm name in (tm', if e is Some x then Failed x else Returned)
  | Write => let: (tm', r) := write tm in
             (tm', match r with None => Wrote None | Some (inl x) => Wrote (Some x) | Some (inr x) => Failed x end)
  end.
(* the calls one after the other; None as soon as one raises *)
Fixpoint run (tm : timer) (ops : seq op) : option (timer * seq (option report)) :=
  if ops is o :: ops' then
    match step tm o with
    | (_, Failed _) => None
    | (tm', Returned) => run tm' ops'
    | (tm', Wrote r) => if run tm' ops' is Some (tm'', rs) then Some (tm'', r :: rs) else None
    end
  else Some (tm, [::]).

(* a method works on the timer and either returns or raises *)
Definition method := timer -> timer * bool.
(* lines 202-214; the flag is true for an exception leaving the call *)
Definition decorated (name : N) (body : method) : method := fun tm =>
  let: (tm1, raised) := body (start tm name) in
  if raised then (tm1, true)
  else let: (tm2, e) := stop tm1 None in
       (tm2, match e with None => false | Some IndexError => false | Some _ => true end).
(* lines 98-117: with timer(name): body *)
Definition with_timer (name : N) (body : method) : method := fun tm =>
  let: (tm1, raised) := body (start tm name) in
  let: (tm2, e) := stop tm1 None in (tm2, raised || (if e is Some _ then true else false)).
End Timer.
