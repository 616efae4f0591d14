(* Where the time went, in terms of the stack of running timers between successive clock readings. *)
From mathcomp Require Import all_ssreflect all_algebra.
From Verif Require Import TimerModel.
Set Implicit Arguments.
Unset Strict Implicit.
Unset Printing Implicit Defensive.
Import GRing.Theory Num.Theory Order.Theory.
Local Open Scope ring_scope.

Section TimerSpec.
Variables (R : realDomainType) (d : unit) (N : orderType d) (clock : nat -> R).
Local Notation path := (seq N).
(* one entry per clock reading: the timers that run from that reading to the next one *)
Definition after_start (h : seq path) (name : N) : seq path := rcons h (rcons (last [::] h) name).
Definition after_stop (h : seq path) : seq path := rcons h (parent (last [::] h)).
(* while a report is written all timers are stopped, innermost first; the report is made at the reading in the middle *)
Definition before_report (h : seq path) : seq path := iter (size (last [::] h)) after_stop h.
Definition after_report (h : seq path) : seq path := foldl after_start (rcons (before_report h) [::]) (last [::] h).
(* duration of the part of the history that satisfies a condition on the running timers, up to the last reading *)
Definition time_where (P : pred path) (h : seq path) : R :=
  \sum_(k < (size h).-1) if P (nth [::] h k) then clock k.+1 - clock k else 0.
(* the row of p in a report of L levels: the time spent in p itself, for the innermost level shown also in everything below *)
Definition counted_in (L : nat) (p : path) : pred path := fun s => if (size p < L)%N then s == p else prefix p s.
Definition some_timer_ran (h : seq path) : bool := has (fun p => p != [::]) h.
(* readings made by a sequence of calls; a report with nothing to say reads no clock *)
Definition history_step (h : seq path) (o : op N) : seq path :=
  match o with
  | Start x => after_start h x
  | Stop _ => after_stop h
  | Write => if some_timer_ran h then after_report h else h
  end.
Definition history (ops : seq (op N)) : seq path := foldl history_step [:: [::]] ops.
End TimerSpec.
