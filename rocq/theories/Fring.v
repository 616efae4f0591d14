(* ring/field tactics of the standard library for mathcomp fields (no modelling content). *)
From mathcomp Require Import all_ssreflect all_algebra.
Require Import Ring Field.
Set Implicit Arguments.
Import GRing.Theory.
Local Open Scope ring_scope.
Definition fadd (F : fieldType) (x y : F) : F := x + y.
Definition fmul (F : fieldType) (x y : F) : F := x * y.
Definition fopp (F : fieldType) (x : F) : F := - x.
Definition fsub (F : fieldType) (x y : F) : F := x - y.
Definition finv (F : fieldType) (x : F) : F := x^-1.
Definition fdiv (F : fieldType) (x y : F) : F := x / y.
Definition fone (F : fieldType) : F := 1.
Definition fzero (F : fieldType) : F := 0.
Definition fnat (F : fieldType) (x : F) (n : nat) : F := x *+ n.
Definition fexp (F : fieldType) (x : F) (n : nat) : F := x ^+ n.
Lemma fld_rt (F : fieldType) : @ring_theory F (fzero F) (fone F) (@fadd F) (@fmul F) (@fsub F) (@fopp F) eq.
Proof. 
split; rewrite /fadd /fmul /fsub /fopp /fone /fzero => *;
by rewrite ?add0r ?addrA ?mul1r ?mulrA ?mulrDl ?subrr // 1?addrC // mulrC.
Qed.
Lemma fld_ft (F : fieldType) : @field_theory F (fzero F) (fone F) (@fadd F) (@fmul F) (@fsub F) (@fopp F) (@fdiv F) (@finv F) eq.
Proof. split. exact: fld_rt. by move/eqP; rewrite oner_eq0. by []. by move=> x /eqP h; apply: mulVf. Qed.

Ltac to_field F :=
  repeat match goal with
  | |- context [@GRing.add _ ?x (@GRing.opp _ ?y)] => progress change (@GRing.add _ x (@GRing.opp _ y)) with (@fsub F x y)
  | |- context [@GRing.add _ ?x ?y] => progress change (@GRing.add _ x y) with (@fadd F x y)
  | |- context [@GRing.opp _ ?x] => progress change (@GRing.opp _ x) with (@fopp F x)
  | |- context [@GRing.mul _ ?x ?y] => progress change (@GRing.mul _ x y) with (@fmul F x y)
  | |- context [@GRing.inv _ ?x] => progress change (@GRing.inv _ x) with (@finv F x)
  | |- context [@GRing.one ?R] => progress change (@GRing.one R) with (@fone F)
  | |- context [@GRing.zero ?R] => progress change (@GRing.zero R) with (@fzero F)
  | |- context [@GRing.natmul _ ?x ?n] => progress change (@GRing.natmul _ x n) with (@fnat F x n)
  | |- context [@GRing.exp _ ?x ?n] => progress change (@GRing.exp _ x n) with (@fexp F x n)
  | |- @eq ?T ?x ?y => progress change (@eq T x y) with (@eq (GRing.Field.sort F) x y)
  end.
Ltac gatom t := lazymatch t with
  | fadd _ ?x ?y => first [gatom x | gatom y]
  | fsub _ ?x ?y => first [gatom x | gatom y]
  | fmul _ ?x ?y => first [gatom x | gatom y]
  | fopp _ ?x => gatom x
  | fone _ => fail
  | fzero _ => fail
  | _ => assert_fails (is_var t); (let h := fresh "u" in move: t; intro h)
  end.
Ltac gatoms := repeat match goal with |- ?l = ?r => first [gatom l | gatom r] end.
Ltac fring F := to_field F; gatoms; ring.
Ltac ffield F := to_field F; field.
(* after expanding numerals and powers *)
Ltac nring F := rewrite ?exprS ?expr0 ?mulrS ?mulr0n; fring F.
Ltac nfield F := rewrite ?exprS ?expr0 ?mulrS ?mulr0n; to_field F; field.
