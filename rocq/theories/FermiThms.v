(* C49: the Fermi function. *)
From Coq Require Import Reals Lra.
From Coquelicot Require Import Coquelicot.
From Verif Require Import FermiModel.
Local Open Scope R_scope.

(* both branches are the Fermi function *)
Theorem C49_fermi (x : R) : fermi x = 1 / (1 + exp x) /\ fermi_scalar x = 1 / (1 + exp x).
Proof.
enough (fermi x = 1 / (1 + exp x)) as h by (split; [exact h | exact h]).
unfold fermi. assert (hx := exp_pos x). assert (hm := exp_pos (- x)).
destruct (Rlt_dec x 0); [field; lra|].
cbv zeta. rewrite exp_Ropp. field. split; lra.
Qed.
Theorem C49_bounds (x : R) : 0 < fermi x < 1.
Proof.
rewrite (proj1 (C49_fermi x)). assert (hx := exp_pos x). split.
- apply Rdiv_lt_0_compat; lra.
- apply (Rmult_lt_reg_r (1 + exp x)); [lra|]. unfold Rdiv. rewrite Rmult_assoc, Rinv_l; lra.
Qed.
Theorem C49_particle_hole (x : R) : fermi (- x) = 1 - fermi x.
Proof.
rewrite (proj1 (C49_fermi x)), (proj1 (C49_fermi (- x))), exp_Ropp. assert (hx := exp_pos x). field. split; lra.
Qed.
Theorem C49_decreasing (x y : R) : x < y -> fermi y < fermi x.
Proof.
intros h. rewrite (proj1 (C49_fermi x)), (proj1 (C49_fermi y)). assert (hx := exp_pos x). assert (hy := exp_increasing _ _ h).
unfold Rdiv. rewrite !Rmult_1_l. apply Rinv_lt_contravar; nra.
Qed.
(* the factor of the double pole of the Lindhard function is minus the derivative of the occupation *)
Theorem C49_derivative (beta e : R) : is_derive (fun x => fermi (x * beta)) e (- second_order_pole beta e).
Proof.
apply (is_derive_ext (fun x => 1 / (1 + exp (x * beta)))).
- intros t. now rewrite (proj1 (C49_fermi _)).
- assert (hx := exp_pos (e * beta)). auto_derive; [lra|].
  unfold second_order_pole, cosh. assert (hp := exp_pos (5 / 10 * beta * e)).
  assert (h1 : exp (- (5 / 10 * beta * e)) = / exp (5 / 10 * beta * e)) by apply exp_Ropp.
  assert (h2 : exp (e * beta) = exp (5 / 10 * beta * e) * exp (5 / 10 * beta * e)).
  { rewrite <- exp_plus. f_equal. lra. }
  rewrite h1, h2. set (u := exp (5 / 10 * beta * e)) in *. cbv zeta. field. split; nra.
Qed.
(* the Bose function *)
Theorem C49_bose (x : R) : x <> 0 -> bose (- x) = - 1 - bose x.
Proof.
intros h. unfold bose. rewrite exp_Ropp. assert (hx := exp_pos x).
assert (n : exp x <> 1). { intros e. apply h. apply exp_inv. now rewrite exp_0. }
field. repeat split; lra.
Qed.
Theorem C49_bose_positive (x : R) : 0 < x -> 0 < bose x.
Proof. intros h. unfold bose. assert (hx := exp_increasing _ _ h). rewrite exp_0 in hx. apply Rdiv_lt_0_compat; lra. Qed.
(* fermi and bose at the sum of energies: the identity behind products of occupations *)
Theorem C49_product (x y : R) : x + y <> 0 -> fermi x * fermi y = bose (x + y) * (1 - fermi x - fermi y).
Proof.
intros h. unfold bose. rewrite (proj1 (C49_fermi x)), (proj1 (C49_fermi y)), exp_plus.
assert (hx := exp_pos x). assert (hy := exp_pos y).
assert (n : exp x * exp y <> 1). { rewrite <- exp_plus. intros e. apply h. apply exp_inv. now rewrite exp_0. }
field. repeat split; lra.
Qed.
Example C49_case : fermi 0 = 1 / 2 /\ fermi (-1) + fermi 1 = 1.
Proof. split. rewrite (proj1 (C49_fermi 0)), exp_0; lra. replace (-1) with (- (1)) by lra. rewrite C49_particle_hole; lra. Qed.
Print Assumptions C49_fermi.
Print Assumptions C49_derivative.
