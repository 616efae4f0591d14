(* Model of c++/triqs_tprf/fourier/fourier_matsubara.cpp 30-308: transforms between imaginary time and Matsubara
   frequency with a three-pole tail, for one component of the target (the routines act component by component).
   exp is a parameter [ex]; [zh] stands for exp(i pi / L); fftw is the plain discrete Fourier sum.
   The complex numbers are any numClosedFieldType; the fit of the moments by the TRIQS library (fit_tail, line 219)
   is a parameter of the callers. *)
From mathcomp Require Import all_ssreflect all_algebra.
Set Implicit Arguments.
Unset Strict Implicit.
Unset Printing Implicit Defensive.
Import GRing.Theory Num.Theory.
Local Open Scope ring_scope.

Inductive statistic := Fermion | Boson.

(* triqs mesh::imfreq(beta, stat, n): indices -n .. n-1 (fermions), -(n-1) .. n-1 (bosons); last_index = n-1 *)
Definition first_index (s : statistic) (n : nat) : int := if s is Fermion then - n%:Z else - (n%:Z - 1).
Definition mesh_size (s : statistic) (n : nat) : nat := if s is Fermion then (2 * n)%N else (2 * n).-1.
Definition wmesh (s : statistic) (n : nat) : seq int := [seq first_index s n + k%:Z | k <- iota 0 (mesh_size s n)].

Section Matsubara.
Variables (C : numClosedFieldType) (L : nat) (beta zh : C) (ex : C -> C) (freq : statistic -> int -> C).
(* first two rows of the Vandermonde inverse of lines 56-71 *)
Variables V0 V1 : 'I_8 -> C.
Local Notation T := 'I_L.+1.

(* the imaginary time of a mesh point *)
Definition tau (t : T) : C := beta * t%:R / L%:R.

(* lines 31-33 and 35-37 with a = 1 *)
Definition oneFermion (b tau : C) : C :=
  - (if 0 <= b then ex (- b * tau) / (1 + ex (- beta * b)) else ex (b * (beta - tau)) / (1 + ex (beta * b))).
Definition oneBoson (b tau : C) : C :=
  if 0 <= b then ex (- b * tau) / (ex (- beta * b) - 1) else ex (b * (beta - tau)) / (1 - ex (b * beta)).
Definition one (s : statistic) := if s is Fermion then oneFermion else oneBoson.

(* lines 150-157, 162-169, 274-288 *)
Definition poles (s : statistic) : C * C * C :=
  if s is Fermion then (0, 1, -1) else (- 2%:R^-1, -1, 1).
Definition coefs (s : statistic) (m1 m2 m3 : C) : C * C * C :=
  if s is Fermion then (m1 - m3, (m2 + m3) / 2%:R, (m3 - m2) / 2%:R)
  else (4%:R * (m1 - m3) / 3%:R, m3 - (m1 + m2) / 2%:R, m1 / 6%:R + m2 / 2%:R + m3 / 3%:R).

(* the subtracted function in time and in frequency *)
Definition tail_t (s : statistic) (a : C * C * C) (t : T) : C :=
  let b := poles s in
  a.1.1 * one s b.1.1 (tau t) + a.1.2 * one s b.1.2 (tau t) + a.2 * one s b.2 (tau t).
Definition tail_w (s : statistic) (a : C * C * C) (w : int) : C :=
  let b := poles s in
  a.1.1 / (freq s w - b.1.1) + a.1.2 / (freq s w - b.1.2) + a.2 / (freq s w - b.2).

(* lines 42-97: finite differences at both ends, contracted with the first two rows of V_inv *)
Definition fit_derivatives (s : statistic) (g : T -> C) : C * C :=
  let d_left (m : 'I_8) := (g (inord m.+1) - g ord0) / tau (inord m.+1) in
  let d_right (m : 'I_8) := (g ord_max - g (inord (L - m.+1))) / tau (inord m.+1) in
  let sign : C := if s is Fermion then -1 else 1 in
  let delta := beta / L%:R in
  (\sum_m V0 m * d_left m - sign * \sum_m V0 m * d_right m,
   - (\sum_m V1 m * d_left m + sign * \sum_m V1 m * d_right m) * 2%:R / delta).

(* fftw of length L on the first L entries; FFTW_BACKWARD has phase exp(+2 pi i j k / L) *)
Definition fft_backward (x : T -> C) (k : int) : C := \sum_(j < L) x (inord j) * (zh ^+ 2) ^+ (j * `|k|).
Definition fft_forward (x : nat -> C) (t : T) : C := \sum_(j < L) x j * (zh ^+ 2) ^- (j * t).

(* line 181, 290: (w.index() + L) % L *)
Definition wslot (w : int) : nat := absz ((w + L%:Z) %% L%:Z)%Z.

(* lines 123-184 with given moments (m2, m3) *)
Definition tau_to_w_mom (s : statistic) (m23 : C * C) (g : T -> C) (w : int) : C :=
  let m1 := if s is Fermion then - (g ord0 + g ord_max) else - (g ord0 - g ord_max) in
  let a := coefs s m1 m23.1 m23.2 in
  let gin (t : T) := (beta / L%:R) * (if s is Fermion then zh ^+ t else 1) * (g t - tail_t s a t) in
  fft_backward gin (wslot w)%:Z + tail_w s a w.
(* line 124: moments from the ends of the interval when none are given *)
Definition tau_to_w (s : statistic) (g : T -> C) (w : int) : C := tau_to_w_mom s (fit_derivatives s g) g w.
(* lines 128-131: run-time check on the mesh of n positive (non-negative) frequencies *)
Definition fourier_tau_to_w (s : statistic) (n : nat) (g : T -> C) : option (int -> C) :=
  if (L < 2 * n)%N then None else Some (tau_to_w s g).

(* lines 210-308 with given moments (m1, m2, m3); unset entries of the input array are zero *)
Definition w_to_tau_mom (s : statistic) (n : nat) (m : C * C * C) (g : int -> C) (t : T) : C :=
  let a := coefs s m.1.1 m.1.2 m.2 in
  let gin := foldl (fun (x : nat -> C) w => fun k => if k == wslot w then beta^-1 * (g w - tail_w s a w) else x k)
               (fun=> 0) (wmesh s n) in
  let gt t := (fft_forward gin t) * (if s is Fermion then zh ^- t else 1) + tail_t s a t in
  if t == ord_max then (if s is Fermion then -1 else 1) * (gt ord0 + m.1.1) else gt t.
Definition fourier_w_to_tau (s : statistic) (n : nat) (m : C * C * C) (g : int -> C) : option (T -> C) :=
  if (L < 2 * n)%N then None else Some (w_to_tau_mom s n m g).
End Matsubara.
