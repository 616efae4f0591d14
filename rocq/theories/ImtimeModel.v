(* Model of the imaginary-time bubble: c++/triqs_tprf/lattice/chi_imtime.cpp 86-280, the time/frequency loops of
   c++/triqs_tprf/lattice/fourier.hpp 95-155 and python/triqs_tprf/lattice_utils.py 191-269.
   The imaginary-time mesh has L+1 points 0, beta/L, .., beta, so that beta - t is the point at position rev_ord.
   The frequency-to-time transform [wt] of a Green's function, the time-to-frequency transform [tw_plan] of the
   repository (fourier_matsubara.cpp 105-160; the value at a frequency does not depend on how many frequencies
   are requested) and the one of the TRIQS library [tw_lib] (make_gf_from_fourier) are parameters. *)
From mathcomp Require Import all_ssreflect all_algebra.
From Verif Require Import Base MpiModel FourierModel BubbleModel.
Set Implicit Arguments.
Unset Strict Implicit.
Unset Printing Implicit Defensive.
Import GRing.Theory.
Local Open Scope ring_scope.

(* one schedule per distributed loop: the number identifies the loop *)
Definition schedules := nat -> forall T : finType, nat -> seq T.

Section Imtime.
Variables (C : fieldType) (n1 n2 n3 nb L : nat) (z1 z2 z3 : C) (beta : C).
Local Notation K := (site n1 n2 n3).
Local Notation t4 := (tensor4 C nb).
Variable wt : (int -> 'M[C]_nb) -> 'I_L.+1 -> 'M[C]_nb.
(* both act on one component of the tensor at a time *)
Variables tw_plan tw_lib : ('I_L.+1 -> C) -> int -> C.

(* g_tr_t, chi_tr_t, chi_wr_t (nw non-negative bosonic frequencies) *)
Definition gtr := 'I_L.+1 -> K -> 'M[C]_nb.
Definition chi_tr := 'I_L.+1 -> K -> t4.
Definition chi_wr (nw : nat) := 'I_(2 * nw).-1 -> K -> t4.

(* lattice/fourier.hpp 95-125 *)
Definition fourier_wr_to_tr nranks (sched : nat -> seq K) (g : gfun C n1 n2 n3 nb) : gtr := fun t r =>
  \matrix_(i, j) mpi_map nranks sched (fun r => wt (fun n => g n r) t i j) r.

(* chi_imtime.cpp 128, 173, 219: chi0_t[t](a,b,c,d) << g_pr_t(t)(d,a) * g_mr_t(beta - t)(b,c) *)
Definition chi0_t_kernel (g : gtr) (r : K) (t : 'I_L.+1) : t4 := fun a b c d =>
  g t r d a * g (rev_ord t) (- r) b c.

(* chi_imtime.cpp 86-136 *)
Definition chi0_tr_from_grt_PH nranks (sched : nat -> seq K) (g : gtr) : chi_tr := fun t r a b c d =>
  mpi_map nranks sched (fun r => chi0_t_kernel g r t a b c d) r.

(* chi_imtime.cpp 139-183: time bubble at one r, transformed at once by make_gf_from_fourier *)
Definition chi0_wr_from_grt_PH nranks (sched : nat -> seq K) nw (g : gtr) : chi_wr nw := fun w r a b c d =>
  mpi_map nranks sched (fun r => tw_lib (fun t => chi0_t_kernel g r t a b c d) (bidx w)) r.

(* chi_imtime.cpp 230-247: trapezoidal rule *)
Definition trapz (x : 'I_L.+1 -> C) : C :=
  (foldl (fun acc t => acc + x t) 0 (index_enum _) - 2%:R^-1 * x ord0 - 2%:R^-1 * x ord_max) * (beta / L%:R).
Definition chi_trapz_tau (chi : 'I_L.+1 -> t4) : t4 := fun a b c d => trapz (fun t => chi t a b c d).

(* chi_imtime.cpp 185-228 *)
Definition chi0_w0r_from_grt_PH nranks (sched : nat -> seq K) (g : gtr) : chi_wr 1 := fun _ r a b c d =>
  mpi_map nranks sched (fun r => chi_trapz_tau (chi0_t_kernel g r) a b c d) r.

(* chi_imtime.cpp 249-275 *)
Definition chi_w0r_from_chi_tr nranks (sched : nat -> seq K) (chi : chi_tr) : chi_wr 1 := fun _ r a b c d =>
  mpi_map nranks sched (fun r => chi_trapz_tau (fun t => chi t r) a b c d) r.

(* chi_imtime.cpp 277-280, lattice/fourier.hpp 127-155 *)
Definition chi_wr_from_chi_tr nranks (sched : nat -> seq K) nw (chi : chi_tr) : chi_wr nw := fun w r a b c d =>
  mpi_map nranks sched (fun r => tw_plan (fun t => chi t r a b c d) (bidx w)) r.

(* chi_imtime.cpp 287-290, lattice/fourier.hpp 190-215: lattice transform at each frequency *)
Definition chi_wk_from_chi_wr nranks nw (sched : nat -> seq 'I_(2 * nw).-1) (chi : chi_wr nw) : chi_wr nw :=
  fun w q a b c d =>
  mpi_map nranks sched (fun w => fourier_r_to_k z1 z2 z3 (fun r => chi w r a b c d) q) w.

(* lattice_utils.py 191-269: nw == 1 takes the trapezoidal path whatever save_memory is *)
Definition imtime_bubble_chi0_wk nranks (sc : schedules) (nw : nat) (save_memory : bool)
    (g : gfun C n1 n2 n3 nb) : chi_wr nw :=
  let g_tr := fourier_wr_to_tr nranks (sc 0%N [finType of K]) (fourier_wk_to_wr z1 z2 z3 g) in
  chi_wk_from_chi_wr nranks (sc 1%N [finType of 'I_(2 * nw).-1])
    (if nw == 1%N then fun _ => chi0_w0r_from_grt_PH nranks (sc 2%N [finType of K]) g_tr ord0
     else if save_memory then chi0_wr_from_grt_PH nranks (sc 3%N [finType of K]) (nw := nw) g_tr
     else chi_wr_from_chi_tr nranks (sc 4%N [finType of K]) (nw := nw)
            (chi0_tr_from_grt_PH nranks (sc 5%N [finType of K]) g_tr)).
End Imtime.
