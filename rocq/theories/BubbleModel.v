(* Model of the particle-hole bubbles in Matsubara frequency:
   c++/triqs_tprf/lattice/chi_imfreq.cpp 63-582 and the transforms of c++/triqs_tprf/lattice/fourier.hpp 120-200.
   Green's functions are functions of the Matsubara index (any integer: outside of its mesh a TRIQS gf evaluates
   its high-frequency tail, which is part of the function here) and of the mesh site; matrix valued.
   Positions on a fermionic mesh of nn positive frequencies are 'I_(2 nn), on a bosonic mesh of nw
   non-negative frequencies 'I_(2 nw - 1); [fidx], [bidx] give the Matsubara index of a position. *)
From mathcomp Require Import all_ssreflect all_algebra.
From Verif Require Import Base MpiModel FourierModel.
Set Implicit Arguments.
Unset Strict Implicit.
Unset Printing Implicit Defensive.
Import GRing.Theory.
Local Open Scope ring_scope.

(* triqs mesh::imfreq(beta, Fermion, nn): indices -nn .. nn-1 *)
Definition fidx (nn : nat) (p : 'I_(2 * nn)) : int := p%:Z - nn%:Z.
(* triqs mesh::imfreq(beta, Boson, nw): indices -(nw-1) .. nw-1 *)
Definition bidx (nw : nat) (p : 'I_(2 * nw).-1) : int := p%:Z - (nw.-1)%:Z.

Section Bubble.
Variables (C : fieldType) (n1 n2 n3 nb : nat) (z1 z2 z3 : C) (beta : C).
Local Notation K := (site n1 n2 n3).
Local Notation t4 := (tensor4 C nb).
Local Notation N := (ncells n1 n2 n3).

(* g_wk_t, g_wr_t *)
Definition gfun := int -> K -> 'M[C]_nb.

(* lattice/fourier.hpp (fourier_wk_to_wr, fourier_wr_to_wk): the lattice transform at every frequency,
   element by element *)
Definition fourier_wk_to_wr (g : gfun) : gfun := fun n r =>
  \matrix_(i, j) fourier_k_to_r z1 z2 z3 (fun k => g n k i j) r.
Definition fourier_wr_to_wk (g : gfun) : gfun := fun n k =>
  \matrix_(i, j) fourier_r_to_k z1 z2 z3 (fun r => g n r i j) k.

(* chi_imfreq.cpp 105, 171, 226: chi0_wn[w, n](a, b, c, d) << -beta * g_pr_n(n)(d, a) * g_mr_n(n + w)(b, c) *)
Definition chi0r_kernel (g : gfun) (w n : int) (r : K) : t4 := fun a b c d =>
  - beta * g n r d a * g (n + w) (- r) b c.

(* bubbles in real space, chi_wnr_t / chi_wnk_t *)
Definition chi_wn (nw nn : nat) := 'I_(2 * nw).-1 -> 'I_(2 * nn) -> K -> t4.

(* chi_imfreq.cpp 63-139: every rank fills its r-chunk (thread order sched), then all_reduce per (w, n) *)
Definition chi0r_from_gr_PH (nranks : nat) (sched : nat -> seq K) nw nn (g : gfun) : chi_wn nw nn :=
  fun w n r a b c d =>
    mpi_map nranks sched (fun r => chi0r_kernel g (bidx w) (fidx n) r a b c d) r.

(* chi_imfreq.cpp 141-182: one bosonic frequency, given by its index *)
Definition chi0_nr_from_gr_PH_at_specific_w (nranks : nat) (sched : nat -> seq K) (nw_index : int) nn (g : gfun) :
    'I_(2 * nn) -> K -> t4 :=
  fun n r a b c d =>
    mpi_map nranks sched (fun r => chi0r_kernel g nw_index (fidx n) r a b c d) r.

(* chi_imfreq.cpp 188-247: no distribution, loop over the whole mesh in some thread order *)
Definition chi0r_from_gr_PH_nompi (order : seq K) nw nn (g : gfun) : chi_wn nw nn :=
  fun w n r a b c d => fill (fun r => chi0r_kernel g (bidx w) (fidx n) r a b c d) order r.

(* chi_imfreq.cpp 254-282: chi0_n[n](a,b,c,d) -= g_da(d,a) * g_bc(b,c) over the k mesh, then times beta / N *)
Definition chi0_n_from_g_wk_PH (w : int) (q : K) (g : gfun) (n : int) : t4 := fun a b c d =>
  foldl (fun acc k => acc - g n k d a * g (n + w) (k - q) b c) 0 (index_enum [finType of K])
  * (beta / N%:R).

(* chi_imfreq.cpp 290-322: both propagators from e_k and sigma_w.
   (i nu + mu) I - e_k - sigma; iw n is the complex value of the fermionic Matsubara frequency n.
   Line 308 uses n + mu (not n + w + mu) also for the propagator at n + w. *)
Definition dyson_inv (z : C) (e s : 'M[C]_nb) : 'M[C]_nb := invmx (z%:M - e - s).
Definition chi0_n_from_e_k_sigma_w_PH (iw : int -> C) (mu : C) (e : K -> 'M[C]_nb) (sigma : int -> 'M[C]_nb)
    (w : int) (q : K) (n : int) : t4 := fun a b c d =>
  foldl (fun acc k =>
      let g_da := dyson_inv (iw n + mu) (e k) (sigma n) in
      let g_bc := dyson_inv (iw n + mu) (e (k - q)) (sigma (n + w)) in
      acc - g_da d a * g_bc b c) 0 (index_enum [finType of K])
  * (beta / N%:R).

(* chi_imfreq.cpp 325-341 *)
Definition chi0q_from_g_wk_PH nw nn (g : gfun) : chi_wn nw nn :=
  fun w n q => chi0_n_from_g_wk_PH (bidx w) q g (fidx n).

(* chi_imfreq.cpp 365-409 and 431-485: lattice transform at every (w, n), distributed over (w, n) *)
Definition chi0r_from_chi0q nw nn nranks (sched : nat -> seq ('I_(2 * nw).-1 * 'I_(2 * nn)))
    (chi : chi_wn nw nn) : chi_wn nw nn := fun w n r a b c d =>
  mpi_map nranks sched
    (fun p => fourier_k_to_r z1 z2 z3 (fun k => chi p.1 p.2 k a b c d) r) (w, n).
Definition chi0q_from_chi0r nw nn nranks (sched : nat -> seq ('I_(2 * nw).-1 * 'I_(2 * nn)))
    (chi : chi_wn nw nn) : chi_wn nw nn := fun w n k a b c d =>
  mpi_map nranks sched
    (fun p => fourier_r_to_k z1 z2 z3 (fun r => chi p.1 p.2 r a b c d) k) (w, n).

(* chi_imfreq.cpp 489-514: chi_wk[w,k] += chi_wnk[w,n,k] over n, then /= beta*beta; distributed over (w, k) *)
Definition chi0q_sum_nu nw nn nranks (sched : nat -> seq ('I_(2 * nw).-1 * K)) (chi : chi_wn nw nn) :
    'I_(2 * nw).-1 -> K -> t4 := fun w k a b c d =>
  mpi_map nranks sched
    (fun p => foldl (fun acc n => acc + chi p.1 n p.2 a b c d) 0 (index_enum _) / (beta * beta)) (w, k).

(* chi_imfreq.cpp 570-582: chi_w[w] += chi_wnk[w,n,k] over the product mesh, / nk / (beta*beta) *)
Definition chi0q_sum_nu_q nw nn (chi : chi_wn nw nn) : 'I_(2 * nw).-1 -> t4 := fun w a b c d =>
  foldl (fun acc (p : 'I_(2 * nn) * K) => acc + chi w p.1 p.2 a b c d) 0 (index_enum _)
  / N%:R / (beta * beta).

End Bubble.
