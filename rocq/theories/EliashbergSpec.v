(* The linearized Eliashberg product as documented (doc/theory/eliashberg.rst eq. linearized_eliashberg_5; header
   c++/triqs_tprf/lattice/eliashberg.hpp 32-41), the documented RPA pairing vertices (eliashberg.py 443-520), and the
   symmetries used in the statements. Independent of EliashbergModel. *)
From mathcomp Require Import all_ssreflect all_algebra.
From Verif Require Import FourierModel.
Set Implicit Arguments.
Unset Strict Implicit.
Unset Printing Implicit Defensive.
Import GRing.Theory.
Local Open Scope ring_scope.

Section Spec.
Variables (C : fieldType) (n1 n2 n3 nb nw : nat) (beta : C) (cj : C -> C).
Local Notation K := (site n1 n2 n3).
Local Notation N := ((n1.+1 * n2.+1 * n3.+1)%N%:R : C).
Local Notation I := 'I_nb.
Local Notation t4 := (I -> I -> I -> I -> C).

(* position p of the mesh of 2 nw frequencies has Matsubara index p - nw; minus the frequency of index n has index -n-1 *)
Definition findex (p : 'I_(2 * nw)) : int := p%:Z - nw%:Z.
Definition minus (n : int) : int := - n - 1.

(* theory page: - 1/(2 N beta) sum_{n',k'} Gamma_cadb(n - n', k - k') G_cf(n',k') G_de(-n',-k') Delta_ef(n',k') *)
Definition eliashberg_doc (gamma : int -> K -> t4) (G : int -> K -> I -> I -> C)
    (delta : 'I_(2 * nw) -> K -> I -> I -> C) (p : 'I_(2 * nw)) (k : K) (a b : I) : C :=
  - (\sum_(p' < 2 * nw) \sum_(k' : K) \sum_c \sum_d \sum_e \sum_f
      gamma (findex p - findex p') (k - k') c a d b * G (findex p') k' c f * G (minus (findex p')) (- k') d e * delta p' k' e f)
  / (2%:R * N * beta).
(* header: the same with G_ce(n',k') G_df(-n',-k') *)
Definition eliashberg_header (gamma : int -> K -> t4) (G : int -> K -> I -> I -> C)
    (delta : 'I_(2 * nw) -> K -> I -> I -> C) (p : 'I_(2 * nw)) (k : K) (a b : I) : C :=
  - (\sum_(p' < 2 * nw) \sum_(k' : K) \sum_c \sum_d \sum_e \sum_f
      gamma (findex p - findex p') (k - k') c a d b * G (findex p') k' c e * G (minus (findex p')) (- k') d f * delta p' k' e f)
  / (2%:R * N * beta).
(* complex conjugation reverses the frequency *)
Definition conj_symmetric (G : int -> K -> I -> I -> C) :=
  forall n k a b, G (minus n) k a b = cj (G n k b a).

(* - 1/(2 N) sum_{k'} Gamma_cadb(k - k') F_dc(k') *)
Definition gap_conv (gamma : K -> t4) (F : K -> I -> I -> C) (k : K) (a b : I) : C :=
  - (\sum_(k' : K) \sum_c \sum_d gamma (k - k') c a d b * F k' d c) / (2%:R * N).
(* F_dc(k) = sum_ef G_cf(k) conj(G_ed(-k)) Delta_ef(k), at one frequency *)
Definition pair_amplitude (G : K -> I -> I -> C) (delta : K -> I -> I -> C) (k : K) (d c : I) : C :=
  \sum_e \sum_f G k c f * cj (G (- k) e d) * delta k e f.
End Spec.

Section GammaSpec.
Variables (C : fieldType) (nb : nat) (cj : C -> C).
Local Notation I := 'I_nb.
Local Notation t4 := (I -> I -> I -> I -> C).
(* 1/2 U^d_abcd + 3/2 U^m_abcd + conj[3 Phi^m_cbad - Phi^d_cbad] *)
Definition gamma_singlet_doc (U_d U_m phi_d phi_m : t4) a b c d : C :=
  U_d a b c d / 2%:R + 3%:R * U_m a b c d / 2%:R + cj (3%:R * phi_m c b a d - phi_d c b a d).
(* - 1/2 U^d_abcd + 1/2 U^m_abcd + conj[- Phi^m_cbad - Phi^d_cbad] *)
Definition gamma_triplet_doc (U_d U_m phi_d phi_m : t4) a b c d : C :=
  - U_d a b c d / 2%:R + U_m a b c d / 2%:R + cj (- phi_m c b a d - phi_d c b a d).
End GammaSpec.
