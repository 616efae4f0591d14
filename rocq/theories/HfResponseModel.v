(* Model of python/triqs_tprf/hf_response.py: BaseResponse, HartreeFockResponse, HartreeResponse. The attributes of the solver used are beta, e_k_MF, mu and U_abcd.
   np_eigh and np.exp are parameters. Not modelled: printing, mode_decomposition, floating-point rounding. *)
From mathcomp Require Import all_ssreflect all_algebra.
From Verif Require Import Base OperatorModel HfModel RpaModel.
Set Implicit Arguments.
Unset Strict Implicit.
Unset Printing Implicit Defensive.
Import GRing.Theory Num.Theory.
Local Open Scope ring_scope.

Section Response.
Variables (C : numClosedFieldType) (n : nat) (K : finType).
Local Notation mx := 'M[C]_n.
Local Notation t4 := (tensor4 C n).
Variable eigh : mx -> 'rV[C]_n * mx.
Variable exp : C -> C.
Variable beta : C.
(* lines 41-60: the dispersion with the chemical potential subtracted *)
Definition dispersion (e_k_MF : K -> mx) (mu : C) : K -> mx := fun k => e_k_MF k - mu *: 1%:M.
Section Base.
Variables (e_k : K -> mx) (eps : C).
(* lines 83-90: U fermi(e) U^dagger *)
Definition density_of (E : mx) : mx := let: (e, U) := eigh E in \matrix_(a, c) \sum_b U a b * fermi exp beta (e ord0 b) * (U c b)^*.
(* lines 75-94 *)
Definition compute_drho_k_dop (op : mx) (k : K) : mx :=
  let E_p := e_k k + eps *: op in let E_m := e_k k - eps *: op in
  (2%:R * eps)^-1 *: (density_of E_p - density_of E_m).
(* lines 67-72 *)
Definition compute_drho_dop (op : mx) : mx := (n_k C K)^-1 *: \sum_k compute_drho_k_dop op k.
(* lines 97-108 *)
Definition compute_chi0_ab : mx := \matrix_(a, b) - compute_drho_dop (delta_mx a a) b b.
(* lines 134-136: two entries are added, also on the diagonal *)
Definition F_ab (field_prefactor : C) (a b : 'I_n) : mx := field_prefactor *: delta_mx a b + field_prefactor^* *: delta_mx b a.
(* lines 128-141: the loop over a, b fills [:, b, a, :, :] *)
Definition compute_R_kabcd (field_prefactor : C) (k : K) : t4 := fun b a c d => - compute_drho_k_dop (F_ab field_prefactor a b) k c d.
(* lines 153-160 *)
Definition compute_chi0_kabcd (k : K) : t4 := fun a b c d =>
  2%:R^-1 * (compute_R_kabcd 1 k a b c d + 'Im (compute_R_kabcd 'i k a b c d)).
(* lines 144-149 *)
Definition compute_chi0_abcd : t4 := fun a b c d => (\sum_k compute_chi0_kabcd k a b c d) / n_k C K.
End Base.
(* line 41: the default of BaseResponse *)
Definition default_eps : C := (10%:R ^+ 9)^-1.

(* lines 184-214; the attribute chi0_kabcd is not set (line 212 is a comment) *)
Record hf_response := HfResponse { chi0_abcd : t4; chi_abcd : t4; chi0_kabcd : option (K -> t4) }.
Definition tensor_of (U : arr4 C) : t4 := fun a b c d => U a b c d.
Definition HartreeFockResponse (e_k_MF : K -> mx) (mu : C) (U_abcd : arr4 C) (eps : C) : hf_response :=
  let chi0 := compute_chi0_abcd (dispersion e_k_MF mu) default_eps in
  HfResponse chi0 (rpa_point (tensor_of U_abcd) chi0) None.
(* lines 241-248 and 232-239 *)
Definition response (r : hf_response) (op1 op2 : mx) : C := \sum_a \sum_b \sum_c \sum_d op1 a b * chi_abcd r a b c d * op2 c d.
Definition bare_response (r : hf_response) (op1 op2 : mx) : C := \sum_a \sum_b \sum_c \sum_d op1 a b * chi0_abcd r a b c d * op2 c d.
(* lines 250-257: None is AttributeError *)
Definition compute_chi0_k (r : hf_response) : option (K -> t4) := chi0_kabcd r.

(* lines 274-285, 318-325 *)
Record h_response := HResponse { chi0_ab : mx; chi_ab : mx }.
Definition extract_dens_dens (U : arr4 C) : mx := \matrix_(i1, i2) U i1 i1 i2 i2.
Definition HartreeResponse (e_k_MF : K -> mx) (mu : C) (U_abcd : arr4 C) (eps : C) : h_response :=
  let U_ab := extract_dens_dens U_abcd in
  let chi0 := compute_chi0_ab (dispersion e_k_MF mu) default_eps in
  HResponse chi0 (chi0 *m invmx (1%:M - U_ab *m chi0)).
(* lines 287-316; the comparison to seven decimals of __check_op is exact here *)
Definition diagonal (op : mx) : bool := op - diag_mx (\row_i op i i) == 0.
Definition response_hartree (r : h_response) (op1 op2 : mx) : option C :=
  if diagonal op1 && diagonal op2 then Some (\sum_a \sum_b op1 a a * chi_ab r a b * op2 b b) else None.
End Response.
