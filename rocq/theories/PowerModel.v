(* Model of python/triqs_tprf/eliashberg.py 42-193 (solve_eliashberg), 196-255 (preprocess_gamma_for_fft), 258-298 (semi_random_initial_delta),
   301-335 (implicitly_restarted_arnoldi_method), 338-398 (power_method_LR). None is an exception.
   Vectors of length n.+1. scipy's eigs and numpy's random numbers are parameters. Not modelled: floating-point rounding, warnings. *)
From mathcomp Require Import all_ssreflect all_algebra.
From Verif Require Import Base MpiModel FourierModel BubbleModel ImtimeModel EliashbergModel.
Set Implicit Arguments.
Unset Strict Implicit.
Unset Printing Implicit Defensive.
Import GRing.Theory Num.Theory.
Local Open Scope ring_scope.

Section Power.
Variables (C : numClosedFieldType) (n : nat).
Local Notation vec := 'rV[C]_n.+1.
Variable matvec : vec -> option vec.
(* np.linalg.norm, np.max(np.abs(.)), np.sum(np.abs(.)) *)
Definition np_norm (v : vec) : C := sqrtC (\sum_i `|v 0 i| ^+ 2).
Definition np_max_abs (v : vec) : C := foldr (fun x y => if x <= y then y else x) 0 [seq `|v 0 i| | i <- enum 'I_n.+1].
Definition np_sum_abs (v : vec) : C := \sum_i `|v 0 i|.
(* lines 361-365; division of the zero vector by its norm gives nan, all later comparisons with nan are False, so that power_method raises *)
Definition iteration (v_k : vec) (offset : C) : option (C * vec) :=
  if matvec v_k is Some u then
    let v_k1 := u - offset *: v_k in
    let v_k1_norm := np_norm v_k1 in
    if v_k1_norm == 0 then None else Some (v_k1_norm + offset, v_k1_norm^-1 *: v_k1)
  else None.
(* lines 367-384: the loop with it = max_it - rest *)
Fixpoint power_loop (offset tol : C) (rest : nat) (v_k : vec) : option (C * vec) :=
  if iteration v_k offset is Some (norm, new_v_k) then
    let add := np_max_abs (v_k + new_v_k) in
    let diff := np_max_abs (v_k - new_v_k) in
    if (`|add| <= tol) || (`|diff| <= tol) then Some (norm, v_k)
    else if rest is rest'.+1 then power_loop offset tol rest' new_v_k else None
  else None.
Definition power_method (init : vec) (offset tol : C) (max_it : nat) : option (C * vec) :=
  if iteration init offset is Some (_, v_k) then power_loop offset tol max_it.-1 v_k else None.
(* lines 386-398 *)
Definition power_method_LR (init : vec) (tol : C) (max_it : nat) : option (C * vec) :=
  if power_method init 0 tol max_it is Some (norm, v_k) then
    if iteration v_k 0 is Some (_, v_k_test) then
      let add := np_sum_abs (v_k + v_k_test) in
      let diff := np_sum_abs (v_k - v_k_test) in
      if add < diff then power_method init (- norm) tol max_it else Some (norm, v_k)
    else None
  else None.
(* lines 301-335 *)
Variable eigs : (vec -> option vec) -> nat -> C -> vec -> option (seq (C * vec)).
Definition implicitly_restarted_arnoldi_method (init : vec) (tol : C) (k : nat) : option (seq C * seq vec) :=
  if eigs matvec k tol init is Some r then Some ([seq 'Re p.1 | p <- r], [seq p.2 | p <- r]) else None.
End Power.

(* lines 42-193 *)
Inductive product_name := FFT | SUM | OtherProduct.
Inductive solver_name := IRAM | PM | OtherSolver.
Section Solve.
Variables (C : numClosedFieldType) (n : nat).
Local Notation vec := 'rV[C]_n.+1.
Variable gf : Type.
(* lines 125-132: from_x_to_wk and from_wk_to_x, the same (row-major) order in both directions *)
Variables (to_wk : vec -> gf) (to_x : gf -> vec).
Variable eigs : (vec -> option vec) -> nat -> C -> vec -> option (seq (C * vec)).
(* np.allclose(data, 0): the relative tolerance multiplies the second argument and drops out *)
Definition np_allclose_zero (atol : C) (data : seq C) : bool := all (fun x => `|x - 0| <= atol + 0) data.
(* lines 136-165: the product of each name; dyn_data are the numbers of Gamma_pp_dyn_tr *)
Definition choose_product (product : product_name) (hasDLRMesh : bool) (atol : C) (dyn_data : seq C) (fft_constant fft sum : gf -> option gf) : option (gf -> option gf) :=
  match product with
  | FFT => Some (if np_allclose_zero atol dyn_data then fft_constant else fft)
  | SUM => if hasDLRMesh then None else Some sum
  | OtherProduct => None
  end.
(* lines 167-172 *)
Definition matvec (eli_prod : gf -> option gf) (symmetrize_fct : gf -> gf) (delta_x : vec) : option vec :=
  if eli_prod (to_wk delta_x) is Some delta_out_wk then Some (to_x (symmetrize_fct delta_out_wk)) else None.
Definition solve_eliashberg (eli : option (gf -> option gf)) (symmetrize_fct : gf -> gf) (initial_delta : option gf) (semi_random : gf)
    (solver : solver_name) (tol : C) (k max_it : nat) : option (seq C * seq gf) :=
  if eli is Some eli_prod then
    let mv := matvec eli_prod symmetrize_fct in
    let init := to_x (if initial_delta is Some d then d else semi_random) in
    match solver with
    | PM => if power_method_LR mv init tol max_it is Some (e, ev) then Some ([:: e], [:: to_wk ev]) else None
    | IRAM => if implicitly_restarted_arnoldi_method mv eigs init tol k is Some (es, evs) then Some (es, [seq to_wk v | v <- evs]) else None
    | OtherSolver => None
    end
  else None.
End Solve.

(* lines 196-255: the data; numpy broadcasts numbers and arrays *)
Section Preprocess.
Variables (C : numClosedFieldType) (W K T : Type).
(* the types distinguished by the code; other numbers: int, complex, numpy scalars; arrays are given by their broadcast over frequency and momentum,
   which is over momentum where they are assigned to a function of momentum only *)
Inductive constant := CNone | CFloat of C | CArray of (K -> T -> C) | CGf of (K -> T -> C) | COther of C.
Variable split : (W -> K -> T -> C) -> (W -> K -> T -> C) * (K -> T -> C).
(* the pair handed to dynamic_and_constant_to_tr *)
Definition preprocess_gamma_for_fft (hasDLRMesh : bool) (Gamma : W -> K -> T -> C) (const : constant) : option ((W -> K -> T -> C) * (K -> T -> C)) :=
  if hasDLRMesh then
    match const with
    | CNone => Some (fun w k t => Gamma w k t - 0, fun _ _ => 0)
    | CGf c => Some (fun w k t => Gamma w k t - c k t, c)
    | _ => None
    end
  else
    let fit := split Gamma in
    match const with
    | CFloat x => Some (fun w k t => Gamma w k t - x, fun _ _ => x)
    | CArray c | CGf c => Some (fun w k t => Gamma w k t - c k t, c)
    | CNone | COther _ => Some fit
    end.
End Preprocess.

(* lines 258-298; g is the real part of the data on nw frequencies and the remaining axes T, random_data and random_freq the random numbers *)
Section Random.
Variables (C : numClosedFieldType) (nw : nat) (T : finType).
Variables (random_data : T -> C) (random_freq : nat -> C).
Definition semi_random_initial_delta (g : 'I_nw -> T -> C) (not_randomized : nat) : option ('I_nw -> T -> C) :=
  let delta w t := 'Re (g w t) in
  let freq_data (w : 'I_nw) := (\sum_t `|delta w t|) / #|T|%:R in
  let start := not_randomized in
  if (nw < 2 * not_randomized)%N then None else
  let stop := (nw - not_randomized)%N in
  let freq_data' (w : 'I_nw) := if (start <= w < stop)%N then freq_data w * random_freq (w - start)%N else freq_data w in
  Some (fun w t => freq_data' w * random_data t).
End Random.
