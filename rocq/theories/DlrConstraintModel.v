(* Model of the constraints of the DLR fit: python/triqs_tprf/fitdlr.py 103-125 (triqs_driver), 178-196 (pydlr_driver), 306-370 (constraints of
   constrained_lstsq_dlr_from_tau) and 388-395 (reported residuals). The packing of the parameters is that of DlrFitModel.
   Not modelled: the minimizer, the initial guess, the least-squares target, floating-point rounding. *)
From mathcomp Require Import all_ssreflect all_algebra.
From Verif Require Import SymmetryModel DlrFitModel OperatorModel.
Set Implicit Arguments.
Unset Strict Implicit.
Unset Printing Implicit Defensive.
Import GRing.Theory Num.Theory.
Local Open Scope ring_scope.

Section Drivers.
Variable C : numClosedFieldType.
(* the numbers that the fit takes from the driver, and the values of the basis functions at imaginary time t *)
Record driver := Driver { rho_x : nat -> C; dK_x : nat -> C; bound : C; basis : nat -> C -> C }.
(* lines 103-125: K_x(t) the basis function x of the TRIQS mesh, w_x the values of the mesh *)
Definition triqs_driver (K : nat -> C -> C) (w : nat -> C) (beta : C) : driver :=
  Driver (fun x => - K x beta) (fun x => - (K x 0 + K x beta) * w x / beta) 1 K.
(* lines 178-196: kernel_x(t) on [0, 1], dlrrf the dimensionless frequencies *)
Definition pydlr_driver (kernel : nat -> C -> C) (dlrrf : nat -> C) (beta : C) : driver :=
  Driver (fun x => - kernel x 1) (fun x => kernel x 0 * (- dlrrf x / beta) + kernel x 1 * (- dlrrf x / beta)) (- 1) (fun x t => kernel x (t / beta)).
(* eval_dlr_tau, lines 151-154 *)
Definition eval_dlr_tau (nx : nat) (dlr : driver) (g : data C) (tau : C) (a b : nat) : C := \sum_(x < nx) basis dlr x tau * g x a b.
End Drivers.

Section Constraints.
Variable C : numClosedFieldType.
(* scipy.optimize.LinearConstraint(A, lb, ub) with one row; None is minus infinity *)
Record linear_constraint := Linear { row : seq C; lower : option C; upper : C }.
Definition dot (a b : seq C) : C := \sum_(p <- zip a b) p.1 * p.2.
Definition satisfies (x : seq C) (c : linear_constraint) : bool :=
  [&& size (row c) == size x, (if lower c is Some l then l <= dot (row c) x else true) & dot (row c) x <= upper c].
(* a symmetrizer together with get_diag_indices and get_triu_indices (lines 430-431, 504-505) *)
Variables (sym : symmetrizer C) (diag_indices : seq nat) (triu_indices : seq (nat * nat)) (realvalued : bool).
(* A_xaa = 0; A_xaa[:, i, j] = v *)
Definition unit_data (v : C) (i j : nat) : data C := fun _ a b => if (a == i) && (b == j) then v else 0.
(* lines 310-321 *)
Definition positivity_constraints : seq linear_constraint :=
  [seq Linear (x_from_g sym realvalued (unit_data 1 i i)) None 0 | i <- diag_indices].
(* lines 323-348 *)
Definition discontinuity_constraints (bound : C) : seq linear_constraint :=
  [seq Linear (x_from_g sym realvalued (unit_data 1 i i)) (Some bound) bound | i <- diag_indices] ++
  flatten [seq Linear (x_from_g sym realvalued (unit_data 1 p.1 p.2)) (Some 0) 0 ::
    (if realvalued then [::] else [:: Linear (x_from_g sym realvalued (unit_data 'i p.1 p.2)) (Some 0) 0]) | p <- triu_indices].
(* lines 350-371; sym1 is the symmetrizer acting on arrays of shape (1, no, no) *)
Variable sym1 : symmetrizer C.
Definition density_lhs (nx no : nat) (dlr : driver C) (U : arr4 C) (g : data C) (a b : nat) : C :=
  \sum_(x < nx) dK_x dlr x * g x a b - \sum_(x < nx) \sum_(c < no) \sum_(d < no) (- U b a c d * rho_x dlr x) * g x c d.
Definition mat_vec (mat : nat -> nat -> C) : seq C :=
  split_re_im realvalued (map (fun z => 'Re z) (get_x_d sym1 (fun _ => mat))) (get_x_u sym1 (fun _ => mat)).
Definition density_constraint (nx no : nat) (dlr : driver C) (U : arr4 C) (h : nat -> nat -> C) (x : seq C) : bool :=
  if g_from_x sym realvalued nx no x is Some g then mat_vec (density_lhs nx no dlr U g) == mat_vec h else false.
(* lines 388-392: the reported violation of the discontinuity *)
Definition norm_res (nx no : nat) (bound : C) (g : data C) : C :=
  foldr (fun x y => if x <= y then y else x) 0
    [seq `|- (\sum_(x < nx) g x p.1 p.2) + bound * (if p.1 == p.2 then 1 else 0)| | p <- [seq (a, b) | a <- iota 0 no, b <- iota 0 no]].
End Constraints.
