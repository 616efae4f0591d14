(* Model of python/triqs_tprf/gw.py 56-108 (bubble_PI_wk, get_gw_tensor) and of the steps of GWSolver: polarization, screened_interaction, susceptibiltiy,
   python/triqs_tprf/gw_solver.py 228-247, and W_dyn_wk, lines 344-346. *)
From mathcomp Require Import all_ssreflect all_algebra.
From Verif Require Import Base MpiModel FourierModel BubbleModel ImtimeModel RpaModel OperatorModel.
Set Implicit Arguments.
Unset Strict Implicit.
Unset Printing Implicit Defensive.
Import GRing.Theory Num.Theory.
Local Open Scope ring_scope.

Section Bubble.
Variables (C : fieldType) (n1 n2 n3 nb L : nat) (z1 z2 z3 : C) (beta : C).
Local Notation K := (site n1 n2 n3).
Variable wt : (int -> 'M[C]_nb) -> 'I_L.+1 -> 'M[C]_nb.
Variables tw_plan tw_lib : ('I_L.+1 -> C) -> int -> C.
(* gw.py 56-91; the argument nw is len(mesh) // 2 of the Green's function *)
Definition bubble_PI_wk nranks (sc : schedules) (nw : nat) (g_wk : gfun C n1 n2 n3 nb) : chi_wr C n1 n2 n3 nb nw :=
  let g_wr := fourier_wk_to_wr z1 z2 z3 g_wk in
  let g_tr := fourier_wr_to_tr wt nranks (sc 0%N [finType of K]) g_wr in
  let PI_tr := chi0_tr_from_grt_PH nranks (sc 1%N [finType of K]) g_tr in
  let PI_wr := chi_wr_from_chi_tr tw_plan nranks (sc 2%N [finType of K]) (nw := nw) PI_tr in
  chi_wk_from_chi_wr z1 z2 z3 nranks (sc 3%N [finType of 'I_(2 * nw).-1]) PI_wr.
(* gw_solver.py 228-232; nw is len(wmesh) // 2 *)
Definition polarization nranks (sc : schedules) (nw : nat) (g_wk : gfun C n1 n2 n3 nb) : chi_wr C n1 n2 n3 nb nw := fun w q a b c d =>
  - imtime_bubble_chi0_wk z1 z2 z3 beta wt tw_plan tw_lib nranks sc (nw := nw) false g_wk w q a b c d.
End Bubble.

Section Screened.
Variables (F : fieldType) (nb : nat) (W K M : eqType).
Local Notation chiwk := (chi_wk F nb W K M).
Local Notation chik := (chi_k F nb K M).
(* 2*P_wk *)
Definition times2 (P_wk : chiwk) : chiwk := ChiWK (wmesh P_wk) (kmesh P_wk) (kmesh_id P_wk) (fun w k a b c d => 2%:R * chi_dat P_wk w k a b c d).
(* gw_solver.py 235-241 *)
Definition screened_interaction nranks sched (spinless : bool) (P_wk : chiwk) (V_k : chik) : option chiwk :=
  if spinless then W_static nranks sched (times2 P_wk) V_k else W_static nranks sched P_wk V_k.
(* gw_solver.py 244-247, 40-42: the imported function with the screened interaction as susceptibility and the polarization as interaction *)
Definition susceptibiltiy nranks sched (P_wk W_wk : chiwk) : option chiwk := W_from_chi_dynamic nranks sched W_wk P_wk.
(* gw_solver.py 344-346 *)
Definition dynamic_part (W_wk : chiwk) (V_k : chik) : chiwk :=
  ChiWK (wmesh W_wk) (kmesh W_wk) (kmesh_id W_wk) (fun w k a b c d => chi_dat W_wk w k a b c d - v_dat V_k k a b c d).
End Screened.

Section Tensor.
Variable C : numClosedFieldType.
(* np.transpose(U, (0, 3, 1, 2)) and np.transpose(U, (2, 3, 0, 1)): axis n of the result is the listed axis of U *)
Definition transpose_0312 (U : arr4 C) : arr4 C := fun a b c d => U a c d b.
Definition transpose_2301 (U : arr4 C) : arr4 C := fun a b c d => U c d a b.
(* gw.py 94-108 *)
Definition get_gw_tensor (H_int : operator C) (fundamental_operators : seq (operator C)) : option (arr4 C) :=
  if quartic_tensor_from_operator H_int fundamental_operators false is Some U then
    let U1 := transpose_0312 U in
    Some (fun a b c d => U1 a b c d + transpose_2301 U1 a b c d)
  else None.
End Tensor.
