(* Model of python/triqs_tprf/gw_solver.py: GWSolver.__init__ (lines 71-106), dyson_equation (lines 257-289) and solve_iter (lines 292-385), and of
   gw.py lines 56-91. The self-energies, the polarization, the screened interaction, the Dyson equation and the density of a Green's function are parameters
   here (see GwModel, RpaModel, DysonModel and ImtimeModel for them); the arrays g_wk.data are elements of an abelian group; brentq is a parameter.
   Not modelled: printing, timers, analytic continuation, real-space copies. None is an exception. *)
From mathcomp Require Import all_ssreflect all_algebra.
Set Implicit Arguments.
Unset Strict Implicit.
Unset Printing Implicit Defensive.
Import GRing.Theory.
Local Open Scope ring_scope.

Section GwSolver.
Variables (R : numDomainType) (G : zmodType) (Rho P W X : Type).
(* lines 173-191: density matrix, its trace; lines 194-202: Hartree and Fock self-energies, repeated on the frequency axis *)
Variables (calc_rho : G -> Rho) (density : Rho -> R) (hartree_sigma fock_sigma : Rho -> G).
(* lines 228-247 and 337-348: the flag is spinless *)
Variables (polarization : G -> P) (screened_interaction : bool -> P -> W) (dynamic_part : W -> W) (gw_dynamic_sigma : W -> G -> G) (susceptibility : P -> W -> X).
(* lines 280-289: with and without self-energy *)
Variables (lattice_dyson_g : R -> G -> G) (lattice_dyson_g0 : R -> G).
(* root_scalar(f, bracket, rtol).root and np.max(np.abs(x - y)) *)
Variables (brentq : (R -> R) -> R * R -> R -> option R) (distance : G -> G -> R).

(* lines 71-95: the constructor arguments *)
Record args := Args { N_fix : option R; N_tol : R; mu_bracket : R * R }.
(* lines 257-277: "if not N_fix" is also taken for the number zero *)
Definition fixed (a : args) : option R := if N_fix a is Some n then if n == 0 then None else Some n else None.
Definition dispatch (sigma : option G) (mu : R) : G := if sigma is Some s then lattice_dyson_g mu s else lattice_dyson_g0 mu.
Definition dyson_equation (a : args) (mu : R) (sigma : option G) : option (G * R) :=
  if fixed a is Some n then
    let target_function mu := density (calc_rho (dispatch sigma mu)) - n in
    if brentq target_function (mu_bracket a) (N_tol a) is Some mu' then Some (dispatch sigma mu', mu') else None
  else Some (dispatch sigma mu, mu).

(* the attributes; those set by solve_iter only are optional *)
Record attributes := Attr { s_mu : R; s_mu0 : R; s_g : G; s_g0 : G; s_sigma : G;
  s_rho : option Rho; s_N : option R; s_hartree : option G; s_fock : option G; s_dyn : option G; s_W : option W; s_Wdyn : option W; s_P : option P; s_chi : option X }.
Definition init (a : args) (mu : option R) (g : option G) : option attributes :=
  let mu := odflt 0 mu in
  if dyson_equation a mu None is Some (g0, mu0) then
    Some (if g is Some g then Attr mu mu0 g g0 0 None None None None None None None None None
          else Attr mu0 mu0 g0 g0 0 None None None None None None None None None)
  else None.

(* the local variables of solve_iter and the attributes it sets on the way *)
Record locals := Locals { l_g : G; l_mu : R; l_sigma : G; l_old : option G; l_hartree : option G; l_fock : option G; l_dyn : option G;
  l_P : option P; l_W : option W; l_Wdyn : option W }.
Section Iterate.
Variables (a : args) (tol : R) (hartree fock gw spinless : bool).
(* lines 320-361, one iteration; the flag is the convergence criterion, max(abs(g - inf)) < tol is False *)
Definition iteration (l : locals) : option (locals * bool) :=
  let rho_r := calc_rho (l_g l) in
  let s0 := 0 in
  let sh := hartree_sigma rho_r in
  let s1 := if hartree then s0 + sh else s0 in
  let sf := fock_sigma rho_r in
  let s2 := if fock then s1 + sf else s1 in
  let P_wk := polarization (l_g l) in
  let W_wk := screened_interaction spinless P_wk in
  let W_dyn_wk := dynamic_part W_wk in
  let sd := gw_dynamic_sigma W_dyn_wk (l_g l) in
  let s3 := if gw then s2 + sd else s2 in
  if dyson_equation a (l_mu l) (Some s3) is Some (g, mu) then
    let converged := if l_old l is Some old then distance g old < tol else false in
    Some (Locals g mu s3 (Some g) (if hartree then Some sh else l_hartree l) (if fock then Some sf else l_fock l) (if gw then Some sd else l_dyn l)
            (if gw then Some P_wk else l_P l) (if gw then Some W_wk else l_W l) (if gw then Some W_dyn_wk else l_Wdyn l), converged)
  else None.
Fixpoint loop (maxiter : nat) (l : locals) : option locals :=
  if maxiter is n.+1 then
    if iteration l is Some (l', converged) then if converged then Some l' else loop n l' else None
  else Some l.
(* lines 307-381; with gw and no iteration W_wk is unbound *)
Definition solve_iter (maxiter : nat) (s : attributes) : option attributes :=
  let l0 := Locals (s_g s) (s_mu s) 0 None (s_hartree s) (s_fock s) (s_dyn s) None None None in
  if loop maxiter l0 is Some l then
    let rho_r := calc_rho (l_g l) in
    let N := density rho_r in
    if gw then
      if (l_W l, l_P l) is (Some W_wk, Some P_wk) then
        Some (Attr (l_mu l) (s_mu0 s) (l_g l) (s_g0 s) (l_sigma l) (Some rho_r) (Some N) (l_hartree l) (l_fock l) (l_dyn l) (Some W_wk) (l_Wdyn l) (Some P_wk) (Some (susceptibility P_wk W_wk)))
      else None
    else Some (Attr (l_mu l) (s_mu0 s) (l_g l) (s_g0 s) (l_sigma l) (Some rho_r) (Some N) (l_hartree l) (l_fock l) (l_dyn l) (s_W s) (s_Wdyn s) (s_P s) (s_chi s))
  else None.
End Iterate.
End GwSolver.
