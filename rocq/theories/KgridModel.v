(* Model of the momentum-grid helpers: python/triqs_tprf/lattice_utils.py 320-470 and c++/triqs_tprf/lattice/fourier_interpolation.cpp 29-71.
   Momenta are row vectors over an ordered field; arrays are functions of their index with the shape given beside them. numpy's round, scipy's
   interpolators and the exponential function exp(i x) are parameters. An exception is None. Not modelled: frequencies and orbital indices of
   the interpolated susceptibility (every component is treated alike), floating-point rounding. *)
From mathcomp Require Import all_ssreflect all_algebra.
From Verif Require Import SymmetryModel FourierModel.
Set Implicit Arguments.
Unset Strict Implicit.
Unset Printing Implicit Defensive.
Import GRing.Theory Num.Theory.
Local Open Scope ring_scope.

Definition vol (shape : seq nat) : nat := foldr muln 1%N shape.
(* ndarray.reshape, C order *)
Definition reshape (A : Type) (from to : seq nat) (f : seq nat -> A) : option (seq nat -> A) :=
  if vol from == vol to then Some (fun idx => f (unravel from (ravel to idx))) else None.

Section Grid.
Variables (R : realFieldType) (C : Type).
Local Notation vec := 'rV[R]_3.
(* TRIQS MeshBrZone with n1 x n2 x n3 points: the point with index i is sum_a i_a / n_a b_a; the rows of units are the b_a *)
Definition k_value (units : 'M[R]_3) (nk i : seq nat) : vec := (\row_a ((nth 0%N i a)%:R / (nth 0%N nk a)%:R)) *m units.
(* np.array([k.value for k in bzmesh]) *)
Definition mesh_values (units : 'M[R]_3) (nk : seq nat) (l : nat) : vec := k_value units nk (unravel nk l).
(* lattice_utils.py 335-337; np.linalg.inv raises for a singular matrix *)
Definition get_relative_k (k_vec : nat -> vec) (units : 'M[R]_3) : option (nat -> vec) :=
  if units \in unitmx then Some (fun l => ((invmx units)^T *m (k_vec l)^T)^T) else None.
(* lines 340-342 *)
Definition get_kidx (round : R -> int) (k_vec_rel : nat -> vec) (nk : seq nat) (l : nat) : seq int :=
  [seq round (k_vec_rel l ord0 a * (nth 0%N nk a)%:R) | a <- enum 'I_3].
(* lines 320-332: tb_lattice.hopping gives an array with the momentum last *)
Definition ek_tb_dispersion (hopping : (nat -> vec) -> nat -> nat -> nat -> C) (units : 'M[R]_3) (nk : seq nat) : option (nat -> nat -> nat -> C) :=
  if get_relative_k (mesh_values units nk) units is Some k_rel then Some (fun l a b => hopping k_rel a b l) else None.
(* lines 345-364: k_vec has np rows *)
Definition k_components (k_vec : nat -> vec) (np : nat) (nk : seq nat) : option (seq (seq R)) :=
  let swapped idx := if idx is [:: a; l] then k_vec l ord0 (inord a) else 0 in
  if reshape [:: 3%N; np] (3%N :: nk) swapped is Some k4 then
    Some [seq [seq k4 (axis :: set_nth 0%N [:: 0; 0; 0]%N axis i) | i <- iota 0 (nth 0%N nk axis)] | axis <- iota 0 3]
  else None.
(* lines 440-470: values is one-dimensional with nv entries; np_float: whether numpy still has the attribute np.float (it was removed in numpy 1.24) *)
Definition extend_data_on_boundary (np_float : bool) (values : nat -> C) (nv : nat) (nk : seq nat) : option ((seq nat -> C) * (nat -> vec) * seq (seq R)) :=
  let nk_ext := map S nk in
  let coords p := unravel nk_ext p in
  let coords_mod p := [seq (x.1 %% x.2)%N | x <- zip (coords p) nk] in
  if reshape [:: nv] nk (fun idx => values (head 0%N idx)) is Some v then
    if reshape [:: vol nk_ext] nk_ext (fun idx => v (coords_mod (head 0%N idx))) is Some values_ext then
      if np_float then
        let k_vec_rel_ext p := \row_a ((nth 0%N (coords p) a)%:R / (nth 0%N nk a)%:R) in
        if k_components k_vec_rel_ext (vol nk_ext) nk_ext is Some ks then Some (values_ext, k_vec_rel_ext, ks) else None
      else None
    else None
  else None.
(* scipy.interpolate: RegularGridInterpolator from axes and values, NearestNDInterpolator and LinearNDInterpolator from a list of points with values *)
Variables (regular : seq (seq R) -> (seq nat -> C) -> option (vec -> C)) (nearest linear : seq (vec * C) -> option (vec -> C)).
Inductive interpolator := Regular | Nearest | Linear | Unknown.
(* lines 405-437 *)
Definition get_rel_k_chi_interpolator (np_float : bool) (values : nat -> C) (nv : nat) (units : 'M[R]_3) (nk : seq nat) (extend_boundary : bool)
    (kind : interpolator) : option (vec -> C) :=
  if get_relative_k (mesh_values units nk) units is Some k_vec_rel then
    if k_components k_vec_rel (vol nk) nk is Some ks then
      let data := if extend_boundary then
          (if extend_data_on_boundary np_float values nv nk is Some (v, k, ks') then Some (map S nk, v, k, ks') else None)
        else if reshape [:: nv] nk (fun idx => values (head 0%N idx)) is Some v then Some (nk, v, k_vec_rel, ks) else None in
      if data is Some (shape, v, k, axes) then
        let points := [seq (k p, v (unravel shape p)) | p <- iota 0 (vol shape)] in
        match kind with Regular => regular axes v | Nearest => nearest points | Linear => linear points | Unknown => None end
      else None
    else None
  else None.
(* lines 382-402 *)
Definition get_abs_k_chi_interpolator (values : nat -> C) (nv : nat) (units : 'M[R]_3) (nk : seq nat) (extend_bz : seq int) : option (vec -> C) :=
  let shifts := [seq \row_a (nth 0 [:: x; yz.1; yz.2] a)%:~R | x <- extend_bz, yz <- [seq (y, z) | y <- extend_bz, z <- extend_bz]] : seq vec in
  let k_shift s := (units^T *m s^T)^T in
  if nv == vol nk then linear [seq (mesh_values units nk l + k_shift s, values l) | s <- shifts, l <- iota 0 (vol nk)] else None.
End Grid.

Section Interpolation.
Variables (R : realFieldType) (C : numClosedFieldType) (cis : R -> C).
Local Notation vec := 'rV[R]_3.
Definition dot (k r : vec) : R := k ord0 ord0 * r ord0 ord0 + k ord0 (inord 1) * r ord0 (inord 1) + k ord0 (inord 2) * r ord0 (inord 2).
Variables (n1 n2 n3 : nat).
Local Notation K := (site n1 n2 n3).
(* TRIQS MeshCycLat: the point with index i is sum_a i_a a_a with the lattice vectors a_a in the rows *)
Definition r_value (lattice : 'M[R]_3) (r : K) : vec := (\row_a (nth 0%N [:: val r.1.1; val r.1.2; val r.2] a)%:R) *m lattice.
(* lattice_utils.py 367-379: k is one row of the array; np.sum over the last axis *)
Definition fourier_interpolation (lattice : 'M[R]_3) (chi_r : K -> C) (k : vec) : C := \sum_r chi_r r * cis (\sum_a - (k ord0 a * r_value lattice r ord0 a)).
(* fourier_interpolation.cpp 29-71: the output array is multiplied by zero before the loop over r *)
Definition fourier_interpolation_cpp (lattice : 'M[R]_3) (chi_r : K -> C) (before : C) (k : vec) : C :=
  foldl (fun out r => out + cis (- dot k (r_value lattice r)) * chi_r r) (before * 0) (enum [finType of K]).
End Interpolation.
