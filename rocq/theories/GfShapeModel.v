(* Model of python/triqs_tprf/lattice_utils.py 109-139 (put_gf_on_mesh, strip_sigma) and 509-590 (tensor and matrix valued Green's functions,
   pade_analytical_continuation_wk). Data arrays are functions of the index with the shape given beside them; the fit of a single function with n_points
   and freq_offset (triqs set_from_pade, for a Matsubara or a DLR mesh) is a parameter. An exception is None. Not modelled: the debug plot. *)
From mathcomp Require Import all_ssreflect all_algebra.
From Verif Require Import SymmetryModel KgridModel.
Set Implicit Arguments.
Unset Strict Implicit.
Unset Printing Implicit Defensive.
Import GRing.Theory Num.Theory.
Local Open Scope ring_scope.

Section Mesh.
Variables (R : realFieldType) (A : Type).
(* TRIQS MeshImFreq(beta, S, n_max): indices -n_max .. n_max - 1 for fermions and -(n_max - 1) .. n_max - 1 for bosons *)
Record imfreq := ImFreq { m_beta : R; m_fermion : bool; m_max : nat }.
Definition first_index (m : imfreq) : int := if m_fermion m then - (m_max m)%:Z else - (m_max m).-1%:Z.
Definition mesh_len (m : imfreq) : nat := if m_fermion m then (2 * m_max m)%N else (2 * m_max m).-1.
Record gf := Gf { g_mesh : imfreq; g_data : nat -> A }.
(* g[Idx(n)] *)
Definition at_idx (g : gf) (n : int) : option A :=
  if n - first_index (g_mesh g) is Posz d then if (d < mesh_len (g_mesh g))%N then Some (g_data g d) else None else None.
(* for w in wmesh: index = w.data_index + wmesh.first_index(); g_out[w] = g_in[Idx(index)] (lines 115-117 and 129-131) *)
Definition copy_indices (g_in : gf) (wmesh : imfreq) : option gf :=
  let read d := at_idx g_in (d%:Z + first_index wmesh) in
  if all (fun d => isSome (read d)) (iota 0 (mesh_len wmesh)) then Some (Gf wmesh (fun d => odflt (g_data g_in 0%N) (read d))) else None.
(* lines 109-119 *)
Definition put_gf_on_mesh (g_in : gf) (wmesh : imfreq) : option gf :=
  if (mesh_len wmesh <= mesh_len (g_mesh g_in))%N then copy_indices g_in wmesh else None.
(* lines 122-139; eps is the tolerance of np.testing.assert_almost_equal *)
Definition strip_sigma (eps : R) (nw : nat) (beta : R) (sigma_in : gf) : option gf :=
  if `|beta - m_beta (g_mesh sigma_in)| < eps then copy_indices sigma_in (ImFreq beta true nw) else None.
End Mesh.

Section Shape.
Variable C : Type.
(* data shape and data *)
Definition array : Type := (seq nat * (seq nat -> C))%type.
(* lines 509-518: nmesh is the number of mesh axes, target_shape the lengths after them; simplified: a rank above four is an error *)
Definition gf_tensor_to_matrix (nmesh : nat) (g : array) : option array :=
  let ts := drop nmesh g.1 in
  if size ts == 4%N then
    let N := (nth 0 ts 0 * nth 0 ts 1)%N in let M := (nth 0 ts 2 * nth 0 ts 3)%N in
    let shape := [:: head 0%N g.1; N; M] in
    if reshape g.1 shape g.2 is Some f then
      (* with several mesh axes the shape of g_mat.data differs; simplified: numpy still broadcasts when all lengths but one are 1 *)
      if nmesh == 1%N then Some (shape, f) else None
    else None
  else None.
(* lines 521-527 *)
Definition gf_matrix_to_tensor (g_mat : array) (target_shape : seq nat) : option array :=
  let shape := head 0%N g_mat.1 :: target_shape in
  if reshape g_mat.1 shape g_mat.2 is Some f then Some (shape, f) else None.

(* lines 530-586: g_wk is an array over frequency, momentum and target indices; nf real frequencies; fit continues a single function *)
Variables (nf : nat) (fit : (nat -> C) -> nat -> C).
(* set_from_pade, component by component *)
Definition set_from_pade (g_w : array) : array := (nf :: behead g_w.1, fun idx => fit (fun w => g_w.2 (w :: behead idx)) (head 0%N idx)).
(* assignment g_fk[:, k] = g_f *)
Definition assign_k (g_fk : seq nat -> C) (k : nat) (g_f : seq nat -> C) : seq nat -> C :=
  fun idx => if nth 0%N idx 1 == k then g_f (head 0%N idx :: drop 2 idx) else g_fk idx.
Definition pade_step (g_wk : array) (acc : option (seq nat -> C)) (k : nat) : option (seq nat -> C) :=
  if acc is Some g_fk then
    let nw := head 0%N g_wk.1 in let ts := drop 2 g_wk.1 in
    let g_w : array := (nw :: ts, fun idx => g_wk.2 (head 0%N idx :: k :: behead idx)) in
    if size ts == 4%N then
      if gf_tensor_to_matrix 1 g_w is Some m then
        if gf_matrix_to_tensor (set_from_pade m) ts is Some g_f then Some (assign_k g_fk k g_f.2) else None
      else None
    (* g_f is a view of g_fk; set_from_pade exists for scalar and matrix valued functions *)
    else if size ts \in [:: 0; 2]%N then Some (assign_k g_fk k (set_from_pade g_w).2) else None
  else None.
Definition pade_analytical_continuation_wk (zero : C) (g_wk : array) : option (seq nat -> C) :=
  foldl (pade_step g_wk) (Some (fun _ => zero)) (iota 0 (nth 0%N g_wk.1 1)).
End Shape.
