(* Model of python/triqs_tprf/utilities.py 55-92 (archives and data of block Green functions) and 156-174 (temperatures).
   A str is the sequence of its code points, a file system maps names to contents. An HDF5 file is a map from keys to values, a tar file holds one member with its
   name (compression is transparent). The temporary file of line 76 has a new name and is removed again; the open handle keeps its contents (POSIX). *)
From mathcomp Require Import all_ssreflect all_algebra.
Set Implicit Arguments.
Unset Strict Implicit.
Unset Printing Implicit Defensive.
Import GRing.Theory.
Local Open Scope ring_scope.

Definition str := seq nat.
(* '.', '.h5', '.tar.gz' *)
Definition dot : nat := 46.
Definition ext_h5 : str := [:: 46; 104; 53]%N.
Definition ext_targz : str := [:: 46; 116; 97; 114; 46; 103; 122]%N.
(* filename.split('.')[0] *)
Definition stem (s : str) : str := take (index dot s) s.

Section Files.
Variable V : Type.
Definition dict := str -> option V.
(* res[key] = value for the items of kwargs *)
Definition store (kw : seq (str * V)) : dict := foldl (fun d p => fun k => if k == p.1 then Some p.2 else d k) (fun _ => None) kw.
Inductive content := H5 of dict | Tar of str & content | Other.
Definition fs := str -> option content.
Definition put (f : fs) (n : str) (c : option content) : fs := fun m => if m == n then c else f m.
(* lines 55-67 *)
Definition write_TarGZ_HDFArchive (f : fs) (filename : str) (kw : seq (str * V)) : fs :=
  let filename := stem filename in
  let filename_h5 := filename ++ ext_h5 in
  let filename_tar := filename ++ ext_targz in
  let f := put f filename_h5 (Some (H5 (store kw))) in
  let f := put f filename_tar (if f filename_h5 is Some c then Some (Tar filename_h5 c) else None) in
  put f filename_h5 None.
(* lines 70-83; None is an exception *)
Definition read_TarGZ_HDFArchive (f : fs) (filename : str) : option dict :=
  if f filename is Some (Tar _ (H5 d)) then Some d else None.
End Files.

Section Blocks.
Variable F : zmodType.
(* an array: shape and entries *)
Record arr := Arr { shape : seq nat; entry : seq nat -> F }.
(* numpy: can a value of (reversed) shape v be assigned to a slice of (reversed) shape t; missing axes and axes of length one are repeated, superfluous axes must have length one *)
Fixpoint fits (t v : seq nat) : bool :=
  match t, v with
  | _, [::] => true
  | [::], n :: v => (n == 1%N) && fits [::] v
  | m :: t, n :: v => ((n == m) || (n == 1%N)) && fits t v
  end.
(* the (reversed) index of the value for the (reversed) index of the slice *)
Fixpoint source (v i : seq nat) : seq nat :=
  match v, i with
  | [::], _ => [::]
  | n :: v, [::] => 0%N :: source v [::]
  | n :: v, j :: i => (if n == 1%N then 0%N else j) :: source v i
  end.
(* lines 85-93: data[bidx] = g.data; the blocks are in the order of the iteration. None is an exception *)
Definition BlockGf_data (G : seq (str * arr)) : option arr :=
  if G is (_, g0) :: _ then
    if all (fun p => fits (rev (shape g0)) (rev (shape p.2))) G then
      Some (Arr (size G :: shape g0) (fun i =>
        let g := (nth ([::], g0) G (head 0%N i)).2 in entry g (rev (source (rev (shape g)) (rev (behead i))))))
    else None
  else None.
End Blocks.

Section Temperature.
Variable F : fieldType.
(* 11604.5250061657 *)
Definition kelvin : F := 116045250061657%:R / (10%:R ^+ 10).
(* lines 156-163 and 166-174; None is ZeroDivisionError *)
Definition beta_to_temperature (beta : F) : option F := if beta == 0 then None else Some (kelvin * (1 / beta)).
Definition temperature_to_beta (T : F) : option F := let T := T / kelvin in if T == 0 then None else Some (1 / T).
End Temperature.
