(* Model of c++/triqs_tprf/channel_grouping.hpp (35-86) and c++/triqs_tprf/linalg.cpp (24-207).
   Simplifications: complex<double> is an arbitrary field; nda::inverse is [invmx]; the copies into
   arrays with a channel memory layout are represented by the matrix they are viewed as. *)
From mathcomp Require Import all_ssreflect all_algebra.
From Verif Require Import Base.
Set Implicit Arguments.
Unset Strict Implicit.
Unset Printing Implicit Defensive.
Import GRing.Theory.
Local Open Scope ring_scope.

(* types.hpp: enum class Channel_t { PP, PH, PH_bar } (only the tags matter) *)
Inductive channel := PH | PH_bar | PP.

Section Linalg.
Variables (F : fieldType) (nn nb : nat).

(* g2_nn_t: mesh (nu, nu') x target (a,b,c,d); standard layout {nu_1,nu_2,a,b,c,d} (channel_grouping.hpp 44-49) *)
Definition g2nn := 'I_nn -> 'I_nn -> tensor4 F nb.
(* g2_n_t: mesh (nu) x target *)
Definition g2n := 'I_nn -> tensor4 F nb.

(* a merged index {nu, x, y} in memory order: x slower than y (channel_grouping.hpp 78-85) *)
Definition tidx (n : 'I_nn) (x y : 'I_nb) : 'I_(nn * nb * nb) := pidx (pidx n x) y.
Definition tnu (i : 'I_(nn * nb * nb)) : 'I_nn := pfst (pfst i).
Definition tx (i : 'I_(nn * nb * nb)) : 'I_nb := psnd (pfst i).
Definition ty (i : 'I_(nn * nb * nb)) : 'I_nb := psnd i.

(* channel_matrix_view<C>: channel_grouping.hpp 51-85.
   PH     {0,2,3},{1,5,4}: rows (nu,a,b), columns (nu',d,c)   [line 57]
   PH_bar {0,2,5},{1,4,3}: rows (nu,a,d), columns (nu',c,b)   [line 65]
   PP     {0,2,4},{1,3,5}: rows (nu,a,c), columns (nu',b,d)   [line 72] *)
Definition channel_row (C : channel) (n : 'I_nn) (a b c d : 'I_nb) : 'I_(nn * nb * nb) :=
  match C with
  | PH => tidx n a b
  | PH_bar => tidx n a d
  | PP => tidx n a c
  end.
Definition channel_col (C : channel) (n' : 'I_nn) (a b c d : 'I_nb) : 'I_(nn * nb * nb) :=
  match C with
  | PH => tidx n' d c
  | PH_bar => tidx n' c b
  | PP => tidx n' b d
  end.

(* the matrix seen through channel_matrix_view *)
Definition chmat (C : channel) (g : g2nn) : 'M[F]_(nn * nb * nb) :=
  \matrix_(i, j)
    match C with
    | PH => g (tnu i) (tnu j) (tx i) (ty i) (ty j) (tx j)
    | PH_bar => g (tnu i) (tnu j) (tx i) (ty j) (tx j) (ty i)
    | PP => g (tnu i) (tnu j) (tx i) (tx j) (ty i) (ty j)
    end.

(* writing a matrix through the view and reading the array back *)
Definition chten (C : channel) (M : 'M[F]_(nn * nb * nb)) : g2nn :=
  fun n n' a b c d => M (channel_row C n a b c d) (channel_col C n' a b c d).

(* linalg.cpp 28-46: inverse<CH>(g2_nn) *)
Definition inverse (C : channel) (g : g2nn) : g2nn := chten C (invmx (chmat C g)).

(* linalg.cpp 62-82: product<CH>(g2_nn, g2_nn) *)
Definition product (C : channel) (A B : g2nn) : g2nn := chten C (chmat C A *m chmat C B).

(* linalg.cpp 97-111: identity<CH>(g2_nn); assigning 1.0 to an nda matrix gives the unit matrix *)
Definition identity (C : channel) : g2nn := chten C 1%:M.

(* linalg.cpp 49-58, 85-93, 114-122: the g2_iw versions loop over the bosonic mesh *)
Section Bosonic.
Variable nw : nat.
Definition g2iw := 'I_nw -> g2nn.
Definition inverse_iw (C : channel) (g : g2iw) : g2iw := fun w => inverse C (g w).
Definition product_iw (C : channel) (A B : g2iw) : g2iw := fun w => product C (A w) (B w).
Definition identity_iw (C : channel) (g : g2iw) : g2iw := fun w => identity C.
End Bosonic.

(* linalg.cpp 180-207: scalar_product_PH.
   vecL rows {4,3}, columns {0,1,2}; mat rows {0,2,3}, columns {1,4,5};
   vecR rows {0,2,1}, columns {3,4}; res rows {0,1}, columns {2,3} *)
Definition sp_vecL (vL : g2n) : 'M[F]_(nb * nb, nn * nb * nb) :=
  \matrix_(i, j) vL (tnu j) (tx j) (ty j) (psnd i) (pfst i).
Definition sp_mat (M : g2nn) : 'M[F]_(nn * nb * nb) :=
  \matrix_(i, j) M (tnu i) (tnu j) (tx i) (ty i) (tx j) (ty j).
Definition sp_vecR (vR : g2n) : 'M[F]_(nn * nb * nb, nb * nb) :=
  \matrix_(i, j) vR (tnu i) (ty i) (tx i) (pfst j) (psnd j).
Definition scalar_product_PH (vL : g2n) (M : g2nn) (vR : g2n) : tensor4 F nb :=
  mten (sp_vecL vL *m sp_mat M *m sp_vecR vR).

End Linalg.
Arguments identity : clear implicits.
