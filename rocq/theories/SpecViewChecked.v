(** Specification vocabulary for views in 64 bits: which views fit, their dims, and the index
    of the original that an index of a view denotes.  Of the model only the types are used. *)
From Coq Require Import ZArith List Permutation.
From Verif Require Import Base Interval Shape Memory Ref Spec SpecMem SpecChecked ViewChecked.
Import ListNotations.
Open Scope Z_scope.

(** All bounds and distances fit in index_t, all strides are known *)
Definition roomy (s : list dim) : Prop :=
  Forall is_dim s /\ ends_fit s /\ Forall (fun d => ~ unknown_stride d) s /\ reach s <= 9223372036854775807.

(** The bounds [m], [m + e) are those of [d], or a non-empty part of them *)
Definition part (m e : Z) (d : dim) : Prop :=
  (m = dmin d /\ e = dext d) \/ (1 <= e /\ dmin d <= m /\ m + e <= dmin d + dext d).
(** A slice argument asks for part of the dimension *)
Definition arg_fits (a : sarg) (d : dim) : Prop :=
  match a with
  | AIdx x => in_dim d x
  | AInt i => part (imin i) (iext i) d
  | ADim c => part (dmin c) (dext c) d
  | AAll => True
  end.
(** The dims left by a slice *)
Fixpoint cut (args : list sarg) (s : list dim) : list dim :=
  match args, s with
  | AIdx _ :: r, _ :: s' => cut r s'
  | AInt i :: r, d :: s' => mkD (imin i) (iext i) (dstr d) :: cut r s'
  | ADim c :: r, d :: s' => mkD (dmin c) (dext c) (dstr d) :: cut r s'
  | AAll :: r, d :: s' => d :: cut r s'
  | _, _ => []
  end.
(** What is left of a dimension in the window [a, b), if it begins at [m] *)
Definition crop_min (d : dim) (a : Z) : Z := Z.max a (dmin d).
Definition crop_dim (d : dim) (a b m : Z) : dim :=
  mkD m (Z.min b (dmin d + dext d) - crop_min d a) (dstr d).
(** The window meets the dimension *)
Definition meets (d : dim) (a b : Z) : Prop :=
  is_index a /\ is_index b /\ Z.max a (dmin d) < Z.min b (dmin d + dext d).
(** The value that index [i] gives to dimension [k], if [order] lists the dimensions *)
Fixpoint given (k : nat) (order : list nat) (i : list Z) : option Z :=
  match order, i with
  | o :: order', x :: i' => if Nat.eqb o k then Some x else given k order' i'
  | _, _ => None
  end.
(** Dimensions that are not listed stay at their min *)
Fixpoint spread_from (k : nat) (order : list nat) (s : list dim) (i : list Z) : list Z :=
  match s with
  | [] => []
  | d :: s' => match given k order i with Some x => x | None => dmin d end :: spread_from (S k) order s' i
  end.
Definition spread (order : list nat) (s : list dim) (i : list Z) : list Z := spread_from 0 order s i.
Definition picked (order : list nat) (s : list dim) : list dim := map (fun k => nth k s (mkD 0 1 0)) order.

(** The view of an array with dims [s] is legal *)
Definition view_fits (s : list dim) (v : view) : Prop :=
  match v with
  | VSlice args => Forall2 arg_fits args s
  | VTranspose order => Permutation order (seq 0 (length s))
  | VReorder order => extents_ge 1 s /\ NoDup order /\ Forall (fun k => (k < length s)%nat) order
  | VCrop x0 y0 x1 y1 _ => match s with [x; y; c] => meets x x0 x1 /\ meets y y0 y1 | _ => False end
  | VChannel ch => match s with [_; _; c] => in_dim c ch | _ => False end
  end.
(** Its dims *)
Definition view_dims (s : list dim) (v : view) : list dim :=
  match v, s with
  | VSlice args, _ => cut args s
  | VTranspose order, _ | VReorder order, _ => picked order s
  | VCrop x0 y0 x1 y1 origin_zero, [x; y; c] => [crop_dim x x0 x1 0; crop_dim y y0 y1 0; c]
  | VCrop x0 y0 x1 y1 origin_crop, [x; y; c] =>
      [crop_dim x x0 x1 (crop_min x x0); crop_dim y y0 y1 (crop_min y y0); c]
  | VChannel _, [x; y; _] => [x; y]
  | _, _ => []
  end.
(** The index of the array that its index [i] denotes *)
Definition view_index (s : list dim) (v : view) (i : list Z) : list Z :=
  match v with
  | VSlice args => full_index args i
  | VTranspose order | VReorder order => spread order s i
  | VCrop x0 y0 _ _ origin_zero =>
      match s, i with x :: y :: _, a :: b :: r => a + crop_min x x0 :: b + crop_min y y0 :: r | _, _ => i end
  | VCrop _ _ _ _ origin_crop => i
  | VChannel ch => i ++ [ch]
  end.
(** The same for chains of views *)
Fixpoint views_fit (s : list dim) (vs : list view) : Prop :=
  match vs with [] => True | v :: r => view_fits s v /\ views_fit (view_dims s v) r end.
Definition views_dims (s : list dim) (vs : list view) : list dim := fold_left view_dims vs s.
Fixpoint views_index (s : list dim) (vs : list view) (i : list Z) : list Z :=
  match vs with [] => i | v :: r => view_index s v (views_index (view_dims s v) r i) end.

(** Every element of a view with dims [new] and base moved by [off] lies in the flat range of [r] *)
Definition inside (r : aref) (new : list dim) (off : Z) : Prop :=
  forall i, in_bounds new i -> flat_min (r_shape r) <= off + offset new i <= flat_max (r_shape r).
