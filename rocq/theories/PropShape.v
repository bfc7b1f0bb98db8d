(** C01, C02, C04-C10: offsets, automatic strides, size, range tests. *)
From Verif Require Import Tac Interval Shape Spec ShapeFacts ResolveFacts ShapeProps.
Import ListNotations.
Open Scope Z_scope.

(** C01: the offset is the affine map, vanishes at the mins, and only depends on
    differences and strides. *)
Theorem C01_flat_offset_affine : forall (s : shape) (i : index), length i = length s ->
  flat_offset s i = fold_right Z.add 0 (map2 (fun d x => (x - dmin d) * dstr d) s i) /\
  flat_offset s (mins s) = 0 /\
  (forall v, length v = length s ->
     flat_offset s (map2 Z.add i v) =
     flat_offset s i + fold_right Z.add 0 (map2 (fun d x => x * dstr d) s v)).
Proof. exact flat_offset_affine. Qed.
Example C01_example :
  flat_offset [mkD 2 5 3; mkD (-1) 4 (-15); mkD 0 2 100; mkD 7 1 0; mkD 1 3 1000] [4; 1; 1; 7; 3]
  = 2 * 3 + 2 * (-15) + 1 * 100 + 0 + 2 * 1000.
Proof. reflexivity. Qed.
Print Assumptions C01_flat_offset_affine.

(** C02 *)
Theorem C02_flat_range_exact : forall s : shape, extents_ge 1 s ->
  (forall i, in_bounds s i -> flat_min s <= flat_offset s i <= flat_max s) /\
  (exists i, in_bounds s i /\ flat_offset s i = flat_min s) /\
  (exists i, in_bounds s i /\ flat_offset s i = flat_max s) /\
  flat_extent s = flat_max s - flat_min s + 1 /\ 1 <= flat_extent s.
Proof. exact flat_range_exact. Qed.
Example C02_example : extents_ge 1 [mkD 2 5 3; mkD (-1) 4 (-15)] /\
  flat_min [mkD 2 5 3; mkD (-1) 4 (-15)] = -45 /\ flat_max [mkD 2 5 3; mkD (-1) 4 (-15)] = 12.
Proof. split; [repeat constructor; simpl; lia | split; reflexivity]. Qed.
Print Assumptions C02_flat_range_exact.

(** C04: resolve keeps everything that was given, and gives every other dimension a real
    stride. *)
Theorem C04_resolve_fills_unknown_only : forall s : shape,
  stride_budget s < 9223372036854775807 ->
  Forall2 (fun d d' =>
      dmin d' = dmin d /\ dext d' = dext d /\
      (~ unknown_stride d -> dstr d' = dstr d) /\
      (unknown_stride d -> 1 <= dstr d' < 9223372036854775807)) s (resolve s) /\
  is_resolved (resolve s) = true /\
  resolve (resolve s) = resolve s.
Proof. exact resolve_fills_unknown_only. Qed.
Example C04_example :
  stride_budget [mkD 0 5 unresolved; mkD 0 10 unresolved; mkD 0 3 1] = 150 /\
  resolve [mkD 0 5 unresolved; mkD 0 10 unresolved; mkD 0 3 1] = [mkD 0 5 3; mkD 0 10 15; mkD 0 3 1].
Proof. split; reflexivity. Qed.
Print Assumptions C04_resolve_fills_unknown_only.

(** C05 *)
Theorem C05_resolve_injective : forall s : shape,
  stride_budget s < 9223372036854775807 -> nested (known_dims s) ->
  forall i j, in_bounds (resolve s) i -> in_bounds (resolve s) j ->
    flat_offset (resolve s) i = flat_offset (resolve s) j -> i = j.
Proof. exact resolve_injective_offset. Qed.
Example C05_example :
  let s := [mkD 0 5 unresolved; mkD 3 10 (-2); mkD 0 3 unresolved; mkD 0 4 40] in
  stride_budget s < 9223372036854775807 /\ nested (known_dims s) /\
  map dstr (resolve s) = [160; -2; 800; 40].
Proof.
  cbv zeta. split; [vm_compute; reflexivity|]. split; [|reflexivity].
  split; repeat constructor; simpl; try lia; unfold nested2; simpl; intros; lia.
Qed.
Print Assumptions C05_resolve_injective.

(** The nesting hypothesis cannot be dropped. *)
Theorem C05_not_nested_refuted : exists s : shape,
  extents_ge 1 s /\ stride_budget s < 9223372036854775807 /\
  injective_layout (known_dims s) /\
  exists i j, in_bounds (resolve s) i /\ in_bounds (resolve s) j /\ i <> j /\
    flat_offset (resolve s) i = flat_offset (resolve s) j.
Proof. exact resolve_not_nested_collides. Qed.
Print Assumptions C05_not_nested_refuted.

(** C06 *)
Theorem C06_default_layout_dense : forall s : shape, extents_ge 1 s -> Forall unknown_stride s ->
  fold_right Z.mul 1 (map dext s) < 9223372036854775807 ->
  (forall k d, nth_error (resolve s) k = Some d ->
     dstr d = fold_right Z.mul 1 (map dext (firstn k s))) /\
  flat_min (resolve s) = 0 /\
  flat_extent (resolve s) = size (resolve s) /\
  is_compact (resolve s) = true /\
  (forall o, 0 <= o < size (resolve s) <-> exists i, in_bounds s i /\ flat_offset (resolve s) i = o).
Proof. exact default_layout_dense. Qed.
Example C06_example :
  let s := [mkD 2 5 unresolved; mkD 0 1 unresolved; mkD (-3) 4 unresolved] in
  extents_ge 1 s /\ Forall unknown_stride s /\ fold_right Z.mul 1 (map dext s) < 9223372036854775807 /\
  map dstr (resolve s) = [1; 5; 5].
Proof. cbv zeta. repeat split; try (repeat constructor; simpl; lia); reflexivity. Qed.
Print Assumptions C06_default_layout_dense.

(** C07, general form: whenever the given strides tile a block, so does the result. *)
Theorem C07_tiling_resolve_compact : forall (s : shape) n l, extents_ge 1 s ->
  Permutation (known_dims s) l -> tiles n l ->
  fold_right Z.mul 1 (map dext s) < 9223372036854775807 ->
  injective_layout (resolve s) /\
  flat_extent (resolve s) = size (resolve s) /\
  (forall o, flat_min (resolve s) <= o <= flat_max (resolve s) ->
     exists i, in_bounds (resolve s) i /\ flat_offset (resolve s) i = o).
Proof. exact tiling_resolve_compact. Qed.
(** C07: one dense dimension (stride 1 or -1) anywhere. *)
Theorem C07_one_dense_dim_compact : forall (a b : shape) (d : dim),
  extents_ge 1 (a ++ d :: b) -> Forall unknown_stride (a ++ b) -> dstr d = 1 \/ dstr d = -1 ->
  fold_right Z.mul 1 (map dext (a ++ d :: b)) < 9223372036854775807 ->
  let s' := resolve (a ++ d :: b) in
  injective_layout s' /\ flat_extent s' = size s' /\
  (forall o, flat_min s' <= o <= flat_max s' -> exists i, in_bounds s' i /\ flat_offset s' i = o).
Proof. exact one_dense_dim_compact. Qed.
Example C07_example :
  let a := [mkD 0 5 unresolved; mkD 4 1 unresolved] in let d := mkD 1 3 (-1) in
  let b := [mkD 0 7 unresolved] in
  extents_ge 1 (a ++ d :: b) /\ Forall unknown_stride (a ++ b) /\
  map dstr (resolve (a ++ d :: b)) = [3; 15; -1; 15].
Proof. cbv zeta. repeat split; try (repeat constructor; simpl; lia); reflexivity. Qed.
Example C07_example_tiles :
  tiles 6 [mkD 0 2 3; mkD 0 3 (-1)] /\
  map dstr (resolve [mkD 0 3 (-1); mkD 0 4 unresolved; mkD 0 2 3]) = [-1; 6; 3].
Proof.
  split; [|reflexivity].
  apply (tiles_cons 3 (mkD 0 2 3)); [|reflexivity]. apply (tiles_cons 1 (mkD 0 3 (-1)) []); [constructor|reflexivity].
Qed.
Print Assumptions C07_tiling_resolve_compact.
Print Assumptions C07_one_dense_dim_compact.

(** C08 *)
Theorem C08_size_counts_indices : forall s : shape, extents_ge 0 s ->
  has_count (in_bounds s) (size s) /\ (empty s = true <-> forall i, ~ in_bounds s i).
Proof. exact size_counts_indices. Qed.
Example C08_example : extents_ge 0 [mkD 3 4 1; mkD (-1) 2 9] /\ size [mkD 3 4 1; mkD (-1) 2 9] = 8.
Proof. split; [repeat constructor; simpl; lia | reflexivity]. Qed.
Print Assumptions C08_size_counts_indices.

Theorem C08_negative_extents_refuted : exists s : shape, size s > 0 /\ empty s = false /\
  forall i, ~ in_bounds s i.
Proof. exact size_negative_extents. Qed.
Print Assumptions C08_negative_extents_refuted.

(** C09 *)
Theorem C09_not_one_to_one_collides : forall s : shape, extents_ge 1 s -> is_one_to_one s = false ->
  exists i j, in_bounds s i /\ in_bounds s j /\ i <> j /\ flat_offset s i = flat_offset s j.
Proof. exact not_one_to_one_collides. Qed.
Example C09_example : is_one_to_one [mkD 0 3 1; mkD 0 2 0] = false /\ extents_ge 1 [mkD 0 3 1; mkD 0 2 0].
Proof. split; [reflexivity | repeat constructor; simpl; lia]. Qed.
Theorem C09_onto_is_compact : forall s : shape, extents_ge 1 s ->
  (forall o, flat_min s <= o <= flat_max s -> exists i, in_bounds s i /\ flat_offset s i = o) ->
  is_compact s = true.
Proof. exact onto_is_compact. Qed.
Example C09_onto_example : forall o,
  flat_min [mkD 5 3 (-1)] <= o <= flat_max [mkD 5 3 (-1)] ->
  exists i, in_bounds [mkD 5 3 (-1)] i /\ flat_offset [mkD 5 3 (-1)] i = o.
Proof.
  intros o Ho. change (-2 <= o <= 0) in Ho. exists [5 - o]. split; [|rewrite flat_offset_cons; cbn [dmin dstr]; unfold flat_offset; cbn [map2 vsum]; lia].
  constructor; [unfold in_dim; cbn [dmin dext]; lia | constructor].
Qed.
Theorem C09_one_to_one_refuted : exists s : shape, extents_ge 1 s /\ is_one_to_one s = true /\
  ~ injective_layout s.
Proof. exact one_to_one_not_injective. Qed.
Theorem C09_compact_refuted : exists s : shape, extents_ge 1 s /\ is_compact s = true /\
  exists o, flat_min s <= o <= flat_max s /\ forall i, in_bounds s i -> flat_offset s i <> o.
Proof. exact compact_with_holes. Qed.
Print Assumptions C09_not_one_to_one_collides.
Print Assumptions C09_onto_is_compact.
Print Assumptions C09_one_to_one_refuted.
Print Assumptions C09_compact_refuted.

(** C10: indices *)
Theorem C10_is_in_range_exact : forall (s : shape) (i : index), length i = length s ->
  (index_in_range s i = true <-> in_bounds s i).
Proof. exact index_in_range_iff. Qed.
(** C10: mixtures of indices and non-empty intervals: every combination of points of the
    arguments is an in-range index. *)
Theorem C10_is_in_range_slices : forall (s : shape) (args : list sarg), length args = length s ->
  Forall arg_nonempty args ->
  (is_in_range s args = true <-> forall i, Forall2 arg_contains args i -> in_bounds s i).
Proof. exact is_in_range_slices. Qed.
Example C10_example :
  is_in_range [mkD 2 5 1; mkD 0 4 5] [AIdx 3; AInt (mkI 1 3)] = true /\
  is_in_range [mkD 2 5 1; mkD 0 4 5] [AIdx 3; AInt (mkI 1 4)] = false /\
  Forall arg_nonempty [AIdx 3; AInt (mkI 1 3)].
Proof. repeat split; repeat constructor; simpl; lia. Qed.
Theorem C10_placeholder_refuted : exists d : dim, 1 <= dext d /\ is_in_range [d] [AAll] = false.
Proof. exact placeholder_not_in_range. Qed.
Print Assumptions C10_is_in_range_exact.
Print Assumptions C10_is_in_range_slices.
Print Assumptions C10_placeholder_refuted.
