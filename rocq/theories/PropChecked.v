(** Overflow of index arithmetic: C43, C44. *)
From Coq Require Import ZArith List Bool.
From Verif Require Import Base Interval Shape Spec Checked SpecChecked ResolveFacts CheckedFacts.
Import ListNotations.
Open Scope Z_scope.

(** ** C43: offsets and flat ranges *)
Theorem C43_flat_offset : forall (s : shape) (i : index), Forall is_dim s -> in_bounds s i ->
  reach s <= 9223372036854775807 -> k_flat_offset s i = Ok (offset s i).
Proof. exact k_flat_offset_ok. Qed.
Theorem C43_flat_min : forall s : shape, Forall is_dim s -> reach s <= 9223372036854775807 ->
  k_flat_min s = Ok (flat_min s).
Proof. exact k_flat_min_ok. Qed.
Theorem C43_flat_max : forall s : shape, Forall is_dim s -> reach s <= 9223372036854775807 ->
  k_flat_max s = Ok (flat_max s).
Proof. exact k_flat_max_ok. Qed.
Theorem C43_flat_extent : forall s : shape, Forall is_dim s -> reach s < 9223372036854775807 ->
  k_flat_extent s = Ok (flat_extent s).
Proof. exact k_flat_extent_ok. Qed.
Theorem C43_is_subset_of : forall (s other : shape) (off : Z), Forall is_dim s -> Forall is_dim other ->
  reach s <= 9223372036854775807 -> reach other + Z.abs off <= 9223372036854775807 ->
  k_is_subset_of s other off = Ok (is_subset_of s other off).
Proof. exact k_is_subset_of_ok. Qed.
Theorem C43_size : forall s : shape, extents_ge 0 s -> box_size s <= 9223372036854775807 -> k_size s = Ok (size s).
Proof. exact k_size_ok. Qed.
Theorem C43_is_in_range : forall (s : shape) (i : index), Forall is_dim s -> ends_fit s -> length s = length i ->
  exists b, k_index_in_range s i = Ok b /\ (b = true <-> in_bounds s i).
Proof. exact k_index_in_range_ok. Qed.
(** The bound cannot be relaxed to the size of an empty shape: size() multiplies all extents. *)
Theorem C43_empty_size_refuted : exists s : shape, Forall is_dim s /\ size s = 0 /\ k_size s = UB.
Proof.
  exists [mkD 0 0 1; mkD 0 1099511627776 1; mkD 0 1099511627776 1].
  split; [repeat constructor; discriminate|]. split; reflexivity.
Qed.
(** The extremes of index_t occur: 2^63 - 1 elements between them, mins at both ends. *)
Example C43_example :
  let s := [mkD (-9223372036854775808) 4611686018427387904 (-1); mkD 9223372036854775806 1 5;
            mkD 7 2 4611686018427387904] in
  Forall is_dim s /\ reach s = 9223372036854775807 /\
  in_bounds s [-4611686018427387905; 9223372036854775806; 8] /\
  k_flat_offset s [-4611686018427387905; 9223372036854775806; 8] = Ok 1 /\
  k_flat_min s = Ok (-4611686018427387903) /\ k_flat_max s = Ok 4611686018427387904 /\
  k_flat_extent s = UB /\
  k_flat_extent [mkD 3 5 (-7); mkD 0 2 40] = Ok 69 /\ k_size [mkD 3 5 (-7); mkD 0 2 40] = Ok 10 /\
  k_index_in_range s [0; 0; 0] = Ok false.
Proof.
  cbv zeta. split; [repeat constructor; discriminate|]. split; [reflexivity|].
  split; [repeat constructor; discriminate|]. repeat split.
Qed.
Print Assumptions C43_flat_offset.
Print Assumptions C43_flat_min.
Print Assumptions C43_flat_max.
Print Assumptions C43_flat_extent.
Print Assumptions C43_is_subset_of.
Print Assumptions C43_size.
Print Assumptions C43_is_in_range.
Print Assumptions C43_empty_size_refuted.

(** ** C44: the stride search *)
Theorem C44_resolve : forall s : shape, Forall is_dim s -> stride_budget s < 9223372036854775807 ->
  k_resolve s = Ok (resolve s).
Proof. exact k_resolve_ok. Qed.
(** It is not enough that the final layout fits: here it has 2^33 elements, but the search
    multiplies the extent 2^32 by the candidate 2^32. *)
Theorem C44_layout_fits_refuted : exists s : shape, Forall is_dim s /\ nested (known_dims s) /\
  resolve s = [mkD 0 4294967296 1; mkD 0 1 4294967296; mkD 0 2 4294967296] /\
  flat_extent (resolve s) = 8589934592 /\ size (resolve s) = 8589934592 /\ k_resolve s = UB.
Proof.
  exists [mkD 0 4294967296 (-9223372036854775808); mkD 0 1 4294967296; mkD 0 2 4294967296].
  split; [repeat constructor; discriminate|].
  split; [split; repeat constructor; discriminate|].
  repeat split.
Qed.
Example C44_example :
  let s := [mkD 0 1000000 (-9223372036854775808); mkD 5 2000 (-3); mkD 0 1000000 (-9223372036854775808)] in
  Forall is_dim s /\ stride_budget s = 6000000000000000 /\
  k_resolve s = Ok [mkD 0 1000000 6000; mkD 5 2000 (-3); mkD 0 1000000 6000000000].
Proof. cbv zeta. split; [repeat constructor; discriminate|]. split; reflexivity. Qed.
Print Assumptions C44_resolve.
Print Assumptions C44_layout_fits_refuted.
