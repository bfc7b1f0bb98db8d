(** C12-C15, C42, C47: index and value traversals. *)
From Verif Require Import Tac Interval Shape Traverse Spec ShapeFacts IntervalFacts TraverseFacts.
Import ListNotations.
Open Scope Z_scope.

(** C12 *)
Theorem C12_for_each_index_visits : forall s : shape, extents_ge 0 s ->
  exists l, for_each_index s = Ok l /\ enumerates (in_bounds s) l /\ StronglySorted colex_lt l.
Proof. exact for_each_index_visits. Qed.
Example C12_example :
  for_each_index [mkD 0 2 1; mkD 5 1 7; mkD (-1) 2 9] =
  Ok [[0; 5; -1]; [1; 5; -1]; [0; 5; 0]; [1; 5; 0]].
Proof. reflexivity. Qed.
Print Assumptions C12_for_each_index_visits.

(** C13.  Position k of [order] is the dimension looped over at depth k from the inside. *)
Theorem C13_loop_order_visits : forall (s : shape) (order : list nat), extents_ge 0 s ->
  (0 < length s)%nat -> Permutation order (seq 0 (length s)) ->
  exists l, for_each_index_loop_order order s = Some (Ok l) /\
    enumerates (in_bounds s) l /\
    StronglySorted (fun i j => colex_lt (map (fun k => nth k i 0) order) (map (fun k => nth k j 0) order)) l.
Proof. exact for_each_index_order_visits. Qed.
Example C13_example :
  for_each_index_loop_order [2; 0; 1]%nat [mkD 0 2 1; mkD 5 1 7; mkD (-1) 2 9] =
  Some (Ok [[0; 5; -1]; [0; 5; 0]; [1; 5; -1]; [1; 5; 0]]).
Proof. reflexivity. Qed.
Example C13_example_perm : Permutation [2; 0; 1]%nat (seq 0 3).
Proof. simpl. apply perm_trans with [0; 2; 1]%nat; [apply perm_swap | apply perm_skip, perm_swap]. Qed.
Print Assumptions C13_loop_order_visits.

(** C14 *)
Theorem C14_for_each_value_visits : forall (s : shape) (base : Z), extents_ge 0 s ->
  exists l, enumerates (in_bounds s) l /\
    for_each_value s base = map (fun i => [base + flat_offset s i]) l.
Proof. exact for_each_value_visits. Qed.
Example C14_example :
  optimize_shape [mkD 0 3 10; mkD 2 5 2; mkD 1 2 (-40)] = [mkD 1 2 (-40); mkD 2 15 2; mkD 0 1 0] /\
  length (for_each_value [mkD 0 3 10; mkD 2 5 2; mkD 1 2 (-40)] 1000) = 30%nat.
Proof. split; reflexivity. Qed.
Theorem C14_negative_extents_refuted : exists s : shape,
  (forall i, ~ in_bounds s i) /\ length (for_each_value s 0) = 6%nat.
Proof. exact fused_negative_extents. Qed.
Print Assumptions C14_for_each_value_visits.
Print Assumptions C14_negative_extents_refuted.

(** C15 *)
Theorem C15_copy_traversal_pairs : forall (ssrc sdst : shape) (src dst : Z),
  length ssrc = length sdst -> extents_ge 0 sdst ->
  exists l, enumerates (in_bounds sdst) l /\
    for_each_value_copy ssrc src sdst dst =
    map (fun i => [src + flat_offset ssrc i; dst + flat_offset sdst i]) l.
Proof. exact copy_traversal_pairs. Qed.
Example C15_example :
  optimize_copy_shapes [mkD 0 9 1; mkD 0 5 9; mkD 0 3 45] [mkD 2 3 1; mkD 0 5 3; mkD 1 2 15] =
  ([mkD 0 9 1; mkD 0 15 9; mkD 0 1 0], [mkD 2 3 1; mkD 5 10 3; mkD 0 1 0]).
Proof. reflexivity. Qed.
Print Assumptions C15_copy_traversal_pairs.

(** C42 *)
Theorem C42_image_index_visits : forall x y c : dim, 0 <= dext x -> 0 <= dext y -> 0 <= dext c ->
  exists l, for_each_image_index x y c = Ok l /\ enumerates (in_bounds [x; y; c]) l /\
    StronglySorted (fun i j => lex_lt (map (fun k => nth k i 0) [1%nat; 0%nat; 2%nat])
                                      (map (fun k => nth k j 0) [1%nat; 0%nat; 2%nat])) l.
Proof. exact image_index_visits. Qed.
Theorem C42_chunky_value_visits : forall (x y c : dim) (base : Z),
  0 <= dext x -> 0 <= dext y -> 0 <= dext c -> dstr c = 1 ->
  exists l, enumerates (in_bounds [x; y; c]) l /\
    chunky_for_each_value x y c base = map (fun i => [base + flat_offset [x; y; c] i]) l.
Proof. exact chunky_value_visits. Qed.
Theorem C42_chunky_general_visits : forall (x y c : dim) (base : Z),
  0 <= dext x -> 0 <= dext y -> 0 <= dext c ->
  exists l, enumerates (in_bounds [x; y; c]) l /\
    chunky_for_each_value_general x y c base = Ok (map (fun i => [base + flat_offset [x; y; c] i]) l).
Proof. exact chunky_general_visits. Qed.
Theorem C42_matrix_index_visits : forall i j : dim, 0 <= dext i -> 0 <= dext j ->
  exists l, for_each_matrix_index i j = Ok l /\ enumerates (in_bounds [i; j]) l /\ StronglySorted lex_lt l.
Proof. exact matrix_index_visits. Qed.
Theorem C42_matrix_value_visits : forall (i j : dim) (base : Z), 0 <= dext i -> 0 <= dext j ->
  exists l, enumerates (in_bounds [i; j]) l /\ StronglySorted lex_lt l /\
    matrix_for_each_value i j base = Ok (map (fun k => [base + flat_offset [i; j] k]) l).
Proof. exact matrix_value_visits. Qed.
Example C42_example :
  chunky_for_each_value (mkD 1 2 3) (mkD 0 2 6) (mkD 0 3 1) 100 = map (fun k => [100 + k]) (zseq 0 12) /\
  for_each_image_index (mkD 1 2 3) (mkD 0 1 6) (mkD 0 2 1) = Ok [[1; 0; 0]; [1; 0; 1]; [2; 0; 0]; [2; 0; 1]] /\
  matrix_for_each_value (mkD 0 2 4) (mkD 0 2 1) 10 = Ok [[10]; [11]; [14]; [15]].
Proof. repeat split. Qed.
Print Assumptions C42_image_index_visits.
Print Assumptions C42_chunky_value_visits.
Print Assumptions C42_chunky_general_visits.
Print Assumptions C42_matrix_index_visits.
Print Assumptions C42_matrix_value_visits.

(** C47 *)
Theorem C47_sort_dims : forall l : list dim,
  Permutation l (bubble_sort dim_ltb l) /\
  StronglySorted (fun a b => dstr a <= dstr b) (bubble_sort dim_ltb l).
Proof. exact bubble_sort_dims. Qed.
Theorem C47_sort_copy_dims : forall l : list (dim * dim),
  Permutation l (bubble_sort copy_ltb l) /\
  StronglySorted (fun a b => dstr (snd a) <= dstr (snd b)) (bubble_sort copy_ltb l).
Proof. exact bubble_sort_copy_dims. Qed.
Example C47_example :
  map dstr (bubble_sort dim_ltb [mkD 0 3 10; mkD 2 5 2; mkD 1 2 (-40); mkD 0 4 2; mkD 0 4 (-1)]) = [-40; -1; 2; 2; 10].
Proof. reflexivity. Qed.
Print Assumptions C47_sort_dims.
Print Assumptions C47_sort_copy_dims.
