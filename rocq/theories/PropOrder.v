(** The order of value loops: C71. *)
From Coq Require Import ZArith List Bool Sorted Permutation Lia.
From Verif Require Import Base Interval Shape Traverse Spec SpecOrder ShapeFacts OrderFacts.
Import ListNotations.
Open Scope Z_scope.

(** A chunky image of 5 by 4 by 3 in C dimension order, and the same memory planar *)
Definition chunky : shape := [mkD 0 5 3; mkD 0 4 15; mkD 0 3 1].
Definition planar : shape := [mkD 0 5 1; mkD 0 4 5; mkD 0 3 20].

(** ** The order *)
(** The elements are visited with the dimension of smallest stride innermost *)
Theorem C71_order : forall (s : shape) (base : Z), extents_ge 0 s ->
  exists (t : shape) (l : list index), Permutation s t /\ by_stride t /\ enumerates (in_bounds t) l /\ StronglySorted colex_lt l /\
    for_each_value s base = map (fun i => [base + offset t i]) l.
Proof. exact value_order. Qed.
Print Assumptions C71_order.

Example C71_order_example : extents_ge 0 [mkD 0 2 3; mkD 0 2 (-7); mkD 1 3 0] /\
  for_each_value [mkD 0 2 3; mkD 0 2 (-7); mkD 1 3 0] 10 =
  [[10]; [3]; [10]; [3]; [10]; [3]; [13]; [6]; [13]; [6]; [13]; [6]].
Proof. split; [repeat constructor; cbn; lia|reflexivity]. Qed.

(** Loops over two arrays follow the strides of the destination *)
Theorem C71_copy_order : forall (ssrc sdst : shape) (src dst : Z), length ssrc = length sdst -> extents_ge 0 sdst ->
  exists (t : list (dim * dim)) (l : list index), Permutation (combine ssrc sdst) t /\ by_stride (map snd t) /\
    enumerates (in_bounds (map snd t)) l /\ StronglySorted colex_lt l /\
    for_each_value_copy ssrc src sdst dst = map (fun i => [src + offset (map fst t) i; dst + offset (map snd t) i]) l.
Proof. exact copy_order. Qed.
Print Assumptions C71_copy_order.

Example C71_copy_order_example : length [mkD 0 2 1; mkD 0 2 2] = length [mkD 5 2 2; mkD 0 2 1] /\
  extents_ge 0 [mkD 5 2 2; mkD 0 2 1] /\
  for_each_value_copy [mkD 0 2 1; mkD 0 2 2] 0 [mkD 5 2 2; mkD 0 2 1] 100 = [[5; 100]; [7; 101]; [6; 102]; [8; 103]].
Proof. split; [reflexivity|]. split; [repeat constructor; cbn; lia|reflexivity]. Qed.

(** ** Memory order *)
(** Without overlap and without negative strides the addresses increase *)
Theorem C71_memory_order : forall (s : shape) (base : Z), extents_ge 0 s -> nested s -> forward s ->
  StronglySorted Z.lt (concat (for_each_value s base)).
Proof. exact value_increasing. Qed.
Print Assumptions C71_memory_order.

Example C71_memory_order_example : extents_ge 0 [mkD 0 3 10; mkD 2 1 (-9); mkD 0 4 2] /\
  nested [mkD 0 3 10; mkD 2 1 (-9); mkD 0 4 2] /\ forward [mkD 0 3 10; mkD 2 1 (-9); mkD 0 4 2] /\
  concat (for_each_value [mkD 0 3 10; mkD 2 1 (-9); mkD 0 4 2] 7) = [7; 9; 11; 13; 17; 19; 21; 23; 27; 29; 31; 33].
Proof.
  split; [repeat constructor; cbn; lia|]. split; [|split; [repeat constructor; cbn; lia|reflexivity]].
  unfold nested. split; repeat constructor; cbn; lia.
Qed.

(** The destination is written in memory order, whatever the source *)
Theorem C71_copy_memory_order : forall (ssrc sdst : shape) (src dst : Z), length ssrc = length sdst ->
  extents_ge 0 sdst -> nested sdst -> forward sdst ->
  StronglySorted Z.lt (map (fun l => nth 1 l 0) (for_each_value_copy ssrc src sdst dst)).
Proof. exact copy_increasing. Qed.
Print Assumptions C71_copy_memory_order.

Example C71_copy_memory_order_example : length planar = length chunky /\ extents_ge 0 chunky /\ nested chunky /\ forward chunky /\
  firstn 4 (for_each_value_copy planar 0 chunky 0) = [[0; 0]; [20; 1]; [40; 2]; [1; 3]].
Proof.
  split; [reflexivity|]. split; [repeat constructor; cbn; lia|]. split; [|split; [repeat constructor; cbn; lia|reflexivity]].
  unfold nested. split; repeat constructor; cbn; lia.
Qed.

(** With a negative stride the loop jumps back and forth: here by four elements each step *)
Theorem C71_flipped_refuted : exists (s : shape) (base : Z), extents_ge 0 s /\ nested s /\
  ~ StronglySorted Z.lt (concat (for_each_value s base)) /\ ~ StronglySorted Z.gt (concat (for_each_value s base)) /\
  concat (for_each_value s base) = [8; 4; 0; 9; 5; 1; 10; 6; 2; 11; 7; 3].
Proof.
  exists [mkD 0 4 1; mkD 0 3 (-4)], 8. split; [repeat constructor; cbn; lia|].
  split; [unfold nested; split; repeat constructor; cbn; lia|].
  split; [|split; [|reflexivity]]; intro H; vm_compute in H.
  - inversion H as [|? ? _ F]; subst. inversion F as [|? ? F' _]; subst. discriminate F'.
  - inversion H as [|? ? _ F]; subst. rewrite Forall_forall in F. specialize (F 9 ltac:(cbn; tauto)). discriminate F.
Qed.
Print Assumptions C71_flipped_refuted.

(** ** Fusing *)
(** No two neighbouring loops that could be one are left *)
Theorem C71_fused : forall s : shape, exists l k, optimize_shape s = l ++ repeat (mkD 0 1 0) k /\
  by_stride l /\ no_neighbours contiguous l.
Proof. exact fused. Qed.
Print Assumptions C71_fused.

Example C71_fused_example : optimize_shape [mkD 0 5 3; mkD 0 4 16; mkD 0 3 1; mkD 0 2 64] =
  [mkD 0 15 1; mkD 0 8 16] ++ repeat (mkD 0 1 0) 2.
Proof. reflexivity. Qed.

Theorem C71_copy_fused : forall src dst : shape, length src = length dst -> exists l k,
  optimize_copy_shapes src dst = (map fst l ++ repeat (mkD 0 1 0) k, map snd l ++ repeat (mkD 0 1 0) k) /\
  by_stride (map snd l) /\ no_neighbours contiguous2 l.
Proof. exact fused2. Qed.
Print Assumptions C71_copy_fused.

Example C71_copy_fused_example : length chunky = length planar /\
  optimize_copy_shapes chunky planar = ([mkD 0 20 3; mkD 0 3 1; mkD 0 1 0], [mkD 0 20 1; mkD 0 3 20; mkD 0 1 0]).
Proof. split; reflexivity. Qed.

(** ** One loop *)
(** An array with the default layout is one loop over its memory *)
Theorem C71_default_one_loop : forall (s : shape) (base : Z), s <> [] -> extents_ge 1 s -> Forall unknown_stride s ->
  fold_right Z.mul 1 (map dext s) < 9223372036854775807 ->
  one_loop (fold_right Z.mul 1 (map dext s)) (length s) (optimize_shape (resolve s)) /\
  for_each_value (resolve s) base = map (fun k => [base + k]) (zseq 0 (Z.to_nat (fold_right Z.mul 1 (map dext s)))).
Proof. exact default_loop. Qed.
Print Assumptions C71_default_one_loop.

Definition unresolved3 : shape := [mkD 1 2 unresolved; mkD 0 1 unresolved; mkD (-2) 3 unresolved].
Example C71_default_one_loop_example : unresolved3 <> [] /\ extents_ge 1 unresolved3 /\ Forall unknown_stride unresolved3 /\
  fold_right Z.mul 1 (map dext unresolved3) < 9223372036854775807 /\
  for_each_value (resolve unresolved3) 40 = [[40]; [41]; [42]; [43]; [44]; [45]].
Proof.
  split; [discriminate|]. split; [repeat constructor; cbn; lia|]. split; [repeat constructor|].
  split; [vm_compute; reflexivity|vm_compute; reflexivity].
Qed.

(** So is any compact layout, whatever the order of its dimensions, if no extent is 1 *)
Theorem C71_compact_one_loop : forall (s l : shape) (n base : Z), s <> [] -> extents_ge 2 s -> Permutation s l -> tiles n l ->
  Forall (fun d => 0 <= dstr d) s ->
  one_loop n (length s) (optimize_shape s) /\ for_each_value s base = map (fun k => [base + k]) (zseq 0 (Z.to_nat n)).
Proof. exact compact_loop. Qed.
Print Assumptions C71_compact_one_loop.

Example C71_compact_one_loop_example : chunky <> [] /\ extents_ge 2 chunky /\
  Permutation chunky [mkD 0 4 15; mkD 0 5 3; mkD 0 3 1] /\ tiles 60 [mkD 0 4 15; mkD 0 5 3; mkD 0 3 1] /\
  Forall (fun d => 0 <= dstr d) chunky /\ optimize_shape chunky = [mkD 0 60 1; mkD 0 1 0; mkD 0 1 0].
Proof.
  split; [discriminate|]. split; [repeat constructor; cbn; lia|]. split; [apply perm_swap|].
  split; [|split; [repeat constructor; cbn; lia|reflexivity]].
  apply (tiles_cons 15 (mkD 0 4 15)); [|reflexivity]. apply (tiles_cons 3 (mkD 0 5 3)); [|reflexivity].
  apply (tiles_cons 1 (mkD 0 3 1)); [|reflexivity]. constructor.
Qed.

(** Copying between equal shapes takes the same loops *)
Theorem C71_copy_same_shape : forall s : shape, optimize_copy_shapes s s = (optimize_shape s, optimize_shape s).
Proof. exact copy_same_shape. Qed.
Print Assumptions C71_copy_same_shape.

(** A dimension of extent 1 can stand between loops that could be one: the frames of an image of width 1 *)
Theorem C71_unit_refuted : exists (s l : shape) (n : Z), s <> [] /\ extents_ge 1 s /\ Permutation s l /\ tiles n l /\
  Forall (fun d => 0 <= dstr d) s /\ optimize_shape s = [mkD 0 12 1; mkD 0 1 3; mkD 0 2 12; mkD 0 1 0].
Proof.
  exists [mkD 0 1 3; mkD 0 4 3; mkD 0 3 1; mkD 0 2 12], [mkD 0 2 12; mkD 0 4 3; mkD 0 1 3; mkD 0 3 1], 24.
  split; [discriminate|]. split; [repeat constructor; cbn; lia|]. split.
  - change [mkD 0 1 3; mkD 0 4 3; mkD 0 3 1; mkD 0 2 12] with ([mkD 0 1 3; mkD 0 4 3; mkD 0 3 1] ++ [mkD 0 2 12]).
    etransitivity; [apply Permutation_app_comm|]. cbn [app]. apply perm_skip, perm_swap.
  - split; [|split; [repeat constructor; cbn; lia|reflexivity]].
    apply (tiles_cons 12 (mkD 0 2 12)); [|reflexivity]. apply (tiles_cons 3 (mkD 0 4 3)); [|reflexivity].
    apply (tiles_cons 3 (mkD 0 1 3)); [|reflexivity]. apply (tiles_cons 1 (mkD 0 3 1)); [|reflexivity]. constructor.
Qed.
Print Assumptions C71_unit_refuted.
