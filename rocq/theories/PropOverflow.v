(** C59: overflow of index arithmetic in loops, split iterators and the loop optimiser. *)
From Verif Require Import Tac Base Interval Shape Traverse Spec IntervalFacts TraverseFacts Checked SpecChecked CheckedFacts
  Overflow SpecOverflow OverflowFacts.
Import ListNotations.
Open Scope Z_scope.

(** ** Range-for and index loops *)
Theorem C59_range_for : forall i : interval, is_interval i ->
  exists l, k_for_interval i = Ok l /\ StronglySorted Z.lt l /\ forall x, In x l <-> in_interval i x.
Proof. exact loops_range_for. Qed.
Theorem C59_for_each_index : forall s : shape, Forall is_dim s -> ends_fit s ->
  exists l, k_for_each_index s = Ok l /\ enumerates (in_bounds s) l /\ StronglySorted colex_lt l.
Proof. exact loops_for_each_index. Qed.
Theorem C59_image_index : forall x y c : dim, Forall is_dim [x; y; c] -> ends_fit [x; y; c] ->
  exists l, k_for_each_image_index x y c = Ok l /\ enumerates (in_bounds [x; y; c]) l.
Proof. exact loops_image_index. Qed.
Theorem C59_matrix_index : forall i j : dim, Forall is_dim [i; j] -> ends_fit [i; j] ->
  exists l, k_for_each_matrix_index i j = Ok l /\ enumerates (in_bounds [i; j]) l /\ StronglySorted lex_lt l.
Proof. exact loops_matrix_index. Qed.
(** An interval whose last index is the largest index_t, or that is empty and starts at the
    smallest one, cannot be looped over although all its indices are values of index_t. *)
Theorem C59_last_index_refuted : exists i : interval, is_index (imin i) /\ is_index (iext i) /\ 0 <= iext i /\
  (forall x, in_interval i x -> is_index x) /\ in_interval i 9223372036854775807 /\ k_for_interval i = UB.
Proof. exact last_index_overflows. Qed.
Theorem C59_first_index_refuted : exists i : interval, is_index (imin i) /\ iext i = 0 /\
  (forall x, ~ in_interval i x) /\ k_for_interval i = UB.
Proof. exact first_index_overflows. Qed.
Example C59_range_example : is_interval (mkI 9223372036854775804 3) /\
  k_for_interval (mkI 9223372036854775804 3) = Ok [9223372036854775804; 9223372036854775805; 9223372036854775806] /\
  k_for_each_index [mkD 9223372036854775804 2 1; mkD (-9223372036854775808) 2 7] =
    Ok [[9223372036854775804; -9223372036854775808]; [9223372036854775805; -9223372036854775808];
        [9223372036854775804; -9223372036854775807]; [9223372036854775805; -9223372036854775807]].
Proof. split; [unfold is_interval, is_index; cbn; lia|]. split; reflexivity. Qed.
Example C59_index_hypotheses : let s := [mkD 9223372036854775804 2 1; mkD (-9223372036854775808) 2 7] in
  Forall is_dim s /\ ends_fit s.
Proof. split; repeat constructor; cbn; try discriminate. Qed.
Print Assumptions C59_range_for.
Print Assumptions C59_for_each_index.
Print Assumptions C59_image_index.
Print Assumptions C59_matrix_index.
Print Assumptions C59_last_index_refuted.
Print Assumptions C59_first_index_refuted.

(** ** Split iterators *)
Theorem C59_split_dynamic : forall (v : interval) (n : Z), is_interval v -> 1 <= n -> is_index n ->
  imin v + iext v + n <= 9223372036854775807 ->
  exists r l, k_split_dynamic v n = Ok r /\
    (exists fuel, k_split_loop None fuel (sr_begin r) (sr_end r) = Ok l) /\
    consecutive (imin v) (imin v + iext v) l /\
    Forall (fun p => 1 <= iext p <= n) l /\ Forall (fun p => iext p = n) (removelast l) /\
    (forall k, (k < length l)%nat -> exists it, k_si_add None (sr_begin r) (Z.of_nat k) = Ok it /\ nth_error l k = Some (si_i it)) /\
    (iext v + n <= 9223372036854775807 -> k_si_diff (sr_end r) (sr_begin r) = Ok (Z.of_nat (length l))).
Proof. exact loops_split_dynamic. Qed.
Theorem C59_split_static : forall (v : interval) (N : Z) (ndebug : bool), is_interval v -> 1 <= N <= iext v ->
  imin v + iext v - 1 + N <= 9223372036854775807 ->
  exists r l, k_split_static ndebug N v = Ok r /\
    (exists fuel, k_split_loop (Some N) fuel (sr_begin r) (sr_end r) = Ok l) /\
    Forall (fun p => iext p = N /\ forall x, in_interval p x -> in_interval v x) l /\
    (forall x, in_interval v x -> exists p, In p l /\ in_interval p x) /\
    Z.of_nat (length l) = (iext v + N - 1) / N /\
    (forall k, (k < length l)%nat -> exists it, k_si_add (Some N) (sr_begin r) (Z.of_nat k) = Ok it /\ nth_error l k = Some (si_i it)) /\
    (imin v + iext v + N <= 9223372036854775807 -> iext v + 2 * N - 1 <= 9223372036854775807 ->
       k_si_diff (sr_end r) (sr_begin r) = Ok (Z.of_nat (length l))).
Proof. exact loops_split_static. Qed.
(** Every piece is representable, but the increment past the last one computes an index beyond it. *)
Theorem C59_split_near_the_end_refuted : exists (v : interval) (n : Z) (r : split_result),
  is_interval v /\ k_split_dynamic v n = Ok r /\
  split_for None (sr_begin r) (sr_end r) [mkI 9223372036854775801 3; mkI 9223372036854775804 2] /\
  forall fuel, k_split_loop None fuel (sr_begin r) (sr_end r) = UB.
Proof. exact split_near_the_end. Qed.
Example C59_split_example : let v := mkI 9223372036854775790 8 in
  is_interval v /\ imin v + iext v + 3 <= 9223372036854775807 /\
  (r <- k_split_dynamic v 3 ;; k_split_loop None 4 (sr_begin r) (sr_end r)) =
    Ok [mkI 9223372036854775790 3; mkI 9223372036854775793 3; mkI 9223372036854775796 2] /\
  (r <- k_split_static false 3 v ;; k_split_loop (Some 3) 4 (sr_begin r) (sr_end r)) =
    Ok [mkI 9223372036854775790 3; mkI 9223372036854775793 3; mkI 9223372036854775795 3] /\
  (r <- k_split_dynamic v 3 ;; k_si_diff (sr_end r) (sr_begin r)) = Ok 3.
Proof. cbv zeta. split; [unfold is_interval, is_index; cbn; lia|]. split; [cbn; lia|]. repeat split. Qed.
Print Assumptions C59_split_dynamic.
Print Assumptions C59_split_static.
Print Assumptions C59_split_near_the_end_refuted.

(** ** Value loops *)
Theorem C59_for_each_value : forall (s : shape) (base : Z), loops_fit s ->
  exists l, enumerates (in_bounds s) l /\ k_for_each_value s base = Ok (map (fun i => [base + offset s i]) l).
Proof. exact loops_for_each_value. Qed.
Theorem C59_copy : forall (ssrc sdst : shape) (src dst : Z), length ssrc = length sdst ->
  loops_fit ssrc -> loops_fit sdst ->
  far ssrc * box_size ssrc + far sdst * box_size sdst <= 9223372036854775807 -> lead ssrc sdst <= 9223372036854775807 ->
  exists l, enumerates (in_bounds sdst) l /\
    k_for_each_value_copy ssrc src sdst dst = Ok (map (fun i => [src + offset ssrc i; dst + offset sdst i]) l).
Proof. exact loops_copy. Qed.
Theorem C59_chunky_value : forall (x y c : dim) (base : Z), Forall is_dim [x; y; c] -> dstr c = 1 ->
  is_index (dmin x * dext c) -> is_index (dext x * dext c) ->
  exists l, enumerates (in_bounds [x; y; c]) l /\
    k_chunky_for_each_value x y c base = Ok (map (fun i => [base + offset [x; y; c] i]) l).
Proof. exact loops_chunky_value. Qed.
(** Fusing two loops multiplies the outer min by the inner extent.  The 2048 elements of this
    compact shape have offsets 0 to 2047. *)
Theorem C59_fused_min_refuted : exists s : shape, Forall is_dim s /\ ends_fit s /\ reach s = 2047 /\
  resolve s = s /\ k_flat_extent s = Ok 2048 /\ k_size s = Ok 2048 /\ k_for_each_value s 0 = UB.
Proof. exact fused_min_overflows. Qed.
Example C59_value_example :
  let s := [mkD 1000000000000 3 10; mkD (-5) 5 2; mkD 7 2 (-40)] in
  loops_fit s /\ k_optimize_shape s = Ok [mkD 7 2 (-40); mkD 4999999999995 15 2; mkD 0 1 0] /\
  (l <- k_for_each_value s 1000 ;; Ok (length l)) = Ok 30%nat.
Proof.
  cbv zeta. split; [unfold loops_fit, is_dim, is_index, far, box_size; split; [|split]; repeat constructor; cbn; lia|].
  split; reflexivity.
Qed.
Example C59_copy_example :
  let src := [mkD (-1000000) 9 1; mkD 0 5 9; mkD 0 3 45] in
  let dst := [mkD (-999998) 3 1; mkD 0 5 3; mkD 1 2 15] in
  loops_fit src /\ loops_fit dst /\ far src * box_size src + far dst * box_size dst <= 9223372036854775807 /\
  lead src dst = 47 /\
  k_optimize_copy_shapes src dst =
    Ok ([mkD (-1000000) 9 1; mkD 0 15 9; mkD 0 1 0], [mkD (-999998) 3 1; mkD 5 10 3; mkD 0 1 0]) /\
  (l <- k_for_each_value_copy src 0 dst 100 ;; Ok (hd [] l)) = Ok [47; 100].
Proof.
  cbv zeta.
  split; [unfold loops_fit, is_dim, is_index, far, box_size; split; [|split]; repeat constructor; cbn; lia|].
  split; [unfold loops_fit, is_dim, is_index, far, box_size; split; [|split]; repeat constructor; cbn; lia|].
  split; [cbn; lia|]. repeat split.
Qed.
Example C59_chunky_example : k_chunky_for_each_value (mkD 1000 2 3) (mkD 0 1 6) (mkD 0 3 1) 100 =
  Ok [[100]; [101]; [102]; [103]; [104]; [105]].
Proof. reflexivity. Qed.
Print Assumptions C59_for_each_value.
Print Assumptions C59_copy.
Print Assumptions C59_chunky_value.
Print Assumptions C59_fused_min_refuted.
