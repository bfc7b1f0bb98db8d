(** C11, C23-C25, C30, C51: range-for, splits, clamping, interval operations. *)
From Verif Require Import Tac Interval Shape Spec ShapeFacts IntervalFacts.
Import ListNotations.
Open Scope Z_scope.

(** C11 *)
Theorem C11_range_for_visits : forall i : interval, imin i + iext i <= 9223372036854775807 ->
  (0 <= iext i ->
     exists l, range_for (imin i) (imax i + 1) l /\
       (forall l', range_for (imin i) (imax i + 1) l' -> l' = l) /\
       ~ range_for_overflows (imin i) (imax i + 1) /\
       StronglySorted Z.lt l /\ (forall x, In x l <-> in_interval i x) /\
       for_interval i = Ok l) /\
  (iext i < 0 -> imin i <= 9223372036854775807 ->
     range_for_overflows (imin i) (imax i + 1) /\
     (forall l, ~ range_for (imin i) (imax i + 1) l) /\ for_interval i = UB).
Proof. exact range_for_visits. Qed.
Example C11_example : for_interval (mkI (-2) 4) = Ok [-2; -1; 0; 1] /\ for_interval (mkI 3 0) = Ok [] /\
  for_interval (mkI 3 (-2)) = UB.
Proof. repeat split. Qed.
Print Assumptions C11_range_for_visits.

(** C23 *)
Theorem C23_split_dynamic_partition : forall (v : interval) (n : Z), 1 <= n -> 0 <= iext v ->
  exists l, split_for None (sr_begin (split_dynamic v n)) (sr_end (split_dynamic v n)) l /\
    (forall l', split_for None (sr_begin (split_dynamic v n)) (sr_end (split_dynamic v n)) l' -> l' = l) /\
    consecutive (imin v) (imin v + iext v) l /\
    Forall (fun p => 1 <= iext p <= n) l /\
    Forall (fun p => iext p = n) (removelast l) /\
    (forall x, in_interval v x -> exists! p, In p l /\ in_interval p x) /\
    (forall x p, In p l -> in_interval p x -> in_interval v x).
Proof. exact split_dynamic_partition. Qed.
Example C23_example : let r := split_dynamic (mkI (-1) 8) 3 in
  split_loop None 10 (sr_begin r) (sr_end r) = Ok [mkI (-1) 3; mkI 2 3; mkI 5 2].
Proof. reflexivity. Qed.
Print Assumptions C23_split_dynamic_partition.

(** C24 *)
Theorem C24_split_static_covers : forall (v : interval) (N : Z) (ndebug : bool), 1 <= N <= iext v ->
  exists r l, split_static ndebug N v = Ok r /\
    split_for (Some N) (sr_begin r) (sr_end r) l /\
    (forall l', split_for (Some N) (sr_begin r) (sr_end r) l' -> l' = l) /\
    Forall (fun p => iext p = N /\ forall x, in_interval p x -> in_interval v x) l /\
    (forall x, in_interval v x -> exists p, In p l /\ in_interval p x) /\
    exists front last_, l = front ++ [last_] /\
      imax last_ = imax v /\
      consecutive (imin v) (imin v + N * Z.of_nat (length front)) front /\
      imin v + N * Z.of_nat (length front) - N < imin last_ <= imin v + N * Z.of_nat (length front).
Proof. exact split_static_covers. Qed.
Example C24_example :
  (r <- split_static false 3 (mkI (-1) 8) ;; split_loop (Some 3) 10 (sr_begin r) (sr_end r))
  = Ok [mkI (-1) 3; mkI 2 3; mkI 4 3].
Proof. reflexivity. Qed.
Theorem C24_split_static_rejects : forall (v : interval) (N : Z), iext v < N ->
  split_static false N v = AssertFail.
Proof. exact split_static_rejects. Qed.
Example C24_rejects_example : iext (mkI 0 2) < 4.
Proof. simpl. lia. Qed.
(** Without the assert the loop never reaches its end, and already the first piece contains an
    index that is not in the interval. *)
Theorem C24_split_static_release : forall (v : interval) (N : Z), 1 <= N -> iext v < N ->
  exists r, split_static true N v = Ok r /\
    (iext v <> 0 -> 0 <= iext v -> (forall l, ~ split_for (Some N) (sr_begin r) (sr_end r) l) /\
       ~ in_interval v (imax (si_i (sr_begin r))) /\ in_interval (si_i (sr_begin r)) (imax (si_i (sr_begin r)))) /\
    (iext v = 0 -> split_for (Some N) (sr_begin r) (sr_end r) []).
Proof. exact split_static_release. Qed.
Example C24_release_example :
  (r <- split_static true 4 (mkI 10 2) ;; Ok (si_i (sr_begin r), si_i (si_next (Some 4) (sr_begin r)), si_i (sr_end r)))
  = Ok (mkI 10 4, mkI 14 4, mkI 12 4).
Proof. reflexivity. Qed.
Print Assumptions C24_split_static_release.
Print Assumptions C24_split_static_covers.
Print Assumptions C24_split_static_rejects.

(** C25 *)
Theorem C25_split_dynamic_access : forall (v : interval) (n : Z), 1 <= n -> 0 <= iext v ->
  exists l, split_for None (sr_begin (split_dynamic v n)) (sr_end (split_dynamic v n)) l /\
    sr_size (split_dynamic v n) = Z.of_nat (length l) /\
    Z.of_nat (length l) = (iext v + n - 1) / n /\
    (forall k, (k < length l)%nat ->
       nth_error l k = Some (si_i (sr_at None (split_dynamic v n) (Z.of_nat k)))).
Proof. exact split_dynamic_access. Qed.
Theorem C25_split_static_access : forall (v : interval) (N : Z) (ndebug : bool), 1 <= N <= iext v ->
  exists r l, split_static ndebug N v = Ok r /\
    split_for (Some N) (sr_begin r) (sr_end r) l /\
    sr_size r = Z.of_nat (length l) /\ Z.of_nat (length l) = (iext v + N - 1) / N /\
    (forall k, (k < length l)%nat -> nth_error l k = Some (si_i (sr_at (Some N) r (Z.of_nat k)))).
Proof. exact split_static_access. Qed.
Theorem C25_dynamic_begin_plus_size_is_end : forall (v : interval) (n : Z), 1 <= n -> 0 <= iext v ->
  (si_eqb (sr_at None (split_dynamic v n) (sr_size (split_dynamic v n))) (sr_end (split_dynamic v n)) = true
   <-> iext v <= n \/ iext v mod n = 0).
Proof. exact split_dynamic_end_iff. Qed.
Theorem C25_static_begin_plus_size_is_end : forall (v : interval) (N : Z) (ndebug : bool) r, 1 <= N <= iext v ->
  split_static ndebug N v = Ok r ->
  (si_eqb (sr_at (Some N) r (sr_size r)) (sr_end r) = true <-> iext v mod N = 0).
Proof. exact split_static_end_iff. Qed.
Example C25_example : let r := split_dynamic (mkI (-1) 8) 3 in
  sr_size r = 3 /\ si_i (sr_at None r 2) = mkI 5 2 /\
  si_eqb (sr_at None r 3) (sr_end r) = false.
Proof. repeat split. Qed.
Example C25_static_example : exists r, split_static false 3 (mkI (-1) 8) = Ok r /\
  sr_size r = 3 /\ si_i (sr_at (Some 3) r 2) = mkI 4 3 /\ si_eqb (sr_at (Some 3) r 3) (sr_end r) = false.
Proof. eexists. repeat split. Qed.
Theorem C25_split_dynamic_add : forall (v : interval) (n : Z) (ndebug : bool), 1 <= n -> 0 <= iext v ->
  exists l, split_for None (sr_begin (split_dynamic v n)) (sr_end (split_dynamic v n)) l /\
    (forall k, (k < length l)%nat -> exists it,
       si_add None ndebug (sr_begin (split_dynamic v n)) (Z.of_nat k) = Ok it /\ nth_error l k = Some (si_i it)).
Proof. exact split_dynamic_add. Qed.
Theorem C25_split_static_add : forall (v : interval) (N : Z) (ndebug : bool), 1 <= N <= iext v ->
  exists r l, split_static ndebug N v = Ok r /\ split_for (Some N) (sr_begin r) (sr_end r) l /\
    (forall k, (k < length l)%nat -> exists it,
       si_add (Some N) ndebug (sr_begin r) (Z.of_nat k) = Ok it /\ nth_error l k = Some (si_i it)).
Proof. exact split_static_add. Qed.
Theorem C25_add_negative_rejected : forall (inner : option Z) (it : split_iter) (n : Z), n < 0 ->
  si_add inner false it n = AssertFail.
Proof. exact split_add_negative. Qed.
Example C25_add_example :
  si_add None false (sr_begin (split_dynamic (mkI (-1) 8) 3)) 2 = Ok (mkSI (mkI 5 2) 6) /\
  si_add (Some 3) false (mkSI (mkI (-1) 3) 6) 2 = Ok (mkSI (mkI 4 3) 6) /\
  si_add None false (sr_begin (split_dynamic (mkI (-1) 8) 3)) (-1) = AssertFail.
Proof. repeat split. Qed.
Print Assumptions C25_split_dynamic_add.
Print Assumptions C25_split_static_add.
Print Assumptions C25_add_negative_rejected.
Print Assumptions C25_split_dynamic_access.
Print Assumptions C25_split_static_access.
Print Assumptions C25_dynamic_begin_plus_size_is_end.
Print Assumptions C25_static_begin_plus_size_is_end.

(** C30 *)
Theorem C30_clamp_nearest : forall (x : Z) (i : interval), 1 <= iext i ->
  in_interval i (clamp_to x i) /\
  (in_interval i x -> clamp_to x i = x) /\
  (forall y, in_interval i y -> Z.abs (x - clamp_to x i) <= Z.abs (x - y)).
Proof. exact clamp_nearest. Qed.
Example C30_example : clamp_to 7 (mkI 2 3) = 4 /\ clamp_to (-7) (mkI 2 3) = 2 /\ clamp_to 3 (mkI 2 3) = 3.
Proof. repeat split. Qed.
(** No index is in an empty interval; the result is then [max], one below [min] or less. *)
Theorem C30_clamp_empty : forall (x : Z) (i : interval), iext i <= 0 ->
  clamp_to x i = imin i + iext i - 1 /\ ~ in_interval i (clamp_to x i).
Proof. exact clamp_empty. Qed.
Example C30_empty_example : clamp_to 7 (mkI 2 0) = 1 /\ clamp_to (-7) (mkI 2 (-3)) = -2.
Proof. repeat split. Qed.
Theorem C30_clamp_dims_intersection : forall (a b : shape) (i : index), length a = length b ->
  (in_bounds (clamp_dims a b) i <-> in_bounds a i /\ in_bounds b i).
Proof. exact clamp_dims_intersection. Qed.
Example C30_dims_example : clamp_dims [mkD 0 5 1; mkD 2 5 5] [mkD (-2) 4 1; mkD 4 9 7] = [mkD 0 2 1; mkD 4 3 5].
Proof. reflexivity. Qed.
Print Assumptions C30_clamp_nearest.
Print Assumptions C30_clamp_empty.
Print Assumptions C30_clamp_dims_intersection.

(** C51 *)
Theorem C51_setters : forall (i : interval) (m x : Z),
  (in_interval (iset_min i m) x <-> m <= x < m + iext i) /\
  (in_interval (iset_extent i m) x <-> imin i <= x < imin i + m) /\
  (in_interval (iset_max i m) x <-> imin i <= x <= m) /\
  imin (iset_max i m) = imin i /\ imax (iset_max i m) = m.
Proof. exact interval_setters. Qed.
Theorem C51_range : forall b e : Z, (forall x, in_interval (range b e) x <-> b <= x < e) /\
  iext (range b e) = e - b.
Proof. exact range_spec. Qed.
Theorem C51_equality : forall a b : interval, 1 <= iext a -> 1 <= iext b ->
  (i_eqb a b = true <-> forall x, in_interval a x <-> in_interval b x).
Proof. exact interval_equality. Qed.
Theorem C51_equality_parts : forall a b : interval, i_eqb a b = true <-> imin a = imin b /\ iext a = iext b.
Proof. exact i_eqb_iff. Qed.
Theorem C51_contains : forall a b : interval,
  (1 <= iext b -> (i_in_range_interval a b = true <-> forall x, in_interval b x -> in_interval a x)) /\
  (forall x, i_in_range a x = true <-> in_interval a x).
Proof. exact interval_contains. Qed.
(** Intervals that contain nothing can be unequal, and need not be "in range". *)
Theorem C51_empty_refuted : exists a b : interval, (forall x, ~ in_interval a x) /\ (forall x, ~ in_interval b x) /\
  i_eqb a b = false /\ i_in_range_interval a b = false.
Proof.
  exists (mkI 0 0), (mkI 3 0). unfold in_interval. simpl. repeat split; intros; lia.
Qed.
Example C51_example : iset_max (mkI 3 5) 9 = mkI 3 7 /\ range 3 10 = mkI 3 7 /\
  i_eqb (range 3 10) (iset_max (mkI 3 5) 9) = true /\ i_eqb (mkI 3 7) (mkI 4 7) = false /\
  i_in_range_interval (mkI 3 7) (mkI 4 6) = true /\ i_in_range_interval (mkI 3 7) (mkI 4 7) = false.
Proof. repeat split. Qed.
Print Assumptions C51_setters.
Print Assumptions C51_range.
Print Assumptions C51_equality.
Print Assumptions C51_equality_parts.
Print Assumptions C51_contains.
Print Assumptions C51_empty_refuted.
