(** C26: z-order traversal.  C48: rational numbers. *)
From Coq Require Import QArith Qround.
From Verif Require Import Tac Interval ZOrder Spec SpecZ ZOrderFacts Rational SpecRational RationalFacts.
Import ListNotations.
Open Scope Z_scope.

(** C26 *)
Theorem C26_z_order_visits : forall ext : list Z, (0 < length ext)%nat -> Forall (fun e => 1 <= e <= 2 ^ 62) ext ->
  exists l, for_each_index_in_z_order ext = Ok l /\ enumerates (in_box ext) l /\ StronglySorted z_before l.
Proof. exact z_order_visits. Qed.
Theorem C26_z_order_ranges : forall (A : Type) (ranges : list (Z * (Z -> A))), (0 < length ranges)%nat ->
  Forall (fun r => 1 <= fst r <= 2 ^ 62) ranges ->
  exists l, enumerates (in_box (map fst ranges)) l /\ StronglySorted z_before l /\
    for_each_in_z_order ranges = Ok (map (fun i => map2 (fun r k => snd r k) ranges i) l).
Proof. exact @z_order_ranges. Qed.
(** The origin is passed to the callback whatever the extents are... *)
Theorem C26_origin_always_visited : forall (ext : list Z) (l : list (list Z)),
  for_each_index_in_z_order ext = Ok l -> In (map (fun _ => 0) ext) l.
Proof. exact z_order_always_calls. Qed.
(** ... also when there is nothing to visit. *)
Theorem C26_empty_range_refuted : exists (ext : list Z) (l : list (list Z)),
  Forall (fun e => 0 <= e) ext /\ (forall z, ~ in_box ext z) /\
  for_each_index_in_z_order ext = Ok l /\ l <> [].
Proof. exact z_order_empty. Qed.
Example C26_example : for_each_index_in_z_order [3; 2] =
  Ok [[0; 0]; [1; 0]; [0; 1]; [1; 1]; [2; 0]; [2; 1]].
Proof. reflexivity. Qed.
Print Assumptions C26_z_order_visits.
Print Assumptions C26_z_order_ranges.
Print Assumptions C26_origin_always_visited.
Print Assumptions C26_empty_range_refuted.

(** C48 *)
Theorem C48_constructor : forall n d : Z, 0 < d <= index_max -> index_min < n ->
  exists r, make_rational n d = Ok r /\ ok_den r /\ reduced r /\ (val r == n # Z.to_pos d)%Q /\
    denominator r <= d /\ Z.abs (numerator r) <= Z.abs n.
Proof. exact make_rational_spec. Qed.
Theorem C48_add : forall l r : rational, ok_den l -> ok_den r ->
  fits (numerator l * denominator r + numerator r * denominator l) -> fits (denominator l * denominator r) ->
  exists x, q_add l r = Ok x /\ ok_den x /\ reduced x /\ (val x == val l + val r)%Q.
Proof. exact q_add_spec. Qed.
Theorem C48_sub : forall l r : rational, ok_den l -> ok_den r ->
  fits (numerator l * denominator r - numerator r * denominator l) -> fits (denominator l * denominator r) ->
  exists x, q_sub l r = Ok x /\ ok_den x /\ reduced x /\ (val x == val l - val r)%Q.
Proof. exact q_sub_spec. Qed.
Theorem C48_mul : forall l r : rational, ok_den l -> ok_den r ->
  fits (numerator l * numerator r) -> fits (denominator l * denominator r) ->
  exists x, q_mul l r = Ok x /\ ok_den x /\ reduced x /\ (val x == val l * val r)%Q.
Proof. exact q_mul_spec. Qed.
Theorem C48_div : forall l r : rational, ok_den l -> ok_den r -> 0 < numerator r ->
  fits (numerator l * denominator r) -> fits (denominator l * numerator r) ->
  exists x, q_div l r = Ok x /\ ok_den x /\ reduced x /\ (val x == val l / val r)%Q.
Proof. exact q_div_spec. Qed.
Theorem C48_compare : forall l r : rational, ok_den l -> ok_den r ->
  (q_lt l r = true <-> (val l < val r)%Q) /\ (q_le l r = true <-> (val l <= val r)%Q) /\
  (q_gt l r = true <-> (val r < val l)%Q) /\ (q_ge l r = true <-> (val r <= val l)%Q) /\
  (q_eq l r = true <-> (val l == val r)%Q) /\ (q_ne l r = true <-> ~ (val l == val r)%Q).
Proof. exact cmp_spec. Qed.
Theorem C48_min_max : forall l r : rational, ok_den l -> ok_den r ->
  ((q_min l r = l /\ val l <= val r) \/ (q_min l r = r /\ val r <= val l))%Q /\
  ((q_max l r = l /\ val r <= val l) \/ (q_max l r = r /\ val l <= val r))%Q.
Proof. exact minmax_spec. Qed.
Theorem C48_floor : forall r : rational, ok_den r -> index_min < numerator r -> q_floor r = Ok (Qfloor (val r)).
Proof. exact q_floor_spec. Qed.
Theorem C48_ceil : forall r : rational, ok_den r -> index_min < numerator r + denominator r - 1 ->
  q_ceil r = Ok (Qceiling (val r)).
Proof. exact q_ceil_spec. Qed.
Theorem C48_round : forall r : rational, 0 < 2 * denominator r <= index_max ->
  index_min < 2 * numerator r + denominator r -> q_round r = Ok (Qfloor (val r + (1 # 2))).
Proof. exact q_round_spec. Qed.
Theorem C48_frac : forall r : rational, ok_den r -> index_min < numerator r ->
  exists x, q_frac r = Ok x /\ ok_den x /\ reduced x /\ (val x == val r - inject_Z (Qfloor (val r)))%Q /\
    (0 <= val x < 1)%Q.
Proof. exact q_frac_spec. Qed.
(** Dividing by a negative number: the negative denominator stays, [<] and [floor] are wrong. *)
Theorem C48_negative_denominator_refuted : exists l r x : rational,
  ok_den l /\ ok_den r /\ q_div l r = Ok x /\ denominator x < 0 /\
  (val l / val r < val (of_int 0))%Q /\ q_lt x (of_int 0) = false /\
  q_floor x <> Ok (Qfloor (val l / val r)).
Proof. exact negative_den. Qed.
Example C48_example :
  make_rational (-6) 4 = Ok (mkQ (-3) 2) /\ q_add (mkQ (-3) 2) (mkQ 1 6) = Ok (mkQ (-4) 3) /\
  q_floor (mkQ (-3) 2) = Ok (-2) /\ q_ceil (mkQ (-3) 2) = Ok (-1) /\ q_round (mkQ (-3) 2) = Ok (-1) /\
  q_frac (mkQ (-4) 3) = Ok (mkQ 2 3) /\ q_div (mkQ 3 4) (mkQ 9 2) = Ok (mkQ 1 6).
Proof. repeat split. Qed.
Print Assumptions C48_constructor.
Print Assumptions C48_add.
Print Assumptions C48_sub.
Print Assumptions C48_mul.
Print Assumptions C48_div.
Print Assumptions C48_compare.
Print Assumptions C48_min_max.
Print Assumptions C48_floor.
Print Assumptions C48_ceil.
Print Assumptions C48_round.
Print Assumptions C48_frac.
Print Assumptions C48_negative_denominator_refuted.
