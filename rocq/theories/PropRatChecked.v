(** C67: rational numbers in 64-bit arithmetic. *)
From Coq Require Import ZArith QArith Qround List.
From Verif Require Import Base Interval Rational SpecRational SpecChecked SpecEin SpecResample RatChecked SpecRatChecked RatCheckedFacts.
Import ListNotations.
Open Scope Z_scope.

(** Division with remainder is defined except for a zero divisor and INT64_MIN / -1; *)
Theorem C67_div : forall a b : Z, is_index a -> is_index b ->
  (b <> 0 -> ~ (a = -9223372036854775808 /\ b = -1) ->
     exists q, k_euclidean_div a b = Ok q /\ 0 <= a - b * q < Z.abs b) /\
  (b = 0 \/ (a = -9223372036854775808 /\ b = -1) -> k_euclidean_div a b = UB).
Proof. exact c67_div. Qed.
(** the remainder also for the divisor INT64_MIN. *)
Theorem C67_mod : forall a b : Z, is_index a -> is_index b ->
  (b <> 0 -> b <> -9223372036854775808 -> ~ (a = -9223372036854775808 /\ b = -1) ->
     exists m q, k_euclidean_mod a b = Ok m /\ a = b * q + m /\ 0 <= m < Z.abs b) /\
  (b = 0 \/ b = -9223372036854775808 \/ (a = -9223372036854775808 /\ b = -1) -> k_euclidean_mod a b = UB).
Proof. exact c67_mod. Qed.
(** The constructor reduces to lowest terms, for whichever signs; it is undefined for exactly three kinds
    of arguments. *)
Theorem C67_constructor : forall n d : Z, is_index n -> is_index d ->
  (reducible n d -> exists r, k_make_rational n d = Ok r /\ is_rational r /\ lowest n d r) /\
  (~ reducible n d -> k_make_rational n d = UB).
Proof. exact c67_make. Qed.
Example C67_example :
  map (fun p => k_euclidean_div (fst p) (snd p)) [(-7, 2); (7, -2); (-7, -2); (-9223372036854775808, -9223372036854775808); (-9223372036854775808, -1)]
    = [Ok (-4); Ok (-3); Ok 4; Ok 1; UB] /\
  map (fun p => k_euclidean_mod (fst p) (snd p)) [(-7, 2); (-7, -2); (5, -9223372036854775808); (-9223372036854775808, -1)] = [Ok 1; Ok 1; UB; UB] /\
  map (fun p => k_make_rational (fst p) (snd p)) [(6, -4); (4, -2); (-3, 0); (0, 0); (-9223372036854775808, 6)]
    = [Ok (mkQ 3 (-2)); Ok (mkQ (-2) 1); Ok (mkQ 1 0); UB; Ok (mkQ (-4611686018427387904) 3)].
Proof. exact c67_example. Qed.

(** Arithmetic and comparisons are exact if the products and sums they compute fit, and undefined otherwise. *)
Theorem C67_add : forall l r : rational, positive l -> positive r -> exactly_if (add_fits l r) (k_q_add l r) (val l + val r).
Proof. exact c67_add. Qed.
Theorem C67_sub : forall l r : rational, positive l -> positive r -> exactly_if (sub_fits l r) (k_q_sub l r) (val l - val r).
Proof. exact c67_sub. Qed.
Theorem C67_mul : forall l r : rational, positive l -> positive r -> exactly_if (mul_fits l r) (k_q_mul l r) (val l * val r).
Proof. exact c67_mul. Qed.
Theorem C67_quotient : forall l r : rational, positive l -> positive r -> 0 < numerator r ->
  exactly_if (div_fits l r) (k_q_div l r) (val l / val r).
Proof. exact c67_quotient. Qed.
Theorem C67_compare : forall l r : rational, positive l -> positive r ->
  value_if (cmp_fits l r) (k_q_lt l r) (fun b => b = true <-> (val l < val r)%Q) /\
  value_if (cmp_fits l r) (k_q_le l r) (fun b => b = true <-> (val l <= val r)%Q) /\
  value_if (cmp_fits l r) (k_q_gt l r) (fun b => b = true <-> (val r < val l)%Q) /\
  value_if (cmp_fits l r) (k_q_ge l r) (fun b => b = true <-> (val r <= val l)%Q) /\
  value_if (cmp_fits l r) (k_q_eq l r) (fun b => b = true <-> (val l == val r)%Q) /\
  value_if (cmp_fits l r) (k_q_ne l r) (fun b => b = true <-> ~ (val l == val r)%Q).
Proof. exact c67_compare. Qed.
Theorem C67_min_max : forall l r : rational, positive l -> positive r ->
  value_if (cmp_fits l r) (k_q_min l r) (fun x => (x = l /\ val l <= val r \/ x = r /\ val r <= val l)%Q) /\
  value_if (cmp_fits l r) (k_q_max l r) (fun x => (x = l /\ val r <= val l \/ x = r /\ val l <= val r)%Q).
Proof. exact c67_min_max. Qed.
(** [floor] and [frac] are always defined, [ceil] and [round] if the sums they compute fit. *)
Theorem C67_floor : forall r : rational, positive r -> k_q_floor r = Ok (Qfloor (val r)).
Proof. exact c67_floor. Qed.
Theorem C67_frac : forall r : rational, positive r ->
  exists x, k_q_frac r = Ok x /\ positive x /\ reduced x /\ (val x == val r - inject_Z (Qfloor (val r)))%Q /\ (0 <= val x < 1)%Q.
Proof. exact c67_frac. Qed.
Theorem C67_ceil : forall r : rational, positive r ->
  value_if (is_index (numerator r + denominator r)) (k_q_ceil r) (eq (Qceiling (val r))).
Proof. exact c67_ceil. Qed.
Theorem C67_round : forall r : rational, positive r -> value_if (round_fits r) (k_q_round r) (eq (Qfloor (val r + (1 # 2)))).
Proof. exact c67_round. Qed.
(** Everything fits for numerators and denominators of 32 bits. *)
Theorem C67_small : forall l r : rational, small l -> small r ->
  positive l /\ cmp_fits l r /\ add_fits l r /\ sub_fits l r /\ mul_fits l r /\ div_fits l r /\
  is_index (numerator l + denominator l) /\ round_fits l.
Proof. exact c67_small. Qed.
(** Whatever the denominators: where the 64-bit operators are defined they agree with those of C48. *)
Theorem C67_refines : forall l r x : rational,
  (k_q_add l r = Ok x -> q_add l r = Ok x) /\ (k_q_sub l r = Ok x -> q_sub l r = Ok x) /\
  (k_q_mul l r = Ok x -> q_mul l r = Ok x) /\ (k_q_div l r = Ok x -> q_div l r = Ok x).
Proof. exact c67_refines. Qed.
(** [ceil] can overflow although the result fits; so can comparing a negative with a positive number. *)
Theorem C67_ceil_refuted : exists r : rational, positive r /\ reduced r /\ is_index (Qceiling (val r)) /\ k_q_ceil r = UB.
Proof. exact c67_ceil_refuted. Qed.
Theorem C67_compare_refuted : exists l r : rational, positive l /\ positive r /\ reduced l /\ reduced r /\
  (val l < 0 /\ 0 < val r)%Q /\ k_q_lt l r = UB.
Proof. exact c67_compare_refuted. Qed.
Example C67_arith_example :
  let l := mkQ (-3) 2 in let r := mkQ 1 6 in
  positive l /\ positive r /\ add_fits l r /\ small l /\ small r /\
  k_q_add l r = Ok (mkQ (-4) 3) /\ k_q_sub l r = Ok (mkQ (-5) 3) /\ k_q_mul l r = Ok (mkQ (-1) 4) /\ k_q_div l r = Ok (mkQ (-9) 1) /\
  k_q_lt l r = Ok true /\ k_q_floor l = Ok (-2) /\ k_q_ceil l = Ok (-1) /\ k_q_round l = Ok (-1) /\ k_q_frac (mkQ (-4) 3) = Ok (mkQ 2 3) /\
  ~ mul_fits (mkQ 4294967296 1) (mkQ 4294967296 1) /\ k_q_mul (mkQ 4294967296 1) (mkQ 4294967296 1) = UB.
Proof. exact c67_arith_example. Qed.

(** The position of resample.h for [x] is computed exactly if the numbers involved are not too large; *)
Theorem C67_position : forall (rate : rational) (x : Z), positive rate -> 0 < numerator rate ->
  2 * (Z.abs (2 * x + 1) * denominator rate) + 2 * numerator rate <= 9223372036854775807 -> 4 * numerator rate <= 9223372036854775807 ->
  exists q, k_sample_position rate x = Ok q /\ numerator q = Qnum (position (val rate) x) /\ denominator q = QDen (position (val rate) x).
Proof. exact c67_position. Qed.
(** so are all positions of scaling an image from n to m pixels, up to 2^30 of them. *)
Theorem C67_scale : forall n m : Z, 1 <= n <= 1073741824 -> 1 <= m <= 1073741824 ->
  exists l, k_scale n m = Ok l /\
    map fraction l = map (fun x => fraction_q (position (inject_Z m / inject_Z n) x)) (range 0 m).
Proof. exact c67_scale. Qed.
(** It does not hold for all widths of type int. *)
Theorem C67_scale_refuted : exists n m : Z, 1 <= n <= 2147483647 /\ 1 <= m <= 2147483647 /\ k_scale n m = UB.
Proof. exact c67_scale_refuted. Qed.
Example C67_scale_example :
  k_scale 2 3 = Ok [mkQ (-1) 6; mkQ 1 2; mkQ 7 6] /\ k_sample_position (mkQ 3 2) (2 ^ 60) = Ok (mkQ 1537228672809129301 2) /\
  k_sample_position (mkQ 2 3) (2 ^ 61) = UB.
Proof. exact c67_scale_example. Qed.
Print Assumptions C67_div.
Print Assumptions C67_mod.
Print Assumptions C67_constructor.
Print Assumptions C67_add.
Print Assumptions C67_sub.
Print Assumptions C67_mul.
Print Assumptions C67_quotient.
Print Assumptions C67_compare.
Print Assumptions C67_min_max.
Print Assumptions C67_floor.
Print Assumptions C67_frac.
Print Assumptions C67_ceil.
Print Assumptions C67_round.
Print Assumptions C67_small.
Print Assumptions C67_refines.
Print Assumptions C67_ceil_refuted.
Print Assumptions C67_compare_refuted.
Print Assumptions C67_position.
Print Assumptions C67_scale.
Print Assumptions C67_scale_refuted.
