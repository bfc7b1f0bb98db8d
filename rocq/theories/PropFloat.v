(** C92: resampling in IEEE single precision. *)
From Coq Require Import ZArith QArith Qabs List Bool.
From Verif Require Import RoundingProps RoundingCases Interval Shape Memory Ref Spec SpecMem SpecEin Rational SpecRational Resample SpecResample
  ResampleExact ResampleCases SpecRounding RoundingFacts ResRounding SpecResRounding ResRoundingFacts ResRoundingProps ResRoundingExact ResRoundingCases
  Float SpecFloat FloatFacts FloatProps FloatNear FloatUse FloatSteep.
Import ListNotations.
Local Open Scope Q_scope.

(** The result of rounding is a number of the format, none is nearer, *)
Theorem C92_nearest : forall p : Z, (1 <= p)%Z -> forall x : Q, nearest_to p x (nearest p x).
Proof. exact nearest_nearest. Qed.
(** and if another is as near, it is the one with an even last digit. *)
Theorem C92_ties : forall p : Z, (1 <= p)%Z -> forall x r : Q, nearest_to p x r -> ~ r == nearest p x -> even_number p (nearest p x).
Proof. exact nearest_even. Qed.
(** Rounding depends on the value only and is monotone; numbers of the format stay the same. *)
Theorem C92_value : forall (p : Z) (x y : Q), x == y -> nearest p x = nearest p y.
Proof. exact nearest_comp. Qed.
Theorem C92_monotone : forall p : Z, (1 <= p)%Z -> forall x y : Q, x <= y -> nearest p x <= nearest p y.
Proof. exact nearest_mono. Qed.
Theorem C92_exact : forall p : Z, (1 <= p)%Z -> forall x : Q, float_number p x -> nearest p x == x.
Proof. exact number_exact. Qed.
Example C92_nearest_example :
  map (fun x => Qred (nearest 3 x)) [9 # 2; 11 # 2; - (9 # 2); 1 # 3; 15; 0] = [4; 6; - (4); 5 # 16; 16; 0] /\
  nearest_to 3 (9 # 2) 5 /\ ~ 5 == nearest 3 (9 # 2) /\ float_number 3 (5 # 16) /\ 9 # 2 <= 11 # 2.
Proof.
  assert (F5 : float_number 3 5) by (exists 5%Z, 0%Z; split; [discriminate|reflexivity]).
  split; [reflexivity|]. split; [|split; [discriminate|split; [exists 5%Z, (-4)%Z; split; [discriminate|reflexivity]|discriminate]]].
  split; [exact F5|]. intros y Hy. exact (proj2 (C92_nearest 3 ltac:(discriminate) (9 # 2)) y Hy).
Qed.

(** It is a rounding as C90 and C91 assume. *)
Theorem C92_rounds : forall p : Z, rounds (2 ^ (- p)) 0 (nearest p).
Proof. exact nearest_rounds. Qed.
Theorem C92_integers : forall p : Z, (1 <= p)%Z -> keeps_integers (2 ^ p) (nearest p).
Proof. exact nearest_integers. Qed.
Theorem C92_half : forall p : Z, (1 <= p)%Z -> keeps_half (nearest p).
Proof. exact nearest_half. Qed.
Example C92_rounds_example :
  Qred (nearest 24 (1 # 3) - (1 # 3)) = 1 # 100663296 /\ Qred (nearest 24 16777216) = 16777216 /\ Qred (nearest 24 16777217) = 16777216 /\ Qred (nearest 24 (1 # 2)) = 1 # 2.
Proof. repeat split. Qed.

(** In floats, four kernels of resample.h are still interpolating, *)
Theorem C92_interpolating :
  interpolating (box_kernel float32) /\ interpolating (linear float32) /\ interpolating (interpolating_quadratic float32) /\ interpolating (interpolating_cubic float32).
Proof. exact kernels_interpolating. Qed.
(** so that resampling at rate 1 with them does not change an image of floats. *)
Theorem C92_identity : forall (nd : bool) (h : heap Q) (I O : aref) (f : list Z -> Q) (rx ry : rational) (kernel : Q -> Q) (ix iy ic ox oy oc : dim),
  resampling float32 h I O f rx ry kernel ix iy ic ox oy oc ->
  kernel = box_kernel float32 \/ kernel = linear float32 \/ kernel = interpolating_quadratic float32 \/ kernel = interpolating_cubic float32 ->
  numerator rx = 1%Z -> denominator rx = 1%Z -> numerator ry = 1%Z -> denominator ry = 1%Z ->
  (forall x, in_dim ox x -> in_dim ix x) -> (forall y, in_dim oy y -> in_dim iy y) ->
  (Z.abs (dmin ix) + 2 * dext ix <= 16777216)%Z -> (Z.abs (dmin iy) + 2 * dext iy <= 16777216)%Z ->
  (forall i, in_bounds (r_shape I) i -> float_number 24 (f i)) ->
  image_with (resample float32 nd I O rx ry kernel h) O (fun x y c q => q == f [x; y; c]).
Proof. exact float_same. Qed.
Example C92_identity_example :
  resampling float32 heapS sI rO sF (mkQ 1 1) (mkQ 1 1) (linear float32) (mkD 0 3 1) (mkD 0 65 3) (mkD 0 1 195) (mkD 0 3 1) (mkD 0 65 3) (mkD 0 1 195) /\
  (forall i, float_number 24 (sF i)) /\ map (fun i => Qred (sF i)) [[0; 0; 0]; [1; 1; 0]; [2; 30; 0]]%Z = [0; 1; 1 # 4].
Proof.
  split; [|split; [|reflexivity]].
  - apply resampling_same.
    + pose proof (nearest_rounds 24) as (_ & _ & R). split; [discriminate|]. split; [discriminate|]. intros x. eapply Qle_trans; [apply R|]. rewrite !Qplus_0_r. apply Qmult_le_compat_r; [discriminate|apply Qabs_nonneg].
    + intros x z E B. apply (nearest_integers 24 ltac:(discriminate) x z E). apply Z.le_trans with (1 := B). discriminate.
  - intros i. exists (offset (r_shape sI) i mod 7)%Z, (-2)%Z. split; [|reflexivity].
    assert (B : (0 <= offset (r_shape sI) i mod 7 < 7)%Z) by (apply Z.mod_pos_bound; reflexivity). rewrite Z.abs_eq by apply B. apply Z.le_trans with 7%Z; [apply Z.lt_le_incl, B|discriminate].
Qed.

(** At every float, the kernels are near the exact ones. *)
Theorem C92_kernels :
  near_kernels (box_kernel float32) (box_kernel exact) 0 /\ near_kernels (linear float32) (linear exact) (1 # 16777216) /\
  near_kernels (interpolating_quadratic float32) (interpolating_quadratic exact) (1 # 524288) /\
  near_kernels (quadratic_bspline float32) (quadratic_bspline exact) (1 # 1048576) /\
  near_kernels (interpolating_cubic float32) (interpolating_cubic exact) (1 # 131072) /\
  near_kernels (cubic_bspline float32) (cubic_bspline exact) (1 # 262144).
Proof. exact kernels_near. Qed.
Example C92_kernels_example : let s := 11184811 # 8388608 in float_number 24 s /\
  map (fun k => negb (Qeq_bool (k float32 s) (k exact s))) [@interpolating_quadratic Q; @quadratic_bspline Q; @interpolating_cubic Q; @cubic_bspline Q] = [true; true; true; true].
Proof. split; [exists 11184811%Z, (-23)%Z; split; [discriminate|reflexivity]|vm_compute; reflexivity]. Qed.
(** But the B-splines, which are nowhere negative exactly (C57_positive), are negative at some floats, *)
Theorem C92_bspline_positive_refuted :
  (exists s, float_number 24 s /\ cubic_bspline float32 s < 0) /\ (exists s, float_number 24 s /\ quadratic_bspline float32 s < 0).
Proof. exact bsplines_negative. Qed.
(** and cubic_bspline makes a negative pixel of pixels that are not negative, at rate 1. *)
Theorem C92_between_refuted : exists g : Z -> Q, (forall i, 0 <= g i /\ float_number 24 (g i)) /\
  weighted float32 (weight float32 (cubic_bspline float32) (mkQ 1 1) 0) 0 3 g < 0.
Proof. exact negative_pixel. Qed.
Example C92_between_example :
  map (fun i => Qred (weight float32 (cubic_bspline float32) (mkQ 1 1) 0 i)) [0; 1; 2; 3]%Z = [5592405 # 8388608; 1398101 # 8388608; -1 # 8388608; 0].
Proof. vm_compute. reflexivity. Qed.

(** At every float, the continuous kernels are large near 0, hardly negative, and 0 beyond 2. *)
Theorem C92_centred : centred (linear float32) /\ centred (interpolating_quadratic float32) /\ centred (quadratic_bspline float32) /\
  centred (interpolating_cubic float32) /\ centred (cubic_bspline float32).
Proof. exact kernels_centred. Qed.
Example C92_centred_example :
  map (fun s => Qred (interpolating_cubic float32 s)) [1 # 2; 11184811 # 8388608; 3 # 2; 5 # 2] = [9 # 16; -155345 # 2097152; -1 # 16; 0] /\ float_number 24 (3 # 2).
Proof. split; [vm_compute; reflexivity|exists 3%Z, (-1)%Z; split; [discriminate|reflexivity]]. Qed.
(** So, for all of these, an image of up to 16384 pixels has weights to enlarge it with, at all positions in it: the weights
    do not cancel, at most 5 in a row are not 0, and the code can divide by their sum. *)
Theorem C92_weights : forall kernel rate x lo n, centred kernel ->
  (1 <= denominator rate)%Z -> (denominator rate <= numerator rate)%Z -> (1 <= n)%Z -> SpecResample.inside rate lo n x -> (Z.abs lo + n <= 16384)%Z ->
  let w := weight float32 kernel rate x in conditioned 6 w lo n /\ taps_within 5 w lo n /\ usable_weights float32 w lo n.
Proof. exact weights_use. Qed.
Example C92_weights_example : SpecResample.inside (mkQ 3 2) 0 9 5 /\
  map (fun i => Qred (weight float32 (interpolating_cubic float32) (mkQ 3 2) 5 i)) [0; 1; 2; 3; 4; 5; 6; 7; 8]%Z =
  [0; 0; -121363 # 2097152; 15728639 # 16777216; 2213663 # 16777216; -1517 # 131072; 0; 0; 0].
Proof. split; [split; discriminate|vm_compute; reflexivity]. Qed.
(** Enlarging an image of numbers up to 255 in floats is within 1/16 of the averages with these weights. *)
Theorem C92_images : forall nd (h : heap Q) (I O : aref) (f : list Z -> Q) (rx ry : rational) (kernel : Q -> Q) (ix iy ic ox oy oc : dim),
  centred kernel -> resampling float32 h I O f rx ry kernel ix iy ic ox oy oc ->
  (1 <= denominator rx <= numerator rx)%Z -> (1 <= denominator ry <= numerator ry)%Z ->
  (1 <= dext ix)%Z -> (1 <= dext iy)%Z -> (Z.abs (dmin ix) + dext ix <= 16384)%Z -> (Z.abs (dmin iy) + dext iy <= 16384)%Z ->
  (forall x, in_dim ox x -> SpecResample.inside rx (dmin ix) (dext ix) x) -> (forall y, in_dim oy y -> SpecResample.inside ry (dmin iy) (dext iy) y) ->
  (forall i, in_bounds (r_shape I) i -> Qabs (f i) <= 255) ->
  image_with (resample float32 nd I O rx ry kernel h) O (fun x y c q =>
    Qabs (q - average2 (weight float32 kernel rx x) (weight float32 kernel ry y) ix iy (fun i j => f [i; j; c])) <= 1 # 16).
Proof. exact images_use. Qed.
Example C92_images_example :
  resampling float32 heapR rI rO rF rateX rateY (interpolating_cubic float32) (mkD 0 2 1) (mkD 0 4 2) (mkD 0 1 8) (mkD 0 3 1) (mkD 0 65 3) (mkD 0 1 195) /\
  (forall x, in_dim (mkD 0 3 1) x -> SpecResample.inside rateX 0 2 x) /\ (forall y, in_dim (mkD 0 65 3) y -> SpecResample.inside rateY 0 4 y) /\
  map (fun i => Qred (rF i)) [[0; 0; 0]; [1; 0; 0]; [0; 1; 0]; [1; 3; 0]]%Z = [0; 1; 4; 0] /\
  Qred (pixel float32 rF rateX rateY (interpolating_cubic float32) (mkD 0 2 1) (mkD 0 4 2) 1 20 0) = 2600173 # 1048576 /\
  Qred (average2 (weight float32 (interpolating_cubic float32) rateX 1) (weight float32 (interpolating_cubic float32) rateY 20) (mkD 0 2 1) (mkD 0 4 2) (fun i j => rF [i; j; 0%Z])) = 10625887 # 4285119.
Proof. split; [apply resampling_R32, kernels_centred|]. split; [apply inside_R|]. split; [apply inside_R|]. repeat split; vm_compute; reflexivity. Qed.

(** Exact kernels have no jumps, not even where their pieces meet: they change by at most a multiple of what the argument does, *)
Theorem C92_steep : steep 1 (linear exact) /\ steep 2 (interpolating_quadratic exact) /\ steep 1 (quadratic_bspline exact) /\
  steep (25 # 18) (interpolating_cubic exact) /\ steep (2 # 3) (cubic_bspline exact).
Proof. exact kernels_steep. Qed.
Example C92_steep_example :
  map (fun k => Qred (k exact (499 # 1000) - k exact (501 # 1000))) [@interpolating_quadratic Q; @quadratic_bspline Q] = [3497 # 1000000; 3997 # 2000000] /\
  map (fun k => Qred (k exact (999 # 1000) - k exact (1001 # 1000))) [@interpolating_cubic Q; @cubic_bspline Q] = [1000999 # 1000000000; 2999999 # 3000000000].
Proof. split; vm_compute; reflexivity. Qed.
(** so that weights in floats are near the exact ones, at every rate and position; this does not need the kernel to be continuous in floats. *)
Theorem C92_weights_near : forall kernel kernel0 d L rate x lo n i, near_kernels kernel kernel0 d -> 0 <= L -> steep L kernel0 ->
  (1 <= numerator rate)%Z -> (1 <= denominator rate)%Z -> (1 <= n)%Z -> SpecResample.inside rate lo n x -> (lo <= i < lo + n)%Z ->
  Qabs (weight float32 kernel rate x i - weight exact kernel0 rate x i) <=
    d + L * (7 # 16777216) * (inject_Z (Z.abs lo + n) + Qabs (inject_Z i - position (val rate) x)).
Proof. exact weights_near. Qed.
Example C92_weights_near_example : SpecResample.inside (mkQ 3 2) 0 9 5 /\
  map (fun i => Qred (weight exact (interpolating_cubic exact) (mkQ 3 2) 5 i)) [2; 3; 4; 5]%Z = [-25 # 432; 15 # 16; 19 # 144; -5 # 432].
Proof. split; [split; discriminate|vm_compute; reflexivity]. Qed.

Print Assumptions C92_nearest.
Print Assumptions C92_ties.
Print Assumptions C92_value.
Print Assumptions C92_monotone.
Print Assumptions C92_exact.
Print Assumptions C92_rounds.
Print Assumptions C92_integers.
Print Assumptions C92_half.
Print Assumptions C92_interpolating.
Print Assumptions C92_identity.
Print Assumptions C92_kernels.
Print Assumptions C92_bspline_positive_refuted.
Print Assumptions C92_between_refuted.
Print Assumptions C92_centred.
Print Assumptions C92_weights.
Print Assumptions C92_images.
Print Assumptions C92_steep.
Print Assumptions C92_weights_near.
