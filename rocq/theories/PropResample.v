(** C55-C57: resampling. *)
From Coq Require Import ZArith QArith List Bool.
From Verif Require Import Base Interval Shape Memory Ref Spec SpecMem SpecEin Container Rational SpecRational Resample SpecResample
  ResampleFacts ResampleWhole ResampleExact ResampleCases.
Import ListNotations.
Open Scope Z_scope.

(** ** C55: kernels *)

(** The position for [x] is computed as (x + 1/2) / rate - 1/2 exactly, in lowest terms. *)
Theorem C55_position : forall (rate : rational) (lo n x : Z), rate_ok rate lo n -> lo <= x < lo + n ->
  exists q, sample_position rate x = Ok q /\ numerator q = Qnum (position (val rate) x) /\ denominator q = QDen (position (val rate) x).
Proof. exact sample_position_spec. Qed.
(** There is a kernel for each position of [out], from the first non-zero weight to the last, none of
    them outside of [in], each divided by the sum; nothing else that was there changes. *)
Theorem C55_build_kernels : forall (F : Type) (fl : floats F) (nd : bool) (name : nat -> nat) (tmp : nat) (kernel : F -> F) (rate : rational)
    (in_ out : interval) (h : heap F),
  (forall k, name k <> tmp) -> 0 <= iext in_ -> 0 <= iext out -> rate_ok rate (imin out) (iext out) -> usable_heap h ->
  (forall x, in_interval out x -> usable_weights fl (weight fl kernel rate x) (imin in_) (iext in_)) ->
  exists h' ks, build_kernels fl nd name tmp kernel rate in_ out h = Ok (h', ks) /\ length ks = Z.to_nat (iext out) /\
    (forall x, in_interval out x -> exists a, nth_error ks (Z.to_nat (x - imin out)) = Some a /\
      kernel_is fl h' (aref_of a) (weight fl kernel rate x) (imin in_) (iext in_) /\
      imin in_ <= first_tap fl (weight fl kernel rate x) (imin in_) (iext in_) <= last_tap fl (weight fl kernel rate x) (imin in_) (iext in_) /\
      last_tap fl (weight fl kernel rate x) (imin in_) (iext in_) <= imax in_) /\
    (forall k, (k < h_next h)%nat -> h_blk h' k = h_blk h k) /\ usable_heap h'.
Proof. exact @build_means. Qed.
(** If there is no positive sum of weights for some position, an assertion fails. *)
Theorem C55_unusable_rejected : forall (F : Type) (fl : floats F) (nd : bool) (name : nat -> nat) (tmp : nat) (kernel : F -> F) (rate : rational)
    (in_ out : interval),
  (forall k, name k <> tmp) -> 0 <= iext in_ -> rate_ok rate (imin out) (iext out) -> 0 <= iext out ->
  forall h : heap F, nd = false -> f_lt fl (f0 fl) (f0 fl) = false -> usable_heap h ->
  (exists x, in_interval out x /\ ~ usable_weights fl (weight fl kernel rate x) (imin in_) (iext in_)) ->
  build_kernels fl nd name tmp kernel rate in_ out h = AssertFail.
Proof. exact @build_kernels_fails. Qed.
(** Without assertions, the loop over the kernel then does not end. *)
Theorem C55_unusable_unchecked_refuted : exists (kernel : Q -> Q) (rate : rational) (in_ out : interval) (h : heap Q),
  rate_ok rate (imin out) (iext out) /\ 0 <= iext in_ /\ 0 <= iext out /\ usable_heap h /\
  build_kernels exact true name_x 1 kernel rate in_ out h = UB.
Proof. exact unusable_unchecked. Qed.
Example C55_example :
  usable_heap heapR /\ rate_ok rateX 0 3 /\ (forall k, name_x k <> 1%nat) /\
  (forall x, in_interval (mkI 0 3) x -> usable_weights exact (weight exact (linear exact) rateX x) 0 2) /\
  map (position (val rateX)) [0; 1; 2] = [-1 # 6; 1 # 2; 7 # 6]%Q /\
  match build_kernels exact false name_x 1 (linear exact) rateX (mkI 0 2) (mkI 0 3) heapR with
  | Ok (h, ks) => map a_shape ks = [[mkD 0 1 1]; [mkD 0 2 1]; [mkD 1 1 1]] /\
      map (fun a => match peek h (elem (a_base a) (a_shape a) [1]) with Some (Live q) => Qred q | _ => 7%Q end) (tl ks) = [1 # 2; 1]%Q
  | _ => False
  end.
Proof. exact kernels_example. Qed.

(** ** C56: the whole image *)

(** Each pixel is the weighted sum in x of the weighted sums in y; nothing else changes, and all
    temporary memory is freed. *)
Theorem C56_resample : forall (F : Type) (fl : floats F) (nd : bool) (h : heap F) (I O : aref) (f : list Z -> F) (rx ry : rational)
    (kernel : F -> F) (ix iy ic ox oy oc : dim),
  resampling fl h I O f rx ry kernel ix iy ic ox oy oc ->
  makes_image h (resample fl nd I O rx ry kernel h) O (pixel fl f rx ry kernel ix iy).
Proof. exact @resample_ok. Qed.
(** Fewer than 64 rows, or a position without weights, are rejected. *)
Theorem C56_rejected : forall (F : Type) (fl : floats F) (nd : bool) (h : heap F) (I O : aref) (rx ry : rational) (kernel : F -> F)
    (ix iy ic ox oy oc : dim),
  r_shape I = [ix; iy; ic] -> r_shape O = [ox; oy; oc] -> extents_ge 0 [ix; iy; ox; oy] ->
  rate_ok rx (dmin ox) (dext ox) -> rate_ok ry (dmin oy) (dext oy) -> usable_heap h -> f_lt fl (f0 fl) (f0 fl) = false -> nd = false ->
  dext oy < 64 \/ (exists x, in_dim ox x /\ ~ usable_weights fl (weight fl kernel rx x) (dmin ix) (dext ix)) \/
    (exists y, in_dim oy y /\ ~ usable_weights fl (weight fl kernel ry y) (dmin iy) (dext iy)) ->
  resample fl nd I O rx ry kernel h = AssertFail.
Proof. exact @resample_rejects. Qed.
(** Without assertions, the loop over strips does not end if there are fewer than 64 rows. *)
Theorem C56_few_rows_refuted : exists (h : heap Q) (I O : aref),
  r_shape I = [mkD 0 2 1; mkD 0 4 2; mkD 0 1 8] /\ r_shape O = [mkD 0 3 1; mkD 0 63 3; mkD 0 1 189] /\
  (forall i, in_bounds (r_shape I) i -> alive h (elem (r_base I) (r_shape I) i)) /\
  (forall x, 0 <= x < 3 -> usable_weights exact (weight exact (linear exact) rateX x) 0 2) /\
  (forall y, 0 <= y < 63 -> usable_weights exact (weight exact (linear exact) rateY y) 0 4) /\
  resample exact true I O rateX rateY (linear exact) h = UB.
Proof. exact few_rows_unchecked. Qed.
Example C56_example :
  resampling exact heapR rI rO rF rateX rateY (linear exact) (mkD 0 2 1) (mkD 0 4 2) (mkD 0 1 8) (mkD 0 3 1) (mkD 0 65 3) (mkD 0 1 195) /\
  map (fun p => Qred (pixel exact rF rateX rateY (linear exact) (mkD 0 2 1) (mkD 0 4 2) (fst p) (snd p) 0)) [(0, 0); (1, 0); (1, 33); (1, 63)]
    = [0; 1 # 2; 3; 1 # 2]%Q /\
  numbers (resample exact false rI rO rateX rateY (linear exact) heapR) [0; 1; 100; 190] = Ok [Some 0%Q; Some (1 # 2); Some 3%Q; Some (1 # 2)] /\
  numbers (resample exact false rI (mkR (2%nat, 0) [mkD 0 3 1; mkD 0 63 3; mkD 0 1 189]) rateX rateY (linear exact) heapR) [0] = AssertFail.
Proof. exact resample_example. Qed.

(** ** C57: in exact arithmetic *)

(** The weights of a kernel sum to 1. *)
Theorem C57_weights_one : forall (w : Z -> Q) (lo n : Z), usable_weights exact w lo n ->
  (weighted exact w lo n (fun _ => 1) == 1)%Q.
Proof. exact weighted_one. Qed.
(** A constant image stays constant, *)
Theorem C57_constant : forall (nd : bool) (h : heap Q) (I O : aref) (f : list Z -> Q) (rx ry : rational) (kernel : Q -> Q)
    (ix iy ic ox oy oc : dim),
  resampling exact h I O f rx ry kernel ix iy ic ox oy oc ->
  forall v, (forall i, in_bounds (r_shape I) i -> (f i == v)%Q) ->
  image_with (resample exact nd I O rx ry kernel h) O (fun _ _ _ q => (q == v)%Q).
Proof. exact constant_image. Qed.
(** if the kernel is nowhere negative there are no values beyond those of the input, *)
Theorem C57_bounds : forall (nd : bool) (h : heap Q) (I O : aref) (f : list Z -> Q) (rx ry : rational) (kernel : Q -> Q)
    (ix iy ic ox oy oc : dim),
  resampling exact h I O f rx ry kernel ix iy ic ox oy oc ->
  forall a b, (forall s, (0 <= kernel s)%Q) -> (forall i, in_bounds (r_shape I) i -> (a <= f i <= b)%Q) ->
  image_with (resample exact nd I O rx ry kernel h) O (fun _ _ _ q => (a <= q <= b)%Q).
Proof. exact bounded_image. Qed.
(** and at rate 1 an interpolating kernel copies. *)
Theorem C57_identity : forall (nd : bool) (h : heap Q) (I O : aref) (f : list Z -> Q) (rx ry : rational) (kernel : Q -> Q)
    (ix iy ic ox oy oc : dim),
  resampling exact h I O f rx ry kernel ix iy ic ox oy oc ->
  interpolating kernel -> numerator rx = 1 -> denominator rx = 1 -> numerator ry = 1 -> denominator ry = 1 ->
  (forall x, in_dim ox x -> in_dim ix x) -> (forall y, in_dim oy y -> in_dim iy y) ->
  image_with (resample exact nd I O rx ry kernel h) O (fun x y c q => (q == f [x; y; c])%Q).
Proof. exact same_image. Qed.
(** Which kernels are which *)
Theorem C57_positive : positive_kernel (box_kernel exact) /\ positive_kernel (linear exact) /\
  positive_kernel (quadratic_bspline exact) /\ positive_kernel (cubic_bspline exact).
Proof. exact (conj box_positive (conj linear_positive (conj quadratic_positive cubic_positive))). Qed.
Theorem C57_interpolating : interpolating (box_kernel exact) /\ interpolating (linear exact) /\
  interpolating (interpolating_quadratic exact) /\ interpolating (interpolating_cubic exact).
Proof. exact (conj box_interpolating (conj linear_interpolating (conj quadratic_interpolating cubic_interpolating))). Qed.
(** All members of the families have taps that sum to 1 before they are normalised, and vanish beyond their radius. *)
Theorem C57_unit : unit_kernel (linear exact) 1 2 /\
  (forall r, unit_kernel (fun s => quadratic_family exact s r) (3 # 2) 3) /\
  (forall B C, unit_kernel (fun s => cubic_family exact s B C) 2 4).
Proof. exact (conj linear_unit (conj quadratic_unit cubic_unit)). Qed.
(** A positive kernel has usable weights at every position between the outer edges of the input;
    in particular everywhere if m pixels are made of n at a rate of at least m / n.  So has an interpolating
    kernel at rate 1. *)
Theorem C57_usable : forall (kernel : Q -> Q) (rate : rational) (lo n x : Z),
  positive_kernel kernel -> 1 <= numerator rate -> 1 <= denominator rate -> 1 <= n -> inside rate lo n x ->
  usable_weights exact (weight exact kernel rate x) lo n.
Proof. exact usable_inside. Qed.
Theorem C57_inside : forall (rate : rational) (n m x : Z),
  1 <= numerator rate -> 1 <= denominator rate -> m * denominator rate <= n * numerator rate -> 0 <= x < m -> inside rate 0 n x.
Proof. exact inside_scaled. Qed.
Theorem C57_usable_unit : forall (kernel : Q -> Q) (rate : rational) (x lo n : Z),
  interpolating kernel -> numerator rate = 1 -> denominator rate = 1 -> lo <= x < lo + n ->
  usable_weights exact (weight exact kernel rate x) lo n.
Proof. exact usable_unit. Qed.
Example C57_example :
  positive_kernel (cubic_bspline exact) /\
  resampling exact heapR rI rO rF rateX rateY (cubic_bspline exact) (mkD 0 2 1) (mkD 0 4 2) (mkD 0 1 8) (mkD 0 3 1) (mkD 0 65 3) (mkD 0 1 195) /\
  (forall i, in_bounds (r_shape rI) i -> (0 <= rF i <= 6)%Q) /\
  map (fun s => Qred (cubic_bspline exact s)) [0; 1 # 2; -1; 3 # 2; 2]%Q = [2 # 3; 23 # 48; 1 # 6; 1 # 48; 0]%Q /\
  map (fun s => Qred (interpolating_cubic exact s)) [0; 1 # 2; -1; 3 # 2; 2]%Q = [1; 9 # 16; 0; -1 # 16; 0]%Q /\
  map (fun s => Qred (interpolating_quadratic exact s)) [0; 1 # 2; -1; 5 # 4; 2]%Q = [1; 1 # 2; 0; -1 # 16; 0]%Q /\
  map (fun s => Qred (quadratic_bspline exact s)) [0; 1 # 2; -1; 5 # 4; 2]%Q = [3 # 4; 1 # 2; 1 # 8; 1 # 32; 0]%Q /\
  Qred (pixel exact rF rateX rateY (cubic_bspline exact) (mkD 0 2 1) (mkD 0 4 2) 1 33 0) = (117263 # 40560)%Q.
Proof. exact exact_example. Qed.
(** An interpolating kernel at rate 1, on the same images *)
Example C57_identity_example :
  usable_weights exact (weight exact (interpolating_cubic exact) (mkQ 1 1) 2) 0 4 /\
  tap_range exact (weight exact (interpolating_cubic exact) (mkQ 1 1) 2) 0 4 = [2] /\
  Qred (weighted exact (weight exact (interpolating_cubic exact) (mkQ 1 1) 2) 0 4 (fun i => inject_Z (i * i))) = 4%Q.
Proof. exact identity_example. Qed.

Print Assumptions C55_position.
Print Assumptions C55_build_kernels.
Print Assumptions C55_unusable_rejected.
Print Assumptions C55_unusable_unchecked_refuted.
Print Assumptions C56_resample.
Print Assumptions C56_rejected.
Print Assumptions C56_few_rows_refuted.
Print Assumptions C57_weights_one.
Print Assumptions C57_constant.
Print Assumptions C57_bounds.
Print Assumptions C57_identity.
Print Assumptions C57_positive.
Print Assumptions C57_interpolating.
Print Assumptions C57_unit.
Print Assumptions C57_usable.
Print Assumptions C57_inside.
Print Assumptions C57_usable_unit.
