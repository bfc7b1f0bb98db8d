(** C91: rounding errors of resampling. *)
From Coq Require Import ZArith QArith Qabs List Bool.
From Verif Require Import RoundingProps RoundingCases Interval Shape Memory Ref Spec SpecMem SpecEin Rational SpecRational Resample SpecResample
  ResampleExact ResampleCases SpecRounding RoundingFacts ResRounding SpecResRounding ResRoundingFacts ResRoundingProps ResRoundingExact ResRoundingCases.
Import ListNotations.
Local Open Scope Q_scope.

(** The sum of the weights stays positive, so that no assertion fails, *)
Theorem C91_usable : forall (u : Q) (rnd : Q -> Q), rounds u 0 rnd -> forall (w : Z -> Q) (lo n : Z) (k : Q) (N : nat),
  conditioned k w lo n -> taps_within N w lo n -> (grow u N - 1) * k < 1 -> usable_weights (rounded rnd) w lo n.
Proof. exact usable_rounded. Qed.
(** and what is computed is near the average. *)
Theorem C91_average : forall (u : Q) (rnd : Q -> Q), rounds u 0 rnd -> forall (w : Z -> Q) (lo n : Z) (k : Q) (N : nat),
  conditioned k w lo n -> taps_within N w lo n -> (grow u N - 1) * k < 1 ->
  forall (g : Z -> Q) (G : Q), (forall i, (lo <= i < lo + n)%Z -> Qabs (g i) <= G) ->
  Qabs (weighted (rounded rnd) w lo n g - average w lo n g) <= average_error u k N * G.
Proof. exact weighted_close. Qed.
Example C91_average_example : let w := weight (rounded (fl 8)) (linear (rounded (fl 8))) rateY 20 in
  rounds (1 # 128) 0 (fl 8) /\ conditioned 1 w 0 4 /\ taps_within 4 w 0 4 /\ (grow (1 # 128) 4 - 1) * 1 < 1 /\
  map (fun i => Qred (w i)) [0; 1; 2; 3]%Z = [123 # 512; 389 # 512; 0; 0] /\
  Qred (weighted (rounded (fl 8)) w 0 4 (fun i => inject_Z (7 * i))) = 85 # 16 /\
  Qred (average w 0 4 (fun i => inject_Z (7 * i))) = 2723 # 512.
Proof.
  cbv zeta. split; [exact (fl_rounds 8)|]. split; [apply linear_conditioned|].
  split; [apply (R_taps_y (1 # 128)); [exact (fl_rounds 8)|discriminate|split; [discriminate|reflexivity]]|]. vm_compute. repeat split.
Qed.

(** Whole images *)
Theorem C91_image : forall (u : Q) (rnd : Q -> Q), rounds u 0 rnd ->
  forall (nd : bool) (h : heap Q) (I O : aref) (f : list Z -> Q) (rx ry : rational) (kernel : Q -> Q) (ix iy ic ox oy oc : dim),
  let fl := rounded rnd in
  resampling fl h I O f rx ry kernel ix iy ic ox oy oc ->
  forall (kx ky : Q) (Nx Ny : nat),
  (forall x, in_dim ox x -> conditioned kx (weight fl kernel rx x) (dmin ix) (dext ix)) ->
  (forall y, in_dim oy y -> conditioned ky (weight fl kernel ry y) (dmin iy) (dext iy)) ->
  (forall x, in_dim ox x -> taps_within Nx (weight fl kernel rx x) (dmin ix) (dext ix)) ->
  (forall y, in_dim oy y -> taps_within Ny (weight fl kernel ry y) (dmin iy) (dext iy)) ->
  (grow u Nx - 1) * kx < 1 -> (grow u Ny - 1) * ky < 1 ->
  forall B : Q, (forall i, in_bounds (r_shape I) i -> Qabs (f i) <= B) ->
  image_with (resample fl nd I O rx ry kernel h) O (fun x y c q =>
    Qabs (q - average2 (weight fl kernel rx x) (weight fl kernel ry y) ix iy (fun i j => f [i; j; c])) <= image_error u kx ky Nx Ny * B).
Proof. exact rounded_image. Qed.
(** Constant images stay nearly constant, *)
Theorem C91_constant : forall (u : Q) (rnd : Q -> Q), rounds u 0 rnd ->
  forall (nd : bool) (h : heap Q) (I O : aref) (f : list Z -> Q) (rx ry : rational) (kernel : Q -> Q) (ix iy ic ox oy oc : dim),
  let fl := rounded rnd in
  resampling fl h I O f rx ry kernel ix iy ic ox oy oc ->
  forall (kx ky : Q) (Nx Ny : nat),
  (forall x, in_dim ox x -> conditioned kx (weight fl kernel rx x) (dmin ix) (dext ix)) ->
  (forall y, in_dim oy y -> conditioned ky (weight fl kernel ry y) (dmin iy) (dext iy)) ->
  (forall x, in_dim ox x -> taps_within Nx (weight fl kernel rx x) (dmin ix) (dext ix)) ->
  (forall y, in_dim oy y -> taps_within Ny (weight fl kernel ry y) (dmin iy) (dext iy)) ->
  (grow u Nx - 1) * kx < 1 -> (grow u Ny - 1) * ky < 1 ->
  forall v : Q, (forall i, in_bounds (r_shape I) i -> f i == v) ->
  image_with (resample fl nd I O rx ry kernel h) O (fun _ _ _ q => Qabs (q - v) <= image_error u kx ky Nx Ny * Qabs v).
Proof. exact rounded_constant. Qed.
(** and with a kernel that is nowhere negative the values are not far beyond those of the input. *)
Theorem C91_between : forall (u : Q) (rnd : Q -> Q), rounds u 0 rnd ->
  forall (nd : bool) (h : heap Q) (I O : aref) (f : list Z -> Q) (rx ry : rational) (kernel : Q -> Q) (ix iy ic ox oy oc : dim),
  let fl := rounded rnd in
  resampling fl h I O f rx ry kernel ix iy ic ox oy oc ->
  forall (kx ky : Q) (Nx Ny : nat),
  (forall x, in_dim ox x -> conditioned kx (weight fl kernel rx x) (dmin ix) (dext ix)) ->
  (forall y, in_dim oy y -> conditioned ky (weight fl kernel ry y) (dmin iy) (dext iy)) ->
  (forall x, in_dim ox x -> taps_within Nx (weight fl kernel rx x) (dmin ix) (dext ix)) ->
  (forall y, in_dim oy y -> taps_within Ny (weight fl kernel ry y) (dmin iy) (dext iy)) ->
  (grow u Nx - 1) * kx < 1 -> (grow u Ny - 1) * ky < 1 ->
  forall a b : Q, (forall s, 0 <= kernel s) -> (forall i, in_bounds (r_shape I) i -> a <= f i <= b) ->
  let e := image_error u kx ky Nx Ny * (if Qlt_le_dec (Qabs a) (Qabs b) then Qabs b else Qabs a) in
  image_with (resample fl nd I O rx ry kernel h) O (fun _ _ _ q => a - e <= q <= b + e).
Proof. exact rounded_between. Qed.
Example C91_image_example :
  rounds (1 # 128) 0 (fl 8) /\
  resampling (rounded (fl 8)) heapR rI rO rF rateX rateY (linear (rounded (fl 8))) (mkD 0 2 1) (mkD 0 4 2) (mkD 0 1 8) (mkD 0 3 1) (mkD 0 65 3) (mkD 0 1 195) /\
  (forall x, in_dim (mkD 0 3 1) x -> taps_within 2 (weight (rounded (fl 8)) (linear (rounded (fl 8))) rateX x) 0 2) /\
  (forall y, in_dim (mkD 0 65 3) y -> taps_within 4 (weight (rounded (fl 8)) (linear (rounded (fl 8))) rateY y) 0 4) /\
  image_error (1 # 128) 1 1 2 4 <= 27 # 200 /\
  pixels8 = [0; 307 # 128; 225 # 128; 3] /\ averages8 = [0; 2457 # 1024; 901 # 512; 3].
Proof.
  split; [exact (fl_rounds 8)|]. split; [apply (resampling_rounded (1 # 128)); [exact (fl_rounds 8)|discriminate]|].
  split; [intros x Hx; apply (R_taps (1 # 128)); [exact (fl_rounds 8)|discriminate|exact Hx]|].
  split; [intros x Hx; apply (R_taps_y (1 # 128)); [exact (fl_rounds 8)|discriminate|exact Hx]|].
  split; [vm_compute; discriminate|]. split; vm_compute; reflexivity.
Qed.

(** At rate 1 an interpolating kernel copies without an error: positions and weights are integers. *)
Theorem C91_identity : forall (m : Z) (rnd : Q -> Q), keeps_integers m rnd -> (1 <= m)%Z ->
  forall (nd : bool) (h : heap Q) (I O : aref) (f : list Z -> Q) (rx ry : rational) (kernel : Q -> Q) (ix iy ic ox oy oc : dim),
  let fl := rounded rnd in
  resampling fl h I O f rx ry kernel ix iy ic ox oy oc ->
  interpolating kernel -> numerator rx = 1%Z -> denominator rx = 1%Z -> numerator ry = 1%Z -> denominator ry = 1%Z ->
  (forall x, in_dim ox x -> in_dim ix x) -> (forall y, in_dim oy y -> in_dim iy y) ->
  (Z.abs (dmin ix) + 2 * dext ix <= m)%Z -> (Z.abs (dmin iy) + 2 * dext iy <= m)%Z ->
  (forall i q, in_bounds (r_shape I) i -> q == f i -> rnd q == q) ->
  image_with (resample fl nd I O rx ry kernel h) O (fun x y c q => q == f [x; y; c]).
Proof. exact rounded_same. Qed.
Theorem C91_usable_identity : forall (m : Z) (rnd : Q -> Q), keeps_integers m rnd -> (1 <= m)%Z ->
  forall (kernel : Q -> Q) (rate : rational) (x lo n : Z),
  interpolating kernel -> numerator rate = 1%Z -> denominator rate = 1%Z -> (lo <= x < lo + n)%Z ->
  (Z.abs lo + n <= m)%Z -> (2 * n <= m)%Z -> usable_weights (rounded rnd) (weight (rounded rnd) kernel rate x) lo n.
Proof. exact row_usable. Qed.
Example C91_identity_example :
  keeps_integers 255 (fl 8) /\ interpolating (linear (rounded (fl 8))) /\
  resampling (rounded (fl 8)) heapS sI rO sF (mkQ 1 1) (mkQ 1 1) (linear (rounded (fl 8))) (mkD 0 3 1) (mkD 0 65 3) (mkD 0 1 195)
    (mkD 0 3 1) (mkD 0 65 3) (mkD 0 1 195) /\
  map (fun z => Qred (fl 8 (sV z) - sV z)) [0; 1; 2; 3; 4; 5; 6]%Z = [0; 0; 0; 0; 0; 0; 0] /\
  map (fun p => Qred (pixel (rounded (fl 8)) sF (mkQ 1 1) (mkQ 1 1) (linear (rounded (fl 8))) (mkD 0 3 1) (mkD 0 65 3) (fst p) (snd p) 0)) [(0, 0); (2, 30)]%Z =
    map (fun p => Qred (sF [fst p; snd p; 0%Z])) [(0, 0); (2, 30)]%Z.
Proof.
  assert (K : keeps_integers 255 (fl 8)) by (apply (fl_integers 8); discriminate).
  split; [exact K|]. split; [apply (linear_interp (1 # 128)); [exact (fl_rounds 8)|discriminate|intros x z E B; apply (K x z E); apply (Z.le_trans _ 1); [exact B|discriminate]]|]. 
  split; [apply resampling_same; [exact (fl_rounds 8)|exact K]|]. vm_compute. split; reflexivity.
Qed.

(** The linear kernel: it is nowhere negative and still interpolating, and every position in the
    image has a weight that is not 0 if the image is not too large for the format. *)
Theorem C91_linear_nonnegative : forall (rnd : Q -> Q) (s : Q), 0 <= linear (rounded rnd) s.
Proof. exact linear_nonneg. Qed.
Theorem C91_linear_conditioned : forall (rnd : Q -> Q) (rate : rational) (lo n x : Z),
  conditioned 1 (weight (rounded rnd) (linear (rounded rnd)) rate x) lo n.
Proof. exact linear_conditioned. Qed.
Theorem C91_linear_interpolating : forall (u : Q) (rnd : Q -> Q), rounds u 0 rnd -> u <= 1 # 16 -> keeps_integers 1 rnd ->
  interpolating (linear (rounded rnd)).
Proof. exact linear_interp. Qed.
Theorem C91_linear_taps : forall (u : Q) (rnd : Q -> Q), rounds u 0 rnd -> u <= 1 # 16 -> forall (rate : rational) (lo n x : Z),
  (1 <= numerator rate)%Z -> (1 <= denominator rate)%Z -> (1 <= n)%Z -> SpecResample.inside rate lo n x ->
  16 * u * inject_Z (Z.abs lo + n) <= 1 -> taps_within (Z.to_nat n) (weight (rounded rnd) (linear (rounded rnd)) rate x) lo n.
Proof. exact linear_taps. Qed.
(** Pixels of 8 bits of images of up to 1000x1000 are off by at most 1/16 with floats. *)
Theorem C91_linear_images : forall (rnd : Q -> Q) (nd : bool) (h : heap Q) (I O : aref) (f : list Z -> Q) (rx ry : rational) (ix iy ic ox oy oc : dim),
  rounds (1 # 16777216) 0 rnd -> resampling (rounded rnd) h I O f rx ry (linear (rounded rnd)) ix iy ic ox oy oc ->
  dmin ix = 0%Z -> dmin iy = 0%Z -> (1 <= dext ix <= 1000)%Z -> (1 <= dext iy <= 1000)%Z ->
  (1 <= numerator rx)%Z -> (1 <= numerator ry)%Z ->
  (forall x, in_dim ox x -> SpecResample.inside rx 0 (dext ix) x) -> (forall y, in_dim oy y -> SpecResample.inside ry 0 (dext iy) y) ->
  (forall i, in_bounds (r_shape I) i -> 0 <= f i <= 255) ->
  let fl := rounded rnd in
  let run := resample fl nd I O rx ry (linear fl) h in
  image_with run O (fun x y c q =>
    Qabs (q - average2 (weight fl (linear fl) rx x) (weight fl (linear fl) ry y) ix iy (fun i j => f [i; j; c])) <= 1 # 16 /\ - (1 # 16) <= q <= 255 + (1 # 16)) /\
  (forall v, (forall i, in_bounds (r_shape I) i -> f i == v) -> image_with run O (fun _ _ _ q => Qabs (q - v) <= 1 # 16)).
Proof. exact linear_images. Qed.
Example C91_linear_example :
  rounds (1 # 16777216) 0 (fl 25) /\
  resampling (rounded (fl 25)) heapR rI rO rF rateX rateY (linear (rounded (fl 25))) (mkD 0 2 1) (mkD 0 4 2) (mkD 0 1 8) (mkD 0 3 1) (mkD 0 65 3) (mkD 0 1 195) /\
  (forall x, in_dim (mkD 0 3 1) x -> SpecResample.inside rateX 0 2 x) /\ (forall y, in_dim (mkD 0 65 3) y -> SpecResample.inside rateY 0 4 y) /\
  forallb (fun z => Qle_bool 0 (rV z) && Qle_bool (rV z) 255) [0; 1; 2; 3; 4; 5; 6; 7]%Z = true.
Proof.
  split; [exact (fl_rounds 25)|]. split; [apply (resampling_rounded (1 # 16777216)); [exact (fl_rounds 25)|discriminate]|].
  split; [intros x Hx; apply (inside_scaled _ 2 3); [discriminate..|exact Hx]|].
  split; [intros x Hx; apply (inside_scaled _ 4 65); [discriminate..|exact Hx]|]. vm_compute. reflexivity.
Qed.

(** The box kernel: nowhere negative, and there is a weight at positions that are not too near to the edges of the image. *)
Theorem C91_box_nonnegative : forall (rnd : Q -> Q) (s : Q), 0 <= box_kernel (rounded rnd) s.
Proof. exact box_nonneg. Qed.
Theorem C91_box_taps : forall (u : Q) (rnd : Q -> Q) (m : Z), rounds u 0 rnd -> u <= 1 # 16 -> keeps_integers m rnd -> (2 <= m)%Z -> keeps_half rnd ->
  forall (rate : rational) (lo n x : Z), (1 <= numerator rate)%Z -> (1 <= denominator rate)%Z -> (1 <= n)%Z -> (Z.abs lo + n <= m)%Z ->
  inside_by (4 * u * inject_Z (Z.abs lo + n)) rate lo n x ->
  taps_within (Z.to_nat n) (weight (rounded rnd) (box_kernel (rounded rnd)) rate x) lo n.
Proof. exact box_taps. Qed.
(** In particular everywhere if m pixels are made of n at a rate that is not too large. *)
Theorem C91_inside_by : forall (d : Q) (rate : rational) (n m x : Z),
  (1 <= numerator rate)%Z -> (1 <= denominator rate)%Z -> (m * denominator rate <= n * numerator rate)%Z -> (0 <= x < m)%Z ->
  2 * d * inject_Z (numerator rate) <= inject_Z (denominator rate) -> inside_by d rate 0 n x.
Proof. exact inside_by_scaled. Qed.
Example C91_box_example :
  rounds (1 # 128) 0 (fl 8) /\ keeps_integers 255 (fl 8) /\ keeps_half (fl 8) /\
  (forall x, (0 <= x < 3)%Z -> inside_by (4 * (1 # 128) * inject_Z (Z.abs 0 + 2)) rateX 0 2 x) /\
  map (fun i => Qred (weight (rounded (fl 8)) (box_kernel (rounded (fl 8))) rateX 1 i)) [0; 1; 2]%Z = [1; 1; 0].
Proof.
  split; [exact (fl_rounds 8)|]. split; [apply (fl_integers 8); discriminate|]. split; [apply fl_half; discriminate|].
  split; [intros x Hx; apply (inside_by_scaled _ _ 2 3); [discriminate..|exact Hx|discriminate]|]. vm_compute. reflexivity.
Qed.

(** ** The difference from resampling in exact arithmetic *)
(** Averages with weights that differ a little *)
Theorem C91_average_near : forall (d : Q) (M : nat) (t : Q) (w' w : Z -> Q) (lo n : Z) (g : Z -> Q) (G : Q) (N : nat),
  near_weights d M t w' w lo n -> taps_within N w' lo n -> (forall i, (lo <= i < lo + n)%Z -> Qabs (g i) <= G) ->
  Qabs (average w' lo n g - average w lo n g) <= weights_error d M t * G.
Proof. exact average_near. Qed.
(** Whole images *)
Theorem C91_near_exact : forall (u : Q) (rnd : Q -> Q), rounds u 0 rnd ->
  forall (nd : bool) (h : heap Q) (I O : aref) (f : list Z -> Q) (rx ry : rational) (kernel kernel0 : Q -> Q) (ix iy ic ox oy oc : dim),
  let fl := rounded rnd in
  resampling fl h I O f rx ry kernel ix iy ic ox oy oc ->
  forall (dx dy tx ty : Q) (Mx My Nx Ny : nat),
  (forall x, in_dim ox x -> near_weights dx Mx tx (weight fl kernel rx x) (weight exact kernel0 rx x) (dmin ix) (dext ix)) ->
  (forall y, in_dim oy y -> near_weights dy My ty (weight fl kernel ry y) (weight exact kernel0 ry y) (dmin iy) (dext iy)) ->
  (forall x, in_dim ox x -> taps_within Nx (weight fl kernel rx x) (dmin ix) (dext ix)) ->
  (forall y, in_dim oy y -> taps_within Ny (weight fl kernel ry y) (dmin iy) (dext iy)) ->
  (grow u Nx - 1) * 1 < 1 -> (grow u Ny - 1) * 1 < 1 ->
  forall B : Q, (forall i, in_bounds (r_shape I) i -> Qabs (f i) <= B) ->
  image_with (resample fl nd I O rx ry kernel h) O (fun x y c q =>
    Qabs (q - pixel exact f rx ry kernel0 ix iy x y c) <= (image_error u 1 1 Nx Ny + weights_error dx Mx tx + weights_error dy My ty) * B).
Proof. exact near_exact. Qed.
(** The weights of the linear kernel *)
Theorem C91_linear_weight : forall (u : Q) (rnd : Q -> Q), rounds u 0 rnd -> u <= 1 # 64 -> forall (rate : rational) (x lo n : Z),
  (1 <= numerator rate)%Z -> (1 <= denominator rate)%Z -> (1 <= n)%Z -> SpecResample.inside rate lo n x ->
  64 * u * inject_Z (Z.abs lo + n) <= 1 -> forall i : Z, (lo <= i < lo + n)%Z ->
  let s := at_most_1 exact (quotient exact (numerator rate) (denominator rate)) in
  Qabs (weight (rounded rnd) (linear (rounded rnd)) rate x i - weight exact (linear exact) rate x i) <= 8 * u * inject_Z (Z.abs lo + n) * s + 20 * u /\
  (2 <= Qabs ((inject_Z i - position (val rate) x) * s) ->
     weight (rounded rnd) (linear (rounded rnd)) rate x i == 0 /\ weight exact (linear exact) rate x i == 0).
Proof. exact linear_weight_near. Qed.
Theorem C91_linear_enlarging : forall (u : Q) (rnd : Q -> Q), rounds u 0 rnd -> u <= 1 # 64 -> forall (rate : rational) (x lo n : Z),
  (1 <= numerator rate)%Z -> (1 <= denominator rate)%Z -> (1 <= n)%Z -> SpecResample.inside rate lo n x ->
  64 * u * inject_Z (Z.abs lo + n) <= 1 -> (denominator rate <= numerator rate)%Z ->
  near_weights (8 * u * inject_Z (Z.abs lo + n) + 20 * u) 4 (1 # 2) (weight (rounded rnd) (linear (rounded rnd)) rate x) (weight exact (linear exact) rate x) lo n.
Proof. exact linear_near_weights. Qed.
Theorem C91_linear_enlarging_taps : forall (u : Q) (rnd : Q -> Q), rounds u 0 rnd -> u <= 1 # 64 -> forall (rate : rational) (x lo n : Z),
  (1 <= numerator rate)%Z -> (1 <= denominator rate)%Z -> (1 <= n)%Z -> SpecResample.inside rate lo n x ->
  64 * u * inject_Z (Z.abs lo + n) <= 1 -> (denominator rate <= numerator rate)%Z ->
  taps_within 4 (weight (rounded rnd) (linear (rounded rnd)) rate x) lo n.
Proof. exact linear_taps4. Qed.
(** Enlarged with floats, images of up to 100x100 pixels of 8 bits differ from the exact ones by at most 1/2. *)
Theorem C91_linear_exact : forall (rnd : Q -> Q) (nd : bool) (h : heap Q) (I O : aref) (f : list Z -> Q) (rx ry : rational) (ix iy ic ox oy oc : dim),
  rounds (1 # 16777216) 0 rnd -> resampling (rounded rnd) h I O f rx ry (linear (rounded rnd)) ix iy ic ox oy oc ->
  dmin ix = 0%Z -> dmin iy = 0%Z -> (1 <= dext ix <= 100)%Z -> (1 <= dext iy <= 100)%Z ->
  (1 <= denominator rx <= numerator rx)%Z -> (1 <= denominator ry <= numerator ry)%Z ->
  (forall x, in_dim ox x -> SpecResample.inside rx 0 (dext ix) x) -> (forall y, in_dim oy y -> SpecResample.inside ry 0 (dext iy) y) ->
  (forall i, in_bounds (r_shape I) i -> 0 <= f i <= 255) ->
  image_with (resample (rounded rnd) nd I O rx ry (linear (rounded rnd)) h) O (fun x y c q =>
    Qabs (q - pixel exact f rx ry (linear exact) ix iy x y c) <= 1 # 2).
Proof. exact linear_exact. Qed.
(** C91_linear_example meets the hypotheses of the last theorem, too. *)
Example C91_near_example :
  near_weights (8 * (1 # 16777216) * inject_Z (Z.abs 0 + 4) + 20 * (1 # 16777216)) 4 (1 # 2)
    (weight (rounded (fl 25)) (linear (rounded (fl 25))) rateY 20) (weight exact (linear exact) rateY 20) 0 4 /\
  map (fun i => Qred (weight (rounded (fl 25)) (linear (rounded (fl 25))) rateY 20 i)) [0; 1; 2; 3]%Z = [16002883 # 67108864; 51105981 # 67108864; 0; 0] /\
  map (fun i => Qred (weight exact (linear exact) rateY 20 i)) [0; 1; 2; 3]%Z = [31 # 130; 99 # 130; 0; 0] /\
  Qred (pixel (rounded (fl 25)) rF rateX rateY (linear (rounded (fl 25))) (mkD 0 2 1) (mkD 0 4 2) 1 20 0) = 20164923 # 8388608 /\
  Qred (pixel exact rF rateX rateY (linear exact) (mkD 0 2 1) (mkD 0 4 2) 1 20 0) = 125 # 52.
Proof.
  split; [|vm_compute; tauto].
  apply linear_near_weights; [exact (fl_rounds 25)|discriminate|discriminate|discriminate|discriminate| |discriminate|discriminate].
  apply (inside_scaled _ 4 65); [discriminate..|split; [discriminate|reflexivity]].
Qed.

Print Assumptions C91_usable.
Print Assumptions C91_average.
Print Assumptions C91_image.
Print Assumptions C91_constant.
Print Assumptions C91_between.
Print Assumptions C91_identity.
Print Assumptions C91_usable_identity.
Print Assumptions C91_linear_nonnegative.
Print Assumptions C91_linear_conditioned.
Print Assumptions C91_linear_interpolating.
Print Assumptions C91_linear_taps.
Print Assumptions C91_linear_images.
Print Assumptions C91_box_nonnegative.
Print Assumptions C91_box_taps.
Print Assumptions C91_inside_by.
Print Assumptions C91_average_near.
Print Assumptions C91_near_exact.
Print Assumptions C91_linear_weight.
Print Assumptions C91_linear_enlarging.
Print Assumptions C91_linear_enlarging_taps.
Print Assumptions C91_linear_exact.
