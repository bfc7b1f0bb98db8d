(** C93: images that resampling reproduces. *)
From Coq Require Import ZArith QArith List Bool.
From Verif Require Import Interval Shape Memory Ref Spec SpecMem Rational SpecRational Resample SpecResample ResampleExact ResampleCases SpecMoments MomentsProps.
Import ListNotations.
Local Open Scope Q_scope.

(** Linear and quadratic kernels are balanced, *)
Theorem C93_balanced : balanced (linear exact) 1 2 /\ (forall r, balanced (fun s => quadratic_family exact s r) (3 # 2) 3).
Proof. exact (conj linear_balanced quadratic_balanced). Qed.
(** cubic ones are just if B + 2 C = 1, *)
Theorem C93_cubic : forall B C, balanced (fun s => cubic_family exact s B C) 2 4 <-> B + 2 * C == 1.
Proof. exact cubic_balanced. Qed.
(** as for those that the code uses. *)
Theorem C93_used : balanced (interpolating_cubic exact) 2 4 /\ balanced (cubic_bspline exact) 2 4.
Proof. exact used_balanced. Qed.
Example C93_balanced_example :
  map (fun t => Qred (t * interpolating_cubic exact t)) [- (7 # 4); - (3 # 4); 1 # 4; 5 # 4] = [21 # 512; -87 # 512; 111 # 512; -45 # 512] /\
  Qred (steps_sum (fun t => t * cubic_family exact t (1 # 2) 0) (- (7 # 4)) 4) = 3 # 64.
Proof. split; vm_compute; reflexivity. Qed.
(** The interpolating cubic is flat too. *)
Theorem C93_flat : flat (interpolating_cubic exact) 2 4.
Proof. exact catmull_flat. Qed.
Example C93_flat_example :
  map (fun t => Qred (t * t * interpolating_cubic exact t)) [- (7 # 4); - (3 # 4); 1 # 4; 5 # 4] = [-147 # 2048; 261 # 2048; 111 # 2048; -225 # 2048] /\
  Qred (steps_sum (fun t => t * t * cubic_bspline exact t) (- (7 # 4)) 4) = 1 # 3.
Proof. split; vm_compute; reflexivity. Qed.
(** All are respectful. *)
Theorem C93_respectful : respectful (linear exact) /\ (forall r, respectful (fun s => quadratic_family exact s r)) /\ (forall B C, respectful (fun s => cubic_family exact s B C)).
Proof. exact (conj linear_respectful (conj quadratic_respectful cubic_respectful)). Qed.
Example C93_respectful_example : (2 # 4) == (1 # 2) /\ 2 # 4 <> 1 # 2 /\ Qred (cubic_bspline exact (2 # 4)) = Qred (cubic_bspline exact (1 # 2)).
Proof. split; [reflexivity|]. split; [discriminate|vm_compute; reflexivity]. Qed.

(** Enlarging a row of values of a linear function with a balanced kernel gives values of that function, *)
Theorem C93_row : forall (kernel : Q -> Q) (r : Q) (m : nat) (rate : rational) (x lo n : Z),
  respectful kernel -> unit_kernel kernel r m -> 2 * r == inject_Z (Z.of_nat m) -> (1 <= denominator rate)%Z -> (denominator rate <= numerator rate)%Z ->
  surrounded r rate lo n x ->
  forall (g : Z -> Q) (a b : Q), balanced kernel r m -> (forall i, (lo <= i < lo + n)%Z -> g i == a * inject_Z i + b) ->
  let p := position (val rate) x in weighted exact (weight exact kernel rate x) lo n g == a * p + b.
Proof. exact linear_row. Qed.
(** with a flat one also of a quadratic function, *)
Theorem C93_quadratic_row : forall (kernel : Q -> Q) (r : Q) (m : nat) (rate : rational) (x lo n : Z),
  respectful kernel -> unit_kernel kernel r m -> 2 * r == inject_Z (Z.of_nat m) -> (1 <= denominator rate)%Z -> (denominator rate <= numerator rate)%Z ->
  surrounded r rate lo n x ->
  forall (g : Z -> Q) (a b c : Q), balanced kernel r m -> flat kernel r m ->
  (forall i, (lo <= i < lo + n)%Z -> g i == a * (inject_Z i * inject_Z i) + b * inject_Z i + c) ->
  let p := position (val rate) x in weighted exact (weight exact kernel rate x) lo n g == a * (p * p) + b * p + c.
Proof. exact quadratic_row. Qed.
Example C93_row_example : surrounded 2 (mkQ 3 2) 0 9 5 /\ Qred (position (val (mkQ 3 2)) 5) = 19 # 6 /\
  Qred (weighted exact (weight exact (interpolating_cubic exact) (mkQ 3 2) 5) 0 9 (fun i => inject_Z i * inject_Z i)) = 361 # 36 /\
  Qred (weighted exact (weight exact (cubic_bspline exact) (mkQ 3 2) 5) 0 9 (fun i => inject_Z i)) = 19 # 6.
Proof. split; [split; discriminate|]. split; [|split]; vm_compute; reflexivity. Qed.
(** and enlarging a linear image gives that image at all pixels that are surrounded by pixels of the input. *)
Theorem C93_image : forall nd (h : heap Q) (I O : aref) (f : list Z -> Q) (rx ry : rational) (kernel : Q -> Q) (ix iy ic ox oy oc : dim) r m (a b d : Q),
  resampling exact h I O f rx ry kernel ix iy ic ox oy oc -> respectful kernel -> unit_kernel kernel r m -> 2 * r == inject_Z (Z.of_nat m) -> balanced kernel r m ->
  (denominator rx <= numerator rx)%Z -> (denominator ry <= numerator ry)%Z ->
  (forall i j c, in_bounds (r_shape I) [i; j; c] -> f [i; j; c] == a * inject_Z i + b * inject_Z j + d * inject_Z c) ->
  image_with (resample exact nd I O rx ry kernel h) O (fun x y c q => surrounded r rx (dmin ix) (dext ix) x -> surrounded r ry (dmin iy) (dext iy) y ->
    q == a * position (val rx) x + b * position (val ry) y + d * inject_Z c).
Proof. exact linear_image. Qed.
Example C93_image_example :
  resampling exact heapL lI rO lF (mkQ 1 1) (mkQ 3 2) (linear exact) (mkD 0 3 1) (mkD 0 65 3) (mkD 0 1 195) (mkD 0 3 1) (mkD 0 65 3) (mkD 0 1 195) /\
  (forall i j c, in_bounds (r_shape lI) [i; j; c] -> lF [i; j; c] == 1 * inject_Z i + 3 * inject_Z j + 195 * inject_Z c) /\
  surrounded 1 (mkQ 1 1) 0 3 1 /\ surrounded 1 (mkQ 3 2) 0 65 5 /\
  Qred (pixel exact lF (mkQ 1 1) (mkQ 3 2) (linear exact) (mkD 0 3 1) (mkD 0 65 3) 1 5 0) = 21 # 2.
Proof. split; [exact resampling_L|]. split; [exact linear_L|]. split; [split; discriminate|]. split; [split; discriminate|vm_compute; reflexivity]. Qed.
(** With a kernel that is flat too, as the interpolating cubic, this holds for quadratic images. *)
Theorem C93_quadratic_image : forall nd (h : heap Q) (I O : aref) (f : list Z -> Q) (rx ry : rational) (kernel : Q -> Q) (ix iy ic ox oy oc : dim) r m (a b e s t : Q) (d : Z -> Q),
  resampling exact h I O f rx ry kernel ix iy ic ox oy oc -> respectful kernel -> unit_kernel kernel r m -> 2 * r == inject_Z (Z.of_nat m) -> balanced kernel r m -> flat kernel r m ->
  (denominator rx <= numerator rx)%Z -> (denominator ry <= numerator ry)%Z ->
  let F (x y : Q) (c : Z) := a * (x * x) + b * (y * y) + e * (x * y) + s * x + t * y + d c in
  (forall i j c, in_bounds (r_shape I) [i; j; c] -> f [i; j; c] == F (inject_Z i) (inject_Z j) c) ->
  image_with (resample exact nd I O rx ry kernel h) O (fun x y c q => surrounded r rx (dmin ix) (dext ix) x -> surrounded r ry (dmin iy) (dext iy) y ->
    q == F (position (val rx) x) (position (val ry) y) c).
Proof. exact quadratic_image. Qed.
Example C93_quadratic_image_example :
  resampling exact heapQ qI rO qF (mkQ 1 1) (mkQ 10 1) (interpolating_cubic exact) (mkD 0 5 1) (mkD 0 7 5) (mkD 0 1 35) (mkD 0 3 1) (mkD 0 65 3) (mkD 0 1 195) /\
  (forall i j c, in_bounds (r_shape qI) [i; j; c] ->
    qF [i; j; c] == 1 * (inject_Z i * inject_Z i) + 0 * (inject_Z j * inject_Z j) + 1 * (inject_Z i * inject_Z j) + 0 * inject_Z i + 0 * inject_Z j + 0) /\
  surrounded 2 (mkQ 1 1) 0 5 2 /\ surrounded 2 (mkQ 10 1) 0 7 29 /\ Qred (position (val (mkQ 10 1)) 29) = 49 # 20 /\
  Qred (pixel exact qF (mkQ 1 1) (mkQ 10 1) (interpolating_cubic exact) (mkD 0 5 1) (mkD 0 7 5) 2 29 0) = 89 # 10.
Proof. split; [exact resampling_Q|]. split; [exact quadratic_Q|]. split; [split; discriminate|]. split; [split; discriminate|]. split; vm_compute; reflexivity. Qed.

Print Assumptions C93_balanced.
Print Assumptions C93_cubic.
Print Assumptions C93_used.
Print Assumptions C93_flat.
Print Assumptions C93_respectful.
Print Assumptions C93_row.
Print Assumptions C93_quadratic_row.
Print Assumptions C93_image.
Print Assumptions C93_quadratic_image.
