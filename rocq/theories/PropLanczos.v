(** C83: the kernels that can be named, in real arithmetic. *)
From Coq Require Import ZArith QArith List Bool Reals String.
From Verif Require Import Base Interval Shape Memory Ref Spec SpecMem SpecEin Rational SpecRational Resample SpecResample Lanczos SpecLanczos
  RealWeights LanczosFacts LanczosShrink LanczosWhole.
Import ListNotations.
Open Scope R_scope.

(** The shortcut of [sinc] near 0 is as good as the function. *)
Theorem C83_sinc : forall s, s <> 0 -> Rabs (sinc reals PI sin s - sin (s * PI) / (s * PI)) <= 1 / 10 ^ 12.
Proof. exact sinc_close. Qed.
Print Assumptions C83_sinc.
(** The Lanczos kernel has the same values on both sides of 0, is 1 at 0 and 0 at the other integers, and 0 from its radius on;
    its lobes alternate in sign, and it is never beyond 1. *)
Theorem C83_lanczos : forall a : Z, (1 <= a)%Z ->
  even_kernel (lanczos reals PI sin a) /\ interpolating_kernel (lanczos reals PI sin a) /\ vanishes_at (IZR a) (lanczos reals PI sin a) /\
  alternating (lanczos reals PI sin a) /\ forall s, Rabs (lanczos reals PI sin a s) <= 1.
Proof. exact (fun a H => conj (lanczos_even a) (conj (lanczos_ints a H) (conj (lanczos_far a H) (conj (lanczos_sign a H) (lanczos_bound a))))). Qed.
Print Assumptions C83_lanczos.
(** Each name stands for its kernel, and the five names are known. *)
Theorem C83_names : (forall name kernel, parse_kernel reals PI sin name = Some kernel -> is_kernel name kernel) /\
  forall name, In name ["box"; "linear"; "quadratic"; "cubic"; "lanczos"]%string -> exists kernel, parse_kernel reals PI sin name = Some kernel.
Proof. exact (conj named_known known_named). Qed.
Print Assumptions C83_names.
(** The others have at most one, shallow, negative lobe on each side; *)
Theorem C83_short : short_lobes (box_kernel reals) /\ short_lobes (linear reals) /\ short_lobes (interpolating_quadratic reals) /\
  short_lobes (interpolating_cubic reals).
Proof. exact (conj box_short (conj linear_short (conj quadratic_short cubic_short))). Qed.
Print Assumptions C83_short.
(** such a kernel has usable weights at every position between the outer edges of the input, at any rate, enlarging or shrinking. *)
Theorem C83_usable_short : forall (kernel : R -> R) (rate : rational) (lo n x : Z),
  short_lobes kernel -> (1 <= numerator rate)%Z -> (1 <= denominator rate)%Z -> (1 <= n)%Z -> inside rate lo n x ->
  usable_weights reals (weight reals kernel rate x) lo n.
Proof. exact usable_short. Qed.
Print Assumptions C83_usable_short.
(** So has the Lanczos kernel: with any number of lobes when enlarging, *)
Theorem C83_usable_lanczos : forall (a : Z), (1 <= a)%Z -> forall (rate : rational) (lo n x : Z),
  (1 <= denominator rate <= numerator rate)%Z -> (1 <= n)%Z -> inside rate lo n x ->
  usable_weights reals (weight reals (lanczos reals PI sin a) rate x) lo n.
Proof. exact usable_lanczos. Qed.
Print Assumptions C83_usable_lanczos.
(** and with 4, as the program has it, at any rate: so every kernel that can be named has. *)
Theorem C83_usable : forall (name : string) (kernel : R -> R) (rate : rational) (lo n x : Z), parse_kernel reals PI sin name = Some kernel ->
  (1 <= numerator rate)%Z -> (1 <= denominator rate)%Z -> (1 <= n)%Z -> inside rate lo n x ->
  usable_weights reals (weight reals kernel rate x) lo n.
Proof. exact named_usable. Qed.
Print Assumptions C83_usable.
(** The program makes an image of any size (of 64 rows or more), with whichever kernel is named, without failing an assertion;
    each pixel is the weighted sum, or the nearer limit; nothing else changes. *)
Theorem C83_resize : forall (nd : bool) (h : heap R) (I O : aref) (f : list Z -> R) (ix iy ic ox oy oc : dim) (name : string) (kernel : R -> R) (b : R),
  images h I O f ix iy ic ox oy oc -> parse_kernel reals PI sin name = Some kernel ->
  makes_image h (resize reals nd b kernel I O h) O (fun x y c =>
    limited b (pixel reals f (mkQ (dext ox) (dext ix)) (mkQ (dext oy) (dext iy)) kernel ix iy x y c)).
Proof. exact resize_named. Qed.
Print Assumptions C83_resize.
(** A constant image stays constant, *)
Theorem C83_constant : forall (nd : bool) (h : heap R) (I O : aref) (f : list Z -> R) (ix iy ic ox oy oc : dim) (name : string) (kernel : R -> R) (b v : R),
  images h I O f ix iy ic ox oy oc -> parse_kernel reals PI sin name = Some kernel ->
  (forall i, in_bounds (r_shape I) i -> f i = v) ->
  makes_image h (resize reals nd b kernel I O h) O (fun _ _ _ => limited b v).
Proof. exact resize_constant. Qed.
Print Assumptions C83_constant.
(** and an image of the same size is the same image. *)
Theorem C83_identity : forall (nd : bool) (h : heap R) (I O : aref) (f : list Z -> R) (ix iy ic ox oy oc : dim) (name : string) (kernel : R -> R) (b : R),
  images h I O f ix iy ic ox oy oc -> parse_kernel reals PI sin name = Some kernel -> dext ix = dext ox -> dext iy = dext oy ->
  makes_image h (resize reals nd b kernel I O h) O (fun x y c => limited b (f [x; y; c])).
Proof. exact resize_same. Qed.
Print Assumptions C83_identity.
Example C83_example :
  parse_kernel reals PI sin "lanczos" = Some (lanczos reals PI sin 4) /\
  lanczos reals PI sin 4 (1 / 2) = 2 / PI * (sin (PI / 8) / (PI / 8)) /\ lanczos reals PI sin 4 (3 / 2) < 0 /\
  interpolating_cubic reals (4 / 3) = - (2 / 27) /\ interpolating_quadratic reals (- (5 / 4)) = - (1 / 16) /\
  images heapL (lI 4) (lO 3 65) (lF 4) (mkD 0 2 1) (mkD 0 4 2) (mkD 0 1 128) (mkD 0 3 1) (mkD 0 65 3) (mkD 0 1 195) /\
  images heapL (lI 64) (lO 2 64) (lF 64) (mkD 0 2 1) (mkD 0 64 2) (mkD 0 1 128) (mkD 0 2 1) (mkD 0 64 2) (mkD 0 1 195) /\
  images heapL (lI 4) (lO 1 65) (lF 4) (mkD 0 2 1) (mkD 0 4 2) (mkD 0 1 128) (mkD 0 1 1) (mkD 0 65 1) (mkD 0 1 195) /\
  inside (mkQ 3 2) 0 2 0 /\ inside (mkQ 2 7) 0 21 5 /\ scaled (mkQ 3 2) 9 6 /\ limited 255 (- (1)) = 0 /\ limited 255 300 = 255.
Proof. exact lanczos_example. Qed.
Print Assumptions C83_example.
