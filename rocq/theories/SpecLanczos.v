(** Specification vocabulary for resampling in real arithmetic. *)
From Coq Require Import ZArith QArith List Bool Reals Qreals String.
From Verif Require Import Base Interval Shape Memory Ref Spec SpecMem SpecEin Rational SpecRational Resample SpecResample.
Import ListNotations.
Local Open Scope string_scope.
Open Scope R_scope.

(** Real numbers in place of floats *)
Definition reals : floats R :=
  mkFl R 0 1 IZR Rplus Rminus Rmult Rdiv (fun a b => if Rlt_dec a b then true else false)
    (fun a b => if Req_EM_T a b then false else true).

(** The same on both sides of 0 *)
Definition even_kernel (kernel : R -> R) : Prop := forall s, kernel (- s) = kernel s.
(** 1 at 0 and 0 at the other integers *)
Definition interpolating_kernel (kernel : R -> R) : Prop := forall z, kernel (IZR z) = if Z.eqb z 0 then 1 else 0.
(** 0 at a distance of [r] and beyond *)
Definition vanishes_at (r : R) (kernel : R -> R) : Prop := forall s, r <= Rabs s -> kernel s = 0.
(** The sign is that of (-1)^k at distances from k to k + 1 *)
Definition alternating (kernel : R -> R) : Prop :=
  forall (k : nat) s, INR k <= Rabs s <= INR k + 1 -> 0 <= (-1) ^ k * kernel s.
(** At least 1/2 up to a distance of 1/2, not negative up to 1, at least -2/27 from there to 2, and not negative beyond *)
Definition short_lobes (kernel : R -> R) : Prop := forall s,
  (Rabs s <= 1 / 2 -> 1 / 2 <= kernel s) /\ (Rabs s <= 1 \/ 2 <= Rabs s -> 0 <= kernel s) /\ - (2 / 27) <= kernel s.

(** The kernels by their names, as functions of the distance *)
Definition quadr (a : R) : R := if Rlt_dec a (1 / 2) then 1 - 2 * (a * a) else if Rlt_dec a (3 / 2) then (a - 1) * (a - 3 / 2) else 0.
Definition cubr (a : R) : R := if Rle_dec a 1 then (1 - a) * (1 + a - 3 / 2 * (a * a)) else if Rle_dec a 2 then - (1 / 2) * ((a - 1) * ((a - 2) * (a - 2))) else 0.
Definition is_kernel (name : string) (kernel : R -> R) : Prop :=
  (name = "box" /\ forall s, kernel s = if Rle_dec (Rabs s) (1 / 2) then 1 else 0) \/
  (name = "linear" /\ forall s, kernel s = Rmax 0 (1 - Rabs s)) \/
  (name = "quadratic" /\ forall s, kernel s = quadr (Rabs s)) \/
  (name = "cubic" /\ forall s, kernel s = cubr (Rabs s)) \/
  (name = "lanczos" /\ kernel 0 = 1 /\ (forall s, 4 <= Rabs s -> kernel s = 0) /\
   forall s, 0 < Rabs s <= 4 -> Rabs (kernel s - sin (s * PI) / (s * PI) * (sin (s * PI / 4) / (s * PI / 4))) <= 3 / 10 ^ 12).

(** [n] pixels, scaled to [m] *)
Definition scaled (rate : rational) (m n : Z) : Prop :=
  (1 <= numerator rate /\ 1 <= denominator rate /\ m * denominator rate = n * numerator rate)%Z.
(** [v] if it is between 0 and [b], and the nearer of these if not *)
Definition limited (b v : R) : R := Rmax 0 (Rmin v b).

(** As in [resampling]; both images begin at (0, 0), and are at most 2^29 pixels wide and high *)
Record images {F : Type} (h : heap F) (I O : aref) (f : list Z -> F) (ix iy ic ox oy oc : dim) : Prop := mkIm {
  im_in : r_shape I = [ix; iy; ic];
  im_out : r_shape O = [ox; oy; oc];
  im_min : (dmin ix = 0 /\ dmin iy = 0 /\ dmin ox = 0 /\ dmin oy = 0)%Z;
  im_ext : extents_ge 1 [ix; iy; ic] /\ extents_ge 1 [ox; oy; oc];
  im_max : (dext ix <= 2 ^ 29 /\ dext iy <= 2 ^ 29 /\ dext ox <= 2 ^ 29 /\ dext oy <= 2 ^ 29)%Z;
  im_chan : (dmin ic <= dmin oc /\ dmin oc + dext oc <= dmin ic + dext ic)%Z;
  im_rows : (64 <= dext oy)%Z;
  im_size : (64 * (dext ix + dext ox) * dext oc < 2 ^ 62)%Z;
  im_shows : shows h I f;
  im_alive : forall o, in_bounds (r_shape O) o -> alive h (elem (r_base O) (r_shape O) o);
  im_inj : injective_layout (r_shape O);
  im_apart : forall i, in_bounds (r_shape I) i -> ~ is_elem (r_base O) (r_shape O) (elem (r_base I) (r_shape I) i);
  im_us : usable_heap h }.
