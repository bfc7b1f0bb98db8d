(** Specification vocabulary for resampling. *)
From Coq Require Import ZArith QArith List Bool.
From Verif Require Import Base Interval Shape Memory Ref Spec SpecMem SpecEin Rational SpecRational Resample.
Import ListNotations.
Open Scope Z_scope.

(** (x + 1/2) / r - 1/2, in lowest terms *)
Definition position (r : Q) (x : Z) : Q := Qred ((inject_Z x + (1 # 2)) / r - (1 # 2)).
(** The numbers involved are far from the limits of index_t *)
Definition rate_ok (rate : rational) (lo n : Z) : Prop :=
  1 <= numerator rate <= 2 ^ 60 /\ 1 <= denominator rate <= 2 ^ 60 /\
  forall x, lo <= x < lo + n -> Z.abs (2 * x + 1) * denominator rate <= 2 ^ 60.

Section Resample.
Context {F : Type} (fl : floats F).

(** The quotient of two integers as a float *)
Definition quotient (n d : Z) : F := f_div fl (f_int fl n) (f_int fl d).
(** The lesser of [a] and 1 *)
Definition at_most_1 (a : F) : F := if f_lt fl (f1 fl) a then f1 fl else a.
(** The value of the kernel for output position [x] and input position [i] *)
Definition weight (kernel : F -> F) (rate : rational) (x i : Z) : F :=
  let p := position (val rate) x in
  kernel (f_mul fl (f_sub fl (f_int fl i) (quotient (Qnum p) (QDen p)))
                   (at_most_1 (quotient (numerator rate) (denominator rate)))).
(** The positions among [lo, lo + n) with non-zero weight; the sum of these *)
Definition taps (w : Z -> F) (lo n : Z) : list Z := filter (fun i => f_ne fl (w i) (f0 fl)) (range lo n).
Definition total (w : Z -> F) (lo n : Z) : F := fold_left (f_add fl) (map w (taps w lo n)) (f0 fl).
(** The first and last of these positions, and all positions in between *)
Definition first_tap (w : Z -> F) (lo n : Z) : Z := hd 0 (taps w lo n).
Definition last_tap (w : Z -> F) (lo n : Z) : Z := last (taps w lo n) 0.
Definition tap_range (w : Z -> F) (lo n : Z) : list Z :=
  range (first_tap w lo n) (last_tap w lo n - first_tap w lo n + 1).
(** There are weights, with positive sum *)
Definition usable_weights (w : Z -> F) (lo n : Z) : Prop := taps w lo n <> [] /\ f_lt fl (f0 fl) (total w lo n) = true.
(** The sum of the [g i], each times its share of the weight *)
Definition weighted (w : Z -> F) (lo n : Z) (g : Z -> F) : F :=
  fold_left (f_add fl) (map (fun i => f_mul fl (g i) (f_div fl (w i) (total w lo n))) (tap_range w lo n)) (f0 fl).

(** Kernel arrays of the heap: the k-th of [ks] has the weights for output position [lo + k] *)
Definition kernel_is (h : heap F) (r : aref) (w : Z -> F) (lo n : Z) : Prop :=
  r_shape r = [mkD (first_tap w lo n) (last_tap w lo n - first_tap w lo n + 1) 1] /\
  forall i, In i (tap_range w lo n) -> holds h (elem (r_base r) (r_shape r) [i]) (f_div fl (w i) (total w lo n)).

(** The images have three dimensions, none of them empty in [out], and there are all channels
    of [out] in [in]; [in] has the values [f]; the elements of [out] are alive, distinct, and
    not elements of [in]; rates and kernel give weights for every position of [out]; there are
    at least 64 rows, and the temporary images are not too large *)
Record resampling (h : heap F) (I O : aref) (f : list Z -> F) (rx ry : rational) (kernel : F -> F)
  (ix iy ic ox oy oc : dim) : Prop := mkRs {
  rs_in : r_shape I = [ix; iy; ic];
  rs_out : r_shape O = [ox; oy; oc];
  rs_ext : extents_ge 0 [ix; iy; ic] /\ extents_ge 1 [ox; oy; oc];
  rs_chan : dmin ic <= dmin oc /\ dmin oc + dext oc <= dmin ic + dext ic;
  rs_rates : rate_ok rx (dmin ox) (dext ox) /\ rate_ok ry (dmin oy) (dext oy);
  rs_x : forall x, in_dim ox x -> usable_weights (weight kernel rx x) (dmin ix) (dext ix);
  rs_y : forall y, in_dim oy y -> usable_weights (weight kernel ry y) (dmin iy) (dext iy);
  rs_rows : 64 <= dext oy;
  rs_size : 64 * (dext ix + dext ox) * dext oc < 2 ^ 62;
  rs_shows : shows h I f;
  rs_alive : forall o, in_bounds (r_shape O) o -> alive h (elem (r_base O) (r_shape O) o);
  rs_inj : injective_layout (r_shape O);
  rs_apart : forall i, in_bounds (r_shape I) i -> ~ is_elem (r_base O) (r_shape O) (elem (r_base I) (r_shape I) i);
  rs_us : usable_heap h }.
(** The value of pixel (x, y, c) *)
Definition pixel (f : list Z -> F) (rx ry : rational) (kernel : F -> F) (ix iy : dim) (x y c : Z) : F :=
  weighted (weight kernel rx x) (dmin ix) (dext ix) (fun i =>
    weighted (weight kernel ry y) (dmin iy) (dext iy) (fun j => f [i; j; c])).
(** [run] leaves [w x y c] at each index of the output, and nothing else is changed: no object
    and no memory *)
Definition makes_image (h : heap F) (run : outcome (heap F)) (O : aref) (w : Z -> Z -> Z -> F) : Prop :=
  exists h', run = Ok h' /\
    (forall x y c, in_bounds (r_shape O) [x; y; c] -> holds h' (elem (r_base O) (r_shape O) [x; y; c]) (w x y c)) /\
    (forall p, ~ is_elem (r_base O) (r_shape O) p -> peek h' p = peek h p) /\
    (forall k, k <> fst (r_base O) -> h_blk h' k = h_blk h k).
End Resample.

(** ** Exact arithmetic *)

(** Rational numbers in place of floats *)
Definition exact : floats Q :=
  mkFl Q 0%Q 1%Q inject_Z Qplus Qminus Qmult Qdiv (fun a b => negb (Qle_bool b a)) (fun a b => negb (Qeq_bool a b)).
(** The position in [in] for [x] is between the outer edges of the first and last of the [n] pixels
    from [lo] *)
Definition inside (rate : rational) (lo n x : Z) : Prop :=
  (inject_Z lo - (1 # 2) <= position (val rate) x <= inject_Z (lo + n) - (1 # 2))%Q.
(** The kernel is nowhere negative, and positive up to half a pixel away *)
Definition positive_kernel (kernel : Q -> Q) : Prop :=
  forall s, (0 <= kernel s)%Q /\ ((-(1 # 2) <= s <= 1 # 2)%Q -> (0 < kernel s)%Q).
(** The kernel is 1 at 0 and 0 at the other integers *)
Definition interpolating (kernel : Q -> Q) : Prop :=
  forall s z, (s == inject_Z z)%Q -> (kernel s == if z =? 0 then 1 else 0)%Q.
(** The values of the kernel at distance 1 from each other, from [s] for [n] steps, sum to [v] *)
Fixpoint steps_sum (kernel : Q -> Q) (s : Q) (n : nat) : Q :=
  match n with O => 0%Q | S n' => (kernel s + steps_sum kernel (s + 1) n')%Q end.
(** The kernel vanishes outside of (-r, r), and wherever its grid of taps lies, the taps (2 r of them) sum to 1 *)
Definition unit_kernel (kernel : Q -> Q) (r : Q) (n : nat) : Prop :=
  (forall s, (r <= s \/ s <= - r)%Q -> (kernel s == 0)%Q) /\
  (forall s, (- r <= s <= - r + 1)%Q -> (steps_sum kernel s n == 1)%Q).
(** [run] leaves numbers satisfying [P x y c] in the output *)
Definition image_with (run : outcome (heap Q)) (O : aref) (P : Z -> Z -> Z -> Q -> Prop) : Prop :=
  exists h', run = Ok h' /\ forall x y c, in_bounds (r_shape O) [x; y; c] ->
    exists q, holds h' (elem (r_base O) (r_shape O) [x; y; c]) q /\ P x y c q.
