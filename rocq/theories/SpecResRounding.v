(** Specification vocabulary for rounding errors of resampling. *)
From Coq Require Import ZArith QArith Qabs List.
From Verif Require Import Interval Shape SpecEin Rational SpecRational SpecResample SpecRounding.
Import ListNotations.
Local Open Scope Q_scope.

(** The sum of the [g i] *)
Definition sum_of (l : list Z) (g : Z -> Q) : Q := fold_left Qplus (map g l) 0.
(** The average of the [g i] with weights [w i], over the [n] positions from [lo] *)
Definition average (w : Z -> Q) (lo n : Z) (g : Z -> Q) : Q := sum_of (range lo n) (fun i => g i * w i) / sum_of (range lo n) w.
(** The average over columns of the averages over rows *)
Definition average2 (wx wy : Z -> Q) (ix iy : dim) (f : Z -> Z -> Q) : Q :=
  average wx (dmin ix) (dext ix) (fun i => average wy (dmin iy) (dext iy) (fun j => f i j)).
(** Negative weights do not cancel the positive ones: the absolute values sum up to at most [k] times the weights *)
Definition conditioned (k : Q) (w : Z -> Q) (lo n : Z) : Prop :=
  0 <= k /\ sum_of (range lo n) (fun i => Qabs (w i)) <= k * sum_of (range lo n) w.
(** Some weight is not 0, and all of those are within [N] positions *)
Definition taps_within (N : nat) (w : Z -> Q) (lo n : Z) : Prop :=
  (exists i, (lo <= i < lo + n)%Z /\ ~ w i == 0) /\
  exists a, forall i, (lo <= i < lo + n)%Z -> ~ w i == 0 -> (a <= i < a + Z.of_nat N)%Z.
(** What rounding can add to an average of numbers up to 1 *)
Definition average_error (u k : Q) (N : nat) : Q := k * (grow u (S (S N)) / (1 - (grow u N - 1) * k) - 1).
(** and to an average of averages *)
Definition image_error (u kx ky : Q) (Nx Ny : nat) : Q :=
  (kx + average_error u kx Nx) * (ky + average_error u ky Ny) - kx * ky.
(** Numbers of up to 1/2 stay so, and 1/2 is a number of the format *)
Definition keeps_half (rnd : Q -> Q) : Prop := (forall x, Qabs x <= 1 # 2 -> Qabs (rnd x) <= 1 # 2) /\ (forall x, x == 1 # 2 -> rnd x == 1 # 2).
(** The position in [in] for [x] is at least [d] from the outer edges of the first and last of the [n] pixels from [lo] *)
Definition inside_by (d : Q) (rate : rational) (lo n x : Z) : Prop :=
  inject_Z lo - (1 # 2) + d <= position (val rate) x <= inject_Z (lo + n) - (1 # 2) - d.
(** The weights [w'] are within [d] of [w]; none is negative; those that are not both 0 are within [M]
    positions; and the [w] sum up to at least [t] *)
Definition near_weights (d : Q) (M : nat) (t : Q) (w' w : Z -> Q) (lo n : Z) : Prop :=
  (forall i, (lo <= i < lo + n)%Z -> 0 <= w' i /\ 0 <= w i /\ Qabs (w' i - w i) <= d) /\
  (exists a, forall i, (lo <= i < lo + n)%Z -> ~ (w' i == 0 /\ w i == 0) -> (a <= i < a + Z.of_nat M)%Z) /\
  0 < t /\ t <= sum_of (range lo n) w.
(** What the difference can add to an average of numbers up to 1 *)
Definition weights_error (d : Q) (M : nat) (t : Q) : Q := 2 * inject_Z (Z.of_nat M) * d / t.
