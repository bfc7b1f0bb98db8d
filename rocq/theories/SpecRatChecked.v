(** Specification vocabulary for overflow in rational numbers. *)
From Coq Require Import ZArith QArith.
From Verif Require Import Base Rational SpecRational SpecChecked.
Open Scope Z_scope.

(** The numerator and the denominator are values of type index_t *)
Definition is_rational (r : rational) : Prop := is_index (numerator r) /\ is_index (denominator r).
(** The number is one that can be told from 0 / 0, and reducing it computes neither |INT64_MIN| nor
    INT64_MIN / -1 *)
Definition reducible (n d : Z) : Prop :=
  d <> -9223372036854775808 /\ ~ (n = 0 /\ d = 0) /\ ~ (n = -9223372036854775808 /\ d = -1).
(** [r] is n / d in lowest terms; a positive denominator stays positive *)
Definition lowest (n d : Z) (r : rational) : Prop :=
  numerator r * d = n * denominator r /\ Z.gcd (numerator r) (denominator r) = 1 /\ (0 < d -> 0 < denominator r).
(** Values of type index_t, the denominator positive *)
Definition positive (r : rational) : Prop := is_rational r /\ 0 < denominator r.
(** The numbers that comparing, adding, ... [l] and [r] computes are values of type index_t *)
Definition cmp_fits (l r : rational) : Prop :=
  is_index (numerator l * denominator r) /\ is_index (numerator r * denominator l).
Definition add_fits (l r : rational) : Prop :=
  cmp_fits l r /\ is_index (numerator l * denominator r + numerator r * denominator l) /\ is_index (denominator l * denominator r).
Definition sub_fits (l r : rational) : Prop :=
  cmp_fits l r /\ is_index (numerator l * denominator r - numerator r * denominator l) /\ is_index (denominator l * denominator r).
Definition mul_fits (l r : rational) : Prop :=
  is_index (numerator l * numerator r) /\ is_index (denominator l * denominator r).
Definition div_fits (l r : rational) : Prop :=
  is_index (numerator l * denominator r) /\ is_index (denominator l * numerator r).
Definition round_fits (r : rational) : Prop :=
  is_index (2 * numerator r) /\ is_index (2 * numerator r + denominator r) /\ is_index (2 * denominator r).
(** Numerator and denominator fit in 32 bits *)
Definition small (r : rational) : Prop := Z.abs (numerator r) <= 2147483647 /\ 1 <= denominator r <= 2147483647.
(** [run] is defined and gives a positive denominator, lowest terms and the number [v] if [fits]; otherwise
    it is undefined *)
Definition exactly_if (fits : Prop) (run : outcome rational) (v : Q) : Prop :=
  (fits -> exists x, run = Ok x /\ positive x /\ reduced x /\ (val x == v)%Q) /\ (~ fits -> run = UB).
(** The same for a value that is not a rational *)
Definition value_if {A : Type} (fits : Prop) (run : outcome A) (P : A -> Prop) : Prop :=
  (fits -> exists x, run = Ok x /\ P x) /\ (~ fits -> run = UB).
(** Numerator and denominator *)
Definition fraction (q : rational) : Z * Z := (numerator q, denominator q).
Definition fraction_q (p : Q) : Z * Z := (Qnum p, QDen p).
