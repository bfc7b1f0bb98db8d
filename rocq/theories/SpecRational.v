(** Specification of rational numbers: Coq's Q. *)
From Coq Require Import ZArith QArith.
From Verif Require Import Base Rational.
Open Scope Z_scope.

(** The rational number denoted (for a positive denominator) *)
Definition val (r : rational) : Q := (numerator r # Z.to_pos (denominator r))%Q.
(** Denominator positive and fitting in an index_t *)
Definition ok_den (r : rational) : Prop := 0 < denominator r <= index_max.
(** In lowest terms *)
Definition reduced (r : rational) : Prop := Z.gcd (numerator r) (denominator r) = 1.
(** An intermediate result fits in an index_t *)
Definition fits (x : Z) : Prop := index_min < x <= index_max.
