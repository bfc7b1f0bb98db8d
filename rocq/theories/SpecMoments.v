(** Specification vocabulary for images that resampling reproduces. *)
From Coq Require Import ZArith QArith List.
From Verif Require Import Rational SpecRational SpecResample.
Local Open Scope Q_scope.

(** Equal numbers get equal weights *)
Definition respectful (kernel : Q -> Q) : Prop := forall s t, s == t -> kernel s == kernel t.
(** Wherever the grid of taps of a kernel of radius [r] lies, its distances from the centre, weighted, sum up to 0 *)
Definition balanced (kernel : Q -> Q) (r : Q) (n : nat) : Prop :=
  forall s, - r <= s <= - r + 1 -> steps_sum (fun t => t * kernel t) s n == 0.
(** and so do their squares *)
Definition flat (kernel : Q -> Q) (r : Q) (n : nat) : Prop :=
  forall s, - r <= s <= - r + 1 -> steps_sum (fun t => t * t * kernel t) s n == 0.
(** All positions within [r] of the one for [x] are among the [n] from [lo] *)
Definition surrounded (r : Q) (rate : rational) (lo n x : Z) : Prop :=
  inject_Z lo + r <= position (val rate) x <= inject_Z (lo + n - 1) - r.
