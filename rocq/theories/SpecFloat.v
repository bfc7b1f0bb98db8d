(** Specification of rounding to nearest, without the model of it. *)
From Coq Require Import ZArith QArith Qabs.
Local Open Scope Q_scope.

(** The numbers of [p] binary digits *)
Definition float_number (p : Z) (y : Q) : Prop := exists k e : Z, (Z.abs k <= 2 ^ p)%Z /\ y == inject_Z k * 2 ^ e.
(** [r] is a number of [p] digits, and none is nearer to [x] *)
Definition nearest_to (p : Z) (x r : Q) : Prop := float_number p r /\ forall y, float_number p y -> Qabs (r - x) <= Qabs (y - x).
(** [r] has an even last digit: it is a number of [p - 1] digits *)
Definition even_number (p : Z) (r : Q) : Prop := float_number (p - 1) r.
(** At all numbers of 24 digits, [k] is within [d] of [k'] *)
Definition near_kernels (k k' : Q -> Q) (d : Q) : Prop := forall s, float_number 24 s -> Qabs (k s - k' s) <= d.
(** A kernel with a weight near its centre that the others cannot cancel: at least 7/16 up to a distance of 33/64, from -5/64 to 17/16 everywhere, and 0 beyond 2 *)
Definition centred (k : Q -> Q) : Prop := forall s, float_number 24 s ->
  (Qabs s <= 33 # 64 -> 7 # 16 <= k s) /\ - (5 # 64) <= k s <= 17 # 16 /\ (2 < Qabs s -> k s == 0).
(** A kernel changes by at most [L] times what its argument does *)
Definition steep (L : Q) (k : Q -> Q) : Prop := forall s t, Qabs (k s - k t) <= L * Qabs (s - t).
