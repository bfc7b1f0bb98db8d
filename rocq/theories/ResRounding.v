(** Floats of resample.h whose operations round their results.

    Simplified: as in Rounding.v.  Definitions only. *)
From Coq Require Import ZArith QArith.
From Verif Require Import Resample Rounding.
Local Open Scope Q_scope.

(** C++ [float], resample.h:31-157: conversions, sums, differences, products and quotients are rounded, comparisons are exact *)
Definition rounded (rnd : Q -> Q) : floats Q :=
  mkFl Q 0 1 (fun z => rnd (inject_Z z)) (radd rnd) (fun a b => rnd (a - b)) (rmul rnd) (fun a b => rnd (a / b))
    (fun a b => negb (Qle_bool b a)) (fun a b => negb (Qeq_bool a b)).
