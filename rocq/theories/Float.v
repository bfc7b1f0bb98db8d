(** Numbers of [p] binary digits, rounded to nearest with ties to even, as IEEE 754 has them (24 digits for float).

    Simplified: exponents are unbounded, so there is no overflow and no underflow; zeros have no sign.  Definitions only. *)
From Coq Require Import ZArith QArith Qabs Qround.
From Verif Require Import Resample ResRounding.
Local Open Scope Q_scope.

(** The power of 2 at or below a number, for resample.h:31-157 (float) *)
Definition exponent (x : Q) : Z :=
  let e := (Z.log2 (Z.abs (Qnum x)) - Z.log2 (Zpos (Qden x)))%Z in
  if Qle_bool (2 ^ e) (Qabs x) then e else (e - 1)%Z.
(** The nearest integer, an even one if there are two; resample.h:31-157 (float) *)
Definition half_even (y : Q) : Z :=
  let k := Qfloor y in
  match Qcompare (y - inject_Z k) (1 # 2) with
  | Lt => k
  | Gt => (k + 1)%Z
  | Eq => if Z.even k then k else (k + 1)%Z
  end.
(** The rounded result of an operation of resample.h:31-157 on floats *)
Definition nearest (p : Z) (x : Q) : Q :=
  if Qeq_bool x 0 then 0
  else let s := (p - 1 - exponent x)%Z in inject_Z (half_even (x * 2 ^ s)) * 2 ^ (- s).
(** C++ [float], resample.h:31-157, where it is IEEE 754 binary32, every operation is rounded to it, and none are contracted *)
Definition float32 : floats Q := rounded (nearest 24).
