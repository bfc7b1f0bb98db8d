(** Specification vocabulary for compile-time parameters.  Of the model only the record
    types are used. *)
From Coq Require Import ZArith List Bool.
From Verif Require Import Base Interval Shape Spec Static.
Import ListNotations.
Open Scope Z_scope.

(** The value [v] is allowed by the template argument [t]; -9 allows every value. *)
Definition fits (t v : Z) : Prop := t = -9 \/ v = t.
(** A run-time dim that a variable of this type can hold *)
Definition dim_fits (t : dimT) (d : dim) : Prop :=
  fits (tmin t) (dmin d) /\ fits (text t) (dext d) /\ fits (tstr t) (dstr d).
(** The same, but a stride that is not given yet is allowed too. *)
Definition dim_converts (t : dimT) (d : dim) : Prop :=
  fits (tmin t) (dmin d) /\ fits (text t) (dext d) /\ (unknown_stride d \/ fits (tstr t) (dstr d)).
(** [d'] is [d], or [d] with its missing stride filled in from the type *)
Definition converted (t : dimT) (d d' : dim) : Prop :=
  dmin d' = dmin d /\ dext d' = dext d /\
  (~ unknown_stride d -> dstr d' = dstr d) /\
  (unknown_stride d -> tstr t = -9 -> unknown_stride d') /\
  (unknown_stride d -> tstr t <> -9 -> dstr d' = tstr t).
(** [v'] is [v] where the type leaves it open, and otherwise what the type says *)
Definition forced (t v v' : Z) : Prop := (t = -9 -> v' = v) /\ (t <> -9 -> v' = t).
(** A dimension of extent 1 that was added to a shape *)
Definition added (t : dimT) (d : dim) : Prop :=
  dext d = 1 /\ (tmin t = -9 -> dmin d = 0) /\ (tmin t <> -9 -> dmin d = tmin t).
(** Same mins and extents *)
Definition same_bounds (a b : dim) : Prop := dmin a = dmin b /\ dext a = dext b.
(** Product of the extents *)
Definition volume (s : list dim) : Z := fold_right Z.mul 1 (map dext s).
(** The offsets of the in-range indices are exactly [volume s] consecutive numbers, each taken
    by exactly one index. *)
Definition gapless (s : list dim) : Prop :=
  injective_layout s /\
  exists lo, forall o, lo <= o < lo + volume s <-> exists i, in_bounds s i /\ offset s i = o.
