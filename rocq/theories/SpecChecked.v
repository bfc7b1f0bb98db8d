(** Specification vocabulary for overflow: which values fit in index_t, and how far a layout
    reaches. *)
From Coq Require Import ZArith List.
From Verif Require Import Interval.
Import ListNotations.
Open Scope Z_scope.

(** A value of type index_t *)
Definition is_index (x : Z) : Prop := -9223372036854775808 <= x <= 9223372036854775807.
(** min, extent and stride are values of type index_t, the extent is not negative *)
Definition is_dim (d : dim) : Prop := is_index (dmin d) /\ is_index (dext d) /\ is_index (dstr d) /\ 0 <= dext d.
(** Sum of |extent - 1| * |stride|: an upper bound of the distance of two elements *)
Definition reach (s : list dim) : Z :=
  fold_right Z.add 0 (map (fun d => Z.abs (dext d - 1) * Z.abs (dstr d)) s).
(** Product of the extents, not counting those that are 0 *)
Definition box_size (s : list dim) : Z := fold_right Z.mul 1 (map (fun d => Z.max 1 (dext d)) s).
(** The last index of every dimension and the one after it are values of type index_t *)
Definition ends_fit (s : list dim) : Prop :=
  Forall (fun d => is_index (dmin d + dext d) /\ is_index (dmin d + dext d - 1)) s.
