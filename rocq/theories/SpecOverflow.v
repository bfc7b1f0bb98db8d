(** Specification vocabulary for overflow in loops. *)
From Coq Require Import ZArith List.
From Verif Require Import Interval SpecChecked.
Import ListNotations.
Open Scope Z_scope.

(** min, extent, the last index and the one after it are values of type index_t; the extent is not negative *)
Definition is_interval (i : interval) : Prop :=
  is_index (imin i) /\ is_index (iext i) /\ 0 <= iext i /\
  is_index (imin i + iext i - 1) /\ is_index (imin i + iext i).
(** Sum of the distances of the mins from 0 *)
Definition far (s : list dim) : Z := fold_right Z.add 0 (map (fun d => Z.abs (dmin d)) s).
(** The distances that optimising the loops over [s] computes fit in index_t *)
Definition loops_fit (s : list dim) : Prop :=
  Forall is_dim s /\ Forall (fun d => Z.abs (dstr d) * dext d <= 9223372036854775807) s /\
  box_size s <= 9223372036854775807 /\ far s * box_size s <= 9223372036854775807.
(** Sum of the distances, in memory, of the mins of [dst] in [src] *)
Definition lead (src dst : list dim) : Z :=
  fold_right Z.add 0 (map (fun p => Z.abs (dmin (snd p) - dmin (fst p)) * Z.abs (dstr (fst p))) (combine src dst)).
