(** Specification vocabulary for copies between views that share elements. *)
From Coq Require Import ZArith List Bool.
From Verif Require Import Base Interval Shape Memory Spec SpecMem.
Import ListNotations.
Open Scope Z_scope.

(** Dims that more than one index uses go up in memory *)
Definition ascending (s : list dim) : Prop := Forall (fun d => 1 < dext d -> 0 < dstr d) s.
(** No element of the destination lies after the element of the source that is copied to it *)
Definition moves_down (src : ptr) (ssrc : list dim) (dst : ptr) (sdst : list dim) : Prop :=
  fst src = fst dst ->
  forall i, in_bounds sdst i -> snd (elem dst sdst i) <= snd (elem src ssrc i).
(** Views of one dimension on the same elements, [k] indices apart: index i of the destination
    is where index i + k of the source would be *)
Definition shifted (src : ptr) (ds : dim) (dst : ptr) (dd : dim) (k : Z) : Prop :=
  dstr ds = dstr dd /\ dstr ds <> 0 /\ forall i, elem dst [dd] [i] = elem src [ds] [i + k].
