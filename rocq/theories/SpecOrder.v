(** Specification vocabulary for the order of value loops.  Of the model only the types are used. *)
From Coq Require Import ZArith List Sorted.
From Verif Require Import Base Interval Shape Spec.
Import ListNotations.
Open Scope Z_scope.

(** Walking to the end of [a] is one step along [b] *)
Definition contiguous (a b : dim) : Prop := dstr a * dext a = dstr b.
(** The same for a source and a destination, with equal extents in the inner dimension *)
Definition contiguous2 (a b : dim * dim) : Prop :=
  dext (fst a) = dext (snd a) /\ contiguous (fst a) (fst b) /\ contiguous (snd a) (snd b).
(** No element of the list is related to the one after it *)
Definition no_neighbours {A : Type} (R : A -> A -> Prop) (l : list A) : Prop :=
  forall k a b, nth_error l k = Some a -> nth_error l (S k) = Some b -> ~ R a b.
(** Strides do not decrease *)
Definition by_stride (l : list dim) : Prop := StronglySorted (fun a b => dstr a <= dstr b) l.
(** Strides of dims with more than one element are positive *)
Definition forward (l : list dim) : Prop := Forall (fun d => 1 < dext d -> 0 < dstr d) l.
(** One loop over the elements 0, ..., n - 1, in [r] dimensions *)
Definition one_loop (n : Z) (r : nat) (l : list dim) : Prop :=
  exists m, l = mkD m n 1 :: repeat (mkD 0 1 0) (r - 1).
