(** Specification of the z-order curve. *)
From Coq Require Import ZArith List Bool.
From Verif Require Import Spec.
Import ListNotations.
Open Scope Z_scope.

(** The points of the box with the given extents, at the origin *)
Definition in_box (ext z : list Z) : Prop := Forall2 (fun e x => 0 <= x < e) ext z.
(** [z] comes before [w] on the curve: the most significant bit in which they differ, taking
    all bits of weight k+1 before those of weight k and, among bits of equal weight, higher
    dimensions first, is 0 in [z] and 1 in [w]. *)
Definition z_before (z w : list Z) : Prop :=
  exists (k : Z) (d : nat), 0 <= k /\
    Z.testbit (nth d z 0) k = false /\ Z.testbit (nth d w 0) k = true /\
    forall (e : nat) (j : Z), k < j \/ j = k /\ (d < e)%nat ->
      Z.testbit (nth e z 0) j = Z.testbit (nth e w 0) j.
