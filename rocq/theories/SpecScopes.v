(** Specification vocabulary for threads that declare arrays. *)
From Coq Require Import ZArith List Bool Arith.
From Verif Require Import Base Interval Shape Memory Ref Container Program Spec SpecMem SpecContainer SpecProgram SpecRelate.
Import ListNotations.

Section Scopes.
Context {V : Type}.
(** Array [x] of one state and array [y] of another both do not exist, or they have the same allocator, shape and
    elements.  Addresses may differ. *)
Definition looks_like (w : world V) (x : nat) (w' : world V) (y : nat) : Prop :=
  match w_arr w x, w_arr w' y with
  | Some a, Some a' =>
      a_al a = a_al a' /\ a_busy a = a_busy a' /\ is_null (a_buf a) = is_null (a_buf a') /\ a_shape a = a_shape a' /\
      forall i, in_bounds (a_shape a) i ->
        exists v, holds (w_heap w) (elem (a_base a) (a_shape a) i) v /\ holds (w_heap w') (elem (a_base a') (a_shape a') i) v
  | None, None => True
  | _, _ => False
  end.
End Scopes.
