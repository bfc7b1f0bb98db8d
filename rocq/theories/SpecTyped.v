(** Specification vocabulary for typed intervals and slices.  Of the model only the record
    types are used. *)
From Coq Require Import ZArith List Bool.
From Verif Require Import Base Interval Shape Spec Static SpecStatic Typed.
Import ListNotations.
Open Scope Z_scope.

(** A run-time interval that a variable of this type can hold *)
Definition int_fits (t : intT) (i : interval) : Prop := fits (itmin t) (imin i) /\ fits (itext t) (iext i).
(** What a variable of static parameter [t] holds after being given [v] without checks *)
Definition kept_or (t v r : Z) : Prop := (t = -9 -> r = v) /\ (t <> -9 -> r = t).
(** An argument holds a value its type allows. *)
Definition arg_fits (a : targ) : Prop :=
  match a with TIdx _ => True | TInt t i => int_fits t i | TDim t d => dim_fits t d end.
(** An argument that asks for the whole dimension *)
Definition whole (a : targ) : Prop :=
  match a with TInt t _ => itmin t = 0 /\ itext t = -1 | _ => False end.
(** The dims of a slice: an index removes the dimension, [_] keeps it, an interval or a dim
    gives it new bounds (both the static and the run-time ones) and leaves the stride. *)
Inductive slice_of : list (dimT * dim) -> list targ -> list (dimT * dim) -> Prop :=
| slice_nil : slice_of [] [] []
| slice_index : forall td l x args r, slice_of l args r -> slice_of (td :: l) (TIdx x :: args) r
| slice_whole : forall td l a args r, whole a -> slice_of l args r ->
    slice_of (td :: l) (a :: args) (td :: r)
| slice_interval : forall t d l ti i args r, ~ whole (TInt ti i) -> slice_of l args r ->
    slice_of ((t, d) :: l) (TInt ti i :: args)
      ((mkDT (itmin ti) (itext ti) (tstr t), mkD (imin i) (iext i) (dstr d)) :: r)
| slice_dim : forall t d l tc c args r, slice_of l args r ->
    slice_of ((t, d) :: l) (TDim tc c :: args)
      ((mkDT (tmin tc) (text tc) (tstr t), mkD (dmin c) (dext c) (dstr d)) :: r).
