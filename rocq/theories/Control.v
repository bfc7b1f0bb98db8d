(** Model of programs with control flow.  A program is a function that chooses its next statement from its own variables
    and from what it has seen: the values it has read (include/array/array.h:2080-2086 [operator[]]), and for each array
    and array_ref what the accessors of include/array/array.h:2118-2148, 2540, 2589-2613 return.
    The statements are those of Views.v.  Definitions only.

    Simplifications.  As in Views.v.  Addresses are not seen: a program can test [data()] for null, but its choices do
    not depend on where its arrays are.  All accessors that return something about the shape are one, the shape. *)
From Coq Require Import ZArith List Bool.
From Verif Require Import Base Interval Shape Memory Ref Container Program Views.
Import ListNotations.
Open Scope Z_scope.

(** What a program sees of an array: array.h:2540 [get_allocator], 2589-2592 whether [data()] is null, 2595 [shape] *)
Record look := mkLook { l_alloc : nat; l_null : bool; l_dims : list dim }.
(** Not library code: what a program has seen, the last value read first; the arrays by name *)
Record sight (V : Type) := mkSight { s_read : list V; s_arrays : list (option look); s_refs : list (list dim) }.
Arguments mkSight {V}.
Arguments s_read {V}.
Arguments s_arrays {V}.
Arguments s_refs {V}.

Section Control.
Context {V K : Type}.
Variable c : config V.

(** array.h:2540, 2589-2592, 2595 *)
Definition look_at (a : arr) : look := mkLook (a_al a) (is_null (pointer_add (a_base a) (flat_min (a_shape a)))) (a_shape a).
(** Not library code: all that a program can see; array.h:2119-2120 [shape] of array_refs *)
Definition sees (st : vstate V) : sight V :=
  mkSight (vs_out st) (map (fun x => option_map look_at (w_arr (vs_world st) x)) (seq 0 (w_next (vs_world st))))
          (map r_shape (vs_refs st)).

(** Not library code: a program, which has variables of type [K]; [None] is the end. *)
Variable turn : K -> sight V -> option (vact V * K).
(** Not library code: at most [n] statements of the program *)
Fixpoint play (n : nat) (k : K) (st : vstate V) : outcome (K * vstate V) :=
  match n with
  | O => Ok (k, st)
  | S n => match turn k (sees st) with
           | None => Ok (k, st)
           | Some (o, k') => st' <- vstep c st o ;; play n k' st'
           end
  end.
End Control.
