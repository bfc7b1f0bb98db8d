(** Model of make_compact_copy and make_compact_move (include/array/array.h:2820-2829,
    2888-2903).  Definitions only. *)
From Coq Require Import ZArith List Bool.
From Verif Require Import Base Interval Shape Memory Ref Container Static.
Import ListNotations.
Open Scope Z_scope.

Section Compact.
Context {V : Type}.
Variable c : config V.

(** array.h:2820-2829 [make_compact_copy]; [ts] are the template arguments of the dims of
    [src] *)
Definition make_compact_copy (x : nat) (h : heap V) (src : aref) (ts : list dimT) (al : nat)
  : outcome (heap V * arr) :=
  r <- make_compact (c_ndebug c) (combine ts (r_shape src)) ;;
  make_copy c x h src (map snd r) al.
(** array.h:2888-2899 [make_compact_move] of a ref or an lvalue *)
Definition make_compact_move (x : nat) (h : heap V) (src : aref) (ts : list dimT) (al : nat)
  : outcome (heap V * arr) :=
  r <- make_compact (c_ndebug c) (combine ts (r_shape src)) ;;
  make_move c x h src (map snd r) al.

End Compact.
