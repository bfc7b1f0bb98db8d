(** Model of the operands [ein] makes of objects that are not arrays, and of the expressions of the
    README (include/array/ein_reduce.h:330-373; README.md:285-311).  Definitions only. *)
From Coq Require Import ZArith List Bool.
From Verif Require Import Base Interval Shape Memory Ref Ein.
Import ListNotations.
Open Scope Z_scope.

(** ein_reduce.h:358-361 [ein(scalar)]: the array_ref and its indices; array_ref's constructor
    resolves the shape (array.h:2054-2057) *)
Definition ein_scalar (p : ptr) : aref * list nat := (make_ref p [], []).
(** Conversion of size_t to index_t, ein_reduce.h:366 *)
Definition to_index (N : Z) : Z := if N <? 2 ^ 63 then N else N - 2 ^ 64.
(** ein_reduce.h:364-367 [ein<I0>(x, N)] *)
Definition ein_pointer (I0 : nat) (x : ptr) (N : Z) : aref * list nat :=
  (make_ref x [mkD 0 (to_index N) 1], [I0]).
(** ein_reduce.h:370-373 [ein<I0>(x)] of a C array with [N] elements *)
Definition ein_carray (I0 : nat) (x : ptr) (N : Z) : aref * list nat := (make_ref x [mkD 0 N 1], [I0]).
(** ein_reduce.h:73-87 [ein_op] of such an operand *)
Definition operand {V : Type} (o : aref * list nat) : expr V := EArr (fst o) (snd o).

(** array.h:170-173 [internal::max], ein_reduce.h:171-183, 191 [ein_op_max] of values compared by [lt] *)
Definition max_of {V : Type} (lt : V -> V -> bool) (a b : V) : V := if lt a b then b else a.
(** README.md:292 [epsilon3]; test/ein_reduce.cpp:144-154 *)
Definition epsilon3 (l : list Z) : Z :=
  let i := nth 0 l 0 in let j := nth 1 l 0 in let k := nth 2 l 0 in
  Z.sgn (j - i) * Z.sgn (k - i) * Z.sgn (k - j).
