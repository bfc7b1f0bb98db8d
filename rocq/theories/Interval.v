(** Model of intervals, dims and split iterators (include/array/array.h:95-647).
    Definitions only. *)
From Coq Require Import ZArith List Bool.
From Verif Require Import Base.
Import ListNotations.
Open Scope Z_scope.

(** array.h:99 *)
Definition dynamic : Z := -9.
(** array.h:103 *)
Definition unresolved : Z := index_min.
(** array.h:112 [abs] *)
Definition cabs (x : Z) : Z := if x >=? 0 then x else - x.
(** array.h:115 *)
Definition is_dynamic (x : Z) : bool := x =? dynamic.
(** array.h:114 *)
Definition is_static (x : Z) : bool := negb (x =? dynamic).
(** array.h:118 *)
Definition is_unresolved (x : Z) : bool := x =? unresolved.
(** array.h:117 *)
Definition is_resolved_stride (x : Z) : bool := negb (x =? unresolved).
(** array.h:171-173 [internal::max] *)
Definition cmax (a b : Z) : Z := if a <? b then b else a.
(** array.h:176-178 [internal::min] *)
Definition cmin (a b : Z) : Z := if b <? a then b else a.

(** ** Intervals *)

(** array.h:248-252: run-time part of [interval]. *)
Record interval := mkI { imin : Z; iext : Z }.
(** array.h:301 [interval::max] *)
Definition imax (i : interval) : Z := imin i + iext i - 1.
(** array.h:294 [set_min] (dynamic parameters) *)
Definition iset_min (i : interval) (m : Z) : interval := mkI m (iext i).
(** array.h:298 [set_extent] *)
Definition iset_extent (i : interval) (e : Z) : interval := mkI (imin i) e.
(** array.h:302 [set_max] *)
Definition iset_max (i : interval) (m : Z) : interval := iset_extent i (m - imin i + 1).
(** array.h:305-307 [is_in_range(index_t)] *)
Definition i_in_range (i : interval) (at_ : Z) : bool := (imin i <=? at_) && (at_ <=? imax i).
(** array.h:310-319 [is_in_range(interval)] and [is_in_range(dim)] *)
Definition i_in_range_interval (i at_ : interval) : bool :=
  (imin i <=? imin at_) && (imax at_ <=? imax i).
(** array.h:344-349 [range], [r] *)
Definition range (b e : Z) : interval := mkI b (e - b).
(** array.h:363 the placeholder [_] is [interval<0,-1>] *)
Definition all_placeholder : interval := mkI 0 (-1).
(** array.h:329-332 [operator==] *)
Definition i_eqb (a b : interval) : bool := (imin a =? imin b) && (iext a =? iext b).
(** array.h:376-378 [clamp(x, min, max)] *)
Definition clamp3 (x mn mx : Z) : Z := cmin (cmax x mn) mx.
(** array.h:382-385 [clamp(x, range)] *)
Definition clamp_to (x : Z) (i : interval) : Z := clamp3 x (imin i) (imax i).

(** Range-for over an interval: [begin()] = min, [end()] = max+1 (array.h:322-324),
    [!=], [*] and [++] of [index_iterator] (array.h:191-206).  The loop is given as a
    relation: it either finishes having visited [l], or it increments an iterator that
    holds the largest index (signed overflow). *)
Inductive range_for : Z -> Z -> list Z -> Prop :=
| rf_done e : range_for e e []
| rf_step i e l : i <> e -> i < index_max -> range_for (i + 1) e l -> range_for i e (i :: l).
(** array.h:202-205: the same loop, when it increments the largest index *)
Inductive range_for_overflows : Z -> Z -> Prop :=
| rfo_now e : index_max <> e -> range_for_overflows index_max e
| rfo_step i e : i <> e -> i < index_max -> range_for_overflows (i + 1) e -> range_for_overflows i e.

(** array.h:191-206: executable version of the same loop.  The fuel is the number of iterations after
    which the end can no longer be reached; running out of it means overflow. *)
Fixpoint range_loop (fuel : nat) (i e : Z) : outcome (list Z) :=
  match fuel with
  | O => UB
  | S f => if i =? e then Ok [] else r <- range_loop f (i + 1) e ;; Ok (i :: r)
  end.
(** Range-for from [begin] holding [b] to [end] holding [e], array.h:191-206 *)
Definition range_list (b e : Z) : outcome (list Z) := range_loop (S (Z.to_nat (e - b))) b e.
(** for (index_t i : interval), array.h:322-324 *)
Definition for_interval (i : interval) : outcome (list Z) := range_list (imin i) (imax i + 1).

(** ** Dims *)

(** array.h:397-413: run-time part of [dim]. *)
Record dim := mkD { dmin : Z; dext : Z; dstr : Z }.
(** array.h:397 [dim] derives from [interval] *)
Definition d_interval (d : dim) : interval := mkI (dmin d) (dext d).
(** array.h:301, 463 [dim::max] *)
Definition dmax (d : dim) : Z := dmin d + dext d - 1.
(** array.h:472-478 [set_stride] (dynamic stride) *)
Definition set_stride (d : dim) (s : Z) : dim := mkD (dmin d) (dext d) s.
(** array.h:481-483 [dim::flat_offset] *)
Definition dim_flat_offset (d : dim) (at_ : Z) : Z := (at_ - dmin d) * dstr d.
(** array.h:488-491 [operator==] *)
Definition dim_eqb (a b : dim) : bool :=
  (dmin a =? dmin b) && (dext a =? dext b) && (dstr a =? dstr b).
(** for (index_t i : dim), array.h:458-459 uses the interval's begin/end *)
Definition for_dim (d : dim) : outcome (list Z) := for_interval (d_interval d).

(** ** Split iterators *)

(** array.h:522-525 [split_iterator]: current interval and [outer_max]. *)
Record split_iter := mkSI { si_i : interval; si_outer_max : Z }.

(** array.h:540-558 [operator+=], static inner extent [N] (the [is_static] branch). *)
Definition si_add_static (N : Z) (it : split_iter) (n : Z) : split_iter :=
  let i := mkI (imin (si_i it) + N * n) N in
  if (imin i <=? si_outer_max it) && (imax i >? si_outer_max it)
  then mkSI (mkI (si_outer_max it - N + 1) N) (si_outer_max it)
  else mkSI i (si_outer_max it).
(** array.h:540-558 [operator+=], dynamic branch. *)
Definition si_add_dynamic (it : split_iter) (n : Z) : split_iter :=
  let i := iset_min (si_i it) (imin (si_i it) + iext (si_i it) * n) in
  let mx := cmin (imax i) (si_outer_max it) in
  mkSI (iset_extent i (mx - imin i + 1)) (si_outer_max it).
(** array.h:541 [assert(n >= 0)] *)
Definition si_add (inner : option Z) (ndebug : bool) (it : split_iter) (n : Z) : outcome split_iter :=
  _ <- assert_ ndebug (n >=? 0) ;;
  Ok (match inner with Some N => si_add_static N it n | None => si_add_dynamic it n end).
(** array.h:563-565 [operator++] *)
Definition si_next (inner : option Z) (it : split_iter) : split_iter :=
  match inner with Some N => si_add_static N it 1 | None => si_add_dynamic it 1 end.
(** array.h:530-535 iterators are compared by the min of their interval *)
Definition si_eqb (a b : split_iter) : bool := imin (si_i a) =? imin (si_i b).
(** array.h:572-574 [operator-]; C++ division truncates *)
Definition si_diff (l r : split_iter) : Z :=
  if iext (si_i r) >? 0
  then Z.quot (imax (si_i l) - imin (si_i r) + iext (si_i r) - iext (si_i l)) (iext (si_i r))
  else 0.

(** array.h:584-600 [split_result] *)
Record split_result := mkSR { sr_begin : split_iter; sr_end : split_iter }.
(** array.h:598 [size] *)
Definition sr_size (r : split_result) : Z := si_diff (sr_end r) (sr_begin r).
(** array.h:599 [operator[]] *)
Definition sr_at (inner : option Z) (r : split_result) (k : Z) : split_iter :=
  match inner with
  | Some N => si_add_static N (sr_begin r) k
  | None => si_add_dynamic (sr_begin r) k
  end.
(** array.h:614-620 [split<InnerExtent>] *)
Definition split_static (ndebug : bool) (N : Z) (v : interval) : outcome split_result :=
  _ <- assert_ ndebug (iext v >=? N) ;;
  Ok (mkSR (mkSI (mkI (imin v) N) (imax v)) (mkSI (mkI (imax v + 1) N) (imax v))).
(** array.h:637-641 [split(v, inner_extent)] *)
Definition split_dynamic (v : interval) (n : Z) : split_result :=
  mkSR (mkSI (mkI (imin v) (cmin n (iext v))) (imax v)) (mkSI (mkI (imax v + 1) 0) (imax v)).

(** for (auto i : split(...)) (array.h:530-570, 595-596): the loop as a relation
    (visited intervals), and an executable version whose fuel bounds the number of
    increments; running out of it is reported as [UB]. *)
Inductive split_for (inner : option Z) : split_iter -> split_iter -> list interval -> Prop :=
| sf_done it e : si_eqb it e = true -> split_for inner it e []
| sf_step it e l : si_eqb it e = false -> split_for inner (si_next inner it) e l ->
    split_for inner it e (si_i it :: l).
(** array.h:530-570, 595-596: the executable version *)
Fixpoint split_loop (inner : option Z) (fuel : nat) (it e : split_iter) : outcome (list interval) :=
  match fuel with
  | O => UB
  | S f => if si_eqb it e then Ok []
           else r <- split_loop inner f (si_next inner it) e ;; Ok (si_i it :: r)
  end.
