(** Intervals, dims and slices with compile-time parameters: constructors, conversions,
    assignments and setters of [interval] (include/array/array.h:143-167, 245-303, 344-361),
    assignment of [dim] (427-428, 447-455), and slicing of typed shapes (738-783, 1187-1199).
    Definitions only. *)
From Coq Require Import ZArith List Bool.
From Verif Require Import Base Interval Shape Static.
Import ListNotations.
Open Scope Z_scope.

(** ** Typed intervals *)

(** array.h:247-248: the template arguments of [interval] *)
Record intT := mkIT { itmin : Z; itext : Z }.
(** array.h:148-151, 161-164 [constexpr_index::operator=]: assigning to a static value asserts
    and changes nothing *)
Definition cassign (nd : bool) (t old x : Z) : outcome Z :=
  if is_static t then _ <- assert_ nd (x =? t) ;; Ok old else Ok x.
(** array.h:265 [interval(min, extent)] *)
Definition make_interval (nd : bool) (t : intT) (mn ex : Z) : outcome interval :=
  m <- cindex nd (itmin t) mn ;; e <- cindex nd (itext t) ex ;; Ok (mkI m e).
(** array.h:266-267 [interval(min)] *)
Definition make_interval_min (nd : bool) (t : intT) (mn : Z) : outcome interval :=
  make_interval nd t mn (if is_static (itext t) then itext t else 1).
(** array.h:268 [interval()] *)
Definition default_interval (nd : bool) (t : intT) : outcome interval :=
  make_interval_min nd t (if is_static (itmin t) then itmin t else 0).
(** array.h:278-282 [interval(const interval<CopyMin, CopyExtent>&)] *)
Definition convert_interval (nd : bool) (t : intT) (i : interval) : outcome interval :=
  make_interval nd t (imin i) (iext i).
(** array.h:294 [set_min] *)
Definition set_min_T (nd : bool) (t : intT) (i : interval) (mn : Z) : outcome interval :=
  m <- cassign nd (itmin t) (imin i) mn ;; Ok (mkI m (iext i)).
(** array.h:298 [set_extent] *)
Definition set_extent_T (nd : bool) (t : intT) (i : interval) (ex : Z) : outcome interval :=
  e <- cassign nd (itext t) (iext i) ex ;; Ok (mkI (imin i) e).
(** array.h:302 [set_max] *)
Definition set_max_T (nd : bool) (t : intT) (i : interval) (mx : Z) : outcome interval :=
  set_extent_T nd t i (mx - imin i + 1).
(** array.h:286-290 [operator=(const interval<CopyMin, CopyExtent>&)] *)
Definition assign_interval (nd : bool) (t : intT) (i other : interval) : outcome interval :=
  i' <- set_min_T nd t i (imin other) ;; set_extent_T nd t i' (iext other).
(** array.h:344-361 [fixed_interval<Extent>], [range<Extent>(begin)], [r<Extent>(begin)] *)
Definition range_T (nd : bool) (E b : Z) : outcome interval := make_interval_min nd (mkIT dynamic E) b.

(** ** Typed dims *)

(** array.h:396: the interval type a dim inherits from *)
Definition base_range (t : dimT) : intT := mkIT (tmin t) (text t).
(** array.h:427-428 [dim(const base_range&, stride)] *)
Definition dim_of_interval (nd : bool) (t : dimT) (i : interval) (st : option Z) : outcome dim :=
  make_dim nd t (imin i) (iext i) (match st with Some s => s | None => default_stride t end).
(** array.h:447-455 [operator=(const dim<CopyMin, CopyExtent, CopyStride>&)] *)
Definition assign_dim (nd : bool) (t : dimT) (d other : dim) : outcome dim :=
  i1 <- set_min_T nd (base_range t) (d_interval d) (dmin other) ;;
  i2 <- set_extent_T nd (base_range t) i1 (dext other) ;;
  set_stride_T nd t (mkD (imin i2) (iext i2) (dstr d)) (dstr other).

(** ** Slices *)

(** An argument of a slicing operator with its type: an index, an interval or a dim.  The
    placeholder [_] (array.h:365) is the value of type [interval<0, -1>]. *)
Inductive targ :=
| TIdx (x : Z)
| TInt (t : intT) (i : interval)
| TDim (t : dimT) (d : dim).
(** array.h:365 *)
Definition placeholder : targ := TInt (mkIT 0 (-1)) all_placeholder.
(** array.h:754-756: the overload for [decltype(_)], the more specialised one, is chosen by the
    type of the argument *)
Definition is_placeholder (t : intT) : bool := (itmin t =? 0) && (itext t =? -1).
(** array.h:738-756 [range_with_stride]: type and value of the result *)
Definition range_with_stride_T (nd : bool) (a : targ) (td : dimT * dim) : outcome (dimT * dim) :=
  let (t, d) := td in
  match a with
  | TIdx x => let t' := mkDT dynamic 1 (tstr t) in
      d' <- make_dim nd t' x 1 (dstr d) ;; Ok (t', d')
  | TInt ti i =>
      if is_placeholder ti then Ok (t, d)
      else let t' := mkDT (itmin ti) (itext ti) (tstr t) in
           d' <- make_dim nd t' (imin i) (iext i) (dstr d) ;; Ok (t', d')
  | TDim tc c => let t' := mkDT (tmin tc) (text tc) (tstr t) in
      d' <- make_dim nd t' (dmin c) (dext c) (dstr d) ;; Ok (t', d')
  end.
(** array.h:758-762 [intervals_with_strides]; both tuples have the rank as length *)
Fixpoint intervals_with_strides_T (nd : bool) (args : list targ) (l : tshape) : outcome tshape :=
  match args, l with
  | a :: args', td :: l' =>
      x <- range_with_stride_T nd a td ;; r <- intervals_with_strides_T nd args' l' ;; Ok (x :: r)
  | _, _ => Ok []
  end.
(** array.h:765-777 [skip_slices_impl] *)
Definition skip_slices_impl_T (x : dimT * dim) (a : targ) : tshape :=
  match a with TIdx _ => [] | _ => [x] end.
(** array.h:1191-1195 [shape::operator[]] with slices: types and values of the dims of the result *)
Definition shape_slice_T (nd : bool) (l : tshape) (args : list targ) : outcome tshape :=
  r <- intervals_with_strides_T nd args l ;; Ok (concat (map2 skip_slices_impl_T r args)).
(** array.h:738-756: the overload chosen, without the types *)
Definition erase (a : targ) : sarg :=
  match a with
  | TIdx x => AIdx x
  | TInt t i => if is_placeholder t then AAll else AInt i
  | TDim _ d => ADim d
  end.
