(** Compile-time parameters of intervals, dims and shapes: static arithmetic
    (include/array/array.h:114-139, 256, 413), typed constructors and conversions
    (144-167, 422-478, 961-982, 992-1032, 1131-1144, 1648-1677), make_compact (1489-1533, 1634-1645) and
    the static part of clamp (1547-1561).  Definitions only.

    A template argument is an index_t; [dynamic] = -9 means "not known at compile time". *)
From Coq Require Import ZArith List Bool.
From Verif Require Import Base Interval Shape.
Import ListNotations.
Open Scope Z_scope.

(** ** Arithmetic on template arguments *)

(** array.h:120 *)
Definition is_dynamic2 (a b : Z) : bool := is_dynamic a || is_dynamic b.
(** array.h:124 *)
Definition not_equal (a b : Z) : bool := is_static a && is_static b && negb (a =? b).
(** array.h:130 *)
Definition static_abs (x : Z) : Z := if is_dynamic x then dynamic else cabs x.
(** array.h:131 *)
Definition static_add (a b : Z) : Z := if is_dynamic2 a b then dynamic else a + b.
(** array.h:132 *)
Definition static_sub (a b : Z) : Z := if is_dynamic2 a b then dynamic else a - b.
(** array.h:133 *)
Definition static_mul (a b : Z) : Z := if is_dynamic2 a b then dynamic else a * b.
(** array.h:134-136 *)
Definition static_min (a b : Z) : Z := if is_dynamic2 a b then dynamic else if a <? b then a else b.
(** array.h:137-139 *)
Definition static_max (a b : Z) : Z := if is_dynamic2 a b then dynamic else if a >? b then a else b.

(** ** Typed dims *)

(** array.h:395-397: the template arguments of [dim] *)
Record dimT := mkDT { tmin : Z; text : Z; tstr : Z }.
(** array.h:256 [interval::Max] *)
Definition tmax (t : dimT) : Z := static_sub (static_add (tmin t) (text t)) 1.
(** array.h:413 [DefaultStride] *)
Definition default_stride (t : dimT) : Z := if is_static (tstr t) then tstr t else unresolved.

(** array.h:143-167 constructor of [constexpr_index]: a static value is asserted, and is the
    result *)
Definition cindex (nd : bool) (t x : Z) : outcome Z :=
  if is_static t then _ <- assert_ nd (x =? t) ;; Ok t else Ok x.
(** array.h:422-423 [dim(min, extent, stride)] *)
Definition make_dim (nd : bool) (t : dimT) (mn ex st : Z) : outcome dim :=
  m <- cindex nd (tmin t) mn ;; e <- cindex nd (text t) ex ;; s <- cindex nd (tstr t) st ;;
  Ok (mkD m e s).
(** array.h:425 [dim(extent)] *)
Definition make_dim_extent (nd : bool) (t : dimT) (ex : Z) : outcome dim :=
  make_dim nd t (if is_static (tmin t) then tmin t else 0) ex (default_stride t).
(** array.h:425 [dim()] *)
Definition default_dim (nd : bool) (t : dimT) : outcome dim :=
  make_dim_extent nd t (if is_static (text t) then text t else 0).
(** array.h:472-478 [set_stride] *)
Definition set_stride_T (nd : bool) (t : dimT) (d : dim) (st : Z) : outcome dim :=
  if is_static (tstr t)
  then _ <- assert_ nd (is_unresolved st || (st =? tstr t)) ;; Ok d
  else Ok (set_stride d st).
(** array.h:440-446 [dim(const dim<CopyMin, CopyExtent, CopyStride>&)] *)
Definition convert_dim_T (nd : bool) (t : dimT) (d : dim) : outcome dim :=
  d' <- make_dim nd t (dmin d) (dext d) (default_stride t) ;; set_stride_T nd t d' (dstr d).
(** array.h:992-1013 [assert_dim_compatible] *)
Definition dim_compatible_assert (t : dimT) (d : dim) : bool :=
  negb (is_static (tmin t) && negb (dmin d =? tmin t)) &&
  negb (is_static (text t) && negb (dext d =? text t)) &&
  negb (is_static (tstr t) && is_resolved_stride (dstr d) && negb (dstr d =? tstr t)).

(** array.h:1024-1032: the conversion of every dim.  Both lists are as long as the ranks; other lengths
    do not compile. *)
Fixpoint convert_all (nd : bool) (ts : list dimT) (s : shape) : outcome shape :=
  match ts, s with
  | t :: ts', d :: s' => d' <- convert_dim_T nd t d ;; r <- convert_all nd ts' s' ;; Ok (d' :: r)
  | _, _ => Ok []
  end.
(** array.h:1017-1032 [assert_dims_compatible] *)
Fixpoint all_compatible_assert (ts : list dimT) (s : shape) : bool :=
  match ts, s with
  | t :: ts', d :: s' => dim_compatible_assert t d && all_compatible_assert ts' s'
  | _, _ => true
  end.
(** array.h:1024-1032, 1131-1144: conversion of a shape to a shape of the same rank and
    another type *)
Definition shape_from (nd : bool) (ts : list dimT) (s : shape) : outcome shape :=
  _ <- assert_ nd (all_compatible_assert ts s) ;; convert_all nd ts s.
(** array.h:1535-1545 [is_dim_compatible], [is_shape_compatible], 1648-1652 [is_compatible],
    1675-1677 [is_explicitly_compatible]; the packs must have the same length *)
Definition is_dim_compatible (t : dimT) (d : dim) : bool :=
  (is_dynamic (tmin t) || (dmin d =? tmin t)) && (is_dynamic (text t) || (dext d =? text t)) &&
  (is_dynamic (tstr t) || (dstr d =? tstr t)).
(** array.h:1541-1545 [is_shape_compatible], 1648-1652 [is_compatible] *)
Definition is_compatible (ts : list dimT) (s : shape) : bool := vall (map2 is_dim_compatible ts s).

(** array.h:961-974 [convert_dim], [convert_dims]: take dims of [s] while there are any, then
    new dims of extent 1 (before the conversion of the tuple to the dims of the target) *)
Fixpoint convert_dims (nd : bool) (ts : list dimT) (s : shape) : outcome shape :=
  match ts, s with
  | [], _ => Ok []
  | t :: ts', d :: s' => r <- convert_dims nd ts' s' ;; Ok (d :: r)
  | t :: ts', [] => d <- make_dim_extent nd t 1 ;; r <- convert_dims nd ts' [] ;; Ok (d :: r)
  end.
(** array.h:976-982 [is_trivial_slice] *)
Definition is_trivial_slice (rank : nat) (s : shape) : bool :=
  vall (map (fun d => dext d =? 1) (skipn rank s)).
(** array.h:1663-1670 [convert_shape]; the tuple is converted to the target's dims by
    [std::tuple]'s constructor *)
Definition convert_shape (nd : bool) (ts : list dimT) (s : shape) : outcome shape :=
  _ <- assert_ nd (is_trivial_slice (length ts) s) ;;
  l <- convert_dims nd ts s ;; l' <- convert_all nd ts l ;; shape_from nd ts l'.

(** ** make_compact *)

(** A shape with its type, array.h:1071-1080 *)
Definition tshape := list (dimT * dim).
(** array.h:1502-1515 [make_compact_dims<CurrentStride>] *)
Fixpoint make_compact_from (nd : bool) (cur : Z) (l : tshape) : outcome tshape :=
  match l with
  | [] => Ok []
  | (t, d) :: r =>
      let next := static_mul cur (text t) in
      let t' := mkDT (tmin t) (text t) (if is_static (tstr t) then tstr t else cur) in
      d' <- make_dim nd t' (dmin d) (dext d) (default_stride t') ;;
      r' <- make_compact_from nd next r ;;
      Ok ((t', d') :: r')
  end.
(** array.h:1517-1533 *)
Definition compact_next (ts : list dimT) : Z :=
  let min_stride := variadic_max (map (fun t => if tstr t =? 1 then static_abs (text t) else dynamic) ts) in
  let any_greater := vany (map (fun t => tstr t >? 1) ts) in
  let all_dynamic := vall (map (fun t => is_dynamic (tstr t)) ts) in
  if any_greater then dynamic else if all_dynamic then 1 else min_stride.
(** array.h:1634-1639 [make_compact]; static strides are known, [resolve] does not touch them *)
Definition make_compact (nd : bool) (l : tshape) : outcome tshape :=
  r <- make_compact_from nd (compact_next (map fst l)) l ;;
  Ok (combine (map fst r) (resolve (map snd r))).
(** array.h:1642-1645 [fixed_dense_shape], default constructed *)
Definition fixed_dense_shape (nd : bool) (exts : list Z) : outcome tshape :=
  make_compact_from nd 1 (map (fun e => (mkDT 0 e dynamic, mkD 0 e unresolved)) exts).

(** ** clamp *)

(** array.h:1547-1556 [clamp_dims]: template arguments of the result *)
Definition clamp_T (a b : dimT) : dimT :=
  let mn := static_max (tmin a) (tmin b) in
  let mx := static_min (tmax a) (tmax b) in
  mkDT mn (static_add (static_sub mx mn) 1) (tstr a).
(** array.h:1551-1556: the result *)
Definition clamp_typed (nd : bool) (ta tb : dimT) (a b : dim) : outcome dim :=
  let d := clamp_dim a b in make_dim nd (clamp_T ta tb) (dmin d) (dext d) (dstr d).
