(** The index arithmetic of shapes with overflow: every addition, subtraction, multiplication
    and negation of index_t is undefined behaviour if the result does not fit in 64 bits.
    The functions are those of Interval.v and Shape.v, which compute in unbounded integers.
    Definitions only. *)
From Coq Require Import ZArith List Bool.
From Verif Require Import Base Interval Shape.
Import ListNotations.
Open Scope Z_scope.

(** index_t is a signed 64-bit type (array.h:87); the result of an operation must fit *)
Definition chk (x : Z) : outcome Z := if (index_min <=? x) && (x <=? index_max) then Ok x else UB.
(** Evaluate all the arguments of a pack expansion, e.g. array.h:1018-1022 *)
Fixpoint mapM {A B : Type} (f : A -> outcome B) (l : list A) : outcome (list B) :=
  match l with
  | [] => Ok []
  | a :: r => b <- f a ;; bs <- mapM f r ;; Ok (b :: bs)
  end.
(** The same for two packs, e.g. array.h:1018-1022 *)
Fixpoint map2M {A B C : Type} (f : A -> B -> outcome C) (la : list A) (lb : list B) : outcome (list C) :=
  match la, lb with
  | a :: ra, b :: rb => c <- f a b ;; cs <- map2M f ra rb ;; Ok (c :: cs)
  | _, _ => Ok []
  end.
(** array.h:112 [abs] *)
Definition k_abs (x : Z) : outcome Z := if x >=? 0 then Ok x else chk (- x).
(** array.h:674-681 [sum] *)
Fixpoint k_sum (l : list Z) : outcome Z :=
  match l with
  | [] => Ok 0
  | [x0] => Ok x0
  | [x0; x1] => chk (x0 + x1)
  | [x0; x1; x2] => a <- chk (x0 + x1) ;; chk (a + x2)
  | x0 :: x1 :: x2 :: x3 :: rest =>
      a <- chk (x0 + x1) ;; b <- chk (a + x2) ;; c <- chk (b + x3) ;; r <- k_sum rest ;; chk (c + r)
  end.
(** array.h:683-687 [product] *)
Fixpoint k_product (l : list Z) : outcome Z :=
  match l with
  | [] => Ok 1
  | x :: rest => r <- k_product rest ;; chk (x * r)
  end.
(** array.h:301 [max] *)
Definition k_max (d : dim) : outcome Z := a <- chk (dmin d + dext d) ;; chk (a - 1).
(** array.h:305-307 [is_in_range(index_t)] *)
Definition k_in_range (d : dim) (at_ : Z) : outcome bool :=
  if dmin d <=? at_ then m <- k_max d ;; Ok (at_ <=? m) else Ok false.
(** array.h:786-790, 1169-1176 [shape::is_in_range] with indices *)
Definition k_index_in_range (s : shape) (i : index) : outcome bool :=
  bs <- map2M k_in_range s i ;; Ok (vall bs).
(** array.h:481-483 [dim::flat_offset] *)
Definition k_dim_flat_offset (d : dim) (at_ : Z) : outcome Z := a <- chk (at_ - dmin d) ;; chk (a * dstr d).
(** array.h:718-722, 1179-1185 [flat_offset] *)
Definition k_flat_offset (s : shape) (i : index) : outcome Z := l <- map2M k_dim_flat_offset s i ;; k_sum l.
(** array.h:725-728, 1231 [flat_min] *)
Definition k_flat_min (s : shape) : outcome Z :=
  l <- mapM (fun d => e <- chk (dext d - 1) ;; chk (e * cmin 0 (dstr d))) s ;; k_sum l.
(** array.h:730-734, 1232 [flat_max] *)
Definition k_flat_max (s : shape) : outcome Z :=
  l <- mapM (fun d => e <- chk (dext d - 1) ;; chk (e * cmax 0 (dstr d))) s ;; k_sum l.
(** array.h:1233-1236 [flat_extent] *)
Definition k_flat_extent (s : shape) : outcome Z :=
  mx <- k_flat_max s ;; mn <- k_flat_min s ;; a <- chk (mx - mn) ;; e <- chk (a + 1) ;;
  Ok (if e <? 0 then 0 else e).
(** array.h:1239-1242 [size] *)
Definition k_size (s : shape) : outcome Z :=
  p <- k_product (extents s) ;; Ok (if p <? 0 then 0 else p).
(** array.h:1265-1268 [is_subset_of]; [&&] evaluates its right side only if needed *)
Definition k_is_subset_of (s other : shape) (off : Z) : outcome bool :=
  a <- k_flat_min s ;; b <- k_flat_min other ;; b' <- chk (b + off) ;;
  if a >=? b' then c <- k_flat_max s ;; d <- k_flat_max other ;; d' <- chk (d + off) ;; Ok (c <=? d')
  else Ok false.

(** array.h:841-867 [is_stride_ok] *)
Definition k_is_stride_ok (stride extent : Z) (d : dim) : outcome bool :=
  if is_unresolved (dstr d) then Ok true
  else
    t <- (if extent =? 1
          then a <- k_abs stride ;; b <- k_abs (dstr d) ;; Ok ((a =? b) && (dext d >? 1))
          else Ok false) ;;
    if (t : bool) then Ok false
    else
      b <- k_abs (dstr d) ;; p <- chk (dext d * b) ;;
      if p <=? stride then Ok true
      else f <- chk (extent * stride) ;; Ok (b >=? f).
(** array.h:871-878 [filter_stride]: all dims are looked at *)
Definition k_filter_stride (stride extent : Z) (dims : list dim) : outcome Z :=
  bs <- mapM (k_is_stride_ok stride extent) dims ;; Ok (if vall bs then stride else index_max).
(** array.h:882-889 [candidate_stride] *)
Definition k_candidate_stride (d : dim) : outcome Z :=
  if is_unresolved (dstr d) then Ok index_max
  else a <- k_abs (dstr d) ;; p <- chk (a * dext d) ;; Ok (cmax 1 p).
(** array.h:892-896 [find_stride] *)
Definition k_find_stride (extent : Z) (dims : list dim) : outcome Z :=
  f <- k_filter_stride 1 extent dims ;;
  l <- mapM (fun d => c <- k_candidate_stride d ;; k_filter_stride c extent dims) dims ;;
  Ok (variadic_min (f :: l)).
(** array.h:899-913 [resolve_unknown_strides] *)
Fixpoint k_resolve_from (before todo : list dim) : outcome (list dim) :=
  match todo with
  | [] => Ok before
  | d :: rest =>
      d' <- (if is_unresolved (dstr d)
             then m <- k_find_stride (dext d) (before ++ d :: rest) ;; Ok (set_stride d m)
             else Ok d) ;;
      k_resolve_from (before ++ [d']) rest
  end.
(** array.h:1161 [shape::resolve] *)
Definition k_resolve (s : shape) : outcome shape := k_resolve_from [] s.
