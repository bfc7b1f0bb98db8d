(** Loops, split iterators and the loop optimiser with overflow: as in Checked.v, an operation
    of index_t whose result does not fit in 64 bits is undefined behaviour.  The functions are
    those of Interval.v and Traverse.v, which compute in unbounded integers; pointers stay
    unbounded.  Definitions only. *)
From Coq Require Import ZArith List Bool.
From Verif Require Import Base Interval Shape Traverse Checked.
Import ListNotations.
Open Scope Z_scope.

(** array.h:301 [interval::max] *)
Definition k_imax (i : interval) : outcome Z := a <- chk (imin i + iext i) ;; chk (a - 1).
(** Range-for, array.h:191-206: the increment of [index_iterator] is checked *)
Fixpoint k_range_loop (fuel : nat) (i e : Z) : outcome (list Z) :=
  match fuel with
  | O => UB
  | S f => if i =? e then Ok [] else i' <- chk (i + 1) ;; r <- k_range_loop f i' e ;; Ok (i :: r)
  end.
(** array.h:322-324 [begin], [end] *)
Definition k_for_interval (i : interval) : outcome (list Z) :=
  m <- k_imax i ;; e <- chk (m + 1) ;; k_range_loop (S (Z.to_nat (e - imin i))) (imin i) e.
(** for (index_t i : dim), array.h:458-459 *)
Definition k_for_dim (d : dim) : outcome (list Z) := k_for_interval (d_interval d).
(** array.h:1364-1405 [for_each_index_in_order_impl] *)
Fixpoint k_fei_impl (idx : index) (dims : list dim) : outcome (list index) :=
  match dims with
  | [] => Ok [idx]
  | [d0] => is_ <- k_for_dim d0 ;; Ok (map (fun i => i :: idx) is_)
  | d0 :: d1 :: rest =>
      is_ <- k_for_dim d0 ;;
      flat_mapM (fun i => js <- k_for_dim d1 ;; flat_mapM (fun j => k_fei_impl (j :: i :: idx) rest) js) is_
  end.
(** array.h:1408-1414, 1687-1691, 1943-1948 [for_each_index] *)
Definition k_for_each_index (s : shape) : outcome (list index) := k_fei_impl [] (rev s).

(** ** Split iterators *)

(** array.h:540-551 [operator+=], static inner extent *)
Definition k_si_add_static (N : Z) (it : split_iter) (n : Z) : outcome split_iter :=
  a <- chk (N * n) ;; m <- chk (imin (si_i it) + a) ;;
  if m <=? si_outer_max it then
    mx <- k_imax (mkI m N) ;;
    if mx >? si_outer_max it
    then b <- chk (si_outer_max it - N) ;; m' <- chk (b + 1) ;; Ok (mkSI (mkI m' N) (si_outer_max it))
    else Ok (mkSI (mkI m N) (si_outer_max it))
  else Ok (mkSI (mkI m N) (si_outer_max it)).
(** array.h:540-558 [operator+=], dynamic branch *)
Definition k_si_add_dynamic (it : split_iter) (n : Z) : outcome split_iter :=
  a <- chk (iext (si_i it) * n) ;; m <- chk (imin (si_i it) + a) ;;
  mx <- k_imax (mkI m (iext (si_i it))) ;;
  e <- chk (cmin mx (si_outer_max it) - m) ;; e' <- chk (e + 1) ;;
  Ok (mkSI (mkI m e') (si_outer_max it)).
(** array.h:540-558, 563-565 [operator+=], [operator++] *)
Definition k_si_add (inner : option Z) (it : split_iter) (n : Z) : outcome split_iter :=
  match inner with Some N => k_si_add_static N it n | None => k_si_add_dynamic it n end.
(** array.h:572-574 [operator-] *)
Definition k_si_diff (l r : split_iter) : outcome Z :=
  if iext (si_i r) >? 0 then
    m <- k_imax (si_i l) ;; a <- chk (m - imin (si_i r)) ;; b <- chk (a + iext (si_i r)) ;; c <- chk (b - iext (si_i l)) ;;
    chk (Z.quot c (iext (si_i r)))
  else Ok 0.
(** array.h:614-620 [split<InnerExtent>] *)
Definition k_split_static (ndebug : bool) (N : Z) (v : interval) : outcome split_result :=
  _ <- assert_ ndebug (iext v >=? N) ;;
  m <- k_imax v ;; e <- chk (m + 1) ;;
  Ok (mkSR (mkSI (mkI (imin v) N) m) (mkSI (mkI e N) m)).
(** array.h:637-641 [split(v, inner_extent)] *)
Definition k_split_dynamic (v : interval) (n : Z) : outcome split_result :=
  m <- k_imax v ;; e <- chk (m + 1) ;;
  Ok (mkSR (mkSI (mkI (imin v) (cmin n (iext v))) m) (mkSI (mkI e 0) m)).
(** for (auto i : split(...)), array.h:530-570, 595-596; running out of fuel is reported as [UB] *)
Fixpoint k_split_loop (inner : option Z) (fuel : nat) (it e : split_iter) : outcome (list interval) :=
  match fuel with
  | O => UB
  | S f => if si_eqb it e then Ok []
           else it' <- k_si_add inner it 1 ;; r <- k_split_loop inner f it' e ;; Ok (si_i it :: r)
  end.

(** ** The loop optimiser *)

(** array.h:1734-1736 [can_fuse] *)
Definition k_can_fuse (inner outer : dim) : outcome bool := p <- chk (dstr inner * dext inner) ;; Ok (p =? dstr outer).
(** array.h:1738-1742 [fuse] *)
Definition k_fuse (inner outer : dim) : outcome dim :=
  a <- chk (dmin outer * dext inner) ;; m <- chk (dmin inner + a) ;; e <- chk (dext inner * dext outer) ;;
  Ok (mkD m e (dstr inner)).
(** array.h:1776-1788: the fusing loop *)
Fixpoint k_fuse_from (cur : dim) (rest : list dim) : outcome (list dim) :=
  match rest with
  | [] => Ok [cur]
  | d :: r => b <- k_can_fuse cur d ;;
              if (b : bool) then f <- k_fuse cur d ;; k_fuse_from f r else l <- k_fuse_from d r ;; Ok (cur :: l)
  end.
(** array.h:1776-1788 *)
Definition k_fuse_dims (l : list dim) : outcome (list dim) :=
  match l with [] => Ok [] | d :: r => k_fuse_from d r end.
(** array.h:1769-1797 [dynamic_optimize_shape] *)
Definition k_dynamic_optimize_shape (s : shape) : outcome shape :=
  l <- k_fuse_dims (bubble_sort dim_ltb s) ;; Ok (pad_dims (length s) l).
(** array.h:1848-1858 [optimize_shape] *)
Definition k_optimize_shape (s : shape) : outcome shape :=
  match s with [_] => Ok s | _ => k_dynamic_optimize_shape s end.
(** array.h:1820-1821 fusing condition; [&&] evaluates its right side only if needed *)
Definition k_can_fuse2 (i o : dim * dim) : outcome bool :=
  if dext (fst i) =? dext (snd i) then
    b <- k_can_fuse (fst i) (fst o) ;; if (b : bool) then k_can_fuse (snd i) (snd o) else Ok false
  else Ok false.
(** array.h:1822-1823 *)
Definition k_fuse2 (i o : dim * dim) : outcome (dim * dim) :=
  a <- k_fuse (fst i) (fst o) ;; b <- k_fuse (snd i) (snd o) ;; Ok (a, b).
(** array.h:1817-1831: the fusing loop *)
Fixpoint k_fuse2_from (cur : dim * dim) (rest : list (dim * dim)) : outcome (list (dim * dim)) :=
  match rest with
  | [] => Ok [cur]
  | d :: r => b <- k_can_fuse2 cur d ;;
              if (b : bool) then f <- k_fuse2 cur d ;; k_fuse2_from f r else l <- k_fuse2_from d r ;; Ok (cur :: l)
  end.
(** array.h:1817-1831 *)
Definition k_fuse2_dims (l : list (dim * dim)) : outcome (list (dim * dim)) :=
  match l with [] => Ok [] | d :: r => k_fuse2_from d r end.
(** array.h:1801-1846 [dynamic_optimize_copy_shapes] *)
Definition k_dynamic_optimize_copy_shapes (src dst : shape) : outcome (shape * shape) :=
  l <- k_fuse2_dims (bubble_sort copy_ltb (combine src dst)) ;;
  let l := pad2 (length src) l in
  Ok (map fst l, map snd l).
(** array.h:1860-1870 [optimize_copy_shapes] *)
Definition k_optimize_copy_shapes (src dst : shape) : outcome (shape * shape) :=
  match src, dst with
  | [_], [_] => Ok (src, dst)
  | _, _ => k_dynamic_optimize_copy_shapes src dst
  end.
(** array.h:1895-1899 [shape_traits::for_each_value], 1692-1704, non-null base.  The counters of
    the loops (array.h:1454, 1465) stay below the extents. *)
Definition k_for_each_value (s : shape) (base : Z) : outcome (list (list Z)) :=
  o <- k_optimize_shape s ;; Ok (for_each_value_in_order o base).
(** array.h:1914-1924 [copy_shape_traits::for_each_value], 1714-1730, non-null bases *)
Definition k_for_each_value_copy (ssrc : shape) (src : Z) (sdst : shape) (dst : Z) : outcome (list (list Z)) :=
  ' (os, od) <- k_optimize_copy_shapes ssrc sdst ;;
  a <- k_flat_offset os (mins od) ;; b <- k_flat_offset od (mins od) ;;
  Ok (fev (extents od) [(src + a, strides os); (dst + b, strides od)]).

(** ** Images and matrices *)

(** image.h:53-66 [for_each_image_index] *)
Definition k_for_each_image_index (x y c : dim) : outcome (list index) :=
  ys <- k_for_dim y ;;
  flat_mapM (fun yv => xs <- k_for_dim x ;;
    flat_mapM (fun xv => cs <- k_for_dim c ;; Ok (map (fun cv => [xv; yv; cv]) cs)) xs) ys.
(** image.h:97-106 [for_each_value] when XStride is the default *)
Definition k_chunky_for_each_value (x y c : dim) (base : Z) : outcome (list (list Z)) :=
  let channels := dext c in
  if channels =? dstr x
  then m <- chk (dmin x * channels) ;; e <- chk (dext x * channels) ;;
       Ok (for_each_value_in_order [mkD m e 1; y] base)
  else Ok (for_each_value_in_order [x; y; c] base).
(** matrix.h:61-68 [for_each_matrix_index] *)
Definition k_for_each_matrix_index (i j : dim) : outcome (list index) :=
  is_ <- k_for_dim i ;; flat_mapM (fun iv => js <- k_for_dim j ;; Ok (map (fun jv => [iv; jv]) js)) is_.
