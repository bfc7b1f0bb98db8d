(** Model of the traversals and of the loop optimiser
    (include/array/array.h:1364-1486, 1687-1972; image.h:53-107; matrix.h:61-85).
    A traversal is the list of arguments its callback receives, in call order.
    Definitions only. *)
From Coq Require Import ZArith List Bool.
From Verif Require Import Base Interval Shape.
Import ListNotations.
Open Scope Z_scope.

(** ** Index traversals *)

(** array.h:1364-1405 [for_each_index_in_order_impl]: the overload for two dims at a
    time is preferred when at least two dims remain. *)
Fixpoint fei_impl (idx : index) (dims : list dim) : outcome (list index) :=
  match dims with
  | [] => Ok [idx]
  | [d0] => is_ <- for_dim d0 ;; Ok (map (fun i => i :: idx) is_)
  | d0 :: d1 :: rest =>
      is_ <- for_dim d0 ;;
      flat_mapM (fun i => js <- for_dim d1 ;; flat_mapM (fun j => fei_impl (j :: i :: idx) rest) js) is_
  end.
(** array.h:1408-1414, 1687-1691 [for_each_index_in_order]: the dims are passed reversed *)
Definition for_each_index_in_order (s : shape) : outcome (list index) := fei_impl [] (rev s).
(** array.h:1943-1948, 1887-1890 [for_each_index] with the default [shape_traits] *)
Definition for_each_index (s : shape) : outcome (list index) := for_each_index_in_order s.
(** array.h:1956-1963 [for_each_index<LoopOrder...>] *)
Definition for_each_index_loop_order (order : list nat) (s : shape) : option (outcome (list index)) :=
  match reorder order s with
  | Some r => Some (l <- for_each_index_in_order r ;; Ok (map (unshuffle order) l))
  | None => None
  end.

(** ** Value traversals.  A pointer bundle is the list of (position, strides) of the
    arrays traversed simultaneously, array.h:1426-1459 [ptrs]; positions are in elements. *)
Definition pbundle := list (Z * list Z).

(** array.h:1426-1434 [advance<D>] *)
Definition advance (D : nat) (ps : pbundle) : pbundle :=
  map (fun '(p, st) => (p + nth D st 0, st)) ps.
(** The callback arguments *ptrs... (array.h:1443, 1455, 1485) *)
Definition deref (ps : pbundle) : list Z := map fst ps.

(** [for (i = 0; i < n; i++) { body; step }]: [n] iterations, or none if [n <= 0]
    (array.h:1454-1457, 1465-1469). *)
Fixpoint for_loop {B : Type} (n : nat) (body : pbundle -> list B) (step : pbundle -> pbundle)
  (ps : pbundle) : list B :=
  match n with
  | O => []
  | S n' => body ps ++ for_loop n' body step (step ps)
  end.

(** array.h:1438-1445 [for_each_value_in_order_inner_dense]: all pointers are incremented
    until the first one reaches its end. *)
Fixpoint inner_dense_loop (fuel : nat) (ptr0 end_ : Z) (ptrs : list Z) : list (list Z) :=
  match fuel with
  | O => []
  | S f => if ptr0 <? end_
           then (ptr0 :: ptrs) :: inner_dense_loop f (ptr0 + 1) end_ (map (fun p => p + 1) ptrs)
           else []
  end.
(** array.h:1438-1445 *)
Definition inner_dense (extent : Z) (ps : list Z) : list (list Z) :=
  match ps with
  | [] => []
  | ptr0 :: ptrs => inner_dense_loop (S (Z.to_nat extent)) ptr0 (ptr0 + extent) ptrs
  end.

(** array.h:1447-1459 [for_each_value_in_order_impl], innermost dimension *)
Definition fev_inner (extent : list Z) (ps : pbundle) : list (list Z) :=
  let extent_d := nth 0 extent 0 in
  if vall (map (fun p => nth 0 (snd p) 0 =? 1) ps)
  then inner_dense extent_d (map fst ps)
  else for_loop (Z.to_nat extent_d) (fun ps => [deref ps]) (advance 0) ps.
(** array.h:1461-1470 [for_each_value_in_order_impl], dimension D > 0 *)
Fixpoint fev_impl (D : nat) (extent : list Z) (ps : pbundle) : list (list Z) :=
  match D with
  | O => fev_inner extent ps
  | S D' => for_loop (Z.to_nat (nth D extent 0)) (fev_impl D' extent) (advance D) ps
  end.
(** array.h:1472-1486 [for_each_value_in_order]; rank 0 is the scalar special case *)
Definition fev (extent : list Z) (ps : pbundle) : list (list Z) :=
  match length extent with
  | O => [deref ps]
  | S D => fev_impl D extent ps
  end.

(** array.h:1692-1704 [for_each_value_in_order(shape, base, fn)], non-null base *)
Definition for_each_value_in_order (s : shape) (base : Z) : list (list Z) :=
  fev (extents s) [(base, strides s)].
(** array.h:1714-1730 two-array version, non-null bases *)
Definition for_each_value_in_order2 (s sa : shape) (base_a : Z) (sb : shape) (base_b : Z) : list (list Z) :=
  fev (extents s)
    [(base_a + flat_offset sa (mins s), strides sa); (base_b + flat_offset sb (mins s), strides sb)].

(** ** Loop optimiser *)

(** array.h:1734-1736 [can_fuse] *)
Definition can_fuse (inner outer : dim) : bool := dstr inner * dext inner =? dstr outer.
(** array.h:1738-1742 [fuse] (its assert repeats the condition its callers check) *)
Definition fuse (inner outer : dim) : dim :=
  mkD (dmin inner + dmin outer * dext inner) (dext inner * dext outer) (dstr inner).
(** array.h:1749 [operator<] on dims *)
Definition dim_ltb (l r : dim) : bool := dstr l <? dstr r.

(** array.h:1758-1765 [bubble_sort]: the inner loop over j keeps the current smallest
    element in *i and leaves the swapped-out elements behind. *)
Fixpoint bubble_inner {A : Type} (lt : A -> A -> bool) (x : A) (l : list A) : A * list A :=
  match l with
  | [] => (x, [])
  | y :: r => if lt y x
              then let '(m, r') := bubble_inner lt y r in (m, x :: r')
              else let '(m, r') := bubble_inner lt x r in (m, y :: r')
  end.
(** array.h:1760: the outer loop over i *)
Fixpoint bubble_sort_n {A : Type} (lt : A -> A -> bool) (n : nat) (l : list A) : list A :=
  match n, l with
  | S n', x :: r => let '(m, r') := bubble_inner lt x r in m :: bubble_sort_n lt n' r'
  | _, _ => l
  end.
(** array.h:1758-1765 *)
Definition bubble_sort {A : Type} (lt : A -> A -> bool) (l : list A) : list A :=
  bubble_sort_n lt (length l) l.

(** array.h:1776-1788: the fusing loop; [cur] is dims[i], [rest] the following ones *)
Fixpoint fuse_from (cur : dim) (rest : list dim) : list dim :=
  match rest with
  | [] => [cur]
  | d :: r => if can_fuse cur d then fuse_from (fuse cur d) r else cur :: fuse_from d r
  end.
(** array.h:1776-1788 *)
Definition fuse_dims (l : list dim) : list dim :=
  match l with [] => [] | d :: r => fuse_from d r end.
(** array.h:1790-1794: pad with dims of extent 1 *)
Definition pad_dims (n : nat) (l : list dim) : list dim := l ++ repeat (mkD 0 1 0) (n - length l).
(** array.h:1769-1797 [dynamic_optimize_shape] *)
Definition dynamic_optimize_shape (s : shape) : shape :=
  pad_dims (length s) (fuse_dims (bubble_sort dim_ltb s)).
(** array.h:1848-1858 [optimize_shape] *)
Definition optimize_shape (s : shape) : shape :=
  match s with [_] => s | _ => dynamic_optimize_shape s end.

(** array.h:1744-1747 [copy_dims] is a pair (src, dst); 1751-1753 [operator<] *)
Definition copy_ltb (l r : dim * dim) : bool := dstr (snd l) <? dstr (snd r).
(** array.h:1820-1821 fusing condition *)
Definition can_fuse2 (i o : dim * dim) : bool :=
  (dext (fst i) =? dext (snd i)) && can_fuse (fst i) (fst o) && can_fuse (snd i) (snd o).
(** array.h:1822-1823 *)
Definition fuse2 (i o : dim * dim) : dim * dim := (fuse (fst i) (fst o), fuse (snd i) (snd o)).
(** array.h:1817-1831: the fusing loop *)
Fixpoint fuse2_from (cur : dim * dim) (rest : list (dim * dim)) : list (dim * dim) :=
  match rest with
  | [] => [cur]
  | d :: r => if can_fuse2 cur d then fuse2_from (fuse2 cur d) r else cur :: fuse2_from d r
  end.
(** array.h:1817-1831 *)
Definition fuse2_dims (l : list (dim * dim)) : list (dim * dim) :=
  match l with [] => [] | d :: r => fuse2_from d r end.
(** array.h:1833-1837 *)
Definition pad2 (n : nat) (l : list (dim * dim)) : list (dim * dim) :=
  l ++ repeat (mkD 0 1 0, mkD 0 1 0) (n - length l).
(** array.h:1801-1846 [dynamic_optimize_copy_shapes] *)
Definition dynamic_optimize_copy_shapes (src dst : shape) : shape * shape :=
  let l := pad2 (length src) (fuse2_dims (bubble_sort copy_ltb (combine src dst))) in
  (map fst l, map snd l).
(** array.h:1860-1870 [optimize_copy_shapes] *)
Definition optimize_copy_shapes (src dst : shape) : shape * shape :=
  match src, dst with
  | [_], [_] => (src, dst)
  | _, _ => dynamic_optimize_copy_shapes src dst
  end.

(** array.h:1895-1899 [shape_traits::for_each_value], non-null base *)
Definition for_each_value (s : shape) (base : Z) : list (list Z) :=
  for_each_value_in_order (optimize_shape s) base.
(** array.h:1914-1924 [copy_shape_traits::for_each_value], non-null bases *)
Definition for_each_value_copy (ssrc : shape) (src : Z) (sdst : shape) (dst : Z) : list (list Z) :=
  let '(os, od) := optimize_copy_shapes ssrc sdst in
  for_each_value_in_order2 od os src od dst.

(** ** Images and matrices *)

(** image.h:53-66 [for_each_image_index] *)
Definition for_each_image_index (x y c : dim) : outcome (list index) :=
  ys <- for_dim y ;;
  flat_mapM (fun yv => xs <- for_dim x ;;
    flat_mapM (fun xv => cs <- for_dim c ;; Ok (map (fun cv => [xv; yv; cv]) cs)) xs) ys.
(** image.h:78-82 [for_each_value] for general chunky images *)
Definition chunky_for_each_value_general (x y c : dim) (base : Z) : outcome (list (list Z)) :=
  l <- for_each_image_index x y c ;; Ok (map (fun i => [base + flat_offset [x; y; c] i]) l).
(** image.h:97-106 [for_each_value] when XStride is the default.  The dense_shape<2> has a
    stride 1 first dimension; c is a dense_dim<0, Channels>. *)
Definition chunky_for_each_value (x y c : dim) (base : Z) : list (list Z) :=
  let channels := dext c in
  if channels =? dstr x
  then for_each_value_in_order [mkD (dmin x * channels) (dext x * channels) 1; y] base
  else for_each_value_in_order [x; y; c] base.
(** matrix.h:61-68 [for_each_matrix_index] *)
Definition for_each_matrix_index (i j : dim) : outcome (list index) :=
  is_ <- for_dim i ;; flat_mapM (fun iv => js <- for_dim j ;; Ok (map (fun jv => [iv; jv]) js)) is_.
(** matrix.h:80-84 [for_each_value] *)
Definition matrix_for_each_value (i j : dim) (base : Z) : outcome (list (list Z)) :=
  l <- for_each_matrix_index i j ;; Ok (map (fun k => [base + flat_offset [i; j] k]) l).
