(** Model of array_ref and of the algorithms on array_refs
    (include/array/array.h:1692-1730, 1880-1925, 1990-2219, 2757-3108; image.h:131-191).
    Definitions only. *)
From Coq Require Import ZArith List Bool.
From Verif Require Import Base Interval Shape Traverse Memory.
Import ListNotations.
Open Scope Z_scope.

(** array.h:2012-2050 [array_ref]: base pointer and shape *)
Record aref := mkR { r_base : ptr; r_shape : shape }.
(** array.h:2054-2057 constructor; resolves the shape *)
Definition make_ref (base : ptr) (s : shape) : aref := mkR base (resolve s).
(** array.h:2080-2086 [operator[]]: the element's address *)
Definition ref_ptr (r : aref) (i : index) : ptr := ptr_off (r_base r) (flat_offset (r_shape r) i).
(** array.h:2080-2086 [operator[]]: reading the element *)
Definition ref_at {V : Type} (h : heap V) (r : aref) (i : index) : outcome V := load h (ref_ptr r i).
(** array.h:2114-2116 [data] *)
Definition ref_data (r : aref) : ptr := pointer_add (r_base r) (flat_min (r_shape r)).
(** array.h:2141 [empty] *)
Definition ref_empty (r : aref) : bool := if is_null (r_base r) then true else empty (r_shape r).

(** array.h:1996-2004 [make_array_ref_at], 2092-2099 [operator()] with slices *)
Definition make_array_ref_at (base : ptr) (s : shape) (args : list sarg) : aref :=
  mkR (pointer_add base (flat_offset s (mins_of_intervals args s))) (shape_slice s args).
(** array.h:2092-2099 [operator()] with slices *)
Definition ref_slice (r : aref) (args : list sarg) : aref :=
  make_array_ref_at (r_base r) (r_shape r) args.

(** array.h:2213-2218 [set_shape] *)
Definition ref_set_shape (ndebug : bool) (r : aref) (new_shape : shape) (off : Z) : outcome aref :=
  _ <- assert_ ndebug (is_resolved new_shape) ;;
  _ <- assert_ ndebug (is_subset_of new_shape (r_shape r) (- off)) ;;
  Ok (mkR (pointer_add (r_base r) off) new_shape).
(** array.h:3022-3029 [reinterpret_shape]; the base is moved by plain pointer arithmetic *)
Definition reinterpret_shape (ndebug : bool) (r : aref) (new_shape : shape) (off : Z) : outcome aref :=
  let result := make_ref (ptr_off (r_base r) off) new_shape in
  _ <- assert_ ndebug (is_subset_of (r_shape result) (r_shape r) (- off)) ;;
  Ok result.
(** array.h:3082-3086 [transpose] of a ref; [None]: does not compile *)
Definition ref_transpose (ndebug : bool) (is_ : list nat) (r : aref) : option (outcome aref) :=
  if permutation_check (length (r_shape r)) is_
  then option_map (fun s => reinterpret_shape ndebug r s 0) (transpose is_ (r_shape r))
  else None.
(** array.h:3097-3100 [reorder] of a ref *)
Definition ref_reorder (ndebug : bool) (is_ : list nat) (r : aref) : option (outcome aref) :=
  option_map (fun s => reinterpret_shape ndebug r s 0) (reorder is_ (r_shape r)).

(** ** Traversals of elements: the addresses passed to the callback, in order *)

(** The callback's arguments, array.h:1443, 1455, as pointers into the block of the base *)
Definition to_ptr (base : ptr) (l : list Z) : ptr := (fst base, nth 0 l 0).
(** The same for two arrays, array.h:1443, 1455 *)
Definition to_ptr2 (a b : ptr) (l : list Z) : ptr * ptr := ((fst a, nth 0 l 0), (fst b, nth 1 l 0)).
(** array.h:1692-1704 [for_each_value_in_order] *)
Definition values_in_order (ndebug : bool) (s : shape) (base : ptr) : outcome (list ptr) :=
  if is_null base then _ <- assert_ ndebug (empty s) ;; Ok []
  else Ok (map (to_ptr base) (for_each_value_in_order s (snd base))).
(** array.h:1714-1730 two-array [for_each_value_in_order] *)
Definition values_in_order2 (ndebug : bool) (s sa : shape) (a : ptr) (sb : shape) (b : ptr)
  : outcome (list (ptr * ptr)) :=
  if is_null a || is_null b then _ <- assert_ ndebug (empty s) ;; Ok []
  else Ok (map (to_ptr2 a b) (for_each_value_in_order2 s sa (snd a) sb (snd b))).
(** array.h:1895-1899 [shape_traits::for_each_value] *)
Definition values (ndebug : bool) (s : shape) (base : ptr) : outcome (list ptr) :=
  values_in_order ndebug (optimize_shape s) base.
(** array.h:1914-1924 [copy_shape_traits::for_each_value] *)
Definition values_copy (ndebug : bool) (ssrc : shape) (src : ptr) (sdst : shape) (dst : ptr)
  : outcome (list (ptr * ptr)) :=
  let '(os, od) := optimize_copy_shapes ssrc sdst in
  values_in_order2 ndebug od os src od dst.
(** image.h:78-82: the traversal of general chunky images does not look for a null base *)
Definition values_chunky_general (x y c : dim) (base : ptr) : outcome (list ptr) :=
  l <- chunky_for_each_value_general x y c (snd base) ;; Ok (map (to_ptr base) l).
(** image.h:97-106 *)
Definition values_chunky (ndebug : bool) (x y c : dim) (base : ptr) : outcome (list ptr) :=
  let channels := dext c in
  if channels =? dstr x
  then values_in_order ndebug [mkD (dmin x * channels) (dext x * channels) 1; y] base
  else values_in_order ndebug [x; y; c] base.
(** matrix.h:80-84 *)
Definition values_matrix (i j : dim) (base : ptr) : outcome (list ptr) :=
  l <- matrix_for_each_value i j (snd base) ;; Ok (map (to_ptr base) l).

Section Algorithms.
Context {V : Type}.

(** array.h:1421-1424 [copy_assign]: one callback of [copy] *)
Definition copy_assign (h : heap V) (ab : ptr * ptr) : outcome (heap V) :=
  v <- load h (fst ab) ;; store h (snd ab) v.
(** array.h:1416-1419 [move_assign]; [mv v] is what the moved-from object holds *)
Definition move_assign (mv : V -> V) (h : heap V) (ab : ptr * ptr) : outcome (heap V) :=
  v <- load h (fst ab) ;; h1 <- store h (snd ab) v ;; store h1 (fst ab) (mv v).

(** array.h:2763-2772 [copy] *)
Definition copy (ndebug : bool) (h : heap V) (src dst : aref) : outcome (heap V) :=
  if empty (r_shape dst) then Ok h
  else
    _ <- assert_ ndebug (index_in_range (r_shape src) (mins (r_shape dst)) &&
                         index_in_range (r_shape src) (maxs (r_shape dst))) ;;
    l <- values_copy ndebug (r_shape src) (r_base src) (r_shape dst) (r_base dst) ;;
    foldM copy_assign l h.
(** array.h:2834-2843 [move] *)
Definition move (ndebug : bool) (mv : V -> V) (h : heap V) (src dst : aref) : outcome (heap V) :=
  if empty (r_shape dst) then Ok h
  else
    _ <- assert_ ndebug (index_in_range (r_shape src) (mins (r_shape dst)) &&
                         index_in_range (r_shape src) (maxs (r_shape dst))) ;;
    l <- values_copy ndebug (r_shape src) (r_base src) (r_shape dst) (r_base dst) ;;
    foldM (move_assign mv) l h.

(** array.h:2919: assign to the elements passed to a value callback, in order: the k-th call assigns [g k] *)
Definition assign_each (g : nat -> V) (l : list ptr) (h : heap V) : outcome (heap V * nat) :=
  foldM (fun st p => h' <- store (fst st) p (g (snd st)) ;; Ok (h', S (snd st))) l (h, O).
(** array.h:2905-2908 [fill] *)
Definition fill (ndebug : bool) (h : heap V) (dst : aref) (v : V) : outcome (heap V) :=
  l <- values ndebug (r_shape dst) (r_base dst) ;;
  foldM (fun h p => store h p v) l h.
(** array.h:2917-2920 [generate]; [g k] is the result of the k-th call of the generator; also
    returns how often it was called *)
Definition generate (ndebug : bool) (h : heap V) (dst : aref) (g : nat -> V)
  : outcome (heap V * nat) :=
  l <- values ndebug (r_shape dst) (r_base dst) ;; assign_each g l h.
(** array.h:2930-2935 [transform_index], 2944-2949 [transform_indices] *)
Definition transform_index (h : heap V) (dst : aref) (fn : index -> V) : outcome (heap V) :=
  l <- for_each_index (r_shape dst) ;;
  foldM (fun h i => store h (ref_ptr dst i) (fn i)) l h.

(** Element comparison callback of array.h:2188-2192 and 2962-2966: [result] is set once a
    difference is found; all elements are compared. *)
Definition compare_each (eqb : V -> V -> bool) (h : heap V) (l : list (ptr * ptr)) : outcome bool :=
  foldM (fun result ab => a <- load h (fst ab) ;; b <- load h (snd ab) ;;
                          Ok (if eqb a b then result else false)) l true.
(** Comparison of std::tuples of index_t, array.h:2958 *)
Fixpoint list_eqb (a b : list Z) : bool :=
  match a, b with
  | [], [] => true
  | x :: a', y :: b' => (x =? y) && list_eqb a' b'
  | _, _ => false
  end.
(** array.h:2956-2968 [equal] *)
Definition equal (ndebug : bool) (eqb : V -> V -> bool) (h : heap V) (a b : aref) : outcome bool :=
  if negb (list_eqb (mins (r_shape a)) (mins (r_shape b))) ||
     negb (list_eqb (extents (r_shape a)) (extents (r_shape b))) then Ok false
  else
    l <- values_copy ndebug (r_shape a) (r_base a) (r_shape b) (r_base b) ;;
    compare_each eqb h l.
(** array.h:2182-2194 [operator!=] *)
Definition ref_neq (ndebug : bool) (eqb : V -> V -> bool) (h : heap V) (a b : aref) : outcome bool :=
  if negb (shape_eqb (r_shape a) (r_shape b)) then Ok true
  else
    l <- values_copy ndebug (r_shape a) (r_base a) (r_shape b) (r_base b) ;;
    r <- compare_each eqb h l ;; Ok (negb r).
(** array.h:2195 [operator==] *)
Definition ref_eq (ndebug : bool) (eqb : V -> V -> bool) (h : heap V) (a b : aref) : outcome bool :=
  r <- ref_neq ndebug eqb h a b ;; Ok (negb r).

End Algorithms.

(** ** Images *)

(** image.h:120-127 [crop_origin] *)
Inductive crop_origin := origin_zero | origin_crop.
(** image.h:131-147 [crop_image_shape] *)
Definition crop_image_shape (x y c : dim) (x0 y0 x1 y1 : Z) (origin : crop_origin) : shape :=
  match origin with
  | origin_zero => [mkD 0 (x1 - x0) (dstr x); mkD 0 (y1 - y0) (dstr y); c]
  | origin_crop => [mkD x0 (x1 - x0) (dstr x); mkD y0 (y1 - y0) (dstr y); c]
  end.
(** image.h:152-166 [crop] of an image with dims x, y, c *)
Definition crop (base : ptr) (x y c : dim) (x0 y0 x1 y1 : Z) (origin : crop_origin) : aref :=
  let x0 := cmax x0 (dmin x) in
  let y0 := cmax y0 (dmin y) in
  let x1 := cmin x1 (dmax x + 1) in
  let y1 := cmin y1 (dmax y + 1) in
  let cropped := crop_image_shape x y c x0 y0 x1 y1 origin in
  let c0 := dmin c in
  let b := if is_null base then null else ptr_off base (flat_offset [x; y; c] [x0; y0; c0]) in
  let b := match origin with
           | origin_crop => pointer_add b (- flat_offset cropped [x0; y0; c0])
           | origin_zero => b
           end in
  make_ref b cropped.
(** image.h:180-183 [slice_channel]; im.x() and im.y() are dims *)
Definition slice_channel (base : ptr) (x y c : dim) (channel : Z) : aref :=
  make_array_ref_at base [x; y; c] [ADim x; ADim y; AIdx channel].
