(** Model of the matrix multiplications of examples/linear_algebra/matrix.cpp.  Definitions
    only.

    Simplifications.  The element type is [V] with [zero], [add] and [mul]; nothing is assumed
    of them here.  The tile sizes are parameters.  [int] is 32 bits wide.  The prefetches of
    matrix.cpp:299-304 are left out; they form addresses outside of the matrices.  The branches
    disabled by [#if 0] and the BLAS version are left out. *)
From Coq Require Import ZArith List Bool.
From Verif Require Import Base Interval Shape Traverse Memory Ref Static Container Ein ZOrder.
Import ListNotations.
Open Scope Z_scope.

(** for (auto x : split(...)), array.h:595-596.  The fuel is the number of iterations after
    which the end can no longer be reached; running out of it means overflow. *)
Definition for_split (inner : option Z) (r : split_result) : outcome (list interval) :=
  split_loop inner (S (Z.to_nat (imin (si_i (sr_end r)) - imin (si_i (sr_begin r))))) (sr_begin r) (sr_end r).
(** for (... : l) body, e.g. matrix.cpp:38-45 *)
Definition for_in {A S : Type} (l : outcome (list A)) (body : S -> A -> outcome S) (s : S) : outcome S :=
  l' <- l ;; foldM body l' s.
(** array.h:2146-2147 [i()] of a matrix_ref *)
Definition row_dim (r : aref) : dim := nth 0 (r_shape r) (mkD 0 0 0).
(** array.h:2148-2149 [j()] of a matrix_ref *)
Definition col_dim (r : aref) : dim := nth 1 (r_shape r) (mkD 0 0 0).

Section Matrix.
Context {V : Type} (zero : V) (add mul : V -> V -> V).

(** C(i, j) = v, matrix.cpp:40, 80, 105 *)
Definition set_elem (C : aref) (v : V) (h : heap V) (i j : Z) : outcome (heap V) := store h (ref_ptr C [i; j]) v.
(** C(i, j) += A(i, k) * B(k, j), matrix.cpp:42, 84, 111 *)
Definition mac (A B C : aref) (h : heap V) (i j k : Z) : outcome (heap V) :=
  a <- ref_at h A [i; k] ;; b <- ref_at h B [k; j] ;; old <- ref_at h C [i; j] ;;
  store h (ref_ptr C [i; j]) (add old (mul a b)).

(** matrix.cpp:36-46 [multiply_reduce_cols] *)
Definition multiply_reduce_cols (A B C : aref) (h : heap V) : outcome (heap V) :=
  for_in (for_dim (row_dim C)) (fun h i =>
    for_in (for_dim (col_dim C)) (fun h j =>
      h1 <- set_elem C zero h i j ;;
      for_in (for_dim (col_dim A)) (fun h k => mac A B C h i j k) h1) h) h.
(** matrix.cpp:76-88 [multiply_reduce_rows] *)
Definition multiply_reduce_rows (A B C : aref) (h : heap V) : outcome (heap V) :=
  for_in (for_dim (row_dim C)) (fun h i =>
    h1 <- for_in (for_dim (col_dim C)) (fun h j => set_elem C zero h i j) h ;;
    for_in (for_dim (col_dim A)) (fun h k =>
      for_in (for_dim (col_dim C)) (fun h j => mac A B C h i j k) h) h1) h.
(** matrix.cpp:100-115 [multiply_reduce_matrix] *)
Definition multiply_reduce_matrix (A B C : aref) (h : heap V) : outcome (heap V) :=
  h1 <- for_in (for_dim (row_dim C)) (fun h i =>
          for_in (for_dim (col_dim C)) (fun h j => set_elem C zero h i j) h) h ;;
  for_in (for_dim (col_dim A)) (fun h k =>
    for_in (for_dim (row_dim C)) (fun h i =>
      for_in (for_dim (col_dim C)) (fun h j => mac A B C h i j k) h) h) h1.

(** [fill] of a matrix_ref: array.h:2905-2908, matrix.h:80-84 *)
Definition fill_matrix (h : heap V) (C : aref) (v : V) : outcome (heap V) :=
  l <- values_matrix (row_dim C) (col_dim C) (r_base C) ;; foldM (fun h p => store h p v) l h.
(** matrix.cpp:50-56, 91-97, 118-124 [multiply_ein_reduce_cols], [_rows], [_matrix]: they
    differ in the numbers of the indices, (2, 1, 0), (2, 0, 1) and (1, 0, 2) *)
Definition multiply_ein (nd : bool) (i j k : nat) (A B C : aref) (h : heap V) : outcome (heap V) :=
  h1 <- fill_matrix h C zero ;;
  ein_reduce nd add h1 C [i; j] (EBin mul (EArr A [i; k]) (EArr B [k; j])).

(** C++ [int], matrix.cpp:61-66: overflow is undefined *)
Definition int_ (x : Z) : outcome Z := if (-2147483648 <=? x) && (x <=? 2147483647) then Ok x else UB.
(** p[i * w + j] in [int] arithmetic, matrix.cpp:66, 68 *)
Definition int_index (p : ptr) (i w j : Z) : outcome ptr := x <- int_ (i * w) ;; y <- int_ (x + j) ;; Ok (ptr_off p y).
(** matrix.cpp:60-71 [multiply_ref], plain C *)
Definition multiply_ref (A B C : ptr) (M K N : Z) (h : heap V) : outcome (heap V) :=
  foldM (fun h i => foldM (fun h j =>
    sum <- foldM (fun sum k =>
             pa <- int_index A i K k ;; a <- load h pa ;;
             pb <- int_index B k N j ;; b <- load h pb ;;
             Ok (add sum (mul a b))) (zseq 0 (Z.to_nat K)) zero ;;
    pc <- int_index C i N j ;; store h pc sum) (zseq 0 (Z.to_nat N)) h) (zseq 0 (Z.to_nat M)) h.

(** ** Tiles *)

(** [T buffer[n] = {0}], matrix.cpp:188, 242, 294: [n] objects that live until the end of the
    block.  They are not released through an allocator; the owner plays no role. *)
Definition push_buffer (h : heap V) (n : Z) : heap V * ptr :=
  (mkH (S (h_next h)) (fun k => if (k =? h_next h)%nat then Some (mkB (Inline 0) n (fun _ => Live zero)) else h_blk h k),
   (h_next h, 0)).
(** matrix.cpp:213, 261, 330: the end of the block that declares the buffer *)
Definition pop_buffer (h : heap V) (p : ptr) : heap V :=
  mkH (h_next h) (fun k => if (k =? fst p)%nat then None else h_blk h k).
(** [C(io, jo)], matrix.cpp:174, 233, 291 *)
Definition tile_of (C : aref) (io jo : interval) : aref := ref_slice C [AInt io; AInt jo].
(** Its type: the extents are static (array.h:738-756), and so is the stride of the columns
    (matrix.h:31) *)
Definition tile_type (N1 N2 : Z) : list dimT := [mkDT dynamic N1 dynamic; mkDT dynamic N2 1].
(** [make_array_ref(buffer, make_compact(C_ijo.shape()))], matrix.cpp:189, 243, 295 *)
Definition accumulator (nd : bool) (N1 N2 : Z) (buf : ptr) (s : shape) : outcome aref :=
  r <- make_compact nd (combine (tile_type N1 N2) s) ;; Ok (make_ref buf (map snd r)).
(** C_ijo(i, j) = accumulator(i, j), matrix.cpp:206-210, 254-258, 318-322 *)
Definition store_tile (is_ js : outcome (list Z)) (T acc : aref) (h : heap V) : outcome (heap V) :=
  for_in is_ (fun h i => for_in js (fun h j =>
    v <- ref_at h acc [i; j] ;; store h (ref_ptr T [i; j]) v) h) h.
(** C_ijo(i, j) += accumulator(i, j), matrix.cpp:324-328 *)
Definition add_tile (is_ js : outcome (list Z)) (T acc : aref) (h : heap V) : outcome (heap V) :=
  for_in is_ (fun h i => for_in js (fun h j =>
    v <- ref_at h acc [i; j] ;; old <- ref_at h T [i; j] ;; store h (ref_ptr T [i; j]) (add old v)) h) h.
(** accumulator(i, j) += A(i, k) * B(k, j), matrix.cpp:192-198, 298, 305-310 *)
Definition mac_tile (ks is_ js : outcome (list Z)) (A B acc : aref) (h : heap V) : outcome (heap V) :=
  for_in ks (fun h k => for_in is_ (fun h i => for_in js (fun h j => mac A B acc h i j k) h) h) h.

(** matrix.cpp:171-214 and 230-262: the loops over the tiles *)
Definition for_tiles (nd : bool) (N1 N2 : Z) (C : aref) (body : heap V -> interval -> interval -> outcome (heap V))
  (h : heap V) : outcome (heap V) :=
  ri <- split_static nd N1 (d_interval (row_dim C)) ;;
  for_in (for_split (Some N1) ri) (fun h io =>
    rj <- split_static nd N2 (d_interval (col_dim C)) ;;
    for_in (for_split (Some N2) rj) (fun h jo => body h io jo) h) h.
(** matrix.cpp:160-215 [multiply_reduce_tiles] *)
Definition multiply_reduce_tiles (nd : bool) (N1 N2 : Z) (A B C : aref) (h : heap V) : outcome (heap V) :=
  for_tiles nd N1 N2 C (fun h io jo =>
    let T := tile_of C io jo in
    let '(h1, buf) := push_buffer h (N1 * N2) in
    acc <- accumulator nd N1 N2 buf (r_shape T) ;;
    h2 <- mac_tile (for_dim (col_dim A)) (for_dim (row_dim T)) (for_dim (col_dim T)) A B acc h1 ;;
    h3 <- store_tile (for_dim (row_dim T)) (for_dim (col_dim T)) T acc h2 ;;
    Ok (pop_buffer h3 buf)) h.
(** matrix.cpp:218-263 [multiply_ein_reduce_tiles] *)
Definition multiply_ein_reduce_tiles (nd : bool) (N1 N2 : Z) (A B C : aref) (h : heap V) : outcome (heap V) :=
  for_tiles nd N1 N2 C (fun h io jo =>
    let T := tile_of C io jo in
    let '(h1, buf) := push_buffer h (N1 * N2) in
    acc <- accumulator nd N1 N2 buf (r_shape T) ;;
    h2 <- ein_reduce nd add h1 acc [1; 0]%nat (EBin mul (EArr A [1; 2]%nat) (EArr B [2; 0]%nat)) ;;
    h3 <- store_tile (for_dim (row_dim T)) (for_dim (col_dim T)) T acc h2 ;;
    Ok (pop_buffer h3 buf)) h.
(** matrix.cpp:270-331 [multiply_reduce_tiles_z_order]; z_order.h:104-110 [for_all_in_z_order] *)
Definition multiply_reduce_tiles_z_order (nd : bool) (N1 N2 tile_k : Z) (A B C : aref) (h : heap V) : outcome (heap V) :=
  for_in (for_split None (split_dynamic (d_interval (col_dim A)) tile_k)) (fun h ko =>
    ri <- split_static nd N1 (d_interval (row_dim C)) ;;
    rj <- split_static nd N2 (d_interval (col_dim C)) ;;
    for_in (for_each_in_z_order [(sr_size ri, fun n => si_i (sr_at (Some N1) ri n));
                                 (sr_size rj, fun n => si_i (sr_at (Some N2) rj n))])
      (fun h t =>
         match t with
         | [io; jo] =>
             let T := tile_of C io jo in
             let '(h1, buf) := push_buffer h (N1 * N2) in
             acc <- accumulator nd N1 N2 buf (r_shape T) ;;
             h2 <- mac_tile (for_interval ko) (for_interval io) (for_interval jo) A B acc h1 ;;
             h3 <- (if imin ko =? dmin (col_dim A)
                    then store_tile (for_interval io) (for_interval jo) T acc h2
                    else add_tile (for_interval io) (for_interval jo) T acc h2) ;;
             Ok (pop_buffer h3 buf)
         | _ => UB
         end) h) h.

End Matrix.
