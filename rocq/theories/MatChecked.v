(** Matrix products, convolutions and z-order traversals with overflow: as in Checked.v, an
    operation of index_t whose result does not fit in 64 bits is undefined behaviour.  The
    functions are those of Matrix.v, Conv.v, ZOrder.v and Static.v, which compute in unbounded
    integers; pointers stay unbounded.  The prefetches that Matrix.v leaves out are included:
    their addresses are computed, nothing is read.  Definitions only. *)
From Coq Require Import ZArith List Bool.
From Verif Require Import Base Interval Shape Traverse Memory Ref Static Ein ZOrder Matrix Conv Checked Overflow ViewChecked
  ContChecked.
Import ListNotations.
Open Scope Z_scope.

(** ** make_compact *)

(** array.h:133 [static_mul]; it is evaluated by the compiler, which rejects overflow *)
Definition k_static_mul (a b : Z) : outcome Z := if is_dynamic2 a b then Ok dynamic else chk (a * b).
(** array.h:1502-1515 [make_compact_dims<CurrentStride>] *)
Fixpoint k_make_compact_from (nd : bool) (cur : Z) (l : tshape) : outcome tshape :=
  match l with
  | [] => Ok []
  | (t, d) :: r =>
      next <- k_static_mul cur (text t) ;;
      let t' := mkDT (tmin t) (text t) (if is_static (tstr t) then tstr t else cur) in
      d' <- make_dim nd t' (dmin d) (dext d) (default_stride t') ;;
      r' <- k_make_compact_from nd next r ;;
      Ok ((t', d') :: r')
  end.
(** array.h:1634-1639 [make_compact] *)
Definition k_make_compact (nd : bool) (l : tshape) : outcome tshape :=
  r <- k_make_compact_from nd (compact_next (map fst l)) l ;;
  s <- k_resolve (map snd r) ;; Ok (combine (map fst r) s).

(** ** z-order *)

(** z[d] += step, z_order.h:46, 54, 61 *)
Fixpoint k_add_at (d : nat) (step : Z) (z : list Z) : outcome (list Z) :=
  match d, z with
  | O, x :: r => y <- chk (x + step) ;; Ok (y :: r)
  | S d', x :: r => r' <- k_add_at d' step r ;; Ok (x :: r')
  | _, [] => Ok []
  end.
(** z_order.h:40-66 [for_each_index_in_z_order_impl] *)
Fixpoint k_z_impl (fuel : nat) (end_ z : list Z) (d : nat) (step : Z) : outcome (list (list Z)) :=
  match fuel with
  | O => UB
  | S f =>
      let rank := length end_ in
      if (d =? 0)%nat && (step =? 1) then
        z' <- k_add_at 0 1 z ;; Ok (z :: if lt_at 0 z' end_ then [z'] else [])
      else if (d =? 0)%nat then
        a <- k_z_impl f end_ z (rank - 1) (Z.shiftr step 1) ;;
        z' <- k_add_at 0 step z ;;
        b <- (if lt_at 0 z' end_ then k_z_impl f end_ z' (rank - 1) (Z.shiftr step 1) else Ok []) ;;
        Ok (a ++ b)
      else
        a <- k_z_impl f end_ z (d - 1) step ;;
        z' <- k_add_at d step z ;;
        b <- (if lt_at d z' end_ then k_z_impl f end_ z' (d - 1) step else Ok []) ;;
        Ok (a ++ b)
  end.
(** z_order.h:70-79 [for_each_index_in_z_order] *)
Definition k_for_each_index_in_z_order (end_ : list Z) : outcome (list (list Z)) :=
  match end_ with
  | [] => UB
  | x :: r =>
      p <- next_power_of_two (max_element r x) ;;
      let step := Z.max 1 (Z.shiftr p 1) in
      k_z_impl (64 * length end_) end_ (map (fun _ => 0) end_) (length end_ - 1) step
  end.
(** z_order.h:81-90 [for_each_in_z_order_impl], 98-110: each range is given by end - begin and by
    what dereferencing begin + i gives.  The iterators are computed before the first call. *)
Definition k_for_each_in_z_order {A : Type} (ranges : list (outcome Z * (Z -> outcome A))) : outcome (list (list A)) :=
  ends <- mapM fst ranges ;;
  l <- k_for_each_index_in_z_order ends ;;
  mapM (fun i => map2M (fun r k => snd r k) ranges i) l.

(** for (auto x : split(...)), array.h:530-570, 595-596 *)
Definition k_for_split (inner : option Z) (r : split_result) : outcome (list interval) :=
  k_split_loop inner (S (Z.to_nat (imin (si_i (sr_end r)) - imin (si_i (sr_begin r))))) (sr_begin r) (sr_end r).
(** end - begin and what dereferencing begin + i gives, for a split; array.h:572-574, 540-570, z_order.h:86-88 *)
Definition k_split_range (inner : option Z) (r : split_result) : outcome Z * (Z -> outcome interval) :=
  (k_si_diff (sr_end r) (sr_begin r), fun n => it <- k_si_add inner (sr_begin r) n ;; Ok (si_i it)).
(** matrix.h:80-84 [for_each_value] *)
Definition k_values_matrix (i j : dim) (base : ptr) : outcome (list ptr) :=
  l <- k_for_each_matrix_index i j ;; mapM (fun x => o <- k_flat_offset [i; j] x ;; Ok (ptr_off base o)) l.

Section Matrix.
Context {V : Type} (zero : V) (add mul : V -> V -> V).

(** ** Matrix products *)

(** C(i, j) = v, matrix.cpp:40, 80, 105 *)
Definition k_set_elem (C : aref) (v : V) (h : heap V) (i j : Z) : outcome (heap V) := p <- k_ref_ptr C [i; j] ;; store h p v.
(** C(i, j) += A(i, k) * B(k, j), matrix.cpp:42, 84, 111, 195, 307 *)
Definition k_mac (A B C : aref) (h : heap V) (i j k : Z) : outcome (heap V) :=
  a <- k_ref_at h A [i; k] ;; b <- k_ref_at h B [k; j] ;; p <- k_ref_ptr C [i; j] ;; old <- load h p ;;
  store h p (add old (mul a b)).
(** matrix.cpp:36-46 [multiply_reduce_cols] *)
Definition k_multiply_reduce_cols (A B C : aref) (h : heap V) : outcome (heap V) :=
  for_in (k_for_dim (row_dim C)) (fun h i =>
    for_in (k_for_dim (col_dim C)) (fun h j =>
      h1 <- k_set_elem C zero h i j ;;
      for_in (k_for_dim (col_dim A)) (fun h k => k_mac A B C h i j k) h1) h) h.
(** matrix.cpp:76-88 [multiply_reduce_rows] *)
Definition k_multiply_reduce_rows (A B C : aref) (h : heap V) : outcome (heap V) :=
  for_in (k_for_dim (row_dim C)) (fun h i =>
    h1 <- for_in (k_for_dim (col_dim C)) (fun h j => k_set_elem C zero h i j) h ;;
    for_in (k_for_dim (col_dim A)) (fun h k =>
      for_in (k_for_dim (col_dim C)) (fun h j => k_mac A B C h i j k) h) h1) h.
(** matrix.cpp:100-115 [multiply_reduce_matrix] *)
Definition k_multiply_reduce_matrix (A B C : aref) (h : heap V) : outcome (heap V) :=
  h1 <- for_in (k_for_dim (row_dim C)) (fun h i =>
          for_in (k_for_dim (col_dim C)) (fun h j => k_set_elem C zero h i j) h) h ;;
  for_in (k_for_dim (col_dim A)) (fun h k =>
    for_in (k_for_dim (row_dim C)) (fun h i =>
      for_in (k_for_dim (col_dim C)) (fun h j => k_mac A B C h i j k) h) h) h1.
(** [fill] of a matrix_ref: array.h:2905-2908, matrix.h:80-84 *)
Definition k_fill_matrix (h : heap V) (C : aref) (v : V) : outcome (heap V) :=
  l <- k_values_matrix (row_dim C) (col_dim C) (r_base C) ;; foldM (fun h p => store h p v) l h.
(** matrix.cpp:50-56, 91-97, 118-124 [multiply_ein_reduce_cols], [_rows], [_matrix] *)
Definition k_multiply_ein (nd : bool) (i j k : nat) (A B C : aref) (h : heap V) : outcome (heap V) :=
  h1 <- k_fill_matrix h C zero ;;
  k_ein_reduce nd add h1 C [i; j] (EBin mul (EArr A [i; k]) (EArr B [k; j])).

(** ** Tiles *)

(** [make_array_ref(buffer, make_compact(C_ijo.shape()))], matrix.cpp:189, 243, 295 *)
Definition k_accumulator (nd : bool) (N1 N2 : Z) (buf : ptr) (s : shape) : outcome aref :=
  r <- k_make_compact nd (combine (tile_type N1 N2) s) ;; k_make_ref buf (map snd r).
(** C_ijo(i, j) = accumulator(i, j), matrix.cpp:206-210, 254-258, 318-322 *)
Definition k_store_tile (is_ js : outcome (list Z)) (T acc : aref) (h : heap V) : outcome (heap V) :=
  for_in is_ (fun h i => for_in js (fun h j =>
    v <- k_ref_at h acc [i; j] ;; p <- k_ref_ptr T [i; j] ;; store h p v) h) h.
(** C_ijo(i, j) += accumulator(i, j), matrix.cpp:324-328 *)
Definition k_add_tile (is_ js : outcome (list Z)) (T acc : aref) (h : heap V) : outcome (heap V) :=
  for_in is_ (fun h i => for_in js (fun h j =>
    v <- k_ref_at h acc [i; j] ;; p <- k_ref_ptr T [i; j] ;; old <- load h p ;; store h p (add old v)) h) h.
(** accumulator(i, j) += A(i, k) * B(k, j), matrix.cpp:192-198 *)
Definition k_mac_tile (ks is_ js : outcome (list Z)) (A B acc : aref) (h : heap V) : outcome (heap V) :=
  for_in ks (fun h k => for_in is_ (fun h i => for_in js (fun h j => k_mac A B acc h i j k) h) h) h.
(** matrix.cpp:171-214 and 230-262: the loops over the tiles *)
Definition k_for_tiles (nd : bool) (N1 N2 : Z) (C : aref) (body : heap V -> interval -> interval -> outcome (heap V))
  (h : heap V) : outcome (heap V) :=
  ri <- k_split_static nd N1 (d_interval (row_dim C)) ;;
  for_in (k_for_split (Some N1) ri) (fun h io =>
    rj <- k_split_static nd N2 (d_interval (col_dim C)) ;;
    for_in (k_for_split (Some N2) rj) (fun h jo => body h io jo) h) h.
(** matrix.cpp:160-215 [multiply_reduce_tiles]; the size of the buffer is computed by the compiler *)
Definition k_multiply_reduce_tiles (nd : bool) (N1 N2 : Z) (A B C : aref) (h : heap V) : outcome (heap V) :=
  k_for_tiles nd N1 N2 C (fun h io jo =>
    T <- k_ref_slice C [AInt io; AInt jo] ;;
    n <- chk (N1 * N2) ;;
    let '(h1, buf) := push_buffer zero h n in
    acc <- k_accumulator nd N1 N2 buf (r_shape T) ;;
    h2 <- k_mac_tile (k_for_dim (col_dim A)) (k_for_dim (row_dim T)) (k_for_dim (col_dim T)) A B acc h1 ;;
    h3 <- k_store_tile (k_for_dim (row_dim T)) (k_for_dim (col_dim T)) T acc h2 ;;
    Ok (pop_buffer h3 buf)) h.
(** matrix.cpp:218-263 [multiply_ein_reduce_tiles] *)
Definition k_multiply_ein_reduce_tiles (nd : bool) (N1 N2 : Z) (A B C : aref) (h : heap V) : outcome (heap V) :=
  k_for_tiles nd N1 N2 C (fun h io jo =>
    T <- k_ref_slice C [AInt io; AInt jo] ;;
    n <- chk (N1 * N2) ;;
    let '(h1, buf) := push_buffer zero h n in
    acc <- k_accumulator nd N1 N2 buf (r_shape T) ;;
    h2 <- k_ein_reduce nd add h1 acc [1; 0]%nat (EBin mul (EArr A [1; 2]%nat) (EArr B [2; 0]%nat)) ;;
    h3 <- k_store_tile (k_for_dim (row_dim T)) (k_for_dim (col_dim T)) T acc h2 ;;
    Ok (pop_buffer h3 buf)) h.

(** for (index_t i = 0; i < e; i += step), matrix.cpp:299, 302; running out of fuel is reported as [UB] *)
Fixpoint k_stepped (fuel : nat) (i e step : Z) : outcome (list Z) :=
  if i <? e then
    match fuel with
    | O => UB
    | S f => i' <- chk (i + step) ;; r <- k_stepped f i' e step ;; Ok (i :: r)
    end
  else Ok [].
(** matrix.cpp:299-304: the addresses of the prefetches; [line] is [cache_line_size], line 275 *)
Definition k_prefetch (line : Z) (A B : aref) (io jo : interval) (k : Z) : outcome unit :=
  is_ <- k_stepped (Z.to_nat (iext io)) 0 (iext io) line ;;
  _ <- mapM (fun i => x <- chk (imin io + i) ;; y <- chk (k + 8) ;; k_ref_ptr A [x; y]) is_ ;;
  js <- k_stepped (Z.to_nat (iext jo)) 0 (iext jo) line ;;
  _ <- mapM (fun j => x <- chk (k + 4) ;; y <- chk (imin jo + j) ;; k_ref_ptr B [x; y]) js ;;
  Ok tt.
(** matrix.cpp:298-310 *)
Definition k_mac_block (line : Z) (ko io jo : interval) (A B acc : aref) (h : heap V) : outcome (heap V) :=
  for_in (k_for_interval ko) (fun h k =>
    _ <- k_prefetch line A B io jo k ;;
    for_in (k_for_interval io) (fun h i => for_in (k_for_interval jo) (fun h j => k_mac A B acc h i j k) h) h) h.
(** matrix.cpp:270-332 [multiply_reduce_tiles_z_order]; z_order.h:104-110 [for_all_in_z_order] *)
Definition k_multiply_reduce_tiles_z_order (nd : bool) (N1 N2 tile_k line : Z) (A B C : aref) (h : heap V)
  : outcome (heap V) :=
  rk <- k_split_dynamic (d_interval (col_dim A)) tile_k ;;
  for_in (k_for_split None rk) (fun h ko =>
    ri <- k_split_static nd N1 (d_interval (row_dim C)) ;;
    rj <- k_split_static nd N2 (d_interval (col_dim C)) ;;
    for_in (k_for_each_in_z_order [k_split_range (Some N1) ri; k_split_range (Some N2) rj])
      (fun h t =>
         match t with
         | [io; jo] =>
             T <- k_ref_slice C [AInt io; AInt jo] ;;
             n <- chk (N1 * N2) ;;
             let '(h1, buf) := push_buffer zero h n in
             acc <- k_accumulator nd N1 N2 buf (r_shape T) ;;
             h2 <- k_mac_block line ko io jo A B acc h1 ;;
             h3 <- (if imin ko =? dmin (col_dim A)
                    then k_store_tile (k_for_interval io) (k_for_interval jo) T acc h2
                    else k_add_tile (k_for_interval io) (k_for_interval jo) T acc h2) ;;
             Ok (pop_buffer h3 buf)
         | _ => UB
         end) h) h.
End Matrix.

Section Conv.
Context {V : Type} (zero : V) (add mul : V -> V -> V) (ltb : V -> V -> bool).

(** ** Convolutions *)

(** out[o] += filter(co, dx, dy, ci) * input(ci, x + dx, y + dy, n), conv2d_relu.cpp:35, 77 *)
Definition k_conv_mac (input filter out : aref) (o : index) (co x y n ci dy dx : Z) (h : heap V) : outcome (heap V) :=
  a <- k_ref_at h filter [co; dx; dy; ci] ;;
  x' <- chk (x + dx) ;; y' <- chk (y + dy) ;; b <- k_ref_at h input [ci; x'; y'; n] ;;
  p <- k_ref_ptr out o ;; old <- load h p ;; store h p (add old (mul a b)).
(** out[o] = f(out[o]), conv2d_relu.cpp:41, 87 *)
Definition k_apply_at (out : aref) (f : V -> V) (o : index) (h : heap V) : outcome (heap V) :=
  p <- k_ref_ptr out o ;; v <- load h p ;; store h p (f v).
(** conv2d_relu.cpp:23-46 [conv2d_naive] *)
Definition k_conv2d_naive (input filter bias output : aref) (h : heap V) : outcome (heap V) :=
  for_in (k_for_dim (dim_of output 3)) (fun h n =>
  for_in (k_for_dim (dim_of output 2)) (fun h y =>
  for_in (k_for_dim (dim_of output 1)) (fun h x =>
  for_in (k_for_dim (dim_of output 0)) (fun h co =>
    b <- k_ref_at h bias [co] ;;
    p <- k_ref_ptr output [co; x; y; n] ;;
    h1 <- store h p b ;;
    h2 <- for_in (k_for_dim (dim_of filter 3)) (fun h ci =>
          for_in (k_for_dim (dim_of filter 2)) (fun h dy =>
          for_in (k_for_dim (dim_of filter 1)) (fun h dx =>
            k_conv_mac input filter output [co; x; y; n] co x y n ci dy dx h) h) h) h1 ;;
    k_apply_at output (fun v => std_max ltb v zero) [co; x; y; n] h2) h) h) h) h.
(** conv2d_relu.cpp:48-94 [conv2d_tiled] *)
Definition k_conv2d_tiled (nd : bool) (tile_co tile_x : Z) (input filter bias output : aref) (h : heap V) : outcome (heap V) :=
  for_in (k_for_dim (dim_of output 3)) (fun h n =>
  for_in (k_for_dim (dim_of output 2)) (fun h y =>
    rx <- k_split_static nd tile_x (d_interval (dim_of output 1)) ;;
  for_in (k_for_split (Some tile_x) rx) (fun h xo =>
    rc <- k_split_static nd tile_co (d_interval (dim_of output 0)) ;;
  for_in (k_for_split (Some tile_co) rc) (fun h coo =>
    tile <- k_ref_slice output [AInt coo; AInt xo; AIdx y; AIdx n] ;;
    h1 <- for_in (k_for_interval coo) (fun h co =>
            row <- k_ref_slice tile [AIdx co; AAll] ;; b <- k_ref_at h bias [co] ;; k_fill nd h row b) h ;;
    h2 <- for_in (k_for_dim (dim_of filter 3)) (fun h ci =>
          for_in (k_for_dim (dim_of filter 2)) (fun h dy =>
          for_in (k_for_dim (dim_of filter 1)) (fun h dx =>
          for_in (k_for_interval xo) (fun h x =>
          for_in (k_for_interval coo) (fun h co =>
            k_conv_mac input filter tile [co; x] co x y n ci dy dx h) h) h) h) h) h1 ;;
    for_in (k_for_interval xo) (fun h x =>
    for_in (k_for_interval coo) (fun h co =>
      k_apply_at tile (fun v => std_max ltb zero v) [co; x] h) h) h2) h) h) h) h.
End Conv.
