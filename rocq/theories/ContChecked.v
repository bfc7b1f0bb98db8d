(** Arrays and algorithms with overflow: as in Checked.v, an operation of index_t whose result
    does not fit in 64 bits is undefined behaviour.  The functions are those of Ref.v and
    Container.v, which compute in unbounded integers; pointers stay unbounded.  Definitions only. *)
From Coq Require Import ZArith List Bool.
From Verif Require Import Base Interval Shape Traverse Memory Ref Checked Overflow ViewChecked Container.
Import ListNotations.
Open Scope Z_scope.

(** [assert] of <cassert>: in release builds the argument is not evaluated, e.g. array.h:1697 *)
Definition k_assert (ndebug : bool) (m : outcome bool) : outcome unit :=
  if ndebug then Ok tt else b <- m ;; assert_ ndebug b.
(** array.h:1245 [shape::empty] *)
Definition k_empty (s : shape) : outcome bool := n <- k_size s ;; Ok (n =? 0).
(** array.h:1224 [shape::max] *)
Definition k_maxs (s : shape) : outcome index := mapM k_max s.
(** array.h:2114-2116, 2591-2592 [data]; array.h:1872-1875 does not add to a null pointer, but the
    argument is computed *)
Definition k_ref_data (r : aref) : outcome ptr := m <- k_flat_min (r_shape r) ;; Ok (pointer_add (r_base r) m).

(** ** Traversals of elements *)

(** array.h:1895-1899 [shape_traits::for_each_value], 1692-1704 *)
Definition k_values (ndebug : bool) (s : shape) (base : ptr) : outcome (list ptr) :=
  o <- k_optimize_shape s ;;
  if is_null base then _ <- k_assert ndebug (k_empty o) ;; Ok []
  else Ok (map (to_ptr base) (for_each_value_in_order o (snd base))).
(** array.h:1914-1924 [copy_shape_traits::for_each_value], 1714-1730 *)
Definition k_values_copy (ndebug : bool) (ssrc : shape) (src : ptr) (sdst : shape) (dst : ptr)
  : outcome (list (ptr * ptr)) :=
  ' (os, od) <- k_optimize_copy_shapes ssrc sdst ;;
  if is_null src || is_null dst then _ <- k_assert ndebug (k_empty od) ;; Ok []
  else
    a <- k_flat_offset os (mins od) ;; b <- k_flat_offset od (mins od) ;;
    Ok (map (to_ptr2 src dst) (fev (extents od) [(snd src + a, strides os); (snd dst + b, strides od)])).

(** ** Algorithms *)
Section Algorithms.
Context {V : Type}.

(** array.h:2767-2769, 2838-2840: the destination lies in the source *)
Definition k_in_source (src dst : shape) : outcome bool :=
  a <- k_index_in_range src (mins dst) ;;
  if (a : bool) then m <- k_maxs dst ;; k_index_in_range src m else Ok false.
(** array.h:2763-2772 [copy] *)
Definition k_copy (ndebug : bool) (h : heap V) (src dst : aref) : outcome (heap V) :=
  e <- k_empty (r_shape dst) ;;
  if (e : bool) then Ok h
  else
    _ <- k_assert ndebug (k_in_source (r_shape src) (r_shape dst)) ;;
    l <- k_values_copy ndebug (r_shape src) (r_base src) (r_shape dst) (r_base dst) ;;
    foldM copy_assign l h.
(** array.h:2834-2843 [move] *)
Definition k_move (ndebug : bool) (mv : V -> V) (h : heap V) (src dst : aref) : outcome (heap V) :=
  e <- k_empty (r_shape dst) ;;
  if (e : bool) then Ok h
  else
    _ <- k_assert ndebug (k_in_source (r_shape src) (r_shape dst)) ;;
    l <- k_values_copy ndebug (r_shape src) (r_base src) (r_shape dst) (r_base dst) ;;
    foldM (move_assign mv) l h.
(** array.h:2905-2908 [fill] *)
Definition k_fill (ndebug : bool) (h : heap V) (dst : aref) (v : V) : outcome (heap V) :=
  l <- k_values ndebug (r_shape dst) (r_base dst) ;;
  foldM (fun h p => store h p v) l h.
(** array.h:2917-2920 [generate] *)
Definition k_generate (ndebug : bool) (h : heap V) (dst : aref) (g : nat -> V) : outcome (heap V * nat) :=
  l <- k_values ndebug (r_shape dst) (r_base dst) ;; assign_each g l h.
(** array.h:2930-2935 [transform_index], 2944-2949 [transform_indices] *)
Definition k_transform_index (h : heap V) (dst : aref) (fn : index -> V) : outcome (heap V) :=
  l <- k_for_each_index (r_shape dst) ;;
  foldM (fun h i => p <- k_ref_ptr dst i ;; store h p (fn i)) l h.
(** array.h:2956-2968 [equal] *)
Definition k_equal (ndebug : bool) (eqb : V -> V -> bool) (h : heap V) (a b : aref) : outcome bool :=
  if negb (list_eqb (mins (r_shape a)) (mins (r_shape b))) ||
     negb (list_eqb (extents (r_shape a)) (extents (r_shape b))) then Ok false
  else
    l <- k_values_copy ndebug (r_shape a) (r_base a) (r_shape b) (r_base b) ;;
    compare_each eqb h l.
(** array.h:2182-2194 [operator!=] *)
Definition k_ref_neq (ndebug : bool) (eqb : V -> V -> bool) (h : heap V) (a b : aref) : outcome bool :=
  if negb (shape_eqb (r_shape a) (r_shape b)) then Ok true
  else
    l <- k_values_copy ndebug (r_shape a) (r_base a) (r_shape b) (r_base b) ;;
    r <- compare_each eqb h l ;; Ok (negb r).
(** array.h:2195 [operator==] *)
Definition k_ref_eq (ndebug : bool) (eqb : V -> V -> bool) (h : heap V) (a b : aref) : outcome bool :=
  r <- k_ref_neq ndebug eqb h a b ;; Ok (negb r).

End Algorithms.

(** ** The container *)
Section Container.
Context {V : Type}.
Variable c : config V.
Notation nd := (c_ndebug c).

(** array.h:2282-2291 [allocate]; subtracting from a pointer does not negate *)
Definition k_allocate (x : nat) (h : heap V) (a : arr) : outcome (heap V * arr) :=
  _ <- assert_ nd (is_null (a_buf a)) ;;
  s <- k_resolve (a_shape a) ;;
  fe <- k_flat_extent s ;;
  let '(h1, a1) :=
    if 0 <? fe
    then let '(h', busy, p) := alloc_get c x h a fe in (h', mkA (a_al a) busy p fe (a_base a) s)
    else (h, with_shape a s) in
  m <- k_flat_min s ;;
  Ok (h1, set_base a1 (ptr_off (a_buf a1) (- m))).
(** array.h:2295, 2299, 2303, 2309, 2319: [assert(base_ || shape_.empty())] *)
Definition k_usable (a : arr) : outcome unit :=
  k_assert nd (if is_null (a_base a) then k_empty (a_shape a) else Ok true).
(** array.h:2294-2301 [construct] *)
Definition k_construct (h : heap V) (a : arr) (init : heap V -> outcome V) : outcome (heap V) :=
  _ <- k_usable a ;;
  l <- k_values nd (a_shape a) (a_base a) ;;
  foldM (fun h p => v <- init h ;; construct_at h p v) l h.
(** array.h:2294-2297 [construct()] *)
Definition k_construct_default (h : heap V) (a : arr) : outcome (heap V) := k_construct h a (fun _ => Ok (c_dv c)).
(** array.h:2302-2307 [copy_construct] *)
Definition k_copy_construct (h : heap V) (a b : arr) : outcome (heap V) :=
  _ <- k_usable a ;;
  _ <- assert_ nd (shape_eqb (a_shape a) (a_shape b)) ;;
  l <- k_values_copy nd (a_shape b) (a_base b) (a_shape a) (a_base a) ;;
  foldM (fun h sd => v <- load h (fst sd) ;; construct_at h (snd sd) v) l h.
(** array.h:2308-2315 [move_construct] *)
Definition k_move_construct (h : heap V) (a b : arr) : outcome (heap V) :=
  _ <- k_usable a ;;
  _ <- assert_ nd (shape_eqb (a_shape a) (a_shape b)) ;;
  l <- k_values_copy nd (a_shape b) (a_base b) (a_shape a) (a_base a) ;;
  foldM (fun h sd => v <- load h (fst sd) ;; h1 <- construct_at h (snd sd) v ;;
                     store h1 (fst sd) (c_mv c v)) l h.
(** array.h:2318-2321 [destroy] *)
Definition k_destroy (h : heap V) (a : arr) : outcome (heap V) :=
  _ <- k_usable a ;;
  l <- k_values nd (a_shape a) (a_base a) ;;
  foldM destroy_at l h.
(** array.h:2323-2331 [deallocate] *)
Definition k_deallocate (x : nat) (h : heap V) (a : arr) : outcome (heap V * arr) :=
  if is_null (a_base a) then Ok (h, a)
  else
    h1 <- k_destroy h a ;;
    let a1 := with_shape (set_base a null) (c_shape0 c) in
    ' (h2, busy) <- alloc_put c x h1 a1 (a_buf a1) (a_bufsize a1) ;;
    Ok (h2, set_buf (set_busy a1 busy) null).

(** array.h:2366-2375 [array(shape, alloc)], [array(shape)] *)
Definition k_ctor_shape (x : nat) (h : heap V) (al : nat) (s : shape) : outcome (heap V * arr) :=
  ' (h1, a) <- k_allocate x h (blank al s) ;;
  h2 <- k_construct_default h1 a ;;
  Ok (h2, a).
(** array.h:2527-2537 [assign(shape, value)] *)
Definition k_assign_value (x : nat) (h : heap V) (a : arr) (s : shape) (init : heap V -> outcome V)
  : outcome (heap V * arr) :=
  s <- k_resolve s ;;
  ' (h1, a1) <- (if shape_eqb (a_shape a) s
                 then h' <- k_destroy h a ;; Ok (h', a)
                 else ' (h', a') <- k_deallocate x h a ;; k_allocate x h' (with_shape a' s)) ;;
  h2 <- k_construct h1 a1 init ;;
  Ok (h2, a1).
(** array.h:2359-2362 [array(shape, value, alloc)] *)
Definition k_ctor_value (x : nat) (h : heap V) (al : nat) (s : shape) (v : V) : outcome (heap V * arr) :=
  ' (h1, a) <- k_ctor_shape x h al (c_shape0 c) ;;
  k_assign_value x h1 a s (fun _ => Ok v).
(** array.h:2487-2493, 2506-2512: the beginning of [assign]; [None]: the bases differ *)
Definition k_same_base (a b : arr) : option (outcome arr) :=
  if ptr_eqb (a_base a) (a_base b) then
    Some (if negb (is_null (a_base a)) then
            _ <- assert_ nd (shape_eqb (a_shape a) (a_shape b)) ;; Ok a
          else
            let a1 := with_shape a (a_shape b) in
            _ <- k_assert nd (k_empty (a_shape a1)) ;; Ok a1)
  else None.
(** array.h:2495-2501, 2514-2520: the storage for an assignment *)
Definition k_storage (x : nat) (h : heap V) (a b : arr) : outcome (heap V * arr) :=
  if negb (is_null (a_base a)) && shape_eqb (a_shape a) (a_shape b)
  then h' <- k_destroy h a ;; Ok (h', a)
  else ' (h', a') <- k_deallocate x h a ;; k_allocate x h' (with_shape a' (a_shape b)).
(** array.h:2486-2504 [assign(const array&)] *)
Definition k_assign_copy (x : nat) (h : heap V) (a b : arr) : outcome (heap V * arr) :=
  match k_same_base a b with
  | Some r => a1 <- r ;; Ok (h, a1)
  | None =>
      ' (h1, a1) <- k_storage x h a b ;;
      h2 <- k_copy_construct h1 a1 b ;;
      Ok (h2, a1)
  end.
(** array.h:2505-2523 [assign(array&&)] *)
Definition k_assign_move (x : nat) (h : heap V) (a b : arr) : outcome (heap V * arr) :=
  match k_same_base a b with
  | Some r => a1 <- r ;; Ok (h, a1)
  | None =>
      ' (h1, a1) <- k_storage x h a b ;;
      h2 <- k_move_construct h1 a1 b ;;
      Ok (h2, a1)
  end.
(** array.h:2379-2383 [array(const array&)] *)
Definition k_ctor_copy (x : nat) (h : heap V) (b : arr) : outcome (heap V * arr) :=
  k_assign_copy x h (blank (c_select c (a_al b)) (c_shape0 c)) b.
(** array.h:2387 [array(const array&, alloc)] *)
Definition k_ctor_copy_alloc (x : nat) (h : heap V) (b : arr) (al : nat) : outcome (heap V * arr) :=
  ' (h1, a) <- k_ctor_shape x h al (c_shape0 c) ;;
  k_assign_copy x h1 a b.
(** array.h:2394-2407 [array(array&&)] *)
Definition k_ctor_move (x : nat) (h : heap V) (y : nat) (b : arr) : outcome (heap V * arr * arr) :=
  let a := blank (if c_pocma c then a_al b else c_default c) (c_shape0 c) in
  if c_pocma c || alloc_eq x a y b then
    let '(a', b') := swap_except_allocator a b in Ok (h, a', b')
  else
    ' (h1, a1) <- k_allocate x h (with_shape a (a_shape b)) ;;
    h2 <- k_move_construct h1 a1 b ;;
    Ok (h2, a1, b).
(** array.h:2414-2424 [array(array&&, alloc)] *)
Definition k_ctor_move_alloc (x : nat) (h : heap V) (y : nat) (b : arr) (al : nat)
  : outcome (heap V * arr * arr) :=
  let a := blank al (c_shape0 c) in
  if alloc_eq x a y b then
    let '(a', b') := swap_except_allocator a b in Ok (h, a', b')
  else
    ' (h1, a1) <- k_allocate x h (with_shape a (a_shape b)) ;;
    h2 <- k_move_construct h1 a1 b ;;
    Ok (h2, a1, b).
(** array.h:2436-2454 [operator=(const array&)] *)
Definition k_copy_assign_op (x : nat) (h : heap V) (a : arr) (y : nat) (b : arr) : outcome (heap V * arr) :=
  match k_same_base a b with
  | Some r => a1 <- r ;; Ok (h, a1)
  | None =>
      ' (h1, a1) <- (if c_pocca c
                     then
                       ' (h', a') <- (if negb (alloc_eq x a y b) then k_deallocate x h a else Ok (h, a)) ;;
                       Ok (h', set_al a' (a_al b))
                     else Ok (h, a)) ;;
      k_assign_copy x h1 a1 b
  end.
(** array.h:2460-2481 [operator=(array&&)] *)
Definition k_move_assign_op (x : nat) (h : heap V) (a : arr) (y : nat) (b : arr)
  : outcome (heap V * arr * arr) :=
  if ptr_eqb (a_base a) (a_base b) then
    if negb (is_null (a_base a)) then
      _ <- assert_ nd (shape_eqb (a_shape a) (a_shape b)) ;; Ok (h, a, b)
    else
      let a1 := with_shape a (a_shape b) in
      let b1 := with_shape b (a_shape a) in
      _ <- k_assert nd (k_empty (a_shape a1)) ;; Ok (h, a1, b1)
  else if c_pocma c then
    let '(a1, b1) := swap_allocators a b in
    let '(a2, b2) := swap_except_allocator a1 b1 in
    Ok (h, a2, b2)
  else if alloc_eq x a y b then
    let '(a1, b1) := swap_except_allocator a b in
    Ok (h, a1, b1)
  else
    ' (h1, a1) <- k_assign_move x h a b ;;
    Ok (h1, a1, b).
(** array.h:2619-2625 [clear] *)
Definition k_clear (x : nat) (h : heap V) (a : arr) : outcome (heap V * arr) :=
  ' (h1, a1) <- k_deallocate x h a ;;
  ' (h2, a2) <- k_allocate x h1 (with_shape a1 (c_shape0 c)) ;;
  h3 <- k_construct_default h2 a2 ;;
  Ok (h3, a2).
(** array.h:2790-2818 [make_copy] *)
Definition k_make_copy (x : nat) (h : heap V) (src : aref) (s : shape) (al : nat) : outcome (heap V * arr) :=
  ' (h1, a) <- k_ctor_shape x h al s ;;
  h2 <- k_copy nd h1 src (aref_of a) ;;
  Ok (h2, a).
(** array.h:2866-2880 [make_move] of a ref *)
Definition k_make_move (x : nat) (h : heap V) (src : aref) (s : shape) (al : nat) : outcome (heap V * arr) :=
  ' (h1, a) <- k_ctor_shape x h al s ;;
  h2 <- k_move nd (c_mv c) h1 src (aref_of a) ;;
  Ok (h2, a).

(** array.h:2880-2887 [make_move] of an array rvalue *)
Definition k_make_move_rvalue (x : nat) (h : heap V) (b : arr) (s : shape) (z al : nat)
  : outcome (heap V * arr) :=
  if shape_eqb (a_shape b) s && alloc_eq z (blank al (c_shape0 c)) x b
  then k_ctor_copy z h b
  else k_make_move z h (aref_of b) s al.
(** array.h:2650-2657 [set_shape] *)
Definition k_arr_set_shape (a : arr) (new_shape : shape) (off : Z) : outcome arr :=
  _ <- assert_ nd (is_resolved new_shape) ;;
  _ <- k_assert nd (n <- chk (- off) ;; k_is_subset_of new_shape (a_shape a) n) ;;
  Ok (set_base (with_shape a new_shape) (pointer_add (a_base a) off)).
(** array.h:3045-3070 [move_reinterpret_shape] *)
Definition k_move_reinterpret_shape (x : nat) (h : heap V) (y : nat) (b : arr) (old0 new_shape : shape)
  (off : Z) : outcome (heap V * arr * arr) :=
  _ <- k_assert nd (k_is_subset_of new_shape (a_shape b) off) ;;
  ' (h1, r) <- k_ctor_shape x h (c_default c) (c_shape0 c) ;;
  ' (r1, b1) <- (if c_pocma c then Ok (swap_allocators r b)
                 else _ <- assert_ nd (alloc_eq x r y b) ;; Ok (r, b)) ;;
  let '(r2, b2) := swap_except_allocator r1 b1 in
  let r3 := with_shape r2 new_shape in
  let b3 := with_shape b2 old0 in
  Ok (h1, set_base r3 (ptr_off (a_base r3) off), b3).

(** ** Programs *)

(** array x(s, al); array.h:2366-2370 *)
Definition k_do_new (w : world V) (s : shape) (al : nat) : outcome (world V) :=
  add w (k_ctor_shape (w_next w) (w_heap w) al s).
(** array x(std::move(y)); array.h:2394-2406 *)
Definition k_do_new_move (w : world V) (y : nat) : outcome (world V) :=
  b <- get w y ;; add2 w y (k_ctor_move (w_next w) (w_heap w) y b).
(** x = std::move(y); array.h:2460-2481 *)
Definition k_do_move_assign (w : world V) (x y : nat) : outcome (world V) :=
  a <- get w x ;; b <- get w y ;; change2 w x y (k_move_assign_op x (w_heap w) a y b).
(** array.h:2426 [~array] *)
Definition k_do_delete (w : world V) (x : nat) : outcome (world V) :=
  a <- get w x ;; ' (h', _) <- k_deallocate x (w_heap w) a ;;
  Ok (mkW h' (put (w_arr w) x None) (w_next w)).
(** array.h:1547-1556 [clamp_dims] *)
Definition k_clamp_dim (a b : dim) : outcome dim :=
  let mn := cmax (dmin a) (dmin b) in
  ma <- k_max a ;; mb <- k_max b ;;
  d <- chk (cmin ma mb - mn) ;; e <- chk (d + 1) ;;
  Ok (mkD mn e (dstr a)).
(** array.h:1558-1561 [clamp] *)
Definition k_clamp_dims (a b : shape) : outcome shape := map2M k_clamp_dim a b.
(** array.h:2637-2642: the middle of [reshape] *)
Definition k_move_common (h : heap V) (a b : arr) (new_shape : shape) : outcome (heap V) :=
  intersection <- k_clamp_dims new_shape (a_shape a) ;;
  o <- k_flat_offset new_shape (mins intersection) ;;
  l <- k_values_copy nd (a_shape a) (a_base a) intersection (pointer_add (a_base b) o) ;;
  foldM (move_assign (c_mv c)) l h.
(** array.h:2628-2645 [reshape] *)
Definition k_do_reshape (w : world V) (x : nat) (s : shape) : outcome (world V) :=
  a <- get w x ;;
  new_shape <- k_resolve s ;;
  if shape_eqb (a_shape a) new_shape then Ok w
  else
    let n := w_next w in
    w1 <- k_do_new w new_shape (c_default c) ;;
    b <- get w1 n ;;
    h2 <- k_move_common (w_heap w1) a b new_shape ;;
    w3 <- k_do_move_assign (mkW h2 (w_arr w1) (w_next w1)) x n ;;
    k_do_delete w3 n.
(** array.h:2691-2705 [swap] *)
Definition k_do_swap (w : world V) (x y : nat) : outcome (world V) :=
  if c_pocs c then
    a <- get w x ;; b <- get w y ;;
    let '(a1, b1) := swap_allocators a b in
    let '(a2, b2) := swap_except_allocator a1 b1 in
    change2 w x y (Ok (w_heap w, a2, b2))
  else
    let n := w_next w in
    w1 <- k_do_new_move w y ;;
    w2 <- k_do_move_assign w1 y x ;;
    w3 <- k_do_move_assign w2 x n ;;
    k_do_delete w3 n.
(** One statement of a program: the functions called are cited at Container.v's [op]
    (array.h:2350-2645, 2691-2705, 2790-2887) *)
Definition k_step (w : world V) (o : op V) : outcome (world V) :=
  let h := w_heap w in
  let n := w_next w in
  match o with
  | New s al => k_do_new w s al
  | NewValue s v al => add w (k_ctor_value n h al s v)
  | NewCopy y => b <- get w y ;; add w (k_ctor_copy n h b)
  | NewCopyAlloc y al => b <- get w y ;; add w (k_ctor_copy_alloc n h b al)
  | NewMove y => k_do_new_move w y
  | NewMoveAlloc y al => b <- get w y ;; add2 w y (k_ctor_move_alloc n h y b al)
  | MakeCopy y s al => b <- get w y ;; add w (k_make_copy n h (aref_of b) s al)
  | MakeMove y s al => b <- get w y ;; add w (k_make_move n h (aref_of b) s al)
  | CopyAssign x y => a <- get w x ;; b <- get w y ;; change w x (k_copy_assign_op x h a y b)
  | MoveAssign x y => k_do_move_assign w x y
  | AssignCopy x y => a <- get w x ;; b <- get w y ;; change w x (k_assign_copy x h a b)
  | AssignMove x y => a <- get w x ;; b <- get w y ;; change w x (k_assign_move x h a b)
  | AssignValue x s v => a <- get w x ;; change w x (k_assign_value x h a s (fun _ => Ok v))
  | Clear x => a <- get w x ;; change w x (k_clear x h a)
  | Reshape x s => k_do_reshape w x s
  | Swap x y => k_do_swap w x y
  | Write x i v => a <- get w x ;; p <- k_ref_ptr (aref_of a) i ;; h' <- store h p v ;;
                   Ok (mkW h' (w_arr w) n)
  | Delete x => k_do_delete w x
  end.
(** Not library code: a sequence of statements *)
Definition k_run (ops : list (op V)) (w : world V) : outcome (world V) := foldM k_step ops w.

End Container.
