(** Model of arrays of a trivial type (int, float, plain structs), with [set_shape] and [move_reinterpret_shape]
    (include/array/array.h:2235-2732, 2757-2949, 3045-3077, 3114-3237).  The functions are those of Container.v,
    Ref.v and Program.v on storage that may be used without constructing anything.  Definitions only.

    Simplifications.  As in Container.v, Program.v and Ref.v.  Elements may be used from when the storage is
    allocated until it is released; until something is written their value is indeterminate ([Raw]), and so it is
    after the destructor.  Copying an element copies its value, also an indeterminate one (the standard leaves
    that undefined for some types).  Moving an element copies it.  The result of [move_reinterpret_shape] has
    the type of its argument. *)
From Coq Require Import ZArith List Bool.
From Verif Require Import Base Interval Shape Traverse Memory Ref Container Program.
Import ListNotations.
Open Scope Z_scope.

Section Trivial.
Context {V : Type}.

(** C++ memory (not library code): the value at [p], which must be inside of a block *)
Definition t_load (h : heap V) (p : ptr) : outcome (cell V) :=
  match peek h p with Some v => Ok v | None => UB end.
(** C++ memory (not library code): assign to or construct an object of trivial type, e.g. array.h:1423, 2300 *)
Definition t_store (h : heap V) (p : ptr) (v : cell V) : outcome (heap V) :=
  match peek h p with Some _ => Ok (upd h p v) | None => UB end.
(** alloc_traits::destroy, array.h:2320: the value is lost *)
Definition t_destroy_at (h : heap V) (p : ptr) : outcome (heap V) :=
  match peek h p with Some _ => Ok (upd h p Raw) | None => UB end.
(** alloc_traits::deallocate(p, n) to [o], array.h:2328: [p] must be the start of a block that comes from
    there and has that size. *)
Definition t_free_block (h : heap V) (o : owner) (p : ptr) (n : Z) : outcome (heap V) :=
  match fst p, h_blk h (fst p) with
  | S _, Some b =>
      if (snd p =? 0) && (b_size b =? n) && owner_eqb (b_owner b) o
      then Ok (mkH (h_next h) (fun k => if (k =? fst p)%nat then None else h_blk h k))
      else UB
  | _, _ => UB
  end.
(** array.h:2080-2086 [operator[]]: reading the element *)
Definition t_ref_at (h : heap V) (r : aref) (i : index) : outcome (cell V) := t_load h (ref_ptr r i).

(** ** Algorithms *)

(** array.h:1421-1424 [copy_assign]: one callback of [copy] *)
Definition t_copy_assign (h : heap V) (ab : ptr * ptr) : outcome (heap V) :=
  v <- t_load h (fst ab) ;; t_store h (snd ab) v.
(** array.h:1416-1419 [move_assign]: moving a trivial object copies it *)
Definition t_move_assign (h : heap V) (ab : ptr * ptr) : outcome (heap V) :=
  v <- t_load h (fst ab) ;; t_store h (snd ab) v.
(** array.h:2763-2772 [copy] *)
Definition t_copy (ndebug : bool) (h : heap V) (src dst : aref) : outcome (heap V) :=
  if empty (r_shape dst) then Ok h
  else
    _ <- assert_ ndebug (index_in_range (r_shape src) (mins (r_shape dst)) &&
                         index_in_range (r_shape src) (maxs (r_shape dst))) ;;
    l <- values_copy ndebug (r_shape src) (r_base src) (r_shape dst) (r_base dst) ;;
    foldM t_copy_assign l h.
(** array.h:2834-2843 [move] *)
Definition t_move (ndebug : bool) (h : heap V) (src dst : aref) : outcome (heap V) :=
  if empty (r_shape dst) then Ok h
  else
    _ <- assert_ ndebug (index_in_range (r_shape src) (mins (r_shape dst)) &&
                         index_in_range (r_shape src) (maxs (r_shape dst))) ;;
    l <- values_copy ndebug (r_shape src) (r_base src) (r_shape dst) (r_base dst) ;;
    foldM t_move_assign l h.
(** array.h:2919: assign to the elements passed to a value callback, in order: the k-th call assigns [g k] *)
Definition t_assign_each (g : nat -> V) (l : list ptr) (h : heap V) : outcome (heap V * nat) :=
  foldM (fun st p => h' <- t_store (fst st) p (Live (g (snd st))) ;; Ok (h', S (snd st))) l (h, O).
(** array.h:2905-2908 [fill] *)
Definition t_fill (ndebug : bool) (h : heap V) (dst : aref) (v : cell V) : outcome (heap V) :=
  l <- values ndebug (r_shape dst) (r_base dst) ;;
  foldM (fun h p => t_store h p v) l h.
(** array.h:2917-2920 [generate]; [g k] is the result of the k-th call of the generator; also
    returns how often it was called *)
Definition t_generate (ndebug : bool) (h : heap V) (dst : aref) (g : nat -> V)
  : outcome (heap V * nat) :=
  l <- values ndebug (r_shape dst) (r_base dst) ;; t_assign_each g l h.
(** array.h:2930-2935 [transform_index], 2944-2949 [transform_indices] *)
Definition t_transform_index (h : heap V) (dst : aref) (fn : index -> V) : outcome (heap V) :=
  l <- for_each_index (r_shape dst) ;;
  foldM (fun h i => t_store h (ref_ptr dst i) (Live (fn i))) l h.

(** The allocator is an uninitialized_allocator (array.h:3181-3237) *)
Variable skip : bool.
Variable c : config V.
Notation nd := (c_ndebug c).

(** ** The container *)

(** array.h:3157-3164 [auto_allocator::deallocate]; the size is not looked at for the inline
    buffer *)
Definition t_alloc_put (x : nat) (h : heap V) (a : arr) (p : ptr) (n : Z) : outcome (heap V * bool) :=
  match inline_block x h p with
  | Some b =>
      _ <- assert_ nd (a_busy a) ;;
      h' <- t_free_block h (Inline x) p (b_size b) ;;
      Ok (h', false)
  | None =>
      h' <- t_free_block h (Base (a_al a)) p n ;;
      Ok (h', a_busy a)
  end.
(** array.h:2294-2301 [construct]: [init] reads the value the elements are constructed from,
    once for every element *)
Definition t_construct (h : heap V) (a : arr) (init : heap V -> outcome (cell V)) : outcome (heap V) :=
  _ <- assert_ nd (negb (is_null (a_base a)) || empty (a_shape a)) ;;
  l <- values nd (a_shape a) (a_base a) ;;
  foldM (fun h p => v <- init h ;; t_store h p v) l h.
(** array.h:2294-2297 [construct()]; with an uninitialized_allocator the callback does nothing, 3208-3214 *)
Definition t_construct_default (h : heap V) (a : arr) : outcome (heap V) :=
  if skip
  then
    _ <- assert_ nd (negb (is_null (a_base a)) || empty (a_shape a)) ;;
    l <- values nd (a_shape a) (a_base a) ;;
    foldM (fun h _ => Ok h) l h
  else t_construct h a (fun _ => Ok (Live (c_dv c))).
(** array.h:2302-2307 [copy_construct] *)
Definition t_copy_construct (h : heap V) (a b : arr) : outcome (heap V) :=
  _ <- assert_ nd (negb (is_null (a_base a)) || empty (a_shape a)) ;;
  _ <- assert_ nd (shape_eqb (a_shape a) (a_shape b)) ;;
  l <- values_copy nd (a_shape b) (a_base b) (a_shape a) (a_base a) ;;
  foldM (fun h sd => v <- t_load h (fst sd) ;; t_store h (snd sd) v) l h.
(** array.h:2308-2315 [move_construct] *)
Definition t_move_construct (h : heap V) (a b : arr) : outcome (heap V) :=
  _ <- assert_ nd (negb (is_null (a_base a)) || empty (a_shape a)) ;;
  _ <- assert_ nd (shape_eqb (a_shape a) (a_shape b)) ;;
  l <- values_copy nd (a_shape b) (a_base b) (a_shape a) (a_base a) ;;
  foldM (fun h sd => v <- t_load h (fst sd) ;; t_store h (snd sd) v) l h.
(** array.h:2318-2321 [destroy] *)
Definition t_destroy (h : heap V) (a : arr) : outcome (heap V) :=
  _ <- assert_ nd (negb (is_null (a_base a)) || empty (a_shape a)) ;;
  l <- values nd (a_shape a) (a_base a) ;;
  foldM t_destroy_at l h.
(** array.h:2323-2331 [deallocate] *)
Definition t_deallocate (x : nat) (h : heap V) (a : arr) : outcome (heap V * arr) :=
  if is_null (a_base a) then Ok (h, a)
  else
    h1 <- t_destroy h a ;;
    let a1 := with_shape (set_base a null) (c_shape0 c) in
    ' (h2, busy) <- t_alloc_put x h1 a1 (a_buf a1) (a_bufsize a1) ;;
    Ok (h2, set_buf (set_busy a1 busy) null).
(** array.h:2366-2375 [array(shape, alloc)], [array(shape)] *)
Definition t_ctor_shape (x : nat) (h : heap V) (al : nat) (s : shape) : outcome (heap V * arr) :=
  ' (h1, a) <- allocate c x h (blank al s) ;;
  h2 <- t_construct_default h1 a ;;
  Ok (h2, a).
(** array.h:2527-2537 [assign(shape, value)]; [value] is a reference and is read by [init] *)
Definition t_assign_value (x : nat) (h : heap V) (a : arr) (s : shape) (init : heap V -> outcome (cell V))
  : outcome (heap V * arr) :=
  let s := resolve s in
  ' (h1, a1) <- (if shape_eqb (a_shape a) s
                 then h' <- t_destroy h a ;; Ok (h', a)
                 else ' (h', a') <- t_deallocate x h a ;; allocate c x h' (with_shape a' s)) ;;
  h2 <- t_construct h1 a1 init ;;
  Ok (h2, a1).
(** array.h:2359-2362 [array(shape, value, alloc)] *)
Definition t_ctor_value (x : nat) (h : heap V) (al : nat) (s : shape) (v : V) : outcome (heap V * arr) :=
  ' (h1, a) <- t_ctor_shape x h al (c_shape0 c) ;;
  t_assign_value x h1 a s (fun _ => Ok (Live v)).
(** array.h:2486-2504 [assign(const array&)] *)
Definition t_assign_copy (x : nat) (h : heap V) (a b : arr) : outcome (heap V * arr) :=
  if ptr_eqb (a_base a) (a_base b) then
    if negb (is_null (a_base a)) then
      _ <- assert_ nd (shape_eqb (a_shape a) (a_shape b)) ;; Ok (h, a)
    else
      let a1 := with_shape a (a_shape b) in
      _ <- assert_ nd (empty (a_shape a1)) ;; Ok (h, a1)
  else
    ' (h1, a1) <- (if negb (is_null (a_base a)) && shape_eqb (a_shape a) (a_shape b)
                   then h' <- t_destroy h a ;; Ok (h', a)
                   else ' (h', a') <- t_deallocate x h a ;; allocate c x h' (with_shape a' (a_shape b))) ;;
    h2 <- t_copy_construct h1 a1 b ;;
    Ok (h2, a1).
(** array.h:2505-2523 [assign(array&&)] *)
Definition t_assign_move (x : nat) (h : heap V) (a b : arr) : outcome (heap V * arr) :=
  if ptr_eqb (a_base a) (a_base b) then
    if negb (is_null (a_base a)) then
      _ <- assert_ nd (shape_eqb (a_shape a) (a_shape b)) ;; Ok (h, a)
    else
      let a1 := with_shape a (a_shape b) in
      _ <- assert_ nd (empty (a_shape a1)) ;; Ok (h, a1)
  else
    ' (h1, a1) <- (if negb (is_null (a_base a)) && shape_eqb (a_shape a) (a_shape b)
                   then h' <- t_destroy h a ;; Ok (h', a)
                   else ' (h', a') <- t_deallocate x h a ;; allocate c x h' (with_shape a' (a_shape b))) ;;
    h2 <- t_move_construct h1 a1 b ;;
    Ok (h2, a1).
(** array.h:2379-2383 [array(const array&)]; [shape_] is default constructed *)
Definition t_ctor_copy (x : nat) (h : heap V) (b : arr) : outcome (heap V * arr) :=
  t_assign_copy x h (blank (c_select c (a_al b)) (c_shape0 c)) b.
(** array.h:2387 [array(const array&, alloc)] *)
Definition t_ctor_copy_alloc (x : nat) (h : heap V) (b : arr) (al : nat) : outcome (heap V * arr) :=
  ' (h1, a) <- t_ctor_shape x h al (c_shape0 c) ;;
  t_assign_copy x h1 a b.
(** array.h:2394-2407 [array(array&&)] with 2333-2340 [get_allocator_for_move] *)
Definition t_ctor_move (x : nat) (h : heap V) (y : nat) (b : arr) : outcome (heap V * arr * arr) :=
  let a := blank (if c_pocma c then a_al b else c_default c) (c_shape0 c) in
  if c_pocma c || alloc_eq x a y b then
    let '(a', b') := swap_except_allocator a b in Ok (h, a', b')
  else
    ' (h1, a1) <- allocate c x h (with_shape a (a_shape b)) ;;
    h2 <- t_move_construct h1 a1 b ;;
    Ok (h2, a1, b).
(** array.h:2414-2424 [array(array&&, alloc)] *)
Definition t_ctor_move_alloc (x : nat) (h : heap V) (y : nat) (b : arr) (al : nat)
  : outcome (heap V * arr * arr) :=
  let a := blank al (c_shape0 c) in
  if alloc_eq x a y b then
    let '(a', b') := swap_except_allocator a b in Ok (h, a', b')
  else
    ' (h1, a1) <- allocate c x h (with_shape a (a_shape b)) ;;
    h2 <- t_move_construct h1 a1 b ;;
    Ok (h2, a1, b).
(** array.h:2436-2454 [operator=(const array&)] *)
Definition t_copy_assign_op (x : nat) (h : heap V) (a : arr) (y : nat) (b : arr) : outcome (heap V * arr) :=
  if ptr_eqb (a_base a) (a_base b) then
    if negb (is_null (a_base a)) then
      _ <- assert_ nd (shape_eqb (a_shape a) (a_shape b)) ;; Ok (h, a)
    else
      let a1 := with_shape a (a_shape b) in
      _ <- assert_ nd (empty (a_shape a1)) ;; Ok (h, a1)
  else
    ' (h1, a1) <- (if c_pocca c
                   then
                     ' (h', a') <- (if negb (alloc_eq x a y b) then t_deallocate x h a else Ok (h, a)) ;;
                     Ok (h', set_al a' (a_al b))
                   else Ok (h, a)) ;;
    t_assign_copy x h1 a1 b.
(** array.h:2460-2481 [operator=(array&&)] *)
Definition t_move_assign_op (x : nat) (h : heap V) (a : arr) (y : nat) (b : arr)
  : outcome (heap V * arr * arr) :=
  if ptr_eqb (a_base a) (a_base b) then
    if negb (is_null (a_base a)) then
      _ <- assert_ nd (shape_eqb (a_shape a) (a_shape b)) ;; Ok (h, a, b)
    else
      let a1 := with_shape a (a_shape b) in
      let b1 := with_shape b (a_shape a) in
      _ <- assert_ nd (empty (a_shape a1)) ;; Ok (h, a1, b1)
  else if c_pocma c then
    let '(a1, b1) := swap_allocators a b in
    let '(a2, b2) := swap_except_allocator a1 b1 in
    Ok (h, a2, b2)
  else if alloc_eq x a y b then
    let '(a1, b1) := swap_except_allocator a b in
    Ok (h, a1, b1)
  else
    ' (h1, a1) <- t_assign_move x h a b ;;
    Ok (h1, a1, b).
(** array.h:2619-2625 [clear] *)
Definition t_clear (x : nat) (h : heap V) (a : arr) : outcome (heap V * arr) :=
  ' (h1, a1) <- t_deallocate x h a ;;
  ' (h2, a2) <- allocate c x h1 (with_shape a1 (c_shape0 c)) ;;
  h3 <- t_construct_default h2 a2 ;;
  Ok (h3, a2).
(** array.h:3045-3070 [move_reinterpret_shape] of [b] (named [y]) to an array named [x];
    [old0] is [OldShape()].  The addition to a null base is not checked. *)
Definition t_move_reinterpret_shape (x : nat) (h : heap V) (y : nat) (b : arr) (old0 new_shape : shape)
  (off : Z) : outcome (heap V * arr * arr) :=
  _ <- assert_ nd (is_subset_of new_shape (a_shape b) off) ;;
  ' (h1, r) <- t_ctor_shape x h (c_default c) (c_shape0 c) ;;
  ' (r1, b1) <- (if c_pocma c then Ok (swap_allocators r b)
                 else _ <- assert_ nd (alloc_eq x r y b) ;; Ok (r, b)) ;;
  let '(r2, b2) := swap_except_allocator r1 b1 in
  let r3 := with_shape r2 new_shape in
  let b3 := with_shape b2 old0 in
  Ok (h1, set_base r3 (ptr_off (a_base r3) off), b3).
(** array.h:2790-2818 [make_copy]: with the shape [src.shape()] or another one *)
Definition t_make_copy (x : nat) (h : heap V) (src : aref) (s : shape) (al : nat) : outcome (heap V * arr) :=
  ' (h1, a) <- t_ctor_shape x h al s ;;
  h2 <- t_copy nd h1 src (aref_of a) ;;
  Ok (h2, a).
(** array.h:2866-2880 [make_move] of a ref *)
Definition t_make_move (x : nat) (h : heap V) (src : aref) (s : shape) (al : nat) : outcome (heap V * arr) :=
  ' (h1, a) <- t_ctor_shape x h al s ;;
  h2 <- t_move nd h1 src (aref_of a) ;;
  Ok (h2, a).

(** ** Programs: several arrays *)

(** array x(s, al); array.h:2366-2370 *)
Definition t_do_new (w : world V) (s : shape) (al : nat) : outcome (world V) :=
  add w (t_ctor_shape (w_next w) (w_heap w) al s).
(** array x(std::move(y)); array.h:2394-2406 *)
Definition t_do_new_move (w : world V) (y : nat) : outcome (world V) :=
  b <- get w y ;; add2 w y (t_ctor_move (w_next w) (w_heap w) y b).
(** x = std::move(y); array.h:2460-2481 *)
Definition t_do_move_assign (w : world V) (x y : nat) : outcome (world V) :=
  a <- get w x ;; b <- get w y ;; change2 w x y (t_move_assign_op x (w_heap w) a y b).
(** array.h:2426 [~array] *)
Definition t_do_delete (w : world V) (x : nat) : outcome (world V) :=
  a <- get w x ;; ' (h', _) <- t_deallocate x (w_heap w) a ;;
  Ok (mkW h' (put (w_arr w) x None) (w_next w)).
(** array.h:2637-2642: the middle of [reshape]: move the common elements of [a] to [b] *)
Definition t_move_common (h : heap V) (a b : arr) (new_shape : shape) : outcome (heap V) :=
  let intersection := clamp_dims new_shape (a_shape a) in
  let intersection_base := pointer_add (a_base b) (flat_offset new_shape (mins intersection)) in
  l <- values_copy nd (a_shape a) (a_base a) intersection intersection_base ;;
  foldM t_move_assign l h.
(** array.h:2628-2645 [reshape]; [new_array] gets the next unused name *)
Definition t_do_reshape (w : world V) (x : nat) (s : shape) : outcome (world V) :=
  a <- get w x ;;
  let new_shape := resolve s in
  if shape_eqb (a_shape a) new_shape then Ok w
  else
    let n := w_next w in
    w1 <- t_do_new w new_shape (c_default c) ;;
    b <- get w1 n ;;
    h2 <- t_move_common (w_heap w1) a b new_shape ;;
    w3 <- t_do_move_assign (mkW h2 (w_arr w1) (w_next w1)) x n ;;
    t_do_delete w3 n.
(** array.h:2691-2705 [swap]; [temp] gets the next unused name *)
Definition t_do_swap (w : world V) (x y : nat) : outcome (world V) :=
  if c_pocs c then
    a <- get w x ;; b <- get w y ;;
    let '(a1, b1) := swap_allocators a b in
    let '(a2, b2) := swap_except_allocator a1 b1 in
    change2 w x y (Ok (w_heap w, a2, b2))
  else
    let n := w_next w in
    w1 <- t_do_new_move w y ;;
    w2 <- t_do_move_assign w1 y x ;;
    w3 <- t_do_move_assign w2 x n ;;
    t_do_delete w3 n.
(** One statement of a program; the functions called are cited at [op]. *)
Definition t_step (w : world V) (o : op V) : outcome (world V) :=
  let h := w_heap w in
  let n := w_next w in
  match o with
  | New s al => t_do_new w s al
  | NewValue s v al => add w (t_ctor_value n h al s v)
  | NewCopy y => b <- get w y ;; add w (t_ctor_copy n h b)
  | NewCopyAlloc y al => b <- get w y ;; add w (t_ctor_copy_alloc n h b al)
  | NewMove y => t_do_new_move w y
  | NewMoveAlloc y al => b <- get w y ;; add2 w y (t_ctor_move_alloc n h y b al)
  | MakeCopy y s al => b <- get w y ;; add w (t_make_copy n h (aref_of b) s al)
  | MakeMove y s al => b <- get w y ;; add w (t_make_move n h (aref_of b) s al)
  | CopyAssign x y => a <- get w x ;; b <- get w y ;; change w x (t_copy_assign_op x h a y b)
  | MoveAssign x y => t_do_move_assign w x y
  | AssignCopy x y => a <- get w x ;; b <- get w y ;; change w x (t_assign_copy x h a b)
  | AssignMove x y => a <- get w x ;; b <- get w y ;; change w x (t_assign_move x h a b)
  | AssignValue x s v => a <- get w x ;; change w x (t_assign_value x h a s (fun _ => Ok (Live v)))
  | Clear x => a <- get w x ;; change w x (t_clear x h a)
  | Reshape x s => t_do_reshape w x s
  | Swap x y => t_do_swap w x y
  | Write x i v => a <- get w x ;; h' <- t_store h (ref_ptr (aref_of a) i) (Live v) ;;
                   Ok (mkW h' (w_arr w) n)
  | Delete x => t_do_delete w x
  end.
(** The statements of [act]: array.h:2527-2537 [assign], 2763-2789 [copy], 2834-2862 [move], 2905-2912
    [fill] (the callback has a copy of the value), 2917-2924 [generate], 2930-2941 [transform_index].
    y[i] is passed by reference: it is read when it is used. *)
Definition t_astep (w : world V) (o : act V) : outcome (world V) :=
  let h := w_heap w in
  let with_heap (r : outcome (heap V)) := h' <- r ;; Ok (mkW h' (w_arr w) (w_next w)) in
  match o with
  | Run o => t_step w o
  | Fill x v => a <- get w x ;; with_heap (t_fill nd h (aref_of a) (Live v))
  | FillElem x y i => a <- get w x ;; b <- get w y ;; v <- t_ref_at h (aref_of b) i ;;
                      with_heap (t_fill nd h (aref_of a) v)
  | CopyTo y x => b <- get w y ;; a <- get w x ;; with_heap (t_copy nd h (aref_of b) (aref_of a))
  | MoveTo y x => b <- get w y ;; a <- get w x ;; with_heap (t_move nd h (aref_of b) (aref_of a))
  | MoveAll y x => t_step w (MoveAssign x y)
  | Generate x g => a <- get w x ;; with_heap (r <- t_generate nd h (aref_of a) g ;; Ok (fst r))
  | Transform x fn => a <- get w x ;; with_heap (t_transform_index h (aref_of a) fn)
  | AssignElem x s y i => a <- get w x ;; b <- get w y ;;
                          change w x (t_assign_value x h a s (fun h' => t_ref_at h' (aref_of b) i))
  end.

(** The statements: array.h:2650-2657 [set_shape], 3045-3077 [move_reinterpret_shape], and those of Program.v *)
Inductive tact :=
| Plain (o : act V)                              (* a statement of Program.v *)
| SetShape (x : nat) (s : shape) (off : Z)       (* x.set_shape(s, off); *)
| MoveShape (y : nat) (s : shape) (off : Z).     (* auto x = move_reinterpret_shape(std::move(y), s, off); *)
(** One statement; the functions called are cited at [tact] *)
Definition tstep (w : world V) (o : tact) : outcome (world V) :=
  match o with
  | Plain o => t_astep w o
  | SetShape x s off => a <- get w x ;; a' <- arr_set_shape c a s off ;;
                        Ok (mkW (w_heap w) (put (w_arr w) x (Some a')) (w_next w))
  | MoveShape y s off => b <- get w y ;;
                         add2 w y (t_move_reinterpret_shape (w_next w) (w_heap w) y b (c_shape0 c) s off)
  end.
(** Not library code: a program *)
Definition trun (ops : list tact) (w : world V) : outcome (world V) := foldM tstep ops w.

End Trivial.
Arguments tact V : clear implicits.
