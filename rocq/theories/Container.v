(** Model of the container [array] (include/array/array.h:2235-2732), of the functions that
    make arrays (2790-2887, 3045-3077), and of auto_allocator (3114-3179).
    Definitions only.

    Simplifications.  Elements are abstract values; constructing, copying and assigning an
    element does not fail.  Allocation does not fail.  An allocator is the number of the
    resource it allocates from, and a flag for auto_allocator.  Moving an allocator leaves the
    source's number.  std::swap of two allocators swaps the numbers. *)
From Coq Require Import ZArith List Bool.
From Verif Require Import Base Interval Shape Traverse Memory Ref.
Import ListNotations.
Open Scope Z_scope.

(** The data members of an array: [alloc_] (number, and [allocated] of auto_allocator),
    [buffer_], [buffer_size_], [base_], [shape_] (array.h:2276-2280, 3116-3118) *)
Record arr := mkA { a_al : nat; a_busy : bool; a_buf : ptr; a_bufsize : Z; a_base : ptr; a_shape : shape }.

(** What the template arguments of array.h:2234-2239 and the build fix: NDEBUG; the traits
    propagate_on_container_copy_assignment, _move_assignment and _swap;
    select_on_container_copy_construction; the allocator [Alloc()]; the number N of elements
    in the inline buffer of auto_allocator (negative: an ordinary allocator); the value of
    [Shape()]; the value of a default constructed element; what remains of an element that
    was moved from. *)
Record config (V : Type) := mkC {
  c_ndebug : bool;
  c_pocca : bool;
  c_pocma : bool;
  c_pocs : bool;
  c_select : nat -> nat;
  c_default : nat;
  c_cap : Z;
  c_shape0 : shape;
  c_dv : V;
  c_mv : V -> V }.
Arguments mkC {V} _ _ _ _ _ _ _ _ _ _.
Arguments c_ndebug {V} _.
Arguments c_pocca {V} _.
Arguments c_pocma {V} _.
Arguments c_pocs {V} _.
Arguments c_select {V} _ _.
Arguments c_default {V} _.
Arguments c_cap {V} _.
Arguments c_shape0 {V} _.
Arguments c_dv {V} _.
Arguments c_mv {V} _ _.

(** Assigning to [base_], array.h:2290 *)
Definition set_base (a : arr) (b : ptr) : arr := mkA (a_al a) (a_busy a) (a_buf a) (a_bufsize a) b (a_shape a).
(** Assigning to [buffer_], array.h:2288 *)
Definition set_buf (a : arr) (b : ptr) : arr := mkA (a_al a) (a_busy a) b (a_bufsize a) (a_base a) (a_shape a).
(** Assigning to [shape_], array.h:2491 *)
Definition with_shape (a : arr) (s : shape) : arr := mkA (a_al a) (a_busy a) (a_buf a) (a_bufsize a) (a_base a) s.
(** Assigning to [alloc_], array.h:2449 *)
Definition set_al (a : arr) (n : nat) : arr := mkA n (a_busy a) (a_buf a) (a_bufsize a) (a_base a) (a_shape a).
(** Assigning to [allocated] of auto_allocator, array.h:3160 *)
Definition set_busy (a : arr) (b : bool) : arr := mkA (a_al a) b (a_buf a) (a_bufsize a) (a_base a) (a_shape a).
(** array.h:2710-2714 [ref], [cref] *)
Definition aref_of (a : arr) : aref := mkR (a_base a) (a_shape a).

Section Container.
Context {V : Type}.
Variable c : config V.
Notation nd := (c_ndebug c).

(** ** Allocators.  [x] is the name of the array that has the allocator as a member. *)

(** array.h:3149-3156 [auto_allocator::allocate]; with a negative capacity the allocator is
    an ordinary one.  Returns the heap, the new [allocated] and the pointer. *)
Definition alloc_get (x : nat) (h : heap V) (a : arr) (n : Z) : heap V * bool * ptr :=
  if negb (a_busy a) && (n <=? c_cap c)
  then let '(h', p) := alloc_block h (Inline x) n in (h', true, p)
  else let '(h', p) := alloc_block h (Base (a_al a)) n in (h', a_busy a, p).
(** array.h:3158: is the pointer the address of the inline buffer of [x]?  The block keeps
    what it was made from; the buffer is only a live block while it is in use. *)
Definition inline_block (x : nat) (h : heap V) (p : ptr) : option (block V) :=
  match h_blk h (fst p) with
  | Some b => if owner_eqb (b_owner b) (Inline x) && (snd p =? 0) then Some b else None
  | None => None
  end.
(** array.h:3157-3164 [auto_allocator::deallocate]; the size is not looked at for the inline
    buffer *)
Definition alloc_put (x : nat) (h : heap V) (a : arr) (p : ptr) (n : Z) : outcome (heap V * bool) :=
  match inline_block x h p with
  | Some b =>
      _ <- assert_ nd (a_busy a) ;;
      h' <- free_block h (Inline x) p (b_size b) ;;
      Ok (h', false)
  | None =>
      h' <- free_block h (Base (a_al a)) p n ;;
      Ok (h', a_busy a)
  end.
(** array.h:3166-3173 [operator==] of auto_allocator; for an ordinary allocator [a_busy] is
    false and this compares the allocators *)
Definition alloc_eq (x : nat) (a : arr) (y : nat) (b : arr) : bool :=
  if a_busy a || a_busy b then (x =? y)%nat else (a_al a =? a_al b)%nat.

(** ** Member functions of one array.  [x] is the name of the array. *)

(** array.h:2282-2291 [allocate] *)
Definition allocate (x : nat) (h : heap V) (a : arr) : outcome (heap V * arr) :=
  _ <- assert_ nd (is_null (a_buf a)) ;;
  let s := resolve (a_shape a) in
  let fe := flat_extent s in
  let '(h1, a1) :=
    if 0 <? fe
    then let '(h', busy, p) := alloc_get x h a fe in (h', mkA (a_al a) busy p fe (a_base a) s)
    else (h, with_shape a s) in
  Ok (h1, set_base a1 (ptr_off (a_buf a1) (- flat_min s))).

(** array.h:2294-2301 [construct]: [init] reads the value the elements are constructed from,
    once for every element *)
Definition construct (h : heap V) (a : arr) (init : heap V -> outcome V) : outcome (heap V) :=
  _ <- assert_ nd (negb (is_null (a_base a)) || empty (a_shape a)) ;;
  l <- values nd (a_shape a) (a_base a) ;;
  foldM (fun h p => v <- init h ;; construct_at h p v) l h.
(** array.h:2294-2297 [construct()] *)
Definition construct_default (h : heap V) (a : arr) : outcome (heap V) :=
  construct h a (fun _ => Ok (c_dv c)).
(** array.h:2302-2307 [copy_construct] *)
Definition copy_construct (h : heap V) (a b : arr) : outcome (heap V) :=
  _ <- assert_ nd (negb (is_null (a_base a)) || empty (a_shape a)) ;;
  _ <- assert_ nd (shape_eqb (a_shape a) (a_shape b)) ;;
  l <- values_copy nd (a_shape b) (a_base b) (a_shape a) (a_base a) ;;
  foldM (fun h sd => v <- load h (fst sd) ;; construct_at h (snd sd) v) l h.
(** array.h:2308-2315 [move_construct] *)
Definition move_construct (h : heap V) (a b : arr) : outcome (heap V) :=
  _ <- assert_ nd (negb (is_null (a_base a)) || empty (a_shape a)) ;;
  _ <- assert_ nd (shape_eqb (a_shape a) (a_shape b)) ;;
  l <- values_copy nd (a_shape b) (a_base b) (a_shape a) (a_base a) ;;
  foldM (fun h sd => v <- load h (fst sd) ;; h1 <- construct_at h (snd sd) v ;;
                     store h1 (fst sd) (c_mv c v)) l h.
(** array.h:2318-2321 [destroy] *)
Definition destroy (h : heap V) (a : arr) : outcome (heap V) :=
  _ <- assert_ nd (negb (is_null (a_base a)) || empty (a_shape a)) ;;
  l <- values nd (a_shape a) (a_base a) ;;
  foldM destroy_at l h.
(** array.h:2323-2331 [deallocate] *)
Definition deallocate (x : nat) (h : heap V) (a : arr) : outcome (heap V * arr) :=
  if is_null (a_base a) then Ok (h, a)
  else
    h1 <- destroy h a ;;
    let a1 := with_shape (set_base a null) (c_shape0 c) in
    ' (h2, busy) <- alloc_put x h1 a1 (a_buf a1) (a_bufsize a1) ;;
    Ok (h2, set_buf (set_busy a1 busy) null).

(** array.h:2366-2372: members of an array under construction *)
Definition blank (al : nat) (s : shape) : arr := mkA al false null 0 null s.
(** array.h:2366-2375 [array(shape, alloc)], [array(shape)] *)
Definition ctor_shape (x : nat) (h : heap V) (al : nat) (s : shape) : outcome (heap V * arr) :=
  ' (h1, a) <- allocate x h (blank al s) ;;
  h2 <- construct_default h1 a ;;
  Ok (h2, a).
(** array.h:2527-2537 [assign(shape, value)]; [value] is a reference and is read by [init] *)
Definition assign_value (x : nat) (h : heap V) (a : arr) (s : shape) (init : heap V -> outcome V)
  : outcome (heap V * arr) :=
  let s := resolve s in
  ' (h1, a1) <- (if shape_eqb (a_shape a) s
                 then h' <- destroy h a ;; Ok (h', a)
                 else ' (h', a') <- deallocate x h a ;; allocate x h' (with_shape a' s)) ;;
  h2 <- construct h1 a1 init ;;
  Ok (h2, a1).
(** array.h:2359-2362 [array(shape, value, alloc)] *)
Definition ctor_value (x : nat) (h : heap V) (al : nat) (s : shape) (v : V) : outcome (heap V * arr) :=
  ' (h1, a) <- ctor_shape x h al (c_shape0 c) ;;
  assign_value x h1 a s (fun _ => Ok v).
(** array.h:2486-2504 [assign(const array&)] *)
Definition assign_copy (x : nat) (h : heap V) (a b : arr) : outcome (heap V * arr) :=
  if ptr_eqb (a_base a) (a_base b) then
    if negb (is_null (a_base a)) then
      _ <- assert_ nd (shape_eqb (a_shape a) (a_shape b)) ;; Ok (h, a)
    else
      let a1 := with_shape a (a_shape b) in
      _ <- assert_ nd (empty (a_shape a1)) ;; Ok (h, a1)
  else
    ' (h1, a1) <- (if negb (is_null (a_base a)) && shape_eqb (a_shape a) (a_shape b)
                   then h' <- destroy h a ;; Ok (h', a)
                   else ' (h', a') <- deallocate x h a ;; allocate x h' (with_shape a' (a_shape b))) ;;
    h2 <- copy_construct h1 a1 b ;;
    Ok (h2, a1).
(** array.h:2505-2523 [assign(array&&)] *)
Definition assign_move (x : nat) (h : heap V) (a b : arr) : outcome (heap V * arr) :=
  if ptr_eqb (a_base a) (a_base b) then
    if negb (is_null (a_base a)) then
      _ <- assert_ nd (shape_eqb (a_shape a) (a_shape b)) ;; Ok (h, a)
    else
      let a1 := with_shape a (a_shape b) in
      _ <- assert_ nd (empty (a_shape a1)) ;; Ok (h, a1)
  else
    ' (h1, a1) <- (if negb (is_null (a_base a)) && shape_eqb (a_shape a) (a_shape b)
                   then h' <- destroy h a ;; Ok (h', a)
                   else ' (h', a') <- deallocate x h a ;; allocate x h' (with_shape a' (a_shape b))) ;;
    h2 <- move_construct h1 a1 b ;;
    Ok (h2, a1).
(** array.h:2379-2383 [array(const array&)]; [shape_] is default constructed *)
Definition ctor_copy (x : nat) (h : heap V) (b : arr) : outcome (heap V * arr) :=
  assign_copy x h (blank (c_select c (a_al b)) (c_shape0 c)) b.
(** array.h:2387 [array(const array&, alloc)] *)
Definition ctor_copy_alloc (x : nat) (h : heap V) (b : arr) (al : nat) : outcome (heap V * arr) :=
  ' (h1, a) <- ctor_shape x h al (c_shape0 c) ;;
  assign_copy x h1 a b.

(** ** Member functions of two arrays [a] (named [x]) and [b] (named [y]).  The assignments
    are also right for [x = y]: they return before the two differ. *)

(** array.h:2342-2348 [swap_except_allocator]; the results keep their allocators *)
Definition swap_except_allocator (a b : arr) : arr * arr :=
  (mkA (a_al a) (a_busy a) (a_buf b) (a_bufsize b) (a_base b) (a_shape b),
   mkA (a_al b) (a_busy b) (a_buf a) (a_bufsize a) (a_base a) (a_shape a)).
(** std::swap of the allocators: array.h:3135-3147 assigns only the base allocator *)
Definition swap_allocators (a b : arr) : arr * arr := (set_al a (a_al b), set_al b (a_al a)).

(** array.h:2394-2407 [array(array&&)] with 2333-2340 [get_allocator_for_move] *)
Definition ctor_move (x : nat) (h : heap V) (y : nat) (b : arr) : outcome (heap V * arr * arr) :=
  let a := blank (if c_pocma c then a_al b else c_default c) (c_shape0 c) in
  if c_pocma c || alloc_eq x a y b then
    let '(a', b') := swap_except_allocator a b in Ok (h, a', b')
  else
    ' (h1, a1) <- allocate x h (with_shape a (a_shape b)) ;;
    h2 <- move_construct h1 a1 b ;;
    Ok (h2, a1, b).
(** array.h:2414-2424 [array(array&&, alloc)] *)
Definition ctor_move_alloc (x : nat) (h : heap V) (y : nat) (b : arr) (al : nat)
  : outcome (heap V * arr * arr) :=
  let a := blank al (c_shape0 c) in
  if alloc_eq x a y b then
    let '(a', b') := swap_except_allocator a b in Ok (h, a', b')
  else
    ' (h1, a1) <- allocate x h (with_shape a (a_shape b)) ;;
    h2 <- move_construct h1 a1 b ;;
    Ok (h2, a1, b).
(** array.h:2436-2454 [operator=(const array&)] *)
Definition copy_assign_op (x : nat) (h : heap V) (a : arr) (y : nat) (b : arr) : outcome (heap V * arr) :=
  if ptr_eqb (a_base a) (a_base b) then
    if negb (is_null (a_base a)) then
      _ <- assert_ nd (shape_eqb (a_shape a) (a_shape b)) ;; Ok (h, a)
    else
      let a1 := with_shape a (a_shape b) in
      _ <- assert_ nd (empty (a_shape a1)) ;; Ok (h, a1)
  else
    ' (h1, a1) <- (if c_pocca c
                   then
                     ' (h', a') <- (if negb (alloc_eq x a y b) then deallocate x h a else Ok (h, a)) ;;
                     Ok (h', set_al a' (a_al b))
                   else Ok (h, a)) ;;
    assign_copy x h1 a1 b.
(** array.h:2460-2481 [operator=(array&&)] *)
Definition move_assign_op (x : nat) (h : heap V) (a : arr) (y : nat) (b : arr)
  : outcome (heap V * arr * arr) :=
  if ptr_eqb (a_base a) (a_base b) then
    if negb (is_null (a_base a)) then
      _ <- assert_ nd (shape_eqb (a_shape a) (a_shape b)) ;; Ok (h, a, b)
    else
      let a1 := with_shape a (a_shape b) in
      let b1 := with_shape b (a_shape a) in
      _ <- assert_ nd (empty (a_shape a1)) ;; Ok (h, a1, b1)
  else if c_pocma c then
    let '(a1, b1) := swap_allocators a b in
    let '(a2, b2) := swap_except_allocator a1 b1 in
    Ok (h, a2, b2)
  else if alloc_eq x a y b then
    let '(a1, b1) := swap_except_allocator a b in
    Ok (h, a1, b1)
  else
    ' (h1, a1) <- assign_move x h a b ;;
    Ok (h1, a1, b).
(** array.h:2619-2625 [clear] *)
Definition clear (x : nat) (h : heap V) (a : arr) : outcome (heap V * arr) :=
  ' (h1, a1) <- deallocate x h a ;;
  ' (h2, a2) <- allocate x h1 (with_shape a1 (c_shape0 c)) ;;
  h3 <- construct_default h2 a2 ;;
  Ok (h3, a2).
(** array.h:2650-2657 [set_shape] *)
Definition arr_set_shape (a : arr) (new_shape : shape) (off : Z) : outcome arr :=
  _ <- assert_ nd (is_resolved new_shape) ;;
  _ <- assert_ nd (is_subset_of new_shape (a_shape a) (- off)) ;;
  Ok (set_base (with_shape a new_shape) (pointer_add (a_base a) off)).
(** array.h:3045-3070 [move_reinterpret_shape] of [b] (named [y]) to an array named [x];
    [old0] is [OldShape()].  The addition to a null base is not checked. *)
Definition move_reinterpret_shape (x : nat) (h : heap V) (y : nat) (b : arr) (old0 new_shape : shape)
  (off : Z) : outcome (heap V * arr * arr) :=
  _ <- assert_ nd (is_subset_of new_shape (a_shape b) off) ;;
  ' (h1, r) <- ctor_shape x h (c_default c) (c_shape0 c) ;;
  ' (r1, b1) <- (if c_pocma c then Ok (swap_allocators r b)
                 else _ <- assert_ nd (alloc_eq x r y b) ;; Ok (r, b)) ;;
  let '(r2, b2) := swap_except_allocator r1 b1 in
  let r3 := with_shape r2 new_shape in
  let b3 := with_shape b2 old0 in
  Ok (h1, set_base r3 (ptr_off (a_base r3) off), b3).

(** array.h:2790-2818 [make_copy]: with the shape [src.shape()] or another one *)
Definition make_copy (x : nat) (h : heap V) (src : aref) (s : shape) (al : nat) : outcome (heap V * arr) :=
  ' (h1, a) <- ctor_shape x h al s ;;
  h2 <- copy nd h1 src (aref_of a) ;;
  Ok (h2, a).
(** array.h:2866-2880 [make_move] of a ref *)
Definition make_move (x : nat) (h : heap V) (src : aref) (s : shape) (al : nat) : outcome (heap V * arr) :=
  ' (h1, a) <- ctor_shape x h al s ;;
  h2 <- move nd (c_mv c) h1 src (aref_of a) ;;
  Ok (h2, a).
(** array.h:2880-2887 [make_move] of an array rvalue; [return src;] copies ([src] is a
    reference) *)
Definition make_move_rvalue (x : nat) (h : heap V) (b : arr) (s : shape) (z al : nat)
  : outcome (heap V * arr) :=
  if shape_eqb (a_shape b) s && alloc_eq z (blank al (c_shape0 c)) x b
  then ctor_copy z h b
  else make_move z h (aref_of b) s al.

(** ** Programs: several arrays *)

(** Not library code: the arrays of a program (array.h:2235), by name; [w_next] and up have not been used as names *)
Record world := mkW { w_heap : heap V; w_arr : nat -> option arr; w_next : nat }.
(** Not library code: the start of a program *)
Definition empty_world : world := mkW empty_heap (fun _ => None) 0.
(** Not library code: use of an array by its name; it must exist. *)
Definition get (w : world) (x : nat) : outcome arr :=
  match w_arr w x with Some a => Ok a | None => UB end.
(** Not library code: the array of a name changes. *)
Definition put (f : nat -> option arr) (x : nat) (o : option arr) : nat -> option arr :=
  fun k => if (k =? x)%nat then o else f k.

(** The statements of a program, with what they call: array.h:2350-2424 constructors, 2790-2887
    [make_copy] and [make_move], 2436-2537 assignments, 2619-2626 [clear], 2628-2645 [reshape],
    2691-2705 [swap], 2543 [operator[]], 2426 [~array] *)
Inductive op :=
| New (s : shape) (al : nat)              (* array x(s, al); *)
| NewValue (s : shape) (v : V) (al : nat) (* array x(s, v, al); *)
| NewCopy (y : nat)                       (* array x(y); *)
| NewCopyAlloc (y al : nat)               (* array x(y, al); *)
| NewMove (y : nat)                       (* array x(std::move(y)); *)
| NewMoveAlloc (y al : nat)               (* array x(std::move(y), al); *)
| MakeCopy (y : nat) (s : shape) (al : nat)  (* auto x = make_copy(y, s, al); *)
| MakeMove (y : nat) (s : shape) (al : nat)  (* auto x = make_move(y, s, al); *)
| CopyAssign (x y : nat)                  (* x = y; *)
| MoveAssign (x y : nat)                  (* x = std::move(y); *)
| AssignCopy (x y : nat)                  (* x.assign(y); *)
| AssignMove (x y : nat)                  (* x.assign(std::move(y)); *)
| AssignValue (x : nat) (s : shape) (v : V) (* x.assign(s, v); *)
| Clear (x : nat)                         (* x.clear(); *)
| Reshape (x : nat) (s : shape)           (* x.reshape(s); *)
| Swap (x y : nat)                        (* x.swap(y); *)
| Write (x : nat) (i : index) (v : V)     (* x[i] = v; *)
| Delete (x : nat).                       (* end of the life of x *)

(** Not library code: a new array gets the next unused name. *)
Definition add (w : world) (r : outcome (heap V * arr)) : outcome world :=
  ' (h', a') <- r ;; Ok (mkW h' (put (w_arr w) (w_next w) (Some a')) (S (w_next w))).
(** Not library code: the same, and array [y] changes. *)
Definition add2 (w : world) (y : nat) (r : outcome (heap V * arr * arr)) : outcome world :=
  ' (h', a', b') <- r ;;
  Ok (mkW h' (put (put (w_arr w) y (Some b')) (w_next w) (Some a')) (S (w_next w))).
(** Not library code: array [x] changes. *)
Definition change (w : world) (x : nat) (r : outcome (heap V * arr)) : outcome world :=
  ' (h', a') <- r ;; Ok (mkW h' (put (w_arr w) x (Some a')) (w_next w)).
(** Not library code: arrays [x] and [y] change. *)
Definition change2 (w : world) (x y : nat) (r : outcome (heap V * arr * arr)) : outcome world :=
  ' (h', a', b') <- r ;;
  Ok (mkW h' (put (put (w_arr w) y (Some b')) x (Some a')) (w_next w)).

(** array x(s, al); array.h:2366-2370 *)
Definition do_new (w : world) (s : shape) (al : nat) : outcome world :=
  add w (ctor_shape (w_next w) (w_heap w) al s).
(** array x(std::move(y)); array.h:2394-2406 *)
Definition do_new_move (w : world) (y : nat) : outcome world :=
  b <- get w y ;; add2 w y (ctor_move (w_next w) (w_heap w) y b).
(** x = std::move(y); array.h:2460-2481 *)
Definition do_move_assign (w : world) (x y : nat) : outcome world :=
  a <- get w x ;; b <- get w y ;; change2 w x y (move_assign_op x (w_heap w) a y b).
(** array.h:2426 [~array] *)
Definition do_delete (w : world) (x : nat) : outcome world :=
  a <- get w x ;; ' (h', _) <- deallocate x (w_heap w) a ;;
  Ok (mkW h' (put (w_arr w) x None) (w_next w)).

(** array.h:2637-2642: the middle of [reshape]: move the common elements of [a] to [b] *)
Definition move_common (h : heap V) (a b : arr) (new_shape : shape) : outcome (heap V) :=
  let intersection := clamp_dims new_shape (a_shape a) in
  let intersection_base := pointer_add (a_base b) (flat_offset new_shape (mins intersection)) in
  l <- values_copy nd (a_shape a) (a_base a) intersection intersection_base ;;
  foldM (move_assign (c_mv c)) l h.
(** array.h:2628-2645 [reshape]; [new_array] gets the next unused name *)
Definition do_reshape (w : world) (x : nat) (s : shape) : outcome world :=
  a <- get w x ;;
  let new_shape := resolve s in
  if shape_eqb (a_shape a) new_shape then Ok w
  else
    let n := w_next w in
    w1 <- do_new w new_shape (c_default c) ;;
    b <- get w1 n ;;
    h2 <- move_common (w_heap w1) a b new_shape ;;
    w3 <- do_move_assign (mkW h2 (w_arr w1) (w_next w1)) x n ;;
    do_delete w3 n.
(** array.h:2691-2705 [swap]; [temp] gets the next unused name *)
Definition do_swap (w : world) (x y : nat) : outcome world :=
  if c_pocs c then
    a <- get w x ;; b <- get w y ;;
    let '(a1, b1) := swap_allocators a b in
    let '(a2, b2) := swap_except_allocator a1 b1 in
    change2 w x y (Ok (w_heap w, a2, b2))
  else
    let n := w_next w in
    w1 <- do_new_move w y ;;
    w2 <- do_move_assign w1 y x ;;
    w3 <- do_move_assign w2 x n ;;
    do_delete w3 n.

(** One statement of a program; the functions called are cited at [op]. *)
Definition step (w : world) (o : op) : outcome world :=
  let h := w_heap w in
  let n := w_next w in
  match o with
  | New s al => do_new w s al
  | NewValue s v al => add w (ctor_value n h al s v)
  | NewCopy y => b <- get w y ;; add w (ctor_copy n h b)
  | NewCopyAlloc y al => b <- get w y ;; add w (ctor_copy_alloc n h b al)
  | NewMove y => do_new_move w y
  | NewMoveAlloc y al => b <- get w y ;; add2 w y (ctor_move_alloc n h y b al)
  | MakeCopy y s al => b <- get w y ;; add w (make_copy n h (aref_of b) s al)
  | MakeMove y s al => b <- get w y ;; add w (make_move n h (aref_of b) s al)
  | CopyAssign x y => a <- get w x ;; b <- get w y ;; change w x (copy_assign_op x h a y b)
  | MoveAssign x y => do_move_assign w x y
  | AssignCopy x y => a <- get w x ;; b <- get w y ;; change w x (assign_copy x h a b)
  | AssignMove x y => a <- get w x ;; b <- get w y ;; change w x (assign_move x h a b)
  | AssignValue x s v => a <- get w x ;; change w x (assign_value x h a s (fun _ => Ok v))
  | Clear x => a <- get w x ;; change w x (clear x h a)
  | Reshape x s => do_reshape w x s
  | Swap x y => do_swap w x y
  | Write x i v => a <- get w x ;; h' <- store h (ref_ptr (aref_of a) i) v ;;
                   Ok (mkW h' (w_arr w) n)
  | Delete x => do_delete w x
  end.
(** Not library code: a sequence of statements *)
Definition run (ops : list op) (w : world) : outcome world := foldM step ops w.

End Container.
Arguments world : clear implicits.
Arguments op : clear implicits.
