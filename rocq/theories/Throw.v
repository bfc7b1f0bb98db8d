(** Model of the container when something throws: the allocator's [allocate] (bad_alloc), or
    the constructor of an element (include/array/array.h:2235-2732, 2790-2887, 3114-3179).
    The functions are those of Container.v, with the state an exception leaves behind.
    Definitions only.

    Simplifications.  Assignment and destruction of elements, and everything done with
    allocators other than [allocate], do not throw.  An element constructor that throws leaves
    the storage raw and its argument as it was. *)
From Coq Require Import ZArith List Bool.
From Verif Require Import Base Interval Shape Traverse Memory Ref Container.
Import ListNotations.
Open Scope Z_scope.

(** How many more allocations from a base allocator, and how many more constructions of
    elements, succeed; the next one throws.  [None]: all succeed.  Not library code: it stands
    for the environment. *)
Record budget := mkBud { b_allocs : option nat; b_elems : option nat }.
(** Not library code: nothing throws. *)
Definition unlimited : budget := mkBud None None.
(** Not library code: one more event; [None] if it throws *)
Definition spend (n : option nat) : option (option nat) :=
  match n with
  | None => Some None
  | Some O => None
  | Some (S k) => Some (Some k)
  end.
(** Not library code: a call returns (value, remaining budget) or throws, leaving a state behind. *)
Inductive xres (A B : Type) : Type :=
| Done (a : A) (f : budget)
| Threw (b : B).
Arguments Done {A B} _ _.
Arguments Threw {A B} _.
(** C++ exceptions (not library code): sequencing; [catch] is what unwinding does (destructors of local objects). *)
Definition xbind {A B C D : Type} (r : outcome (xres A B)) (k : A -> budget -> outcome (xres C D))
  (catch : B -> outcome (xres C D)) : outcome (xres C D) :=
  r' <- r ;; match r' with Done a f => k a f | Threw b => catch b end.
(** Not library code: a call that does not throw *)
Definition nothrow {A B : Type} (r : outcome A) (f : budget) : outcome (xres A B) :=
  a <- r ;; Ok (Done a f).

Section Throw.
Context {V : Type}.
Variable c : config V.
Notation nd := (c_ndebug c).

(** ** Member functions of one array *)

(** array.h:3149-3156 [auto_allocator::allocate]: only the base allocator throws *)
Definition alloc_get_x (x : nat) (h : heap V) (a : arr) (n : Z) (f : budget)
  : option (heap V * bool * ptr * budget) :=
  if negb (a_busy a) && (n <=? c_cap c)
  then let '(h', p) := alloc_block h (Inline x) n in Some (h', true, p, f)
  else match spend (b_allocs f) with
       | Some m => let '(h', p) := alloc_block h (Base (a_al a)) n in
                   Some (h', a_busy a, p, mkBud m (b_elems f))
       | None => None
       end.
(** array.h:2282-2291 [allocate]; when the allocator throws (2288), [shape_] is resolved and
    [buffer_size_] is set, [buffer_] and [base_] are as before *)
Definition allocate_x (x : nat) (h : heap V) (a : arr) (f : budget)
  : outcome (xres (heap V * arr) (heap V * arr)) :=
  _ <- assert_ nd (is_null (a_buf a)) ;;
  let s := resolve (a_shape a) in
  let fe := flat_extent s in
  if 0 <? fe
  then match alloc_get_x x h a fe f with
       | Some (h', busy, p, f') =>
           Ok (Done (h', set_base (mkA (a_al a) busy p fe (a_base a) s) (ptr_off p (- flat_min s))) f')
       | None => Ok (Threw (h, mkA (a_al a) (a_busy a) (a_buf a) fe (a_base a) s))
       end
  else Ok (Done (h, set_base (with_shape a s) (ptr_off (a_buf a) (- flat_min s))) f).

(** Construct elements one after the other, as the loops of array.h:2294-2315 do; when one
    throws, those before it stay alive *)
Fixpoint construct_each {A : Type} (one : heap V -> A -> outcome (heap V)) (l : list A) (h : heap V)
  (f : budget) : outcome (xres (heap V) (heap V)) :=
  match l with
  | [] => Ok (Done h f)
  | p :: r => match spend (b_elems f) with
              | Some m => h' <- one h p ;; construct_each one r h' (mkBud (b_allocs f) m)
              | None => Ok (Threw h)
              end
  end.
(** array.h:2294-2301 [construct] *)
Definition construct_x (h : heap V) (a : arr) (init : heap V -> outcome V) (f : budget)
  : outcome (xres (heap V) (heap V)) :=
  _ <- assert_ nd (negb (is_null (a_base a)) || empty (a_shape a)) ;;
  l <- values nd (a_shape a) (a_base a) ;;
  construct_each (fun h p => v <- init h ;; construct_at h p v) l h f.
(** array.h:2302-2307 [copy_construct] *)
Definition copy_construct_x (h : heap V) (a b : arr) (f : budget) : outcome (xres (heap V) (heap V)) :=
  _ <- assert_ nd (negb (is_null (a_base a)) || empty (a_shape a)) ;;
  _ <- assert_ nd (shape_eqb (a_shape a) (a_shape b)) ;;
  l <- values_copy nd (a_shape b) (a_base b) (a_shape a) (a_base a) ;;
  construct_each (fun h sd => v <- load h (fst sd) ;; construct_at h (snd sd) v) l h f.
(** array.h:2308-2315 [move_construct] *)
Definition move_construct_x (h : heap V) (a b : arr) (f : budget) : outcome (xres (heap V) (heap V)) :=
  _ <- assert_ nd (negb (is_null (a_base a)) || empty (a_shape a)) ;;
  _ <- assert_ nd (shape_eqb (a_shape a) (a_shape b)) ;;
  l <- values_copy nd (a_shape b) (a_base b) (a_shape a) (a_base a) ;;
  construct_each (fun h sd => v <- load h (fst sd) ;; h1 <- construct_at h (snd sd) v ;;
                              store h1 (fst sd) (c_mv c v)) l h f.

(** array.h:2366-2375 [array(shape, alloc)], [array(shape)].  The destructor does not run for
    an object whose constructor throws: what it points to is lost. *)
Definition ctor_shape_x (x : nat) (h : heap V) (al : nat) (s : shape) (f : budget)
  : outcome (xres (heap V * arr) (heap V)) :=
  xbind (allocate_x x h (blank al s) f)
    (fun ha f1 => let '(h1, a) := ha in
       xbind (construct_x h1 a (fun _ => Ok (c_dv c)) f1)
         (fun h2 f2 => Ok (Done (h2, a) f2))
         (fun h2 => Ok (Threw h2)))
    (fun ha => Ok (Threw (fst ha))).
(** array.h:2487-2503, 2506-2522, 2529-2536: make room for the new elements, in the same
    storage or in new storage *)
Definition refit_x (same : bool) (x : nat) (h : heap V) (a : arr) (s : shape) (f : budget)
  : outcome (xres (heap V * arr) (heap V * arr)) :=
  if same
  then h' <- destroy c h a ;; Ok (Done (h', a) f)
  else ' (h', a') <- deallocate c x h a ;; allocate_x x h' (with_shape a' s) f.
(** array.h:2527-2537 [assign(shape, value)] *)
Definition assign_value_x (x : nat) (h : heap V) (a : arr) (s : shape) (init : heap V -> outcome V) (f : budget)
  : outcome (xres (heap V * arr) (heap V * arr)) :=
  let s := resolve s in
  xbind (refit_x (shape_eqb (a_shape a) s) x h a s f)
    (fun ha f1 => let '(h1, a1) := ha in
       xbind (construct_x h1 a1 init f1)
         (fun h2 f2 => Ok (Done (h2, a1) f2))
         (fun h2 => Ok (Threw (h2, a1))))
    (fun ha => Ok (Threw ha)).
(** array.h:2486-2504 [assign(const array&)] *)
Definition assign_copy_x (x : nat) (h : heap V) (a b : arr) (f : budget)
  : outcome (xres (heap V * arr) (heap V * arr)) :=
  if ptr_eqb (a_base a) (a_base b) then nothrow (assign_copy c x h a b) f
  else
    xbind (refit_x (negb (is_null (a_base a)) && shape_eqb (a_shape a) (a_shape b)) x h a (a_shape b) f)
      (fun ha f1 => let '(h1, a1) := ha in
         xbind (copy_construct_x h1 a1 b f1)
           (fun h2 f2 => Ok (Done (h2, a1) f2))
           (fun h2 => Ok (Threw (h2, a1))))
      (fun ha => Ok (Threw ha)).
(** array.h:2505-2523 [assign(array&&)] *)
Definition assign_move_x (x : nat) (h : heap V) (a b : arr) (f : budget)
  : outcome (xres (heap V * arr) (heap V * arr)) :=
  if ptr_eqb (a_base a) (a_base b) then nothrow (assign_move c x h a b) f
  else
    xbind (refit_x (negb (is_null (a_base a)) && shape_eqb (a_shape a) (a_shape b)) x h a (a_shape b) f)
      (fun ha f1 => let '(h1, a1) := ha in
         xbind (move_construct_x h1 a1 b f1)
           (fun h2 f2 => Ok (Done (h2, a1) f2))
           (fun h2 => Ok (Threw (h2, a1))))
      (fun ha => Ok (Threw ha)).
(** array.h:2359-2363 [array(shape, value, alloc)], [array(shape, value)].  These delegate to
    another constructor; once that one has returned, the destructor runs when the body throws. *)
Definition ctor_value_x (x : nat) (h : heap V) (al : nat) (s : shape) (v : V) (f : budget)
  : outcome (xres (heap V * arr) (heap V)) :=
  xbind (ctor_shape_x x h al (c_shape0 c) f)
    (fun ha f1 => let '(h1, a) := ha in
       xbind (assign_value_x x h1 a s (fun _ => Ok v) f1)
         (fun ha2 f2 => Ok (Done ha2 f2))
         (fun ha2 => ' (h2, _) <- deallocate c x (fst ha2) (snd ha2) ;; Ok (Threw h2)))
    (fun h1 => Ok (Threw h1)).
(** array.h:2387 [array(const array&, alloc)], delegating *)
Definition ctor_copy_alloc_x (x : nat) (h : heap V) (b : arr) (al : nat) (f : budget)
  : outcome (xres (heap V * arr) (heap V)) :=
  xbind (ctor_shape_x x h al (c_shape0 c) f)
    (fun ha f1 => let '(h1, a) := ha in
       xbind (assign_copy_x x h1 a b f1)
         (fun ha2 f2 => Ok (Done ha2 f2))
         (fun ha2 => ' (h2, _) <- deallocate c x (fst ha2) (snd ha2) ;; Ok (Threw h2)))
    (fun h1 => Ok (Threw h1)).
(** array.h:2379-2383 [array(const array&)], not delegating *)
Definition ctor_copy_x (x : nat) (h : heap V) (b : arr) (f : budget)
  : outcome (xres (heap V * arr) (heap V)) :=
  xbind (assign_copy_x x h (blank (c_select c (a_al b)) (c_shape0 c)) b f)
    (fun ha f1 => Ok (Done ha f1))
    (fun ha => Ok (Threw (fst ha))).
(** array.h:2619-2625 [clear] *)
Definition clear_x (x : nat) (h : heap V) (a : arr) (f : budget)
  : outcome (xres (heap V * arr) (heap V * arr)) :=
  ' (h1, a1) <- deallocate c x h a ;;
  xbind (allocate_x x h1 (with_shape a1 (c_shape0 c)) f)
    (fun ha f1 => let '(h2, a2) := ha in
       xbind (construct_x h2 a2 (fun _ => Ok (c_dv c)) f1)
         (fun h3 f3 => Ok (Done (h3, a2) f3))
         (fun h3 => Ok (Threw (h3, a2))))
    (fun ha => Ok (Threw ha)).

(** ** Member functions of two arrays.  When they throw, the second one is as before. *)

(** array.h:2399-2406, 2416-2423: move the elements to new storage *)
Definition move_elements_x (x : nat) (h : heap V) (a b : arr) (f : budget)
  : outcome (xres (heap V * arr * arr) (heap V)) :=
  xbind (allocate_x x h (with_shape a (a_shape b)) f)
    (fun ha f1 => let '(h1, a1) := ha in
       xbind (move_construct_x h1 a1 b f1)
         (fun h2 f2 => Ok (Done (h2, a1, b) f2))
         (fun h2 => Ok (Threw h2)))
    (fun ha => Ok (Threw (fst ha))).
(** array.h:2394-2407 [array(array&&)], not delegating *)
Definition ctor_move_x (x : nat) (h : heap V) (y : nat) (b : arr) (f : budget)
  : outcome (xres (heap V * arr * arr) (heap V)) :=
  let a := blank (if c_pocma c then a_al b else c_default c) (c_shape0 c) in
  if c_pocma c || alloc_eq x a y b then nothrow (ctor_move c x h y b) f
  else move_elements_x x h a b f.
(** array.h:2414-2424 [array(array&&, alloc)], not delegating *)
Definition ctor_move_alloc_x (x : nat) (h : heap V) (y : nat) (b : arr) (al : nat) (f : budget)
  : outcome (xres (heap V * arr * arr) (heap V)) :=
  let a := blank al (c_shape0 c) in
  if alloc_eq x a y b then nothrow (ctor_move_alloc c x h y b al) f
  else move_elements_x x h a b f.
(** array.h:2436-2454 [operator=(const array&)] *)
Definition copy_assign_op_x (x : nat) (h : heap V) (a : arr) (y : nat) (b : arr) (f : budget)
  : outcome (xres (heap V * arr) (heap V * arr)) :=
  if ptr_eqb (a_base a) (a_base b) then nothrow (copy_assign_op c x h a y b) f
  else
    ' (h1, a1) <- (if c_pocca c
                   then
                     ' (h', a') <- (if negb (alloc_eq x a y b) then deallocate c x h a else Ok (h, a)) ;;
                     Ok (h', set_al a' (a_al b))
                   else Ok (h, a)) ;;
    assign_copy_x x h1 a1 b f.
(** array.h:2460-2481 [operator=(array&&)] *)
Definition move_assign_op_x (x : nat) (h : heap V) (a : arr) (y : nat) (b : arr) (f : budget)
  : outcome (xres (heap V * arr * arr) (heap V * arr)) :=
  if ptr_eqb (a_base a) (a_base b) || c_pocma c || alloc_eq x a y b
  then nothrow (move_assign_op c x h a y b) f
  else xbind (assign_move_x x h a b f)
         (fun ha f1 => Ok (Done (ha, b) f1))
         (fun ha => Ok (Threw ha)).

(** array.h:2790-2818 [make_copy]; copying the elements is assignment *)
Definition make_copy_x (x : nat) (h : heap V) (src : aref) (s : shape) (al : nat) (f : budget)
  : outcome (xres (heap V * arr) (heap V)) :=
  xbind (ctor_shape_x x h al s f)
    (fun ha f1 => let '(h1, a) := ha in
       h2 <- copy nd h1 src (aref_of a) ;; Ok (Done (h2, a) f1))
    (fun h1 => Ok (Threw h1)).
(** array.h:2866-2880 [make_move] of a ref *)
Definition make_move_x (x : nat) (h : heap V) (src : aref) (s : shape) (al : nat) (f : budget)
  : outcome (xres (heap V * arr) (heap V)) :=
  xbind (ctor_shape_x x h al s f)
    (fun ha f1 => let '(h1, a) := ha in
       h2 <- move nd (c_mv c) h1 src (aref_of a) ;; Ok (Done (h2, a) f1))
    (fun h1 => Ok (Threw h1)).

(** ** Programs: the state after a statement that returned or threw (the program catches the
    exception).  A name is used up also when no array results. *)

(** array.h:2354-2424: an array [x] that is not constructed does not exist *)
Definition add_x (w : world V) (r : outcome (xres (heap V * arr) (heap V))) : outcome (xres (world V) (world V)) :=
  xbind r
    (fun ha f => Ok (Done (mkW (fst ha) (put (w_arr w) (w_next w) (Some (snd ha))) (S (w_next w))) f))
    (fun h' => Ok (Threw (mkW h' (w_arr w) (S (w_next w))))).
(** array.h:2394-2424: the same for a constructor that also changes [y] *)
Definition add2_x (w : world V) (y : nat) (r : outcome (xres (heap V * arr * arr) (heap V)))
  : outcome (xres (world V) (world V)) :=
  xbind r
    (fun hab f => let '(h', a', b') := hab in
       Ok (Done (mkW h' (put (put (w_arr w) y (Some b')) (w_next w) (Some a')) (S (w_next w))) f))
    (fun h' => Ok (Threw (mkW h' (w_arr w) (S (w_next w))))).
(** array.h:2436-2537, 2619-2625: an array [x] that is changed, also when the function throws *)
Definition change_x (w : world V) (x : nat) (r : outcome (xres (heap V * arr) (heap V * arr)))
  : outcome (xres (world V) (world V)) :=
  xbind r
    (fun ha f => Ok (Done (mkW (fst ha) (put (w_arr w) x (Some (snd ha))) (w_next w)) f))
    (fun ha => Ok (Threw (mkW (fst ha) (put (w_arr w) x (Some (snd ha))) (w_next w)))).

(** array.h:2366-2375 *)
Definition do_new_x (w : world V) (s : shape) (al : nat) (f : budget) : outcome (xres (world V) (world V)) :=
  add_x w (ctor_shape_x (w_next w) (w_heap w) al s f).
(** array.h:2394-2407 *)
Definition do_new_move_x (w : world V) (y : nat) (f : budget) : outcome (xres (world V) (world V)) :=
  b <- get w y ;; add2_x w y (ctor_move_x (w_next w) (w_heap w) y b f).
(** array.h:2460-2481 *)
Definition do_move_assign_x (w : world V) (x y : nat) (f : budget) : outcome (xres (world V) (world V)) :=
  a <- get w x ;; b <- get w y ;;
  xbind (move_assign_op_x x (w_heap w) a y b f)
    (fun hab f' => let '(h', a', b') := hab in
       Ok (Done (mkW h' (put (put (w_arr w) y (Some b')) x (Some a')) (w_next w)) f'))
    (fun ha => Ok (Threw (mkW (fst ha) (put (w_arr w) x (Some (snd ha))) (w_next w)))).
(** array.h:2628-2645 [reshape]; [new_array] is destroyed on the way out, also of an exception *)
Definition do_reshape_x (w : world V) (x : nat) (s : shape) (f : budget) : outcome (xres (world V) (world V)) :=
  a <- get w x ;;
  let new_shape := resolve s in
  if shape_eqb (a_shape a) new_shape then Ok (Done w f)
  else
    let n := w_next w in
    xbind (do_new_x w new_shape (c_default c) f)
      (fun w1 f1 =>
         b <- get w1 n ;;
         h2 <- move_common c (w_heap w1) a b new_shape ;;
         xbind (do_move_assign_x (mkW h2 (w_arr w1) (w_next w1)) x n f1)
           (fun w3 f3 => w4 <- do_delete c w3 n ;; Ok (Done w4 f3))
           (fun w3 => w4 <- do_delete c w3 n ;; Ok (Threw w4)))
      (fun w1 => Ok (Threw w1)).
(** array.h:2691-2705 [swap]; [temp] is destroyed on the way out, also of an exception *)
Definition do_swap_x (w : world V) (x y : nat) (f : budget) : outcome (xres (world V) (world V)) :=
  if c_pocs c then nothrow (do_swap c w x y) f
  else
    let n := w_next w in
    let out w' := w4 <- do_delete c w' n ;; Ok (Threw w4) in
    xbind (do_new_move_x w y f)
      (fun w1 f1 =>
         xbind (do_move_assign_x w1 y x f1)
           (fun w2 f2 =>
              xbind (do_move_assign_x w2 x n f2)
                (fun w3 f3 => w4 <- do_delete c w3 n ;; Ok (Done w4 f3))
                out)
           out)
      (fun w1 => Ok (Threw w1)).

(** One statement of a program with the budget [f]; the functions called are cited at [op] in Container.v. *)
Definition xstep (w : world V) (o : op V) (f : budget) : outcome (xres (world V) (world V)) :=
  let h := w_heap w in
  let n := w_next w in
  match o with
  | New s al => do_new_x w s al f
  | NewValue s v al => add_x w (ctor_value_x n h al s v f)
  | NewCopy y => b <- get w y ;; add_x w (ctor_copy_x n h b f)
  | NewCopyAlloc y al => b <- get w y ;; add_x w (ctor_copy_alloc_x n h b al f)
  | NewMove y => do_new_move_x w y f
  | NewMoveAlloc y al => b <- get w y ;; add2_x w y (ctor_move_alloc_x n h y b al f)
  | MakeCopy y s al => b <- get w y ;; add_x w (make_copy_x n h (aref_of b) s al f)
  | MakeMove y s al => b <- get w y ;; add_x w (make_move_x n h (aref_of b) s al f)
  | CopyAssign x y => a <- get w x ;; b <- get w y ;; change_x w x (copy_assign_op_x x h a y b f)
  | MoveAssign x y => do_move_assign_x w x y f
  | AssignCopy x y => a <- get w x ;; b <- get w y ;; change_x w x (assign_copy_x x h a b f)
  | AssignMove x y => a <- get w x ;; b <- get w y ;; change_x w x (assign_move_x x h a b f)
  | AssignValue x s v => a <- get w x ;; change_x w x (assign_value_x x h a s (fun _ => Ok v) f)
  | Clear x => a <- get w x ;; change_x w x (clear_x x h a f)
  | Reshape x s => do_reshape_x w x s f
  | Swap x y => do_swap_x w x y f
  | Write x i v => nothrow (step c w (Write x i v)) f
  | Delete x => nothrow (step c w (Delete x)) f
  end.
(** Not library code: the state after a statement in a try block, and whether it threw *)
Definition settle (r : xres (world V) (world V)) : world V * bool :=
  match r with Done w _ => (w, false) | Threw w => (w, true) end.
(** Not library code: a program; every statement has its budget, exceptions are caught *)
Fixpoint xrun (ops : list (op V * budget)) (w : world V) : outcome (world V) :=
  match ops with
  | [] => Ok w
  | (o, f) :: r => x <- xstep w o f ;; xrun r (fst (settle x))
  end.

End Throw.
