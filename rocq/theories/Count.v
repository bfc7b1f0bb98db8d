(** Model of the work an array does: how often elements are constructed, assigned and destroyed, and how often
    memory is allocated and released (include/array/array.h:2235-2705, 2757-2949, 3149-3164; the counters are those
    of test/lifetime.h:22-60 and calls of the base allocator).  The functions are those of Container.v, Ref.v and
    Program.v and count what they do.  Definitions only.

    Simplifications.  As in Container.v, Program.v and Ref.v.  Only elements of arrays are counted, not arguments
    and other temporary objects.  [generate] and [transform_index] assign from temporary objects: they move. *)
From Coq Require Import ZArith List Bool.
From Verif Require Import Base Interval Shape Traverse Memory Ref Container Program.
Import ListNotations.
Open Scope Z_scope.

(** test/lifetime.h:23-28: the counters; calls of the base allocator's [allocate] and [deallocate],
    array.h:3155, 3162 *)
Record tally := mkN {
  n_default : Z; n_copy : Z; n_move : Z; n_copy_assign : Z; n_move_assign : Z; n_destroy : Z; n_alloc : Z; n_free : Z }.
(** test/lifetime.h:30-37 [reset] *)
Definition nothing : tally := mkN 0 0 0 0 0 0 0 0.
(** Not library code: what one piece of C++ does and then another *)
Definition plus (t u : tally) : tally :=
  mkN (n_default t + n_default u) (n_copy t + n_copy u) (n_move t + n_move u) (n_copy_assign t + n_copy_assign u)
      (n_move_assign t + n_move_assign u) (n_destroy t + n_destroy u) (n_alloc t + n_alloc u) (n_free t + n_free u).
(** test/lifetime.h:47 *)
Definition one_default : tally := mkN 1 0 0 0 0 0 0 0.
(** test/lifetime.h:48 *)
Definition one_copy : tally := mkN 0 1 0 0 0 0 0 0.
(** test/lifetime.h:49 *)
Definition one_move : tally := mkN 0 0 1 0 0 0 0 0.
(** test/lifetime.h:52-55 *)
Definition one_copy_assign : tally := mkN 0 0 0 1 0 0 0 0.
(** test/lifetime.h:56-59 *)
Definition one_move_assign : tally := mkN 0 0 0 0 1 0 0 0.
(** test/lifetime.h:50 *)
Definition one_destroy : tally := mkN 0 0 0 0 0 1 0 0.
(** array.h:3155: [allocate] of the base allocator *)
Definition one_alloc : tally := mkN 0 0 0 0 0 0 1 0.
(** array.h:3162: [deallocate] of the base allocator *)
Definition one_free : tally := mkN 0 0 0 0 0 0 0 1.

(** Not library code: C++ that counts *)
Definition counted (A : Type) : Type := outcome (A * tally).
(** Not library code: C++ that does nothing that is counted *)
Definition quiet {A : Type} (m : outcome A) : counted A := a <- m ;; Ok (a, nothing).
(** Not library code: C++ that does [t] *)
Definition doing {A : Type} (t : tally) (m : outcome A) : counted A := a <- m ;; Ok (a, t).
(** Not library code: running one piece of C++ after another *)
Definition cbind {A B : Type} (m : counted A) (f : A -> counted B) : counted B :=
  ' (a, t) <- m ;; ' (b, u) <- f a ;; Ok (b, plus t u).
Notation "x <~ m ;; f" := (cbind m (fun x => f))
  (at level 61, m at next level, right associativity).
Notation "' p <~ m ;; f" := (cbind m (fun p => f))
  (at level 61, p pattern, m at next level, right associativity).
(** Not library code: the calls of a callback on the elements of [l], in order, array.h:1436-1447 *)
Fixpoint foldC {A S : Type} (f : S -> A -> counted S) (l : list A) (s : S) : counted S :=
  match l with
  | [] => quiet (Ok s)
  | a :: r => s' <~ f s a ;; foldC f r s'
  end.

Section Count.
Context {V : Type}.
Variable c : config V.
Notation nd := (c_ndebug c).

(** ** Algorithms *)

(** array.h:2763-2772 [copy] *)
Definition n_copy_to (h : heap V) (src dst : aref) : counted (heap V) :=
  if empty (r_shape dst) then quiet (Ok h)
  else
    _ <~ quiet (assert_ nd (index_in_range (r_shape src) (mins (r_shape dst)) &&
                            index_in_range (r_shape src) (maxs (r_shape dst)))) ;;
    l <~ quiet (values_copy nd (r_shape src) (r_base src) (r_shape dst) (r_base dst)) ;;
    foldC (fun h ab => doing one_copy_assign (copy_assign h ab)) l h.
(** array.h:2834-2843 [move] *)
Definition n_move_to (h : heap V) (src dst : aref) : counted (heap V) :=
  if empty (r_shape dst) then quiet (Ok h)
  else
    _ <~ quiet (assert_ nd (index_in_range (r_shape src) (mins (r_shape dst)) &&
                            index_in_range (r_shape src) (maxs (r_shape dst)))) ;;
    l <~ quiet (values_copy nd (r_shape src) (r_base src) (r_shape dst) (r_base dst)) ;;
    foldC (fun h ab => doing one_move_assign (move_assign (c_mv c) h ab)) l h.
(** array.h:2905-2908 [fill] *)
Definition n_fill (h : heap V) (dst : aref) (v : V) : counted (heap V) :=
  l <~ quiet (values nd (r_shape dst) (r_base dst)) ;;
  foldC (fun h p => doing one_copy_assign (store h p v)) l h.
(** array.h:2917-2920 [generate] *)
Definition n_generate (h : heap V) (dst : aref) (g : nat -> V) : counted (heap V * nat) :=
  l <~ quiet (values nd (r_shape dst) (r_base dst)) ;;
  foldC (fun st p => h' <~ doing one_move_assign (store (fst st) p (g (snd st))) ;; quiet (Ok (h', S (snd st)))) l (h, O).
(** array.h:2930-2935 [transform_index], 2944-2949 [transform_indices] *)
Definition n_transform_index (h : heap V) (dst : aref) (fn : index -> V) : counted (heap V) :=
  l <~ quiet (for_each_index (r_shape dst)) ;;
  foldC (fun h i => doing one_move_assign (store h (ref_ptr dst i) (fn i))) l h.

(** ** The container *)

(** array.h:3149-3156 [auto_allocator::allocate] *)
Definition n_alloc_get (x : nat) (h : heap V) (a : arr) (n : Z) : counted (heap V * bool * ptr) :=
  if negb (a_busy a) && (n <=? c_cap c)
  then quiet (let '(h', p) := alloc_block h (Inline x) n in Ok (h', true, p))
  else doing one_alloc (let '(h', p) := alloc_block h (Base (a_al a)) n in Ok (h', a_busy a, p)).
(** array.h:3157-3164 [auto_allocator::deallocate] *)
Definition n_alloc_put (x : nat) (h : heap V) (a : arr) (p : ptr) (n : Z) : counted (heap V * bool) :=
  match inline_block x h p with
  | Some b =>
      _ <~ quiet (assert_ nd (a_busy a)) ;;
      h' <~ quiet (free_block h (Inline x) p (b_size b)) ;;
      quiet (Ok (h', false))
  | None =>
      h' <~ doing one_free (free_block h (Base (a_al a)) p n) ;;
      quiet (Ok (h', a_busy a))
  end.
(** array.h:2282-2291 [allocate] *)
Definition n_allocate (x : nat) (h : heap V) (a : arr) : counted (heap V * arr) :=
  _ <~ quiet (assert_ nd (is_null (a_buf a))) ;;
  let s := resolve (a_shape a) in
  let fe := flat_extent s in
  ' (h1, a1) <~
    (if 0 <? fe
     then ' (h', busy, p) <~ n_alloc_get x h a fe ;; quiet (Ok (h', mkA (a_al a) busy p fe (a_base a) s))
     else quiet (Ok (h, with_shape a s))) ;;
  quiet (Ok (h1, set_base a1 (ptr_off (a_buf a1) (- flat_min s)))).
(** array.h:2294-2301 [construct]; [t] is [one_default] or [one_copy] *)
Definition n_construct (t : tally) (h : heap V) (a : arr) (init : heap V -> outcome V) : counted (heap V) :=
  _ <~ quiet (assert_ nd (negb (is_null (a_base a)) || empty (a_shape a))) ;;
  l <~ quiet (values nd (a_shape a) (a_base a)) ;;
  foldC (fun h p => v <~ quiet (init h) ;; doing t (construct_at h p v)) l h.
(** array.h:2294-2297 [construct()] *)
Definition n_construct_default (h : heap V) (a : arr) : counted (heap V) :=
  n_construct one_default h a (fun _ => Ok (c_dv c)).
(** array.h:2302-2307 [copy_construct] *)
Definition n_copy_construct (h : heap V) (a b : arr) : counted (heap V) :=
  _ <~ quiet (assert_ nd (negb (is_null (a_base a)) || empty (a_shape a))) ;;
  _ <~ quiet (assert_ nd (shape_eqb (a_shape a) (a_shape b))) ;;
  l <~ quiet (values_copy nd (a_shape b) (a_base b) (a_shape a) (a_base a)) ;;
  foldC (fun h sd => v <~ quiet (load h (fst sd)) ;; doing one_copy (construct_at h (snd sd) v)) l h.
(** array.h:2308-2315 [move_construct] *)
Definition n_move_construct (h : heap V) (a b : arr) : counted (heap V) :=
  _ <~ quiet (assert_ nd (negb (is_null (a_base a)) || empty (a_shape a))) ;;
  _ <~ quiet (assert_ nd (shape_eqb (a_shape a) (a_shape b))) ;;
  l <~ quiet (values_copy nd (a_shape b) (a_base b) (a_shape a) (a_base a)) ;;
  foldC (fun h sd => v <~ quiet (load h (fst sd)) ;; h1 <~ doing one_move (construct_at h (snd sd) v) ;;
                     quiet (store h1 (fst sd) (c_mv c v))) l h.
(** array.h:2318-2321 [destroy] *)
Definition n_destruct (h : heap V) (a : arr) : counted (heap V) :=
  _ <~ quiet (assert_ nd (negb (is_null (a_base a)) || empty (a_shape a))) ;;
  l <~ quiet (values nd (a_shape a) (a_base a)) ;;
  foldC (fun h p => doing one_destroy (destroy_at h p)) l h.
(** array.h:2323-2331 [deallocate] *)
Definition n_deallocate (x : nat) (h : heap V) (a : arr) : counted (heap V * arr) :=
  if is_null (a_base a) then quiet (Ok (h, a))
  else
    h1 <~ n_destruct h a ;;
    let a1 := with_shape (set_base a null) (c_shape0 c) in
    ' (h2, busy) <~ n_alloc_put x h1 a1 (a_buf a1) (a_bufsize a1) ;;
    quiet (Ok (h2, set_buf (set_busy a1 busy) null)).

(** array.h:2366-2375 [array(shape, alloc)], [array(shape)] *)
Definition n_ctor_shape (x : nat) (h : heap V) (al : nat) (s : shape) : counted (heap V * arr) :=
  ' (h1, a) <~ n_allocate x h (blank al s) ;;
  h2 <~ n_construct_default h1 a ;;
  quiet (Ok (h2, a)).
(** array.h:2527-2537 [assign(shape, value)] *)
Definition n_assign_value (x : nat) (h : heap V) (a : arr) (s : shape) (init : heap V -> outcome V)
  : counted (heap V * arr) :=
  let s := resolve s in
  ' (h1, a1) <~ (if shape_eqb (a_shape a) s
                 then h' <~ n_destruct h a ;; quiet (Ok (h', a))
                 else ' (h', a') <~ n_deallocate x h a ;; n_allocate x h' (with_shape a' s)) ;;
  h2 <~ n_construct one_copy h1 a1 init ;;
  quiet (Ok (h2, a1)).
(** array.h:2359-2362 [array(shape, value, alloc)] *)
Definition n_ctor_value (x : nat) (h : heap V) (al : nat) (s : shape) (v : V) : counted (heap V * arr) :=
  ' (h1, a) <~ n_ctor_shape x h al (c_shape0 c) ;;
  n_assign_value x h1 a s (fun _ => Ok v).
(** array.h:2495-2501, 2514-2520: the storage for an assignment *)
Definition n_storage (x : nat) (h : heap V) (a b : arr) : counted (heap V * arr) :=
  if negb (is_null (a_base a)) && shape_eqb (a_shape a) (a_shape b)
  then h' <~ n_destruct h a ;; quiet (Ok (h', a))
  else ' (h', a') <~ n_deallocate x h a ;; n_allocate x h' (with_shape a' (a_shape b)).
(** array.h:2486-2504 [assign(const array&)] *)
Definition n_assign_copy (x : nat) (h : heap V) (a b : arr) : counted (heap V * arr) :=
  if ptr_eqb (a_base a) (a_base b) then
    if negb (is_null (a_base a)) then
      _ <~ quiet (assert_ nd (shape_eqb (a_shape a) (a_shape b))) ;; quiet (Ok (h, a))
    else
      let a1 := with_shape a (a_shape b) in
      _ <~ quiet (assert_ nd (empty (a_shape a1))) ;; quiet (Ok (h, a1))
  else
    ' (h1, a1) <~ n_storage x h a b ;;
    h2 <~ n_copy_construct h1 a1 b ;;
    quiet (Ok (h2, a1)).
(** array.h:2505-2523 [assign(array&&)] *)
Definition n_assign_move (x : nat) (h : heap V) (a b : arr) : counted (heap V * arr) :=
  if ptr_eqb (a_base a) (a_base b) then
    if negb (is_null (a_base a)) then
      _ <~ quiet (assert_ nd (shape_eqb (a_shape a) (a_shape b))) ;; quiet (Ok (h, a))
    else
      let a1 := with_shape a (a_shape b) in
      _ <~ quiet (assert_ nd (empty (a_shape a1))) ;; quiet (Ok (h, a1))
  else
    ' (h1, a1) <~ n_storage x h a b ;;
    h2 <~ n_move_construct h1 a1 b ;;
    quiet (Ok (h2, a1)).
(** array.h:2379-2383 [array(const array&)] *)
Definition n_ctor_copy (x : nat) (h : heap V) (b : arr) : counted (heap V * arr) :=
  n_assign_copy x h (blank (c_select c (a_al b)) (c_shape0 c)) b.
(** array.h:2387 [array(const array&, alloc)] *)
Definition n_ctor_copy_alloc (x : nat) (h : heap V) (b : arr) (al : nat) : counted (heap V * arr) :=
  ' (h1, a) <~ n_ctor_shape x h al (c_shape0 c) ;;
  n_assign_copy x h1 a b.
(** array.h:2394-2407 [array(array&&)] *)
Definition n_ctor_move (x : nat) (h : heap V) (y : nat) (b : arr) : counted (heap V * arr * arr) :=
  let a := blank (if c_pocma c then a_al b else c_default c) (c_shape0 c) in
  if c_pocma c || alloc_eq x a y b then
    let '(a', b') := swap_except_allocator a b in quiet (Ok (h, a', b'))
  else
    ' (h1, a1) <~ n_allocate x h (with_shape a (a_shape b)) ;;
    h2 <~ n_move_construct h1 a1 b ;;
    quiet (Ok (h2, a1, b)).
(** array.h:2414-2424 [array(array&&, alloc)] *)
Definition n_ctor_move_alloc (x : nat) (h : heap V) (y : nat) (b : arr) (al : nat) : counted (heap V * arr * arr) :=
  let a := blank al (c_shape0 c) in
  if alloc_eq x a y b then
    let '(a', b') := swap_except_allocator a b in quiet (Ok (h, a', b'))
  else
    ' (h1, a1) <~ n_allocate x h (with_shape a (a_shape b)) ;;
    h2 <~ n_move_construct h1 a1 b ;;
    quiet (Ok (h2, a1, b)).
(** array.h:2436-2454 [operator=(const array&)] *)
Definition n_copy_assign_op (x : nat) (h : heap V) (a : arr) (y : nat) (b : arr) : counted (heap V * arr) :=
  if ptr_eqb (a_base a) (a_base b) then
    if negb (is_null (a_base a)) then
      _ <~ quiet (assert_ nd (shape_eqb (a_shape a) (a_shape b))) ;; quiet (Ok (h, a))
    else
      let a1 := with_shape a (a_shape b) in
      _ <~ quiet (assert_ nd (empty (a_shape a1))) ;; quiet (Ok (h, a1))
  else
    ' (h1, a1) <~ (if c_pocca c
                   then
                     ' (h', a') <~ (if negb (alloc_eq x a y b) then n_deallocate x h a else quiet (Ok (h, a))) ;;
                     quiet (Ok (h', set_al a' (a_al b)))
                   else quiet (Ok (h, a))) ;;
    n_assign_copy x h1 a1 b.
(** array.h:2460-2481 [operator=(array&&)] *)
Definition n_move_assign_op (x : nat) (h : heap V) (a : arr) (y : nat) (b : arr) : counted (heap V * arr * arr) :=
  if ptr_eqb (a_base a) (a_base b) then
    if negb (is_null (a_base a)) then
      _ <~ quiet (assert_ nd (shape_eqb (a_shape a) (a_shape b))) ;; quiet (Ok (h, a, b))
    else
      let a1 := with_shape a (a_shape b) in
      let b1 := with_shape b (a_shape a) in
      _ <~ quiet (assert_ nd (empty (a_shape a1))) ;; quiet (Ok (h, a1, b1))
  else if c_pocma c then
    let '(a1, b1) := swap_allocators a b in
    let '(a2, b2) := swap_except_allocator a1 b1 in
    quiet (Ok (h, a2, b2))
  else if alloc_eq x a y b then
    let '(a1, b1) := swap_except_allocator a b in
    quiet (Ok (h, a1, b1))
  else
    ' (h1, a1) <~ n_assign_move x h a b ;;
    quiet (Ok (h1, a1, b)).
(** array.h:2619-2625 [clear] *)
Definition n_clear (x : nat) (h : heap V) (a : arr) : counted (heap V * arr) :=
  ' (h1, a1) <~ n_deallocate x h a ;;
  ' (h2, a2) <~ n_allocate x h1 (with_shape a1 (c_shape0 c)) ;;
  h3 <~ n_construct_default h2 a2 ;;
  quiet (Ok (h3, a2)).
(** array.h:2790-2818 [make_copy] *)
Definition n_make_copy (x : nat) (h : heap V) (src : aref) (s : shape) (al : nat) : counted (heap V * arr) :=
  ' (h1, a) <~ n_ctor_shape x h al s ;;
  h2 <~ n_copy_to h1 src (aref_of a) ;;
  quiet (Ok (h2, a)).
(** array.h:2866-2880 [make_move] of a ref *)
Definition n_make_move (x : nat) (h : heap V) (src : aref) (s : shape) (al : nat) : counted (heap V * arr) :=
  ' (h1, a) <~ n_ctor_shape x h al s ;;
  h2 <~ n_move_to h1 src (aref_of a) ;;
  quiet (Ok (h2, a)).

(** ** Programs *)

(** Not library code: a new array gets the next unused name. *)
Definition n_add (w : world V) (r : counted (heap V * arr)) : counted (world V) :=
  ' (h', a') <~ r ;; quiet (Ok (mkW h' (put (w_arr w) (w_next w) (Some a')) (S (w_next w)))).
(** Not library code: the same, and array [y] changes. *)
Definition n_add2 (w : world V) (y : nat) (r : counted (heap V * arr * arr)) : counted (world V) :=
  ' (h', a', b') <~ r ;;
  quiet (Ok (mkW h' (put (put (w_arr w) y (Some b')) (w_next w) (Some a')) (S (w_next w)))).
(** Not library code: array [x] changes. *)
Definition n_change (w : world V) (x : nat) (r : counted (heap V * arr)) : counted (world V) :=
  ' (h', a') <~ r ;; quiet (Ok (mkW h' (put (w_arr w) x (Some a')) (w_next w))).
(** Not library code: arrays [x] and [y] change. *)
Definition n_change2 (w : world V) (x y : nat) (r : counted (heap V * arr * arr)) : counted (world V) :=
  ' (h', a', b') <~ r ;; quiet (Ok (mkW h' (put (put (w_arr w) y (Some b')) x (Some a')) (w_next w))).
(** Not library code: the heap changes. *)
Definition n_on_heap (w : world V) (r : counted (heap V)) : counted (world V) :=
  h' <~ r ;; quiet (Ok (mkW h' (w_arr w) (w_next w))).
(** array x(s, al); array.h:2366-2370 *)
Definition n_do_new (w : world V) (s : shape) (al : nat) : counted (world V) :=
  n_add w (n_ctor_shape (w_next w) (w_heap w) al s).
(** array x(std::move(y)); array.h:2394-2406 *)
Definition n_do_new_move (w : world V) (y : nat) : counted (world V) :=
  b <~ quiet (get w y) ;; n_add2 w y (n_ctor_move (w_next w) (w_heap w) y b).
(** x = std::move(y); array.h:2460-2481 *)
Definition n_do_move_assign (w : world V) (x y : nat) : counted (world V) :=
  a <~ quiet (get w x) ;; b <~ quiet (get w y) ;; n_change2 w x y (n_move_assign_op x (w_heap w) a y b).
(** array.h:2426 [~array] *)
Definition n_do_delete (w : world V) (x : nat) : counted (world V) :=
  a <~ quiet (get w x) ;; ' (h', _) <~ n_deallocate x (w_heap w) a ;;
  quiet (Ok (mkW h' (put (w_arr w) x None) (w_next w))).
(** array.h:2637-2642: the middle of [reshape] *)
Definition n_move_common (h : heap V) (a b : arr) (new_shape : shape) : counted (heap V) :=
  let intersection := clamp_dims new_shape (a_shape a) in
  let intersection_base := pointer_add (a_base b) (flat_offset new_shape (mins intersection)) in
  l <~ quiet (values_copy nd (a_shape a) (a_base a) intersection intersection_base) ;;
  foldC (fun h ab => doing one_move_assign (move_assign (c_mv c) h ab)) l h.
(** array.h:2628-2645 [reshape] *)
Definition n_do_reshape (w : world V) (x : nat) (s : shape) : counted (world V) :=
  a <~ quiet (get w x) ;;
  let new_shape := resolve s in
  if shape_eqb (a_shape a) new_shape then quiet (Ok w)
  else
    let n := w_next w in
    w1 <~ n_do_new w new_shape (c_default c) ;;
    b <~ quiet (get w1 n) ;;
    h2 <~ n_move_common (w_heap w1) a b new_shape ;;
    w3 <~ n_do_move_assign (mkW h2 (w_arr w1) (w_next w1)) x n ;;
    n_do_delete w3 n.
(** array.h:2691-2705 [swap] *)
Definition n_do_swap (w : world V) (x y : nat) : counted (world V) :=
  if c_pocs c then
    a <~ quiet (get w x) ;; b <~ quiet (get w y) ;;
    let '(a1, b1) := swap_allocators a b in
    let '(a2, b2) := swap_except_allocator a1 b1 in
    n_change2 w x y (quiet (Ok (w_heap w, a2, b2)))
  else
    let n := w_next w in
    w1 <~ n_do_new_move w y ;;
    w2 <~ n_do_move_assign w1 y x ;;
    w3 <~ n_do_move_assign w2 x n ;;
    n_do_delete w3 n.
(** One operation; the functions called are cited at Container.v's [op] (array.h:2350-2645, 2691-2705, 2790-2887) *)
Definition n_step (w : world V) (o : op V) : counted (world V) :=
  let h := w_heap w in
  let n := w_next w in
  match o with
  | New s al => n_do_new w s al
  | NewValue s v al => n_add w (n_ctor_value n h al s v)
  | NewCopy y => b <~ quiet (get w y) ;; n_add w (n_ctor_copy n h b)
  | NewCopyAlloc y al => b <~ quiet (get w y) ;; n_add w (n_ctor_copy_alloc n h b al)
  | NewMove y => n_do_new_move w y
  | NewMoveAlloc y al => b <~ quiet (get w y) ;; n_add2 w y (n_ctor_move_alloc n h y b al)
  | MakeCopy y s al => b <~ quiet (get w y) ;; n_add w (n_make_copy n h (aref_of b) s al)
  | MakeMove y s al => b <~ quiet (get w y) ;; n_add w (n_make_move n h (aref_of b) s al)
  | CopyAssign x y => a <~ quiet (get w x) ;; b <~ quiet (get w y) ;; n_change w x (n_copy_assign_op x h a y b)
  | MoveAssign x y => n_do_move_assign w x y
  | AssignCopy x y => a <~ quiet (get w x) ;; b <~ quiet (get w y) ;; n_change w x (n_assign_copy x h a b)
  | AssignMove x y => a <~ quiet (get w x) ;; b <~ quiet (get w y) ;; n_change w x (n_assign_move x h a b)
  | AssignValue x s v => a <~ quiet (get w x) ;; n_change w x (n_assign_value x h a s (fun _ => Ok v))
  | Clear x => a <~ quiet (get w x) ;; n_change w x (n_clear x h a)
  | Reshape x s => n_do_reshape w x s
  | Swap x y => n_do_swap w x y
  | Write x i v => a <~ quiet (get w x) ;; n_on_heap w (doing one_copy_assign (store h (ref_ptr (aref_of a) i) v))
  | Delete x => n_do_delete w x
  end.
(** One statement; the functions called are cited at Program.v's [astep] (array.h:2527-2537, 2757-2949) *)
Definition n_astep (w : world V) (o : act V) : counted (world V) :=
  let h := w_heap w in
  match o with
  | Run o => n_step w o
  | Fill x v => a <~ quiet (get w x) ;; n_on_heap w (n_fill h (aref_of a) v)
  | FillElem x y i => a <~ quiet (get w x) ;; b <~ quiet (get w y) ;; v <~ quiet (ref_at h (aref_of b) i) ;;
                      n_on_heap w (n_fill h (aref_of a) v)
  | CopyTo y x => b <~ quiet (get w y) ;; a <~ quiet (get w x) ;; n_on_heap w (n_copy_to h (aref_of b) (aref_of a))
  | MoveTo y x => b <~ quiet (get w y) ;; a <~ quiet (get w x) ;; n_on_heap w (n_move_to h (aref_of b) (aref_of a))
  | MoveAll y x => n_step w (MoveAssign x y)
  | Generate x g => a <~ quiet (get w x) ;; n_on_heap w (r <~ n_generate h (aref_of a) g ;; quiet (Ok (fst r)))
  | Transform x fn => a <~ quiet (get w x) ;; n_on_heap w (n_transform_index h (aref_of a) fn)
  | AssignElem x s y i => a <~ quiet (get w x) ;; b <~ quiet (get w y) ;;
                          n_change w x (n_assign_value x h a s (fun h' => ref_at h' (aref_of b) i))
  end.
(** Not library code: a program *)
Definition n_run (ops : list (act V)) (w : world V) : counted (world V) := foldC n_astep ops w.

End Count.
