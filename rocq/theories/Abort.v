(** Model of the algorithms when the assignment of an element, a generator or a function passed to
    an algorithm throws (include/array/array.h:1364-1486, 2628-2645, 2757-2949; ein_reduce.h:418-443).
    The functions are those of Ref.v, Ein.v, Container.v and Program.v, with the state an exception
    leaves behind.  Definitions only.

    Simplifications.  Allocation and the constructors of elements do not throw here (Throw.v is about
    these).  An assignment that throws leaves the element it assigns to alive, with some value. *)
From Coq Require Import ZArith List Bool.
From Verif Require Import Base Interval Shape Traverse Memory Ref Container Program Ein.
Import ListNotations.
Open Scope Z_scope.

(** C++ exceptions (not library code): a call returns, or throws; the state is [s] then *)
Inductive ended (S : Type) : Type :=
| Returned (s : S)
| Raised (s : S).
Arguments Returned {S} s.
Arguments Raised {S} s.
(** Not library code: what throws: computing the value to be assigned, or the assignment *)
Inductive fault := InValue | InAssign.

(** The loops of array.h:1364-1486 do not catch anything: [k] calls of the callback are complete
    ([one]), the next one throws ([last] is its effect) *)
Fixpoint each_t {S A : Type} (one last : S -> A -> outcome S) (l : list A) (k : nat) (s : S) : outcome (ended S) :=
  match l, k with
  | [], _ => Ok (Returned s)
  | a :: _, O => s' <- last s a ;; Ok (Raised s')
  | a :: r, Datatypes.S k' => s' <- one s a ;; each_t one last r k' s'
  end.
(** C++ exceptions (not library code): sequencing; [catch] is what unwinding does *)
Definition tbind {S T : Type} (r : outcome (ended S)) (k : S -> outcome (ended T)) (catch : S -> outcome (ended T))
  : outcome (ended T) :=
  r' <- r ;; match r' with Returned s => k s | Raised s => catch s end.

Section Abort.
Context {V : Type}.
(** Not library code: what an element [old] becomes when assigning [v] to it throws, and what
    becomes of [v] when it was to be moved *)
Variable tear : V -> V -> V.
Variable spoil : V -> V.

(** C++ (not library code): an assignment that throws *)
Definition torn_store (h : heap V) (p : ptr) (v : V) : outcome (heap V) :=
  old <- load h p ;; store h p (tear old v).
(** array.h:1421-1424 [copy_assign], when the assignment throws *)
Definition copy_assign_t (h : heap V) (ab : ptr * ptr) : outcome (heap V) :=
  v <- load h (fst ab) ;; torn_store h (snd ab) v.
(** array.h:1416-1419 [move_assign], when the assignment throws *)
Definition move_assign_t (h : heap V) (ab : ptr * ptr) : outcome (heap V) :=
  v <- load h (fst ab) ;; h1 <- torn_store h (snd ab) v ;; store h1 (fst ab) (spoil v).
(** array.h:2919, 2933, 2947: [p = value], when one of the two throws *)
Definition assign_t (f : fault) (h : heap V) (p : ptr) (v : V) : outcome (heap V) :=
  match f with InValue => Ok h | InAssign => torn_store h p v end.

(** array.h:2763-2772 [copy] *)
Definition copy_t (ndebug : bool) (k : nat) (h : heap V) (src dst : aref) : outcome (ended (heap V)) :=
  if empty (r_shape dst) then Ok (Returned h)
  else
    _ <- assert_ ndebug (index_in_range (r_shape src) (mins (r_shape dst)) &&
                         index_in_range (r_shape src) (maxs (r_shape dst))) ;;
    l <- values_copy ndebug (r_shape src) (r_base src) (r_shape dst) (r_base dst) ;;
    each_t copy_assign copy_assign_t l k h.
(** array.h:2834-2843 [move] *)
Definition move_t (ndebug : bool) (mv : V -> V) (k : nat) (h : heap V) (src dst : aref) : outcome (ended (heap V)) :=
  if empty (r_shape dst) then Ok (Returned h)
  else
    _ <- assert_ ndebug (index_in_range (r_shape src) (mins (r_shape dst)) &&
                         index_in_range (r_shape src) (maxs (r_shape dst))) ;;
    l <- values_copy ndebug (r_shape src) (r_base src) (r_shape dst) (r_base dst) ;;
    each_t (move_assign mv) move_assign_t l k h.
(** array.h:2905-2908 [fill] *)
Definition fill_t (ndebug : bool) (k : nat) (h : heap V) (dst : aref) (v : V) : outcome (ended (heap V)) :=
  l <- values ndebug (r_shape dst) (r_base dst) ;;
  each_t (fun h p => store h p v) (fun h p => torn_store h p v) l k h.
(** array.h:2917-2920 [generate]; also returns how many calls of the generator returned *)
Definition generate_t (ndebug : bool) (f : fault) (k : nat) (h : heap V) (dst : aref) (g : nat -> V)
  : outcome (ended (heap V * nat)) :=
  l <- values ndebug (r_shape dst) (r_base dst) ;;
  each_t (fun st p => h' <- store (fst st) p (g (snd st)) ;; Ok (h', S (snd st)))
         (fun st p => h' <- assign_t f (fst st) p (g (snd st)) ;;
                      Ok (h', match f with InValue => snd st | InAssign => S (snd st) end)) l k (h, O).
(** array.h:2930-2935 [transform_index], 2944-2949 [transform_indices] *)
Definition transform_index_t (f : fault) (k : nat) (h : heap V) (dst : aref) (fn : index -> V)
  : outcome (ended (heap V)) :=
  l <- for_each_index (r_shape dst) ;;
  each_t (fun h i => store h (ref_ptr dst i) (fn i)) (fun h i => assign_t f h (ref_ptr dst i) (fn i)) l k h.

(** ein_reduce.h:158-169, 193-196: one evaluation of the assignment, when the operand throws or
    when the assignment does; [op] is as for [ein_assign] *)
Definition ein_assign_t (f : fault) (op : V -> V -> V) (r : aref) (out : list nat) (e : expr V) (h : heap V) (idx : index)
  : outcome (heap V) :=
  v <- eval h e idx ;;
  old <- ref_at h r (get_all out idx) ;;
  assign_t f h (ref_ptr r (get_all out idx)) (op old v).
(** ein_reduce.h:418-443 [ein_reduce] *)
Definition ein_reduce_t (ndebug : bool) (f : fault) (k : nat) (op : V -> V -> V) (h : heap V) (r : aref) (out : list nat)
  (e : expr V) : outcome (ended (heap V)) :=
  s <- ein_loop_shape ndebug r out e ;;
  l <- for_each_index_in_order s ;;
  each_t (ein_assign op r out e) (ein_assign_t f op r out e) l k h.

(** ** Programs *)

Variable c : config V.

(** array.h:2637-2642: the middle of [reshape] *)
Definition move_common_t (k : nat) (h : heap V) (a b : arr) (new_shape : shape) : outcome (ended (heap V)) :=
  let intersection := clamp_dims new_shape (a_shape a) in
  let intersection_base := pointer_add (a_base b) (flat_offset new_shape (mins intersection)) in
  l <- values_copy (c_ndebug c) (a_shape a) (a_base a) intersection intersection_base ;;
  each_t (move_assign (c_mv c)) move_assign_t l k h.
(** Not library code: the state with another heap *)
Definition set_heap (w : world V) (h : heap V) : world V := mkW h (w_arr w) (w_next w).
(** C++ (not library code): after an exception the local array [n] is destroyed *)
Definition unwind (w : world V) (n : nat) (h : heap V) : outcome (ended (world V)) :=
  w' <- do_delete c (set_heap w h) n ;; Ok (Raised w').
(** array.h:2628-2645 [reshape] *)
Definition do_reshape_t (k : nat) (w : world V) (x : nat) (s : shape) : outcome (ended (world V)) :=
  a <- get w x ;;
  let new_shape := resolve s in
  if shape_eqb (a_shape a) new_shape then Ok (Returned w)
  else
    let n := w_next w in
    w1 <- do_new c w new_shape (c_default c) ;;
    b <- get w1 n ;;
    tbind (move_common_t k (w_heap w1) a b new_shape)
      (fun h2 => w3 <- do_move_assign c (set_heap w1 h2) x n ;; w4 <- do_delete c w3 n ;; Ok (Returned w4))
      (unwind w1 n).
(** array.h:2790-2818 [make_copy], 2866-2880 [make_move]: a new array, then [fill_it] assigns its elements *)
Definition do_make_t (w : world V) (s : shape) (al : nat)
  (fill_it : heap V -> arr -> outcome (ended (heap V))) : outcome (ended (world V)) :=
  let n := w_next w in
  w1 <- do_new c w s al ;;
  a <- get w1 n ;;
  tbind (fill_it (w_heap w1) a) (fun h2 => Ok (Returned (set_heap w1 h2))) (unwind w1 n).

(** A statement of [act]; if it assigns elements of existing arrays, [k] of these assignments are
    complete.  The functions called are cited at [astep] in Program.v and at [op] in Container.v. *)
Definition tstep (w : world V) (o : act V) (f : fault) (k : nat) : outcome (ended (world V)) :=
  let h := w_heap w in
  let nd := c_ndebug c in
  let on_heap (r : outcome (ended (heap V))) :=
    tbind r (fun h' => Ok (Returned (set_heap w h'))) (fun h' => Ok (Raised (set_heap w h'))) in
  match o with
  | Fill x v => a <- get w x ;; on_heap (fill_t nd k h (aref_of a) v)
  | FillElem x y i => a <- get w x ;; b <- get w y ;; v <- ref_at h (aref_of b) i ;; on_heap (fill_t nd k h (aref_of a) v)
  | CopyTo y x => b <- get w y ;; a <- get w x ;; on_heap (copy_t nd k h (aref_of b) (aref_of a))
  | MoveTo y x => b <- get w y ;; a <- get w x ;; on_heap (move_t nd (c_mv c) k h (aref_of b) (aref_of a))
  | Generate x g =>
      a <- get w x ;;
      on_heap (tbind (generate_t nd f k h (aref_of a) g) (fun st => Ok (Returned (fst st))) (fun st => Ok (Raised (fst st))))
  | Transform x fn => a <- get w x ;; on_heap (transform_index_t f k h (aref_of a) fn)
  | Run (MakeCopy y s al) => b <- get w y ;; do_make_t w s al (fun h1 a => copy_t nd k h1 (aref_of b) (aref_of a))
  | Run (MakeMove y s al) => b <- get w y ;; do_make_t w s al (fun h1 a => move_t nd (c_mv c) k h1 (aref_of b) (aref_of a))
  | Run (Reshape x s) => do_reshape_t k w x s
  | Run _ | MoveAll _ _ | AssignElem _ _ _ _ => w' <- astep c w o ;; Ok (Returned w')
  end.
(** Not library code: a program in which exceptions are caught after every statement *)
Fixpoint trun (ops : list (act V * fault * nat)) (w : world V) : outcome (world V) :=
  match ops with
  | [] => Ok w
  | (o, f, k) :: r => e <- tstep w o f k ;; match e with Returned w' | Raised w' => trun r w' end
  end.

End Abort.
