(** Model of arrays with an uninitialized_allocator (include/array/array.h:3181-3237).
    Definitions only.

    Simplifications.  An element whose construction was skipped has an indeterminate value, [None].
    Copying an element copies its value, also an indeterminate one (the standard leaves that
    undefined for some types). *)
From Coq Require Import ZArith List Bool.
From Verif Require Import Base Interval Shape Memory Ref Container Program.
Import ListNotations.
Open Scope Z_scope.

Section Uninit.
Context {V : Type}.

(** array.h:3185-3226 [uninitialized_allocator] around the allocator of [c], for a trivial type of
    elements.  [construct] without arguments does nothing (3208-3214).  The propagation traits are
    those of the base (3190-3195), and so are [allocate], [deallocate] and the comparison (3201-3225).
    allocator_traits calls [alloc.select_on_container_copy_construction()]; the static member of
    3196-3199 has a parameter and cannot be called so, hence the allocator is copied. *)
Definition uninitialized (c : config V) : config (option V) :=
  mkC (c_ndebug c) (c_pocca c) (c_pocma c) (c_pocs c) (fun a => a) (c_default c) (c_cap c) (c_shape0 c)
      None (fun v => v).
(** An operation of a program over arrays of [V]: its arguments (array.h:2359-2362, 2527-2537) are values *)
Definition lift_op (o : op V) : op (option V) :=
  match o with
  | New s al => New s al
  | NewValue s v al => NewValue s (Some v) al
  | NewCopy y => NewCopy y
  | NewCopyAlloc y al => NewCopyAlloc y al
  | NewMove y => NewMove y
  | NewMoveAlloc y al => NewMoveAlloc y al
  | MakeCopy y s al => MakeCopy y s al
  | MakeMove y s al => MakeMove y s al
  | CopyAssign x y => CopyAssign x y
  | MoveAssign x y => MoveAssign x y
  | AssignCopy x y => AssignCopy x y
  | AssignMove x y => AssignMove x y
  | AssignValue x s v => AssignValue x s (Some v)
  | Clear x => Clear x
  | Reshape x s => Reshape x s
  | Swap x y => Swap x y
  | Write x i v => Write x i (Some v)
  | Delete x => Delete x
  end.
(** The same for the algorithms (array.h:2757-2949) *)
Definition lift_act (o : act V) : act (option V) :=
  match o with
  | Run o => Run (lift_op o)
  | Fill x v => Fill x (Some v)
  | FillElem x y i => FillElem x y i
  | CopyTo y x => CopyTo y x
  | MoveTo y x => MoveTo y x
  | MoveAll y x => MoveAll y x
  | Generate x g => Generate x (fun k => Some (g k))
  | Transform x fn => Transform x (fun i => Some (fn i))
  | AssignElem x s y i => AssignElem x s y i
  end.
(** array.h:2366-2375 [array(shape, alloc)] with an uninitialized_allocator and a type of elements
    that is not trivial: 3208-3214 does not begin the life of any element. *)
Definition ctor_shape_skip (c : config V) (x : nat) (h : heap V) (al : nat) (s : shape) : outcome (heap V * arr) :=
  ' (h1, a) <- allocate c x h (blank al s) ;;
  h2 <- (_ <- assert_ (c_ndebug c) (negb (is_null (a_base a)) || empty (a_shape a)) ;;
         l <- values (c_ndebug c) (a_shape a) (a_base a) ;;
         foldM (fun h _ => Ok h) l h1) ;;
  Ok (h2, a).
(** array x(s, al); array.h:2366-2370 *)
Definition do_new_skip (c : config V) (w : world V) (s : shape) (al : nat) : outcome (world V) :=
  add w (ctor_shape_skip c (w_next w) (w_heap w) al s).
End Uninit.
