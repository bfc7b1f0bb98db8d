(** Specification vocabulary for exceptions: which programs are legal when an allocation may
    fail, and what a failed operation may change. *)
From Coq Require Import ZArith List Bool.
From Verif Require Import Base Interval Shape Memory Ref Container Throw Spec SpecMem SpecContainer.
Import ListNotations.
Open Scope Z_scope.

(** At most [n] allocations succeed ([None]: all do); constructing an element does not throw *)
Definition allocs (n : option nat) : budget := mkBud n None.
(** At most [n] constructions of elements succeed; allocating does not throw *)
Definition elems (n : nat) : budget := mkBud None (Some n).

Section Throw.
Context {V : Type}.

(** Array [x] has storage, or has no elements.  (An assignment to [x] that threw can leave it
    with a shape and no storage.) *)
Definition usable (w : world V) (x : nat) : Prop :=
  exists a, w_arr w x = Some a /\ (a_base a <> null \/ no_index (a_shape a)).
(** What the caller has to observe when a previous operation may have thrown: arrays that are
    not usable are only assigned to, cleared or destroyed; assigning a value needs a shape
    other than the array's. *)
Definition xlegal_op (c : config V) (w : world V) (o : op V) : Prop :=
  legal_op c w o /\
  match o with
  | New _ _ | NewValue _ _ _ | Clear _ | Delete _ => True
  | NewCopy y | NewCopyAlloc y _ | NewMove y | NewMoveAlloc y _ | MakeCopy y _ _ | MakeMove y _ _ => usable w y
  | CopyAssign _ y | MoveAssign _ y | AssignCopy _ y | AssignMove _ y => usable w y
  | AssignValue x s _ => usable w x \/ exists a, w_arr w x = Some a /\ a_shape a <> resolve s
  | Reshape x _ | Write x _ _ => usable w x
  | Swap x y => usable w x /\ usable w y
  end.
(** A program in which every operation has a number of allocations after which one fails *)
Fixpoint xlegal (c : config V) (w : world V) (ops : list (op V * option nat)) : Prop :=
  match ops with
  | [] => True
  | (o, n) :: r => xlegal_op c w o /\
      forall x, xstep c w o (allocs n) = Ok x -> xlegal c (fst (settle x)) r
  end.
Definition with_allocs (ops : list (op V * option nat)) : list (op V * budget) :=
  map (fun on => (fst on, allocs (snd on))) ops.
Definition xreachable (c : config V) (w : world V) : Prop :=
  exists ops, xlegal c empty_world ops /\ xrun c (with_allocs ops) empty_world = Ok w.

(** What an operation that throws may change: nothing, or the array that is assigned to *)
Definition targets (o : op V) : list nat :=
  match o with
  | CopyAssign x _ | MoveAssign x _ | AssignCopy x _ | AssignMove x _ => [x]
  | AssignValue x _ _ | Clear x | Reshape x _ => [x]
  | Swap x y => [x; y]
  | _ => []
  end.
(** The same arrays exist *)
Definition same_arrays (w w' : world V) : Prop := forall z, w_arr w' z = None <-> w_arr w z = None.

(** [w'] has, in addition to the objects of [w], a block [q] with [k] live objects, which belongs
    to no array.  Without inline storage the block came from an allocator. *)
Definition stray (c : config V) (w w' : world V) (k : nat) : Prop :=
    exists q b objs, h_blk (w_heap w) q = None /\ h_blk (w_heap w') q = Some b /\
    (c_cap c < 0 -> exists al, b_owner b = Base al) /\
    (forall x a, w_arr w' x = Some a -> fst (a_buf a) <> q) /\
    NoDup objs /\ length objs = k /\ (forall p, In p objs -> fst p = q) /\
    forall p, alive (w_heap w') p <-> alive (w_heap w) p \/ In p objs.
(** [w'] has the arrays of [w], and a stray block. *)
Definition leaks (c : config V) (w w' : world V) (k : nat) : Prop := unchanged w w' [] /\ stray c w w' k.
(** The same, but [k] elements of [y] have been moved from. *)
Definition leaks_moved (c : config V) (w w' : world V) (y k : nat) : Prop :=
  unchanged w w' [y] /\ stray c w w' k /\
  forall s g, denotes w y s g -> exists m g', denotes w' y s g' /\ NoDup m /\ length m = k /\
    (forall i, In i m -> in_bounds s i /\ g' i = c_mv c (g i)) /\ (forall i, ~ In i m -> g' i = g i).
(** Array [x] can be neither destroyed nor cleared: both are undefined. *)
Definition stuck (c : config V) (w : world V) (x : nat) : Prop :=
  step c w (Delete x) = UB /\ step c w (Clear x) = UB.

End Throw.
