(** Specification vocabulary for arrays in 64 bits: which shapes and programs keep every distance
    that the container computes in index_t.  Of the model only the types are used. *)
From Coq Require Import ZArith List.
From Verif Require Import Base Interval Shape Memory Ref Container Spec SpecMem SpecChecked SpecOverflow SpecContainer.
Import ListNotations.
Open Scope Z_scope.

(** The largest |stride| * extent of the dims with a known stride, where an extent counts as
    at least 1 *)
Definition widest (s : list dim) : Z :=
  fold_right Z.max 1 (map (fun d => Z.abs (dstr d) * Z.max 1 (dext d)) (known_dims s)).
(** No dimension is wider than this once the unknown strides are chosen *)
Definition layout_budget (s : list dim) : Z := widest s * unknown_extents s.
(** Bounds fit in index_t, and so do size, distances in memory, and the mins scaled by the size,
    with a factor 3 to spare *)
Definition tame (s : list dim) : Prop :=
  Forall is_dim s /\ ends_fit s /\ box_size s <= 9223372036854775807 /\
  3 * (far s * box_size s) <= 9223372036854775807 /\
  Z.of_nat (length s) * layout_budget s < 9223372036854775807.
(** Only empty dims have an unknown stride *)
Definition settled (s : list dim) : Prop := Forall (fun d => unknown_stride d -> dext d = 0) s.

Section Container.
Context {V : Type}.

(** Array [x], if it exists, is settled *)
Definition settled_arr (w : world V) (x : nat) : Prop := forall a, w_arr w x = Some a -> settled (a_shape a).
(** The shapes an operation is given are tame, and the arrays it reads, writes or reshapes are
    settled *)
Definition tame_op (w : world V) (o : op V) : Prop :=
  match o with
  | New s _ | NewValue s _ _ | AssignValue _ s _ => tame s
  | MakeCopy y s _ | MakeMove y s _ => tame s /\ settled_arr w y
  | NewCopy y | NewCopyAlloc y _ | NewMove y | NewMoveAlloc y _ => settled_arr w y
  | CopyAssign _ y | MoveAssign _ y | AssignCopy _ y | AssignMove _ y => settled_arr w y
  | Reshape x s => tame s /\ settled_arr w x
  | Swap x y => settled_arr w x /\ settled_arr w y
  | Write x _ _ => settled_arr w x
  | Clear _ | Delete _ => True
  end.
(** The same for all operations of a program, each in the state it starts from *)
Fixpoint tame_ops (c : config V) (w : world V) (ops : list (op V)) : Prop :=
  match ops with
  | [] => True
  | o :: r => tame_op w o /\ forall w', step c w o = Ok w' -> tame_ops c w' r
  end.
(** The shapes that a program mentions are tame *)
Definition tame_shapes (o : op V) : Prop :=
  match o with
  | New s _ | NewValue s _ _ | MakeCopy _ s _ | MakeMove _ s _ | AssignValue _ s _ | Reshape _ s => tame s
  | _ => True
  end.
(** The arrays of a state: tame, and settled if they have storage *)
Definition tame_world (w : world V) : Prop :=
  forall x a, w_arr w x = Some a -> tame (a_shape a) /\ (is_null (a_base a) = false -> settled (a_shape a)).

End Container.
