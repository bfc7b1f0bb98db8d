(** Specification vocabulary for comparing states of programs with arrays: arrays that look the same to the
    program, the arrays a statement mentions, and threads that run whole statements in any order. *)
From Coq Require Import ZArith List Bool.
From Verif Require Import Base Interval Shape Memory Ref Container Program Spec SpecMem SpecContainer SpecProgram.
Import ListNotations.
Open Scope Z_scope.

Section Relate.
Context {V : Type}.

(** Array [x] exists in neither state, or it has the same allocator, shape and elements in both.  Addresses may
    differ. *)
Definition same_array (w w' : world V) (x : nat) : Prop :=
  match w_arr w x, w_arr w' x with
  | Some a, Some a' =>
      a_al a = a_al a' /\ a_busy a = a_busy a' /\ is_null (a_buf a) = is_null (a_buf a') /\ a_shape a = a_shape a' /\
      forall i, in_bounds (a_shape a) i ->
        exists v, holds (w_heap w) (elem (a_base a) (a_shape a) i) v /\ holds (w_heap w') (elem (a_base a') (a_shape a') i) v
  | None, None => True
  | _, _ => False
  end.

(** The arrays a statement mentions *)
Definition op_names (o : op V) : list nat :=
  match o with
  | New _ _ | NewValue _ _ _ => []
  | NewCopy y | NewCopyAlloc y _ | NewMove y | NewMoveAlloc y _ | MakeCopy y _ _ | MakeMove y _ _ => [y]
  | CopyAssign x y | MoveAssign x y | AssignCopy x y | AssignMove x y | Swap x y => [x; y]
  | AssignValue x _ _ | Clear x | Reshape x _ | Write x _ _ | Delete x => [x]
  end.
Definition names (o : act V) : list nat :=
  match o with
  | Run o => op_names o
  | Fill x _ | Generate x _ | Transform x _ => [x]
  | FillElem x y _ | CopyTo y x | MoveTo y x | MoveAll y x | AssignElem x _ y _ => [x; y]
  end.
(** The statement declares a new array *)
Definition declares (o : act V) : Prop :=
  match o with
  | Run (New _ _) | Run (NewValue _ _ _) | Run (NewCopy _) | Run (NewCopyAlloc _ _) | Run (NewMove _)
  | Run (NewMoveAlloc _ _) | Run (MakeCopy _ _ _) | Run (MakeMove _ _ _) => True
  | _ => False
  end.
(** The program mentions [x] *)
Definition mentions (ops : list (act V)) (x : nat) : Prop := exists o, In o ops /\ In x (names o).

(** The same program, compiled with NDEBUG *)
Definition release (c : config V) : config V :=
  mkC true (c_pocca c) (c_pocma c) (c_pocs c) (c_select c) (c_default c) (c_cap c) (c_shape0 c) (c_dv c) (c_mv c).
End Relate.

(** [l] has the elements of the lists [ls], those of each list in their order *)
Inductive weave {A : Type} : list (list A) -> list A -> Prop :=
| woven ls : Forall (fun l => l = []) ls -> weave ls []
| pick ls1 o r ls2 l : weave (ls1 ++ r :: ls2) l -> weave (ls1 ++ (o :: r) :: ls2) (o :: l).
