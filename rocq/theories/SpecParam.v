(** Specification vocabulary: two states, or two programs, that differ in the values of the
    elements only.  [R v v'] says which values correspond. *)
From Coq Require Import ZArith List Bool.
From Verif Require Import Base Interval Shape Memory Ref Container Program.
Import ListNotations.
Open Scope Z_scope.

(** The same outcome, with related results *)
Definition rel_out {A B} (P : A -> B -> Prop) (r : outcome A) (r' : outcome B) : Prop :=
  match r, r' with
  | Ok a, Ok b => P a b
  | AssertFail, AssertFail => True
  | UB, UB => True
  | _, _ => False
  end.

Section Rel.
Context {V W : Type}.
Variable R : V -> W -> Prop.

Definition rel_cell (x : cell V) (y : cell W) : Prop :=
  match x, y with Raw, Raw => True | Live v, Live w => R v w | _, _ => False end.
Definition rel_block (b : block V) (b' : block W) : Prop :=
  b_owner b = b_owner b' /\ b_size b = b_size b' /\ forall i, rel_cell (b_cell b i) (b_cell b' i).
Definition rel_heap (h : heap V) (h' : heap W) : Prop :=
  h_next h = h_next h' /\
  forall k, match h_blk h k, h_blk h' k with
            | None, None => True
            | Some b, Some b' => rel_block b b'
            | _, _ => False
            end.
(** The same arrays with the same shapes in the same memory, elements related *)
Definition rel_world (w : world V) (w' : world W) : Prop :=
  rel_heap (w_heap w) (w_heap w') /\ (forall x, w_arr w x = w_arr w' x) /\ w_next w = w_next w'.
(** The same template arguments and build, except for the type of elements *)
Definition rel_config (c : config V) (c' : config W) : Prop :=
  c_ndebug c = c_ndebug c' /\ c_pocca c = c_pocca c' /\ c_pocma c = c_pocma c' /\ c_pocs c = c_pocs c' /\
  (forall a, c_select c a = c_select c' a) /\ c_default c = c_default c' /\ c_cap c = c_cap c' /\
  c_shape0 c = c_shape0 c' /\ R (c_dv c) (c_dv c') /\ forall v v', R v v' -> R (c_mv c v) (c_mv c' v').
(** The same statement, with related values *)
Definition rel_op (o : op V) (o' : op W) : Prop :=
  match o, o' with
  | New s al, New s' al' => s = s' /\ al = al'
  | NewValue s v al, NewValue s' v' al' => s = s' /\ R v v' /\ al = al'
  | NewCopy y, NewCopy y' => y = y'
  | NewCopyAlloc y al, NewCopyAlloc y' al' => y = y' /\ al = al'
  | NewMove y, NewMove y' => y = y'
  | NewMoveAlloc y al, NewMoveAlloc y' al' => y = y' /\ al = al'
  | MakeCopy y s al, MakeCopy y' s' al' => y = y' /\ s = s' /\ al = al'
  | MakeMove y s al, MakeMove y' s' al' => y = y' /\ s = s' /\ al = al'
  | CopyAssign x y, CopyAssign x' y' => x = x' /\ y = y'
  | MoveAssign x y, MoveAssign x' y' => x = x' /\ y = y'
  | AssignCopy x y, AssignCopy x' y' => x = x' /\ y = y'
  | AssignMove x y, AssignMove x' y' => x = x' /\ y = y'
  | AssignValue x s v, AssignValue x' s' v' => x = x' /\ s = s' /\ R v v'
  | Clear x, Clear x' => x = x'
  | Reshape x s, Reshape x' s' => x = x' /\ s = s'
  | Swap x y, Swap x' y' => x = x' /\ y = y'
  | Write x i v, Write x' i' v' => x = x' /\ i = i' /\ R v v'
  | Delete x, Delete x' => x = x'
  | _, _ => False
  end.
Definition rel_act (o : act V) (o' : act W) : Prop :=
  match o, o' with
  | Run o, Run o' => rel_op o o'
  | Fill x v, Fill x' v' => x = x' /\ R v v'
  | FillElem x y i, FillElem x' y' i' => x = x' /\ y = y' /\ i = i'
  | CopyTo y x, CopyTo y' x' => y = y' /\ x = x'
  | MoveTo y x, MoveTo y' x' => y = y' /\ x = x'
  | MoveAll y x, MoveAll y' x' => y = y' /\ x = x'
  | Generate x g, Generate x' g' => x = x' /\ forall k, R (g k) (g' k)
  | Transform x f, Transform x' f' => x = x' /\ forall i, R (f i) (f' i)
  | AssignElem x s y i, AssignElem x' s' y' i' => x = x' /\ s = s' /\ y = y' /\ i = i'
  | _, _ => False
  end.
End Rel.

(** Every value in the statement satisfies [P]. *)
Definition values_in {V} (P : V -> Prop) (o : act V) : Prop := rel_act (fun v _ => P v) o o.
(** An element with the value [o], [None] if it is indeterminate, may have the value [v]. *)
Definition agrees {V} (o : option V) (v : V) : Prop := o = None \/ o = Some v.
