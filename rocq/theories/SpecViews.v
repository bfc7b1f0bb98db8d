(** Specification vocabulary for programs that hold array_refs: where the elements of an array are
    after a statement, and which uses of array_refs are allowed. *)
From Coq Require Import ZArith List Bool.
From Verif Require Import Base Interval Shape Memory Ref Container Program Views Spec SpecMem SpecContainer SpecProgram.
Import ListNotations.
Open Scope Z_scope.

Definition dim_dec : forall d e : dim, {d = e} + {d <> e}.
Proof. decide equality; apply Z.eq_dec. Defined.
Definition shape_dec : forall s t : list dim, {s = t} + {s <> t} := list_eq_dec dim_dec.
(** [x] for [y] and [y] for [x] *)
Definition trade (x y z : nat) : nat := if (z =? x)%nat then y else if (z =? y)%nat then x else z.

Section Views.
Context {V : Type}.

(** Shape and allocator of an array, and whether its elements are in the array object itself
    (auto_allocator) *)
Definition shape_of (w : world V) (x : nat) : list dim := match w_arr w x with Some a => a_shape a | None => [] end.
Definition allocator_of (w : world V) (x : nat) : nat := match w_arr w x with Some a => a_al a | None => 0%nat end.
Definition is_inline (w : world V) (x : nat) : bool := match w_arr w x with Some a => a_busy a | None => false end.
(** Either of the two arrays could release the other's memory *)
Definition same_allocator (w : world V) (x y : nat) : bool :=
  negb (is_inline w x) && negb (is_inline w y) && (allocator_of w x =? allocator_of w y)%nat.

(** An array with the allocator [al] could take over the memory of [y] *)
Definition could_take (w : world V) (y al : nat) : bool := negb (is_inline w y) && (allocator_of w y =? al)%nat.

(** The elements of [z] when [x] gets the shape [s] by an assignment or reshape: they stay in their
    places if that is the shape it has, otherwise they are destroyed *)
Definition refit (w : world V) (x : nat) (s : list dim) (z : nat) : option nat :=
  if (z =? x)%nat then if shape_dec (shape_of w x) s then Some z else None else Some z.
(** Where the elements of array [z] are after the operation [o]: they have not moved and are those
    of the array [Some z'], or they do not exist any more *)
Definition fate_op (c : config V) (w : world V) (o : op V) (z : nat) : option nat :=
  match o with
  | Clear x | Delete x => if (z =? x)%nat then None else Some z
  | AssignValue x s _ | Reshape x s => refit w x (resolve s) z
  | AssignCopy x y | AssignMove x y => refit w x (shape_of w y) z
  | CopyAssign x y =>
      if (z =? x)%nat && negb (x =? y)%nat && c_pocca c && negb (same_allocator w x y) then None
      else refit w x (shape_of w y) z
  | MoveAssign x y =>
      if c_pocma c || same_allocator w x y then Some (trade x y z) else refit w x (shape_of w y) z
  | NewMove y =>
      if (z =? y)%nat && (c_pocma c || could_take w y (c_default c))
      then Some (w_next w) else Some z
  | NewMoveAlloc y al =>
      if (z =? y)%nat && could_take w y al then Some (w_next w) else Some z
  | Swap x y =>
      if c_pocs c || c_pocma c || same_allocator w x y then Some (trade x y z)
      else if (z =? x)%nat || (z =? y)%nat
           then if could_take w z (c_default c) then None else refit w z (shape_of w (trade x y z)) z
           else Some z
  | New _ _ | NewValue _ _ _ | NewCopy _ | NewCopyAlloc _ _ | MakeCopy _ _ _ | MakeMove _ _ _ | Write _ _ _ => Some z
  end.
Definition fate (c : config V) (w : world V) (o : act V) (z : nat) : option nat :=
  match o with
  | Run o => fate_op c w o z
  | MoveAll y x => fate_op c w (MoveAssign x y) z
  | AssignElem x s _ _ => refit w x (resolve s) z
  | _ => Some z
  end.
(** Array [x] in [w] and [x'] in [w'] have the same elements in the same places *)
Definition same_place (w : world V) (x : nat) (w' : world V) (x' : nat) : Prop :=
  exists a a', w_arr w x = Some a /\ w_arr w' x' = Some a' /\ a_base a' = a_base a /\ a_shape a' = a_shape a.
(** All that the array_ref [r] refers to are elements of the array [x]: at the index [i] the one that
    the array has at [at_ i] *)
Definition views (w : world V) (x : nat) (at_ : list Z -> list Z) (r : aref) : Prop :=
  forall i, in_bounds (r_shape r) i -> exists a, w_arr w x = Some a /\ in_bounds (a_shape a) (at_ i) /\
    elem (r_base r) (r_shape r) i = elem (a_base a) (a_shape a) (at_ i).
(** Nothing that [r] refers to exists *)
Definition dangles (w : world V) (r : aref) : Prop :=
  forall i, in_bounds (r_shape r) i -> ~ alive (w_heap w) (elem (r_base r) (r_shape r) i).

(** For every array_ref the array it refers to and the indices there, or [None] when the elements do
    not exist any more *)
Definition owner : Type := option (nat * (list Z -> list Z)).
Definition live_ref (own : list owner) (v : nat) : Prop := exists x, nth_error own v = Some (Some x).
(** What is known of an array_ref: it refers to elements of its owner, or what it referred to does not
    exist and reading it is undefined behaviour *)
Definition state_of (w : world V) (o : owner) (r : aref) : Prop :=
  match o with
  | Some (x, at_) => views w x at_ r
  | None => dangles w r /\ forall i, in_bounds (r_shape r) i -> ref_at (w_heap w) r i = UB
  end.
(** What the caller has to observe: an array_ref is used while the elements exist *)
Definition legal_vact (c : config V) (st : vstate V) (own : list owner) (o : vact V) : Prop :=
  match o with
  | Do o => legal_act c (vs_world st) o
  | Ref x => exists_arr (vs_world st) x
  | Slice v args => live_ref own v /\ exists r, nth_error (vs_refs st) v = Some r /\ length args = length (r_shape r) /\
      args_within args (r_shape r) /\
      Forall (fun a => match a with AInt i => 0 <= iext i | ADim d => 0 <= dext d | _ => True end) args
  | Get v i => live_ref own v /\ exists r, nth_error (vs_refs st) v = Some r /\ in_bounds (r_shape r) i
  | Put v i _ => live_ref own v /\ exists r, nth_error (vs_refs st) v = Some r /\ in_bounds (r_shape r) i
  | FillRef v _ => live_ref own v
  | CopyRef u v => live_ref own u /\ live_ref own v /\ exists s r,
      nth_error (vs_refs st) u = Some s /\ nth_error (vs_refs st) v = Some r /\ length (r_shape s) = length (r_shape r) /\
      within (r_shape r) (r_shape s)
  end.
(** The owners after a statement *)
Definition after (c : config V) (w : world V) (o : act V) (x : owner) : owner :=
  match x with
  | Some (x, at_) => match fate c w o x with Some x' => Some (x', at_) | None => None end
  | None => None
  end.
Definition part (args : list sarg) (x : owner) : owner :=
  match x with Some (x, at_) => Some (x, fun i => at_ (full_index args i)) | None => None end.
Definition track (c : config V) (st : vstate V) (own : list owner) (o : vact V) : list owner :=
  match o with
  | Do o => map (after c (vs_world st) o) own
  | Ref x => own ++ [Some (x, fun i => i)]
  | Slice v args => own ++ [part args (nth v own None)]
  | _ => own
  end.
Fixpoint vlegal (c : config V) (st : vstate V) (own : list owner) (ops : list (vact V)) : Prop :=
  match ops with
  | [] => True
  | o :: r => legal_vact c st own o /\ forall st', vstep c st o = Ok st' -> vlegal c st' (track c st own o) r
  end.
Fixpoint tracks (c : config V) (st : vstate V) (own : list owner) (ops : list (vact V)) : list owner :=
  match ops with
  | [] => own
  | o :: r => match vstep c st o with Ok st' => tracks c st' (track c st own o) r | _ => track c st own o end
  end.
(** States of legal programs, with the owners of the array_refs *)
Definition vreachable (c : config V) (st : vstate V) (own : list owner) : Prop :=
  exists ops, vlegal c vempty [] ops /\ vrun c ops vempty = Ok st /\ own = tracks c vempty [] ops.
End Views.
