(** Specification vocabulary for the container: which programs are legal, and what an array
    denotes. *)
From Coq Require Import ZArith List Bool.
From Verif Require Import Base Interval Shape Memory Ref Container Spec SpecMem.
Import ListNotations.
Open Scope Z_scope.

(** No index is in range *)
Definition no_index (s : list dim) : Prop := forall i, ~ in_bounds s i.
(** Every stride is known *)
Definition known_strides (s : list dim) : Prop := Forall (fun d => ~ unknown_stride d) s.
(** Layouts an array may have: no negative extent, all strides known, no two elements at the
    same place; and an array that needs no memory does not move its base pointer. *)
Definition proper_layout (s : list dim) : Prop :=
  extents_ge 0 s /\ known_strides s /\ injective_layout s /\ (0 < flat_extent s \/ flat_min s = 0).

Section Container.
Context {V : Type}.

(** [s] may be given for a shape of this type: right rank, proper once the strides are chosen *)
Definition shape_arg (c : config V) (s : list dim) : Prop :=
  length s = length (c_shape0 c) /\ proper_layout (resolve s).
(** The shape type's default is empty; auto_allocator does not propagate (array.h:3123-3125) *)
Definition fair (c : config V) : Prop :=
  shape_arg c (c_shape0 c) /\ extents_ge 0 (c_shape0 c) /\ no_index (c_shape0 c) /\
  (c_cap c < 0 \/ (c_pocca c = false /\ c_pocma c = false /\ c_pocs c = false)).

(** The array named [x] has the dims [s] and element [f i] at index [i] *)
Definition denotes (w : world V) (x : nat) (s : list dim) (f : list Z -> V) : Prop :=
  exists a, w_arr w x = Some a /\ a_shape a = s /\
    forall i, in_bounds s i -> holds (w_heap w) (elem (a_base a) s i) (f i).
(** Array [x] exists *)
Definition exists_arr (w : world V) (x : nat) : Prop := exists a, w_arr w x = Some a.
(** Array [x] exists and may be copied from: in a debug build its strides must be known (a
    moved-from array's are not) *)
Definition may_copy (c : config V) (w : world V) (x : nat) : Prop :=
  exists a, w_arr w x = Some a /\ (c_ndebug c = true \/ known_strides (a_shape a)).
(** The bounds overlap or touch *)
Definition meets (d e : dim) : Prop :=
  Z.max (dmin d) (dmin e) <= Z.min (dmin d + dext d) (dmin e + dext e).

(** Arrays not named in [X] are as before *)
Definition unchanged (w w' : world V) (X : list nat) : Prop :=
  forall z, ~ In z X -> w_arr w' z = w_arr w z /\ forall s f, denotes w z s f -> denotes w' z s f.
(** [s'] has the bounds of [s], and the strides that are given in [s] *)
Definition same_shape (s' s : list dim) : Prop :=
  Forall2 (fun d' d => dmin d' = dmin d /\ dext d' = dext d /\ (~ unknown_stride d -> dstr d' = dstr d)) s' s.
(** [p] is the address of an element of array [x] *)
Definition elem_of (w : world V) (x : nat) (p : ptr) : Prop :=
  exists a, w_arr w x = Some a /\ is_elem (a_base a) (a_shape a) p.
(** [w'] has the objects of [w] and those of a new array [x], which are others *)
Definition adds_objects (w w' : world V) (x : nat) : Prop :=
  forall p, (alive (w_heap w') p <-> alive (w_heap w) p \/ elem_of w' x p) /\
            ~ (alive (w_heap w) p /\ elem_of w' x p).

(** What the caller has to observe *)
Definition legal_op (c : config V) (w : world V) (o : op V) : Prop :=
  match o with
  | New s _ => shape_arg c s
  | NewValue s _ _ => shape_arg c s
  | NewCopy y => may_copy c w y
  | NewCopyAlloc y _ => may_copy c w y
  | NewMove y => may_copy c w y
  | NewMoveAlloc y _ => may_copy c w y
  | MakeCopy y s _ => shape_arg c s /\ exists b, w_arr w y = Some b /\ within (resolve s) (a_shape b)
  | MakeMove y s _ => shape_arg c s /\ exists b, w_arr w y = Some b /\ within (resolve s) (a_shape b)
  | CopyAssign x y => exists_arr w x /\ may_copy c w y
  | MoveAssign x y => exists_arr w x /\ may_copy c w y
  | AssignCopy x y => exists_arr w x /\ may_copy c w y
  | AssignMove x y => exists_arr w x /\ may_copy c w y
  | AssignValue x s _ => exists_arr w x /\ shape_arg c s
  | Clear x => exists_arr w x
  | Reshape x s => shape_arg c s /\ exists a, w_arr w x = Some a /\ Forall2 meets s (a_shape a)
  | Swap x y => may_copy c w x /\ may_copy c w y
  | Write x i _ => exists a, w_arr w x = Some a /\ in_bounds (a_shape a) i
  | Delete x => exists_arr w x
  end.
(** Every operation is legal in the state it starts from *)
Fixpoint legal (c : config V) (w : world V) (ops : list (op V)) : Prop :=
  match ops with
  | [] => True
  | o :: r => legal_op c w o /\ forall w', step c w o = Ok w' -> legal c w' r
  end.
(** States of legal programs *)
Definition reachable (c : config V) (w : world V) : Prop :=
  exists ops, legal c empty_world ops /\ run c ops empty_world = Ok w.

End Container.
