(** Specification vocabulary for memory, views and slices.  Of the model only the types, the
    machine primitive [peek] (what a cell holds) and pointers are used. *)
From Coq Require Import ZArith List Bool.
From Verif Require Import Base Interval Shape Memory Spec.
Import ListNotations.
Open Scope Z_scope.

(** Address of the element at index [i] of the view with base [b] and dims [s] *)
Definition elem (b : ptr) (s : list dim) (i : list Z) : ptr := (fst b, snd b + offset s i).
(** The object at [p] is alive / has value [v] *)
Definition holds {V : Type} (h : heap V) (p : ptr) (v : V) : Prop := peek h p = Some (Live v).
Definition alive {V : Type} (h : heap V) (p : ptr) : Prop := exists v, holds h p v.
(** [h'] differs from [h] at most in the cells satisfying [P]; blocks are the same *)
Definition only_changes {V : Type} (P : ptr -> Prop) (h h' : heap V) : Prop :=
  (forall p, ~ P p -> peek h' p = peek h p) /\
  h_next h' = h_next h /\
  (forall k, option_map (fun b => (b_owner b, b_size b)) (h_blk h' k) =
             option_map (fun b => (b_owner b, b_size b)) (h_blk h k)).
(** [p] is an element of the view *)
Definition is_elem (b : ptr) (s : list dim) (p : ptr) : Prop := exists i, in_bounds s i /\ p = elem b s i.
(** All indices of [inner] are indices of [outer] *)
Definition within (inner outer : list dim) : Prop := forall i, in_bounds inner i -> in_bounds outer i.

(** ** Slices *)

(** The index of the parent denoted by index [i] of the slice *)
Fixpoint full_index (args : list sarg) (i : list Z) : list Z :=
  match args with
  | [] => []
  | AIdx x :: r => x :: full_index r i
  | _ :: r => match i with
              | y :: i' => y :: full_index r i'
              | [] => []
              end
  end.
(** Bounds (min, extent) asked for, one per argument that is not an index *)
Fixpoint asked (args : list sarg) (s : list dim) : list (Z * Z) :=
  match args, s with
  | AIdx _ :: r, _ :: s' => asked r s'
  | AInt i :: r, _ :: s' => (imin i, iext i) :: asked r s'
  | ADim c :: r, _ :: s' => (dmin c, dext c) :: asked r s'
  | AAll :: r, d :: s' => (dmin d, dext d) :: asked r s'
  | _, _ => []
  end.
(** What the argument selects from a dimension *)
Definition selects (a : sarg) (d : dim) (x : Z) : Prop :=
  match a with
  | AIdx y => x = y
  | AInt i => in_interval i x
  | ADim c => in_dim c x
  | AAll => in_dim d x
  end.
(** Every argument selects part of the dimension *)
Definition args_within (args : list sarg) (s : list dim) : Prop :=
  Forall2 (fun a d => forall x, selects a d x -> in_dim d x) args s.
(** Arguments of two successive slicings, merged *)
Fixpoint merge_args (first second : list sarg) : list sarg :=
  match first with
  | [] => []
  | AIdx x :: r => AIdx x :: merge_args r second
  | a :: r => match second with
              | AAll :: s => a :: merge_args r s
              | b :: s => b :: merge_args r s
              | [] => a :: merge_args r []
              end
  end.
(** Number of dimensions of the slice *)
Fixpoint kept (args : list sarg) : nat :=
  match args with
  | [] => O
  | AIdx _ :: r => kept r
  | _ :: r => S (kept r)
  end.
