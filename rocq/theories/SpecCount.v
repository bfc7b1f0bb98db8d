(** Specification vocabulary for the work arrays do: how many elements are constructed, assigned and destroyed, and
    how often memory is allocated and released, by each statement of a program. *)
From Coq Require Import ZArith List Bool.
From Verif Require Import Base Interval Shape Memory Ref Container Program Count Spec SpecMem SpecContainer SpecProgram SpecViews.
Import ListNotations.
Open Scope Z_scope.

(** Number of indices of a shape *)
Definition elements (s : list dim) : Z := fold_right (fun d n => dext d * n) 1 s.
(** Number of indices that two shapes have in common *)
Definition overlap (d e : dim) : Z := Z.max 0 (Z.min (dmin d + dext d) (dmin e + dext e) - Z.max (dmin d) (dmin e)).
Fixpoint shared (s t : list dim) : Z :=
  match s, t with
  | d :: s', e :: t' => overlap d e * shared s' t'
  | _, _ => 1
  end.
(** [t], [n] times *)
Definition times (n : Z) (t : tally) : tally :=
  mkN (n * n_default t) (n * n_copy t) (n * n_move t) (n * n_copy_assign t) (n * n_move_assign t) (n * n_destroy t)
      (n * n_alloc t) (n * n_free t).
(** Objects made less objects destroyed; blocks allocated less blocks released *)
Definition objects_made (t : tally) : Z := n_default t + n_copy t + n_move t - n_destroy t.
Definition blocks_made (t : tally) : Z := n_alloc t - n_free t.
(** No element is constructed, assigned or destroyed, and no memory is allocated or released *)
Definition free_of_work (t : tally) : Prop := t = nothing.
(** Block [k] comes from the base allocator *)
Definition base_block {V : Type} (h : heap V) (k : nat) : Prop := exists b a, h_blk h k = Some b /\ b_owner b = Base a.

Section Count.
Context {V : Type}.
Variable c : config V.

(** What an array holds: its shape, whether it has memory, and whether that is the buffer in the array object *)
Record held := mkHeld { hd_shape : list dim; hd_mem : bool; hd_inline : bool }.
Definition held_by (w : world V) (x : nat) : held :=
  match w_arr w x with
  | Some a => mkHeld (a_shape a) (negb (is_null (a_buf a))) (a_busy a)
  | None => mkHeld [] false false
  end.
(** A new array of shape [s]: it gets memory if the shape spans any, from the base allocator if that is more than fits
    into the array object *)
Definition new_held (s : list dim) : held :=
  let n := flat_extent (resolve s) in
  mkHeld (resolve s) (0 <? n) ((0 <? n) && (n <=? c_cap c)).
(** An array without memory *)
Definition bare : held := mkHeld (c_shape0 c) false false.
(** Number of blocks of the base allocator it holds *)
Definition blocks (a : held) : Z := if hd_mem a && negb (hd_inline a) then 1 else 0.
(** To make the array, each element by [k]; to destroy it *)
Definition making (k : tally) (a : held) : tally := plus (times (blocks a) one_alloc) (times (elements (hd_shape a)) k).
Definition unmaking (a : held) : tally := plus (times (elements (hd_shape a)) one_destroy) (times (blocks a) one_free).
(** To destroy the elements of [a] and construct as many in their place by [k] *)
Definition redoing (k : tally) (a : held) : tally :=
  plus (times (elements (hd_shape a)) one_destroy) (times (elements (hd_shape a)) k).
(** To assign array [b] to array [a], each element by [k]: memory is kept if the shapes are the same *)
Definition replacing (k : tally) (a b : held) : tally :=
  if negb (hd_mem a) && negb (hd_mem b) then nothing
  else if hd_mem a && (if shape_dec (hd_shape a) (hd_shape b) then true else false) then redoing k a
  else plus (unmaking a) (making k (new_held (hd_shape b))).
(** To assign a value and a shape *)
Definition valuing (a : held) (s : list dim) : tally :=
  if shape_dec (hd_shape a) (resolve s) then redoing one_copy a
  else plus (unmaking a) (making one_copy (new_held s)).

(** What one operation other than the swap of arrays does *)
Definition work_op (w : world V) (o : op V) : tally :=
  match o with
  | New s _ => making one_default (new_held s)
  | NewValue s _ _ => plus (making one_default (new_held (c_shape0 c))) (valuing (new_held (c_shape0 c)) s)
  | NewCopy y => replacing one_copy bare (held_by w y)
  | NewCopyAlloc y _ => plus (making one_default (new_held (c_shape0 c))) (replacing one_copy (new_held (c_shape0 c)) (held_by w y))
  | NewMove y => if c_pocma c || could_take w y (c_default c) then nothing else making one_move (new_held (shape_of w y))
  | NewMoveAlloc y al => if could_take w y al then nothing else making one_move (new_held (shape_of w y))
  | MakeCopy y s _ => plus (making one_default (new_held s)) (times (elements s) one_copy_assign)
  | MakeMove y s _ => plus (making one_default (new_held s)) (times (elements s) one_move_assign)
  | CopyAssign x y =>
      if (x =? y)%nat || negb (hd_mem (held_by w x)) && negb (hd_mem (held_by w y)) then nothing
      else if c_pocca c && negb (same_allocator w x y)
      then plus (unmaking (held_by w x)) (replacing one_copy bare (held_by w y))
      else replacing one_copy (held_by w x) (held_by w y)
  | MoveAssign x y =>
      if (x =? y)%nat || c_pocma c || same_allocator w x y then nothing
      else replacing one_move (held_by w x) (held_by w y)
  | AssignCopy x y => if (x =? y)%nat then nothing else replacing one_copy (held_by w x) (held_by w y)
  | AssignMove x y => if (x =? y)%nat then nothing else replacing one_move (held_by w x) (held_by w y)
  | AssignValue x s _ => valuing (held_by w x) s
  | Clear x => plus (unmaking (held_by w x)) (making one_default (new_held (c_shape0 c)))
  | Reshape x s =>
      if shape_dec (shape_of w x) (resolve s) then nothing
      else
        plus (making one_default (new_held s))
          (plus (times (shared s (shape_of w x)) one_move_assign)
             (if c_pocma c || (could_take w x (c_default c) && negb (hd_inline (new_held s)))
              then unmaking (held_by w x)
              else plus (replacing one_move (held_by w x) (new_held s)) (unmaking (new_held s))))
  | Swap x y => nothing
  | Write _ _ _ => one_copy_assign
  | Delete x => unmaking (held_by w x)
  end.
(** The statements of the general swap: move to a temporary array, and two move assignments *)
Definition swap_ops (w : world V) (x y : nat) : list (op V) :=
  [NewMove y; MoveAssign y x; MoveAssign x (w_next w); Delete (w_next w)].
(** What some operations do, one after the other *)
Fixpoint work_ops (w : world V) (ops : list (op V)) : tally :=
  match ops with
  | [] => nothing
  | o :: r => plus (work_op w o) (match step c w o with Ok w' => work_ops w' r | _ => nothing end)
  end.
(** What a statement does *)
Definition work (w : world V) (o : act V) : tally :=
  match o with
  | Run (Swap x y) => if c_pocs c then nothing else work_ops w (swap_ops w x y)
  | Run o => work_op w o
  | Fill x _ | FillElem x _ _ | CopyTo _ x => times (elements (shape_of w x)) one_copy_assign
  | MoveTo _ x | Generate x _ | Transform x _ => times (elements (shape_of w x)) one_move_assign
  | MoveAll y x => work_op w (MoveAssign x y)
  | AssignElem x s _ _ => valuing (held_by w x) s
  end.
(** What a program does *)
Fixpoint work_run (w : world V) (ops : list (act V)) : tally :=
  match ops with
  | [] => nothing
  | o :: r => plus (work w o) (match astep c w o with Ok w' => work_run w' r | _ => nothing end)
  end.
(** The elements of the arrays, and the arrays that hold a block of the base allocator *)
Definition element (w : world V) (xi : nat * list Z) : Prop :=
  exists a, w_arr w (fst xi) = Some a /\ in_bounds (a_shape a) (snd xi).
Definition holds_block (w : world V) (x : nat) : Prop := blocks (held_by w x) = 1.
(** Memory for the shape fits into the array object; it does so for every shape named in the statement *)
Definition fits (s : list dim) : Prop := flat_extent (resolve s) <= c_cap c.
Definition fitting (o : act V) : Prop :=
  match o with
  | Run (New s _) | Run (NewValue s _ _) | Run (MakeCopy _ s _) | Run (MakeMove _ s _) | Run (AssignValue _ s _)
  | Run (Reshape _ s) | AssignElem _ s _ _ => fits s
  | _ => True
  end.
(** Statements that move: they need not copy any element *)
Definition moving (o : act V) : Prop :=
  match o with
  | Run (NewMove _) | Run (NewMoveAlloc _ _) | Run (MakeMove _ _ _) | Run (MoveAssign _ _) | Run (AssignMove _ _)
  | Run (Reshape _ _) | Run (Swap _ _) | Run (Clear _) | Run (Delete _) | Run (New _ _)
  | MoveTo _ _ | MoveAll _ _ | Generate _ _ | Transform _ _ => True
  | _ => False
  end.
(** Statements on existing arrays that assign elements, and nothing else *)
Definition in_place (o : act V) : Prop :=
  match o with
  | Fill _ _ | FillElem _ _ _ | CopyTo _ _ | MoveTo _ _ | Generate _ _ | Transform _ _ | Run (Write _ _ _) => True
  | _ => False
  end.
(** No element is copied; no element is constructed or destroyed and no memory allocated or released *)
Definition no_copies (t : tally) : Prop := n_copy t = 0 /\ n_copy_assign t = 0.
Definition only_assigns (t : tally) : Prop :=
  n_default t = 0 /\ n_copy t = 0 /\ n_move t = 0 /\ n_destroy t = 0 /\ n_alloc t = 0 /\ n_free t = 0.
End Count.
