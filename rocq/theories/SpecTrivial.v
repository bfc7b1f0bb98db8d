(** Specification vocabulary for programs over arrays of a trivial type: which are legal, and what an array
    contains. *)
From Coq Require Import ZArith List Bool.
From Verif Require Import Base Interval Shape Memory Ref Container Program Trivial Spec SpecMem SpecContainer SpecProgram.
Import ListNotations.
Open Scope Z_scope.

(** Layouts an array of a trivial type may have: no negative extent, all strides known, and an array that
    needs no memory does not move its base pointer.  Elements may share a place. *)
Definition plain_layout (s : list dim) : Prop :=
  extents_ge 0 s /\ known_strides s /\ (0 < flat_extent s \/ flat_min s = 0).

Section Trivial.
Context {V : Type}.

(** [s] may be given for a shape of this type *)
Definition plain_arg (c : config V) (s : list dim) : Prop :=
  length s = length (c_shape0 c) /\ plain_layout (resolve s).
(** The shape type's default needs no memory; auto_allocator does not propagate (array.h:3123-3125) *)
Definition plain_fair (c : config V) : Prop :=
  plain_arg c (c_shape0 c) /\ extents_ge 0 (c_shape0 c) /\
  flat_extent (c_shape0 c) <= 0 /\ flat_extent (resolve (c_shape0 c)) <= 0 /\
  (c_cap c < 0 \/ (c_pocca c = false /\ c_pocma c = false /\ c_pocs c = false)).

(** The array named [x] has the dims [s], and the place of its element at index [i] has the value [f i] *)
Definition contains (w : world V) (x : nat) (s : list dim) (f : list Z -> cell V) : Prop :=
  exists a, w_arr w x = Some a /\ a_shape a = s /\
    forall i, in_bounds s i -> peek (w_heap w) (elem (a_base a) s i) = Some (f i).
(** Arrays not named in [X] are as before *)
Definition kept (w w' : world V) (X : list nat) : Prop :=
  forall z, ~ In z X -> w_arr w' z = w_arr w z /\ forall s f, contains w z s f -> contains w' z s f.
(** [p] is in the memory of the array [a] *)
Definition in_memory (h : heap V) (a : arr) (p : ptr) : Prop := fst p = fst (a_buf a) /\ peek h p <> None.
(** With the base moved by [off], all elements of the dims [s] are in the memory of [a] *)
Definition fits_memory (h : heap V) (a : arr) (s : list dim) (off : Z) : Prop :=
  forall i, in_bounds s i -> in_memory h a (elem (ptr_off (a_base a) off) s i).
(** [s] is in the range of addresses of [t], for a base moved by [off] *)
Definition in_span (s t : list dim) (off : Z) : Prop :=
  flat_min t <= flat_min s + off /\ flat_max s + off <= flat_max t.

(** What the caller has to observe *)
Definition plain_op (c : config V) (w : world V) (o : op V) : Prop :=
  match o with
  | New s _ => plain_arg c s
  | NewValue s _ _ => plain_arg c s
  | NewCopy y => may_copy c w y
  | NewCopyAlloc y _ => may_copy c w y
  | NewMove y => may_copy c w y
  | NewMoveAlloc y _ => may_copy c w y
  | MakeCopy y s _ => plain_arg c s /\ exists b, w_arr w y = Some b /\ within (resolve s) (a_shape b)
  | MakeMove y s _ => plain_arg c s /\ exists b, w_arr w y = Some b /\ within (resolve s) (a_shape b)
  | CopyAssign x y => exists_arr w x /\ may_copy c w y
  | MoveAssign x y => exists_arr w x /\ may_copy c w y
  | AssignCopy x y => exists_arr w x /\ may_copy c w y
  | AssignMove x y => exists_arr w x /\ may_copy c w y
  | AssignValue x s _ => exists_arr w x /\ plain_arg c s
  | Clear x => exists_arr w x
  | Reshape x s => plain_arg c s /\ exists a, w_arr w x = Some a /\ Forall2 meets s (a_shape a)
  | Swap x y => may_copy c w x /\ may_copy c w y
  | Write x i _ => exists a, w_arr w x = Some a /\ in_bounds (a_shape a) i
  | Delete x => exists_arr w x
  end.
Definition plain_act (c : config V) (w : world V) (o : act V) : Prop :=
  match o with
  | Run o => plain_op c w o
  | Fill x _ | Generate x _ | Transform x _ => exists_arr w x
  | FillElem x y i => exists_arr w x /\ exists b, w_arr w y = Some b /\ in_bounds (a_shape b) i
  | CopyTo y x | MoveTo y x => exists a b, w_arr w x = Some a /\ w_arr w y = Some b /\ within (a_shape a) (a_shape b)
  | MoveAll y x => exists_arr w x /\ may_copy c w y
  | AssignElem x s y i => exists_arr w x /\ plain_arg c s /\ y <> x /\
                          exists b, w_arr w y = Some b /\ in_bounds (a_shape b) i
  end.
(** [set_shape]: in a release build the elements must be in the memory of the array (a debug build looks).
    [move_reinterpret_shape]: the elements must be in the memory of the array, in a debug build in the range
    of its shape (its assertion looks at the wrong place); an array without memory keeps its base; and the new
    array must be able to release the memory. *)
Definition legal_tact (c : config V) (w : world V) (o : tact V) : Prop :=
  match o with
  | Plain o => plain_act c w o
  | SetShape x s off => length s = length (c_shape0 c) /\ plain_layout s /\
      exists a, w_arr w x = Some a /\ (c_ndebug c = false \/ fits_memory (w_heap w) a s off)
  | MoveShape y s off => length s = length (c_shape0 c) /\ plain_layout s /\
      exists b, w_arr w y = Some b /\ (a_base b = null -> off = 0) /\
        (if c_ndebug c then fits_memory (w_heap w) b s off else in_span s (a_shape b) off) /\
        (c_pocma c = true \/ (a_busy b = false /\ a_al b = c_default c))
  end.
(** The array named [y] may be given the shape [s] in place, except perhaps for its base and its allocator *)
Definition movable (c : config V) (w : world V) (y : nat) (s : list dim) (off : Z) : Prop :=
  length s = length (c_shape0 c) /\ plain_layout s /\ exists b, w_arr w y = Some b /\ fits_memory (w_heap w) b s off.
(** The assertions of a debug build that a legal statement may fail; that of move_reinterpret_shape looks at
    the range for the opposite of the offset *)
Definition refuses (w : world V) (o : tact V) : Prop :=
  (exists x s off a, o = SetShape x s off /\ w_arr w x = Some a /\ ~ in_span s (a_shape a) off) \/
  (exists y s off b, o = MoveShape y s off /\ w_arr w y = Some b /\ ~ in_span s (a_shape b) (- off)).
(** The arrays a statement may change; [n] is the name a new array gets *)
Definition changes_op (n : nat) (o : op V) : list nat :=
  match o with
  | New _ _ | NewValue _ _ _ | NewCopy _ | NewCopyAlloc _ _ | MakeCopy _ _ _ | MakeMove _ _ _ => [n]
  | NewMove y | NewMoveAlloc y _ => [n; y]
  | CopyAssign x _ | AssignCopy x _ | AssignMove x _ | AssignValue x _ _ | Clear x | Reshape x _ | Write x _ _ | Delete x => [x]
  | MoveAssign x y | Swap x y => [x; y]
  end.
Definition changes (n : nat) (o : tact V) : list nat :=
  match o with
  | Plain (Run o) => changes_op n o
  | Plain (Fill x _) | Plain (Generate x _) | Plain (Transform x _) | Plain (FillElem x _ _) | Plain (CopyTo _ x)
  | Plain (MoveTo _ x) | Plain (AssignElem x _ _ _) => [x]
  | Plain (MoveAll y x) => [x; y]
  | SetShape x _ _ => [x]
  | MoveShape y _ _ => [n; y]
  end.
(** After the statement the array named [x] has what the array named [y] had *)
Inductive transfers (n : nat) : act V -> nat -> nat -> Prop :=
| tr_new_copy y : transfers n (Run (NewCopy y)) n y
| tr_new_copy_alloc y al : transfers n (Run (NewCopyAlloc y al)) n y
| tr_new_move y : transfers n (Run (NewMove y)) n y
| tr_new_move_alloc y al : transfers n (Run (NewMoveAlloc y al)) n y
| tr_copy_assign x y : transfers n (Run (CopyAssign x y)) x y
| tr_move_assign x y : transfers n (Run (MoveAssign x y)) x y
| tr_assign_copy x y : transfers n (Run (AssignCopy x y)) x y
| tr_assign_move x y : transfers n (Run (AssignMove x y)) x y
| tr_swap x y : transfers n (Run (Swap x y)) x y
| tr_swap_back x y : transfers n (Run (Swap x y)) y x
| tr_move_all y x : transfers n (MoveAll y x) x y.
(** The statement assigns elements of the array named [y] to those of the array named [x] with dims [s] at the same
    indices *)
Inductive copies_elements (n : nat) (w : world V) : act V -> nat -> list dim -> nat -> Prop :=
| ce_make_copy y s al : copies_elements n w (Run (MakeCopy y s al)) n (resolve s) y
| ce_make_move y s al : copies_elements n w (Run (MakeMove y s al)) n (resolve s) y
| ce_copy x y a : w_arr w x = Some a -> x <> y -> copies_elements n w (CopyTo y x) x (a_shape a) y
| ce_move x y a : w_arr w x = Some a -> x <> y -> copies_elements n w (MoveTo y x) x (a_shape a) y.
(** The statement gives all elements of the array named [x] with dims [s] the value [v] *)
Inductive sets_all (skip : bool) (dv : V) (n : nat) (w : world V) : act V -> nat -> list dim -> cell V -> Prop :=
| sa_new s al : skip = false -> sets_all skip dv n w (Run (New s al)) n (resolve s) (Live dv)
| sa_new_value s v al : sets_all skip dv n w (Run (NewValue s v al)) n (resolve s) (Live v)
| sa_assign_value x s v : sets_all skip dv n w (Run (AssignValue x s v)) x (resolve s) (Live v)
| sa_fill x a v : w_arr w x = Some a -> sets_all skip dv n w (Fill x v) x (a_shape a) (Live v)
| sa_fill_elem x a y t f i : w_arr w x = Some a -> contains w y t f -> sets_all skip dv n w (FillElem x y i) x (a_shape a) (f i)
| sa_assign_elem x s y t f i : contains w y t f -> sets_all skip dv n w (AssignElem x s y i) x (resolve s) (f i).
(** Every statement is legal in the state it starts from *)
Fixpoint tlegal (skip : bool) (c : config V) (w : world V) (ops : list (tact V)) : Prop :=
  match ops with
  | [] => True
  | o :: r => legal_tact c w o /\ forall w', tstep skip c w o = Ok w' -> tlegal skip c w' r
  end.
(** States of legal programs *)
Definition treachable (skip : bool) (c : config V) (w : world V) : Prop :=
  exists ops, tlegal skip c empty_world ops /\ trun skip c ops empty_world = Ok w.
End Trivial.
