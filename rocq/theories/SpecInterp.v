(** A reference interpreter for programs with arrays: what the arrays hold, without memory and addresses.
    An array is its allocator, its shape, whether it has memory, and a function from indices to elements.

    [visit s i] is the number of the call of the generator for the element at index [i], when [generate] is called
    on an array of shape [s]. *)
From Coq Require Import ZArith List Bool.
From Verif Require Import Base Interval Shape Memory Ref Container Program Spec SpecMem SpecContainer SpecProgram SpecViews.
Import ListNotations.
Open Scope Z_scope.

Section Interp.
Context {V : Type}.

(** An array.  Shapes of arrays without memory have no index. *)
Record value := mkVal { v_al : nat; v_mem : bool; v_shape : list dim; v_at : list Z -> V }.
(** The arrays of a program by name, and the next name *)
Record valuation := mkVs { vs_arr : nat -> option value; vs_next : nat }.
Definition no_values : valuation := mkVs (fun _ => None) 0.
(** Is [i] an index of [s]? *)
Fixpoint inside (s : list dim) (i : list Z) : bool :=
  match s, i with
  | [], [] => true
  | d :: s', z :: i' => (dmin d <=? z) && (z <? dmin d + dext d) && inside s' i'
  | _, _ => false
  end.
Definition same_index (i j : list Z) : bool := if list_eq_dec Z.eq_dec i j then true else false.

Variable c : config V.
Variable visit : list dim -> list Z -> nat.

(** The elements are in the array object itself *)
Definition v_inline (a : value) : bool := v_mem a && (flat_extent (v_shape a) <=? c_cap c).
(** A new array of shape [s] *)
Definition built (al : nat) (s : list dim) (f : list Z -> V) : value :=
  mkVal al (0 <? flat_extent (resolve s)) (resolve s) f.
Definition bare (al : nat) : value := mkVal al false (c_shape0 c) (fun _ => c_dv c).
(** With other elements *)
Definition filled (a : value) (f : list Z -> V) : value := mkVal (v_al a) (v_mem a) (v_shape a) f.
(** What is left of [a] when the elements at the indices of [s] have been moved from *)
Definition moved_from (a : value) (s : list dim) : value :=
  filled a (fun i => if inside s i then c_mv c (v_at a i) else v_at a i).
(** [a] after it was assigned copies of the elements of [b] *)
Definition replaced (a b : value) : value :=
  if negb (v_mem a) && negb (v_mem b) then mkVal (v_al a) false (v_shape b) (v_at b)
  else if v_mem a && (if shape_dec (v_shape a) (v_shape b) then true else false) then filled a (v_at b)
  else built (v_al a) (v_shape b) (v_at b).
(** [a] after the assignment of a shape and a value *)
Definition revalued (a : value) (s : list dim) (v : V) : value :=
  if shape_dec (v_shape a) (resolve s) then filled a (fun _ => v) else built (v_al a) s (fun _ => v).
(** An array with the allocator [al] can take over the memory of [b] *)
Definition takes_over (al : nat) (b : value) : bool := negb (v_inline b) && (v_al b =? al)%nat.
(** Each of the two arrays can take over the memory of the other *)
Definition exchange (a b : value) : bool := negb (v_inline a) && negb (v_inline b) && (v_al a =? v_al b)%nat.
(** The new array and [b] after a move construction from [b] *)
Definition move_new (take : bool) (al : nat) (b : value) : value * value :=
  if take then (mkVal al (v_mem b) (v_shape b) (v_at b), bare (v_al b))
  else (built al (v_shape b) (v_at b), moved_from b (v_shape b)).
(** [a] and another array [b] after [a = std::move(b)] *)
Definition move_into (a b : value) : value * value :=
  if negb (v_mem a) && negb (v_mem b)
  then (mkVal (v_al a) false (v_shape b) (v_at b), mkVal (v_al b) false (v_shape a) (v_at a))
  else if c_pocma c || exchange a b then (b, a)
  else (replaced a b, moved_from b (v_shape b)).
(** [a] after [a = b] for another array [b] *)
Definition copy_into (a b : value) : value :=
  if negb (v_mem a) && negb (v_mem b) then replaced a b
  else if c_pocca c then replaced (if exchange a b then a else mkVal (v_al b) false (v_shape a) (v_at a)) b
  else replaced a b.

(** ** Statements *)

Definition set_value (vs : valuation) (x : nat) (o : option value) : valuation :=
  mkVs (fun z => if (z =? x)%nat then o else vs_arr vs z) (vs_next vs).
Definition new_value (vs : valuation) (a : value) : valuation :=
  mkVs (fun z => if (z =? vs_next vs)%nat then Some a else vs_arr vs z) (S (vs_next vs)).
(** A name was used for a temporary array *)
Definition skip_name (vs : valuation) : valuation := mkVs (vs_arr vs) (S (vs_next vs)).
(** With array [x]; with two arrays *)
Definition on (vs : valuation) (x : nat) (f : value -> valuation) : valuation :=
  match vs_arr vs x with Some a => f a | None => vs end.
Definition on2 (vs : valuation) (x y : nat) (f : value -> value -> valuation) : valuation := on vs x (fun a => on vs y (fun b => f a b)).
(** array x(std::move(y)); x = std::move(y); *)
Definition run_move_new (vs : valuation) (y : nat) (al : value -> nat) (take : value -> bool) : valuation :=
  on vs y (fun b => let (a, b') := move_new (take b) (al b) b in new_value (set_value vs y (Some b')) a).
Definition run_move (vs : valuation) (x y : nat) : valuation :=
  on2 vs x y (fun a b => if (x =? y)%nat then vs
    else let (a', b') := move_into a b in set_value (set_value vs y (Some b')) x (Some a')).
Definition interp_op (vs : valuation) (o : op V) : valuation :=
  match o with
  | New s al => new_value vs (built al s (fun _ => c_dv c))
  | NewValue s v al => new_value vs (built al s (fun _ => v))
  | NewCopy y => on vs y (fun b => new_value vs (replaced (bare (c_select c (v_al b))) b))
  | NewCopyAlloc y al => on vs y (fun b => new_value vs (replaced (built al (c_shape0 c) (fun _ => c_dv c)) b))
  | NewMove y => run_move_new vs y (fun b => if c_pocma c then v_al b else c_default c)
                   (fun b => c_pocma c || takes_over (c_default c) b)
  | NewMoveAlloc y al => run_move_new vs y (fun _ => al) (takes_over al)
  | MakeCopy y s al => on vs y (fun b => new_value vs (built al s (v_at b)))
  | MakeMove y s al => on vs y (fun b => new_value (set_value vs y (Some (moved_from b s))) (built al s (v_at b)))
  | CopyAssign x y => on2 vs x y (fun a b => if (x =? y)%nat then vs else set_value vs x (Some (copy_into a b)))
  | MoveAssign x y => run_move vs x y
  | AssignCopy x y => on2 vs x y (fun a b => if (x =? y)%nat then vs else set_value vs x (Some (replaced a b)))
  | AssignMove x y => on2 vs x y (fun a b => if (x =? y)%nat then vs
      else set_value (set_value vs y (Some (moved_from b (v_shape b)))) x (Some (replaced a b)))
  | AssignValue x s v => on vs x (fun a => set_value vs x (Some (revalued a s v)))
  | Clear x => on vs x (fun a => set_value vs x (Some (built (v_al a) (c_shape0 c) (fun _ => c_dv c))))
  | Reshape x s => on vs x (fun a => if shape_dec (v_shape a) (resolve s) then vs
      else let b := built (c_default c) s (fun i => if inside (v_shape a) i then v_at a i else c_dv c) in
           skip_name (set_value vs x (Some (fst (move_into a b)))))
  | Swap x y => on2 vs x y (fun a b =>
      if c_pocs c then set_value (set_value vs y (Some a)) x (Some b)
      else
        let (t, b1) := move_new (c_pocma c || takes_over (c_default c) b) (if c_pocma c then v_al b else c_default c) b in
        if (x =? y)%nat then skip_name (set_value vs x (Some (fst (move_into b1 t))))
        else let (b2, a1) := move_into b1 a in
             skip_name (set_value (set_value vs y (Some b2)) x (Some (fst (move_into a1 t)))))
  | Write x i v => on vs x (fun a => set_value vs x (Some (filled a (fun j => if same_index j i then v else v_at a j))))
  | Delete x => set_value vs x None
  end.
Definition interp (vs : valuation) (o : act V) : valuation :=
  match o with
  | Run o => interp_op vs o
  | Fill x v => on vs x (fun a => set_value vs x (Some (filled a (fun _ => v))))
  | FillElem x y i => on2 vs x y (fun a b => set_value vs x (Some (filled a (fun _ => v_at b i))))
  | CopyTo y x => on2 vs x y (fun a b => set_value vs x (Some (filled a (v_at b))))
  | MoveTo y x => on2 vs x y (fun a b => set_value (set_value vs y (Some (moved_from b (v_shape a)))) x (Some (filled a (v_at b))))
  | MoveAll y x => run_move vs x y
  | Generate x g => on vs x (fun a => set_value vs x (Some (filled a (fun i => g (visit (v_shape a) i)))))
  | Transform x fn => on vs x (fun a => set_value vs x (Some (filled a fn)))
  | AssignElem x s y i => on2 vs x y (fun a b => set_value vs x (Some (revalued a s (v_at b i))))
  end.
Definition interps (ops : list (act V)) (vs : valuation) : valuation := fold_left interp ops vs.

(** ** Legal programs, without memory *)

Definition present (vs : valuation) (x : nat) : Prop := exists a, vs_arr vs x = Some a.
Definition copiable (vs : valuation) (x : nat) : Prop :=
  exists a, vs_arr vs x = Some a /\ (c_ndebug c = true \/ known_strides (v_shape a)).
Definition shaped (vs : valuation) (x : nat) (P : list dim -> Prop) : Prop := exists a, vs_arr vs x = Some a /\ P (v_shape a).
Definition allowed_op (vs : valuation) (o : op V) : Prop :=
  match o with
  | New s _ | NewValue s _ _ => shape_arg c s
  | NewCopy y | NewCopyAlloc y _ | NewMove y | NewMoveAlloc y _ => copiable vs y
  | MakeCopy y s _ | MakeMove y s _ => shape_arg c s /\ shaped vs y (fun t => within (resolve s) t)
  | CopyAssign x y | MoveAssign x y | AssignCopy x y | AssignMove x y => present vs x /\ copiable vs y
  | AssignValue x s _ => present vs x /\ shape_arg c s
  | Clear x | Delete x => present vs x
  | Reshape x s => shape_arg c s /\ shaped vs x (fun t => Forall2 meets s t)
  | Swap x y => copiable vs x /\ copiable vs y
  | Write x i _ => shaped vs x (fun t => in_bounds t i)
  end.
Definition allowed (vs : valuation) (o : act V) : Prop :=
  match o with
  | Run o => allowed_op vs o
  | Fill x _ | Generate x _ | Transform x _ => present vs x
  | FillElem x y i => present vs x /\ shaped vs y (fun t => in_bounds t i)
  | CopyTo y x => shaped vs x (fun s => shaped vs y (fun t => within s t))
  | MoveTo y x => y <> x /\ shaped vs x (fun s => shaped vs y (fun t => within s t))
  | MoveAll y x => present vs x /\ copiable vs y
  | AssignElem x s y i => present vs x /\ shape_arg c s /\ y <> x /\ shaped vs y (fun t => in_bounds t i)
  end.
Fixpoint all_allowed (vs : valuation) (ops : list (act V)) : Prop :=
  match ops with
  | [] => True
  | o :: r => allowed vs o /\ all_allowed (interp vs o) r
  end.

(** ** The arrays of a world are those of the interpreter *)

Definition is_value (h : heap V) (a : arr) (v : value) : Prop :=
  a_al a = v_al v /\ negb (is_null (a_buf a)) = v_mem v /\ a_busy a = v_inline v /\ a_shape a = v_shape v /\
  forall i, in_bounds (v_shape v) i -> holds h (elem (a_base a) (v_shape v) i) (v_at v i).
Definition shows_values (w : world V) (vs : valuation) : Prop :=
  w_next w = vs_next vs /\
  forall x, match w_arr w x, vs_arr vs x with
            | Some a, Some v => is_value (w_heap w) a v
            | None, None => True
            | _, _ => False
            end.
End Interp.
Arguments value V : clear implicits.
Arguments valuation V : clear implicits.

(** [visit] numbers the indices of each shape *)
Definition numbering (visit : list dim -> list Z -> nat) : Prop :=
  forall s, extents_ge 0 s -> injective_layout s ->
    exists l, enumerates (in_bounds s) l /\ forall k i, nth_error l k = Some i -> visit s i = k.
