(** The reference interpreter for programs that hold array_refs: an array_ref is the name of an array, a shape, and
    for each of its indices the index of that array.

    [order s t] is the order in which [copy] assigns the elements of a destination of shape [t] from a source of shape [s]. *)
From Coq Require Import ZArith List Bool Sorted.
From Verif Require Import Base Interval Shape Memory Ref Container Program Views Spec SpecMem SpecContainer SpecProgram SpecViews SpecInterp SpecOrder.
Import ListNotations.
Open Scope Z_scope.

(** The dims left by a slice *)
Fixpoint left_dims (args : list sarg) (s : list dim) : list dim :=
  match args, s with
  | AIdx _ :: r, _ :: s' => left_dims r s'
  | AInt i :: r, d :: s' => mkD (imin i) (iext i) (dstr d) :: left_dims r s'
  | ADim e :: r, d :: s' => mkD (dmin e) (dext e) (dstr d) :: left_dims r s'
  | AAll :: r, d :: s' => d :: left_dims r s'
  | _, _ => []
  end.

Section Interp.
Context {V : Type}.

(** An array_ref: the array its elements are in, unless they do not exist any more; its shape; and which elements *)
Record view_value := mkVV { vv_of : option nat; vv_shape : list dim; vv_at : list Z -> list Z }.
Record view_state := mkIS { is_vals : valuation V; is_refs : list view_value; is_out : list V }.
Definition nothing : view_state := mkIS no_values [] [].

Variable c : config V.
Variable visit : list dim -> list Z -> nat.
Variable order : list dim -> list dim -> list (list Z).

(** ** Which array has the elements *)

Definition test (vs : valuation V) (x : nat) (p : value V -> bool) : bool := match vs_arr vs x with Some a => p a | None => false end.
Definition has_shape (s : list dim) (a : value V) : bool := if shape_dec (v_shape a) s then true else false.
Definition test2 (vs : valuation V) (x y : nat) (p : value V -> value V -> bool) : bool := test vs x (fun a => test vs y (p a)).
(** The elements of [z] after [x] got the shape that [p] tests for *)
Definition unless (b : bool) (x z : nat) : option nat := if (z =? x)%nat && b then None else Some z.
Definition home_op (vs : valuation V) (o : op V) (z : nat) : option nat :=
  match o with
  | Clear x | Delete x => unless true x z
  | AssignValue x s _ | Reshape x s => unless (negb (test vs x (has_shape (resolve s)))) x z
  | AssignCopy x y | AssignMove x y => unless (negb (test2 vs x y (fun a b => has_shape (v_shape b) a))) x z
  | CopyAssign x y =>
      unless (negb (test2 vs x y (fun a b => has_shape (v_shape b) a && ((x =? y)%nat || negb (c_pocca c) || exchange c a b)))) x z
  | MoveAssign x y =>
      if c_pocma c || test2 vs x y (exchange c) then Some (trade x y z)
      else unless (negb (test2 vs x y (fun a b => has_shape (v_shape b) a))) x z
  | NewMove y => if (z =? y)%nat && (c_pocma c || test vs y (takes_over c (c_default c))) then Some (vs_next vs) else Some z
  | NewMoveAlloc y al => if (z =? y)%nat && test vs y (takes_over c al) then Some (vs_next vs) else Some z
  | Swap x y =>
      if c_pocs c || c_pocma c || test2 vs x y (exchange c) then Some (trade x y z)
      else if (z =? x)%nat || (z =? y)%nat
           then unless (test vs z (takes_over c (c_default c)) || negb (test2 vs x y (fun a b => has_shape (v_shape b) a))) z z
           else Some z
  | _ => Some z
  end.
Definition home (vs : valuation V) (o : act V) (z : nat) : option nat :=
  match o with
  | Run o => home_op vs o z
  | MoveAll y x => home_op vs (MoveAssign x y) z
  | AssignElem x s _ _ => unless (negb (test vs x (has_shape (resolve s)))) x z
  | _ => Some z
  end.
Definition follow (vs : valuation V) (o : act V) (r : view_value) : view_value :=
  mkVV (match vv_of r with Some x => home vs o x | None => None end) (vv_shape r) (vv_at r).

(** ** Statements *)

(** x[j] = e; *)
Definition put (vs : valuation V) (x : nat) (j : list Z) (e : V) : valuation V :=
  on vs x (fun a => set_value vs x (Some (filled a (fun k => if same_index k j then e else v_at a k)))).
(** y[k] = x[j]; *)
Definition transfer (x y : nat) (vs : valuation V) (jk : list Z * list Z) : valuation V :=
  on vs x (fun a => put vs y (snd jk) (v_at a (fst jk))).
Definition shape_at (vs : valuation V) (x : nat) : list dim := match vs_arr vs x with Some a => v_shape a | None => [] end.
(** With the array_ref [v], if its elements exist *)
Definition through (st : view_state) (v : nat) (f : nat -> view_value -> view_state) : view_state :=
  match nth_error (is_refs st) v with
  | Some r => match vv_of r with Some x => f x r | None => st end
  | None => st
  end.
Definition add_ref (st : view_state) (r : view_value) : view_state := mkIS (is_vals st) (is_refs st ++ [r]) (is_out st).
Definition with_values (st : view_state) (vs : valuation V) : view_state := mkIS vs (is_refs st) (is_out st).
Definition vinterp (st : view_state) (o : vact V) : view_state :=
  let vs := is_vals st in
  match o with
  | Do o => mkIS (interp c visit vs o) (map (follow vs o) (is_refs st)) (is_out st)
  | Ref x => add_ref st (mkVV (Some x) (shape_at vs x) (fun i => i))
  | Slice v args => through st v (fun x r => add_ref st (mkVV (Some x) (left_dims args (vv_shape r)) (fun i => vv_at r (full_index args i))))
  | Get v i => through st v (fun x r =>
      match vs_arr vs x with Some a => mkIS vs (is_refs st) (v_at a (vv_at r i) :: is_out st) | None => st end)
  | Put v i e => through st v (fun x r => with_values st (put vs x (vv_at r i) e))
  | FillRef v e => through st v (fun x r =>
      with_values st (fold_left (fun vs i => put vs x (vv_at r i) e) (order (vv_shape r) (vv_shape r)) vs))
  | CopyRef u v => through st u (fun x s => through st v (fun y r =>
      with_values st (fold_left (transfer x y) (map (fun i => (vv_at s i, vv_at r i)) (order (vv_shape s) (vv_shape r))) vs)))
  end.
Definition vinterps (ops : list (vact V)) (st : view_state) : view_state := fold_left vinterp ops st.

(** ** Legal programs, without memory *)

(** The array_ref exists and so do its elements *)
Definition usable (st : view_state) (v : nat) (P : list dim -> Prop) : Prop :=
  exists r, nth_error (is_refs st) v = Some r /\ vv_of r <> None /\ P (vv_shape r).
Definition vallowed (st : view_state) (o : vact V) : Prop :=
  match o with
  | Do o => allowed c (is_vals st) o
  | Ref x => present (is_vals st) x
  | Slice v args => usable st v (fun s => length args = length s /\ args_within args s /\
      Forall (fun a => match a with AInt i => 0 <= iext i | ADim d => 0 <= dext d | _ => True end) args)
  | Get v i | Put v i _ => usable st v (fun s => in_bounds s i)
  | FillRef v _ => usable st v (fun _ => True)
  | CopyRef u v => usable st u (fun s => usable st v (fun t => length s = length t /\ within t s))
  end.
Fixpoint all_vallowed (st : view_state) (ops : list (vact V)) : Prop :=
  match ops with
  | [] => True
  | o :: r => vallowed st o /\ all_vallowed (vinterp st o) r
  end.

(** ** The arrays and array_refs of a program are those of the interpreter, and it has read the same *)

Definition is_view (w : world V) (r : aref) (v : view_value) : Prop :=
  r_shape r = vv_shape v /\
  match vv_of v with
  | Some x => views w x (vv_at v) r
  | None => dangles w r
  end.
Definition shows_state (st : vstate V) (is : view_state) : Prop :=
  shows_values c (vs_world st) (is_vals is) /\ Forall2 (is_view (vs_world st)) (vs_refs st) (is_refs is) /\ vs_out st = is_out is.
End Interp.
Arguments view_state V : clear implicits.

(** [order] has the indices of the destination, in the order of their places if the strides are positive *)
Definition copy_sequence (order : list dim -> list dim -> list (list Z)) : Prop :=
  forall s t, length s = length t -> extents_ge 0 t -> injective_layout t ->
    enumerates (in_bounds t) (order s t) /\
    (nested t -> forward t -> StronglySorted Z.lt (map (offset t) (order s t))).
