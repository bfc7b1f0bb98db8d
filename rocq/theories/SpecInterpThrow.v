(** The reference interpreter for programs in which allocations fail: how often a statement asks its allocators for
    memory, and what is left of the arrays when a request fails. *)
From Coq Require Import ZArith List Bool.
From Verif Require Import Base Interval Shape Memory Ref Container Throw Spec SpecMem SpecContainer SpecThrow SpecViews SpecInterp.
Import ListNotations.
Open Scope Z_scope.

Section Interp.
Context {V : Type}.
Variable c : config V.

(** Memory for an array of shape [s] is requested from an allocator: there is something to store, and the array object
    has no room for it *)
Definition asks (s : list dim) : bool := (0 <? flat_extent (resolve s)) && (c_cap c <? flat_extent (resolve s)).
(** An array for which memory was requested in vain: it has a shape but no elements *)
Definition lost (al : nat) (s : list dim) : value V := mkVal al false (resolve s) (fun _ => c_dv c).
Definition same_dims (s t : list dim) : bool := if shape_dec s t then true else false.
(** [a] does not keep its memory, or has none, when it is assigned the elements of [b] *)
Definition renews (a b : value V) : bool := (v_mem a || v_mem b) && negb (v_mem a && same_dims (v_shape a) (v_shape b)) && asks (v_shape b).
(** The same for [a = std::move(b)] *)
Definition move_renews (a b : value V) : bool := negb (c_pocma c || exchange c a b) && renews a b.

(** ** The requests of a statement, in order: what the arrays are when this request fails *)

Definition request (b : bool) (vs : valuation V) : list (valuation V) := if b then [vs] else [].
Definition with_array (vs : valuation V) (x : nat) (f : value V -> list (valuation V)) : list (valuation V) :=
  match vs_arr vs x with Some a => f a | None => [] end.
Definition with_arrays (vs : valuation V) (x y : nat) (f : value V -> value V -> list (valuation V)) : list (valuation V) :=
  with_array vs x (fun a => with_array vs y (f a)).
Definition requests (vs : valuation V) (o : op V) : list (valuation V) :=
  match o with
  | New s _ | MakeCopy _ s _ | MakeMove _ s _ => request (asks s) (skip_name vs)
  | NewValue s _ _ =>
      request (asks (c_shape0 c)) (skip_name vs) ++
      request (negb (same_dims (resolve (c_shape0 c)) (resolve s)) && asks s) (skip_name vs)
  | NewCopy y => with_array vs y (fun b => request (v_mem b && asks (v_shape b)) (skip_name vs))
  | NewCopyAlloc y al => with_array vs y (fun b =>
      request (asks (c_shape0 c)) (skip_name vs) ++
      request (renews (built al (c_shape0 c) (fun _ => c_dv c)) b) (skip_name vs))
  | NewMove y => with_array vs y (fun b => request (negb (c_pocma c || takes_over c (c_default c) b) && asks (v_shape b)) (skip_name vs))
  | NewMoveAlloc y al => with_array vs y (fun b => request (negb (takes_over c al b) && asks (v_shape b)) (skip_name vs))
  | CopyAssign x y => with_arrays vs x y (fun a b =>
      let a1 := if c_pocca c && negb (exchange c a b) then mkVal (v_al b) false (v_shape a) (v_at a) else a in
      request (negb (x =? y)%nat && renews a1 b) (set_value vs x (Some (lost (v_al a1) (v_shape b)))))
  | MoveAssign x y => with_arrays vs x y (fun a b =>
      request (negb (x =? y)%nat && move_renews a b) (set_value vs x (Some (lost (v_al a) (v_shape b)))))
  | AssignCopy x y | AssignMove x y => with_arrays vs x y (fun a b =>
      request (negb (x =? y)%nat && renews a b) (set_value vs x (Some (lost (v_al a) (v_shape b)))))
  | AssignValue x s _ => with_array vs x (fun a =>
      request (negb (same_dims (v_shape a) (resolve s)) && asks s) (set_value vs x (Some (lost (v_al a) s))))
  | Clear x => with_array vs x (fun a => request (asks (c_shape0 c)) (set_value vs x (Some (lost (v_al a) (c_shape0 c)))))
  | Reshape x s => with_array vs x (fun a =>
      if same_dims (v_shape a) (resolve s) then []
      else request (asks s) (skip_name vs) ++
           request (move_renews a (built (c_default c) s (fun _ => c_dv c))) (skip_name (set_value vs x (Some (lost (v_al a) s)))))
  | Swap x y => with_arrays vs x y (fun a b =>
      if c_pocs c then []
      else
        let take := c_pocma c || takes_over c (c_default c) b in
        let (t, b1) := move_new c take (if c_pocma c then v_al b else c_default c) b in
        request (negb take && asks (v_shape b)) (skip_name vs) ++
        if (x =? y)%nat then request (move_renews b1 t) (skip_name (set_value vs x (Some (lost (v_al b1) (v_shape t)))))
        else
          let (b2, a1) := move_into c b1 a in
          request (move_renews b1 a) (skip_name (set_value vs y (Some (lost (v_al b1) (v_shape a))))) ++
          request (move_renews a1 t) (skip_name (set_value (set_value vs y (Some b2)) x (Some (lost (v_al a1) (v_shape t))))))
  | Write _ _ _ | Delete _ => []
  end.

(** ** Programs *)

(** A statement when all requests but the first [n] fail: the arrays, and whether it throws *)
Definition xinterp (vs : valuation V) (o : op V) (n : option nat) : valuation V * bool :=
  match n with
  | None => (interp_op c vs o, false)
  | Some k => match nth_error (requests vs o) k with
              | Some vs' => (vs', true)
              | None => (interp_op c vs o, false)
              end
  end.
Fixpoint xinterps (ops : list (op V * option nat)) (vs : valuation V) : valuation V :=
  match ops with
  | [] => vs
  | (o, n) :: r => xinterps r (fst (xinterp vs o n))
  end.
(** Which statements threw *)
Fixpoint xthrows (ops : list (op V * option nat)) (vs : valuation V) : list bool :=
  match ops with
  | [] => []
  | (o, n) :: r => snd (xinterp vs o n) :: xthrows r (fst (xinterp vs o n))
  end.

(** The array exists and has its elements *)
Definition whole (vs : valuation V) (x : nat) : Prop := exists a, vs_arr vs x = Some a /\ (v_mem a = true \/ no_index (v_shape a)).
Definition xallowed (vs : valuation V) (o : op V) : Prop :=
  allowed_op c vs o /\
  match o with
  | New _ _ | NewValue _ _ _ | Clear _ | Delete _ => True
  | NewCopy y | NewCopyAlloc y _ | NewMove y | NewMoveAlloc y _ | MakeCopy y _ _ | MakeMove y _ _ => whole vs y
  | CopyAssign _ y | MoveAssign _ y | AssignCopy _ y | AssignMove _ y => whole vs y
  | AssignValue x s _ => whole vs x \/ shaped vs x (fun t => t <> resolve s)
  | Reshape x _ | Write x _ _ => whole vs x
  | Swap x y => whole vs x /\ whole vs y
  end.
Fixpoint all_xallowed (vs : valuation V) (ops : list (op V * option nat)) : Prop :=
  match ops with
  | [] => True
  | (o, n) :: r => xallowed vs o /\ all_xallowed (fst (xinterp vs o n)) r
  end.

(** ** The arrays of a world are those of the interpreter *)

Definition is_xvalue (h : heap V) (a : arr) (v : value V) : Prop :=
  a_al a = v_al v /\ negb (is_null (a_buf a)) = v_mem v /\ a_busy a = v_inline c v /\ a_shape a = v_shape v /\
  (v_mem v = true -> forall i, in_bounds (v_shape v) i -> holds h (elem (a_base a) (v_shape v) i) (v_at v i)).
Definition shows_xvalues (w : world V) (vs : valuation V) : Prop :=
  w_next w = vs_next vs /\
  forall x, match w_arr w x, vs_arr vs x with
            | Some a, Some v => is_xvalue (w_heap w) a v
            | None, None => True
            | _, _ => False
            end.
(** Which statements of a program throw when it is executed *)
Fixpoint exceptions (ops : list (op V * option nat)) (w : world V) : list bool :=
  match ops with
  | [] => []
  | (o, n) :: r => match xstep c w o (allocs n) with
                   | Ok x => snd (settle x) :: exceptions r (fst (settle x))
                   | _ => []
                   end
  end.
End Interp.
