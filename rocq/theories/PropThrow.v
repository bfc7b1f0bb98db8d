(** Properties of the container when something throws: C53 (allocation), C54 (elements). *)
From Coq Require Import ZArith List Bool.
From Verif Require Import Base Interval Shape Memory Ref Container Throw Spec SpecMem SpecContainer SpecThrow
  ContainerCases ThrowPlain ThrowProps ThrowElems ThrowMoves ThrowCases.
Import ListNotations.
Open Scope Z_scope.

(** ** C53: allocations that fail *)

(** Programs in which any allocation may fail run to their end: no undefined behaviour, no
    assertion. *)
Theorem C53_programs : forall (V : Type) (c : config V), fair c -> forall ops : list (op V * option nat),
  xlegal c empty_world ops -> exists w, xrun c (with_allocs ops) empty_world = Ok w.
Proof. exact (@xprograms_run). Qed.
(** One operation: it completes as if nothing could fail, or it throws; then the arrays are the
    same ones, and only the one assigned to may differ. *)
Theorem C53_step : forall (V : Type) (c : config V), fair c -> forall (w : world V) (o : op V) (n : option nat),
  xreachable c w -> xlegal_op c w o ->
  exists r, xstep c w o (allocs n) = Ok r /\ xreachable c (fst (settle r)) /\
    (forall w' f, r = Done w' f -> step c w o = Ok w') /\
    (forall w', r = Threw w' -> unchanged w w' (targets o) /\ same_arrays w w').
Proof. exact (@xstep_prop). Qed.
(** Constructors, make_copy and make_move: nothing has happened. *)
Theorem C53_strong : forall (V : Type) (c : config V), fair c -> forall (w w' : world V) (o : op V) (n : option nat),
  xreachable c w -> xlegal_op c w o -> targets o = [] -> xstep c w o (allocs n) = Ok (Threw w') ->
  unchanged w w' [].
Proof. exact (@xstrong). Qed.
Theorem C53_blocks_owned : forall (V : Type) (c : config V), fair c -> forall (w : world V) (k : nat) (b : block V),
  xreachable c w -> h_blk (w_heap w) k = Some b ->
  exists x a, w_arr w x = Some a /\ a_buf a = (k, 0) /\ b_size b = a_bufsize a /\
    b_owner b = (if a_busy a then Inline x else Base (a_al a)).
Proof. exact (@xblocks_owned). Qed.
Theorem C53_blocks_unshared : forall (V : Type) (c : config V), fair c ->
  forall (w : world V) (x y : nat) (a b : arr) (k : nat), xreachable c w -> w_arr w x = Some a -> w_arr w y = Some b ->
  k <> 0%nat -> fst (a_buf a) = k -> fst (a_buf b) = k -> x = y.
Proof. exact (@xblocks_unshared). Qed.
Theorem C53_live_objects : forall (V : Type) (c : config V), fair c -> forall w : world V, xreachable c w ->
  (forall p, alive (w_heap w) p <-> exists x, usable w x /\ elem_of w x p) /\
  (forall x y p, usable w x -> usable w y -> elem_of w x p -> elem_of w y p -> x = y).
Proof. exact (@xlive_objects). Qed.
Theorem C53_no_leak : forall (V : Type) (c : config V), fair c -> forall w : world V,
  xreachable c w -> (forall x, w_arr w x = None) ->
  (forall k, h_blk (w_heap w) k = None) /\ forall p, ~ alive (w_heap w) p.
Proof. exact (@xno_leak). Qed.
(** Whatever is left of the target, it can be destroyed, cleared and assigned to. *)
Theorem C53_delete : forall (V : Type) (c : config V), fair c -> forall (w : world V) (x : nat) (n : option nat),
  xreachable c w -> exists_arr w x ->
  exists w' f', xstep c w (Delete x) (allocs n) = Ok (Done w' f') /\ w_arr w' x = None /\ unchanged w w' [x].
Proof. exact (@xdelete_prop). Qed.
Theorem C53_clear : forall (V : Type) (c : config V), fair c ->
  forall (w : world V) (x : nat) (n : option nat) (w' : world V) (f' : budget),
  xreachable c w -> exists_arr w x -> xstep c w (Clear x) (allocs n) = Ok (Done w' f') ->
  usable w' x /\ unchanged w w' [x] /\ exists s' f, same_shape s' (c_shape0 c) /\ no_index s' /\ denotes w' x s' f.
Proof. exact (@xclear). Qed.
Theorem C53_copy_assign : forall (V : Type) (c : config V), fair c ->
  forall (w : world V) (o : op V) (x y : nat) (s : list dim) (g : list Z -> V) (n : option nat) (w' : world V) (f' : budget),
  xreachable c w -> exists_arr w x -> may_copy c w y -> usable w y -> x <> y -> denotes w y s g ->
  o = CopyAssign x y \/ o = AssignCopy x y -> xstep c w o (allocs n) = Ok (Done w' f') ->
  exists s', same_shape s' s /\ denotes w' x s' g /\ denotes w' y s g /\ unchanged w w' [x].
Proof. exact (@xcopy_assign). Qed.
Theorem C53_assign_value : forall (V : Type) (c : config V), fair c ->
  forall (w : world V) (x : nat) (s : list dim) (v : V) (n : option nat) (w' : world V) (f' : budget),
  xreachable c w -> xlegal_op c w (AssignValue x s v) -> xstep c w (AssignValue x s v) (allocs n) = Ok (Done w' f') ->
  exists s', same_shape s' s /\ denotes w' x s' (fun _ => v) /\ unchanged w w' [x].
Proof. exact (@xassign_value). Qed.
(** When nothing fails, the operation is the one of Container.v. *)
Theorem C53_unlimited : forall (V : Type) (c : config V), fair c -> forall (w : world V) (o : op V),
  xreachable c w -> xlegal_op c w o ->
  exists w', step c w o = Ok w' /\ xstep c w o unlimited = Ok (Done w' unlimited).
Proof. exact (@xunlimited). Qed.
(** Constructing an array throws when memory is needed that is not inline. *)
Theorem C53_new_throws : forall (V : Type) (c : config V) (w : world V) (s : list dim) (al : nat),
  (exists w', xstep c w (New s al) (allocs (Some 0%nat)) = Ok (Threw w')) <->
  0 < flat_extent (resolve s) /\ c_cap c < flat_extent (resolve s).
Proof. exact (@xnew_throws). Qed.
Example C53_example :
  xreachable debug2 (xstate debug2 xprog) /\
  throws debug2 (xprog ++ xrecover ++ xcleanup) empty_world =
    [false; true; false; false; true; true; true; true; true; true; false; true; false; false; false] /\
  (let w := xstate debug2 xprog in
   contents w 0%nat = [Some 5; Some 9; Some 5; Some 5; Some 5; Some 5] /\
   dims w 2%nat = Some [mkD 2 3 1; mkD (-1) 2 (-7)] /\ ~ usable w 2%nat /\ exists_arr w 2%nat /\
   live_count w = 6%nat /\ block_count w = 1%nat) /\
  (let w := xstate debug2 (xprog ++ xrecover) in
   contents w 2%nat = [Some 5; Some 9; Some 5; Some 5; Some 5; Some 5] /\
   contents w 0%nat = repeat (Some 4) 6 /\ live_count w = 12%nat) /\
  (let w := xstate debug2 (xprog ++ xrecover ++ xcleanup) in live_count w = 0%nat /\ block_count w = 0%nat).
Proof. exact xprog_debug. Qed.
(** The same program with auto_allocator<int, 8> and with propagating allocators *)
Example C53_example2 :
  xreachable auto2 (xstate auto2 xprog) /\ xreachable moving2 (xstate moving2 xprog) /\
  throws auto2 (xprog ++ xrecover) empty_world =
    [false; true; false; false; true; false; true; true; true; true; false; true; false].
Proof. exact xprog_others. Qed.
(** assign(shape, value) again after it has thrown: the shape is the new one already, the
    storage is taken to be there.  An assertion fails, ... *)
Theorem C53_retry_debug_refuted : exists (w : world Z) (s : list dim), xreachable debug2 w /\
  exists_arr w 0%nat /\ shape_arg debug2 s /\ xstep debug2 w (AssignValue 0%nat s 3) unlimited = AssertFail.
Proof. exact retry_debug. Qed.
(** ... or, without assertions, the array has 20 elements and no storage for them. *)
Theorem C53_retry_refuted : exists (w w' : world Z) (s : list dim) (a : arr), xreachable quiet2 w /\
  exists_arr w 0%nat /\ shape_arg quiet2 s /\ xstep quiet2 w (AssignValue 0%nat s 3) unlimited = Ok (Done w' unlimited) /\
  w_arr w' 0%nat = Some a /\ a_base a = null /\ size (a_shape a) = 20 /\
  step quiet2 w' (Write 0%nat [3; 0] 1) = UB.
Proof. exact retry_release. Qed.
(** Moving an array without elements into one that has lost its storage exchanges the shapes:
    the source is left with elements and no storage, though nothing has thrown. *)
Theorem C53_move_empty_refuted : exists (w w' : world Z), xreachable moving2 w /\
  xlegal_op moving2 w (MoveAssign 0%nat 1%nat) /\ usable w 1%nat /\
  xstep moving2 w (MoveAssign 0%nat 1%nat) unlimited = Ok (Done w' unlimited) /\ ~ usable w' 1%nat.
Proof. exact move_empty. Qed.
(** A swap that throws loses the elements of one of the arrays. *)
Theorem C53_swap_refuted : exists (w w' : world Z), xreachable debug2 w /\ xlegal_op debug2 w (Swap 0%nat 1%nat) /\
  live_count w = 26%nat /\ xstep debug2 w (Swap 0%nat 1%nat) (allocs (Some 1%nat)) = Ok (Threw w') /\
  ~ usable w' 1%nat /\ live_count w' = 6%nat.
Proof. exact swap_loses. Qed.
Print Assumptions C53_programs.
Print Assumptions C53_step.
Print Assumptions C53_strong.
Print Assumptions C53_blocks_owned.
Print Assumptions C53_blocks_unshared.
Print Assumptions C53_live_objects.
Print Assumptions C53_no_leak.
Print Assumptions C53_delete.
Print Assumptions C53_clear.
Print Assumptions C53_copy_assign.
Print Assumptions C53_assign_value.
Print Assumptions C53_unlimited.
Print Assumptions C53_new_throws.
Print Assumptions C53_retry_debug_refuted.
Print Assumptions C53_retry_refuted.
Print Assumptions C53_move_empty_refuted.
Print Assumptions C53_swap_refuted.

(** ** C54: element constructors that throw *)

(** Whatever throws: an operation that completes has done what it does when nothing throws. *)
Theorem C54_completes : forall (V : Type) (c : config V) (w : world V) (o : op V) (f : budget) (w' : world V) (f' : budget),
  xstep c w o f = Ok (Done w' f') -> step c w o = Ok w'.
Proof. exact (@xcompletes). Qed.
(** The constructors that do not delegate: when the (k+1)-st element throws, the k elements
    before it are never destroyed and their memory is never freed. *)
Theorem C54_new_leaks : forall (V : Type) (c : config V), fair c ->
  forall (w : world V) (s : list dim) (al k : nat) (l : list (list Z)),
  reachable c w -> shape_arg c s -> enumerates (in_bounds s) l -> (k < length l)%nat ->
  exists w', xstep c w (New s al) (elems k) = Ok (Threw w') /\ leaks c w w' k.
Proof. exact (@new_elems). Qed.
Theorem C54_copy_leaks : forall (V : Type) (c : config V), fair c ->
  forall (w : world V) (y : nat) (s : list dim) (g : list Z -> V) (k : nat) (l : list (list Z)),
  reachable c w -> may_copy c w y -> denotes w y s g -> enumerates (in_bounds s) l -> (k < length l)%nat ->
  exists w', xstep c w (NewCopy y) (elems k) = Ok (Threw w') /\ leaks c w w' k.
Proof. exact (@new_copy_elems). Qed.
Theorem C54_make_leaks : forall (V : Type) (c : config V), fair c ->
  forall (w : world V) (o : op V) (y : nat) (s : list dim) (al k : nat) (l : list (list Z)),
  reachable c w -> legal_op c w o -> o = MakeCopy y s al \/ o = MakeMove y s al ->
  enumerates (in_bounds s) l -> (k < length l)%nat ->
  exists w', xstep c w o (elems k) = Ok (Threw w') /\ leaks c w w' k.
Proof. exact (@make_copy_elems). Qed.
Theorem C54_reshape_leaks : forall (V : Type) (c : config V), fair c ->
  forall (w : world V) (x : nat) (s : list dim) (k : nat) (l : list (list Z)),
  reachable c w -> legal_op c w (Reshape x s) -> (exists a, w_arr w x = Some a /\ a_shape a <> resolve s) ->
  enumerates (in_bounds s) l -> (k < length l)%nat ->
  exists w', xstep c w (Reshape x s) (elems k) = Ok (Threw w') /\ leaks c w w' k.
Proof. exact (@reshape_elems). Qed.
(** The constructors that delegate: the destructor destroys objects that do not exist. *)
Theorem C54_value_ub : forall (V : Type) (c : config V), fair c ->
  forall (w : world V) (s : list dim) (v : V) (al k : nat) (l : list (list Z)),
  reachable c w -> shape_arg c s -> enumerates (in_bounds s) l -> (k < length l)%nat ->
  xstep c w (NewValue s v al) (elems k) = UB.
Proof. exact (@new_value_elems). Qed.
Theorem C54_copy_alloc_ub : forall (V : Type) (c : config V), fair c ->
  forall (w : world V) (y al : nat) (s : list dim) (g : list Z -> V) (k : nat) (l : list (list Z)),
  reachable c w -> may_copy c w y -> denotes w y s g -> enumerates (in_bounds s) l -> (k < length l)%nat ->
  xstep c w (NewCopyAlloc y al) (elems k) = UB.
Proof. exact (@new_copy_alloc_elems). Qed.
(** Assignments: the exception arrives, and the array can be neither destroyed nor cleared. *)
Theorem C54_assign_ub : forall (V : Type) (c : config V), fair c ->
  forall (w : world V) (o : op V) (x k : nat) (l : list (list Z)) (s : list dim),
  reachable c w -> legal_op c w o ->
  (exists v, o = AssignValue x s v) \/
  (exists y g, (o = AssignCopy x y \/ o = CopyAssign x y) /\ x <> y /\ denotes w y s g) ->
  enumerates (in_bounds s) l -> (k < length l)%nat ->
  exists w', xstep c w o (elems k) = Ok (Threw w') /\ step c w' (Delete x) = UB /\ step c w' (Clear x) = UB.
Proof. exact (@assign_elems). Qed.
(** Moving element by element (the allocators differ, or a storage is inline): a constructor leaves
    a stray block as above, and k elements of the source are already moved from; ... *)
Theorem C54_move_leaks : forall (V : Type) (c : config V), fair c ->
  forall (w : world V) (o : op V) (y : nat) (b : arr) (al : nat) (s : list dim) (g : list Z -> V) (k : nat) (l : list (list Z)),
  reachable c w -> legal_op c w o -> w_arr w y = Some b ->
  (o = NewMove y /\ c_pocma c = false /\ al = c_default c) \/ o = NewMoveAlloc y al ->
  a_busy b = true \/ a_al b <> al ->
  denotes w y s g -> enumerates (in_bounds s) l -> (k < length l)%nat ->
  exists w', xstep c w o (elems k) = Ok (Threw w') /\ leaks_moved c w w' y k.
Proof. exact (@new_move_elems). Qed.
(** ... an assignment leaves an array that can be neither destroyed nor cleared. *)
Theorem C54_move_assign_ub : forall (V : Type) (c : config V), fair c ->
  forall (w : world V) (o : op V) (x y : nat) (a b : arr) (s : list dim) (g : list Z -> V) (k : nat) (l : list (list Z)),
  reachable c w -> legal_op c w o -> x <> y -> w_arr w x = Some a -> w_arr w y = Some b ->
  o = AssignMove x y \/
  (o = MoveAssign x y /\ c_pocma c = false /\ (a_busy a = true \/ a_busy b = true \/ a_al a <> a_al b)) ->
  denotes w y s g -> enumerates (in_bounds s) l -> (k < length l)%nat ->
  exists w', xstep c w o (elems k) = Ok (Threw w') /\ step c w' (Delete x) = UB /\ step c w' (Clear x) = UB.
Proof. exact (@assign_move_elems). Qed.
(** swap and reshape move several times: whichever construction throws, one of the two happens. *)
Theorem C54_swap : forall (V : Type) (c : config V), fair c ->
  forall (w : world V) (x y k : nat), reachable c w -> legal_op c w (Swap x y) -> x <> y ->
  (exists w' f, xstep c w (Swap x y) (elems k) = Ok (Done w' f)) \/
  (exists w', xstep c w (Swap x y) (elems k) = Ok (Threw w') /\
    (leaks_moved c w w' y k \/ stuck c w' x \/ stuck c w' y)).
Proof. exact (@swap_elems). Qed.
Theorem C54_reshape : forall (V : Type) (c : config V), fair c ->
  forall (w : world V) (x : nat) (s : list dim) (k : nat), reachable c w -> legal_op c w (Reshape x s) ->
  (exists w' f, xstep c w (Reshape x s) (elems k) = Ok (Done w' f)) \/
  (exists w', xstep c w (Reshape x s) (elems k) = Ok (Threw w') /\ (leaks c w w' k \/ stuck c w' x)).
Proof. exact (@reshape_all_elems). Qed.
Example C54_example :
  let w := state debug2 pre in
  reachable debug2 w /\ shape_arg debug2 shapeC /\ enumerates (in_bounds shapeC) (rect shapeC) /\ length (rect shapeC) = 6%nat /\
  live_count w = 26%nat /\ block_count w = 2%nat /\
  match xstep debug2 w (New shapeC 3) (elems 4) with
  | Ok (Threw w') => live_count w' = 30%nat /\ block_count w' = 3%nat
  | _ => False
  end /\
  match xstep debug2 w (NewCopy 0%nat) (elems 5) with
  | Ok (Threw w') => live_count w' = 31%nat /\ block_count w' = 3%nat
  | _ => False
  end /\
  xstep debug2 w (NewValue shapeC 2 0) (elems 5) = UB /\
  match xstep debug2 w (AssignValue 1%nat shapeC 2) (elems 0) with
  | Ok (Threw w') => live_count w' = 6%nat /\ block_count w' = 2%nat /\ step debug2 w' (Delete 1%nat) = UB
  | _ => False
  end /\
  match xstep debug2 w (NewValue shapeC 2 0) (elems 6) with Ok (Done w' _) => live_count w' = 32%nat | _ => False end.
Proof. exact elems_debug. Qed.
Example C54_moves_example :
  let w := state debug2 pre in
  reachable debug2 w /\ legal_op debug2 w (Swap 0%nat 1%nat) /\ legal_op debug2 w (Reshape 1%nat shapeC) /\
  legal_op debug2 w (NewMoveAlloc 1%nat 7%nat) /\ legal_op debug2 w (MoveAssign 0%nat 1%nat) /\
  (exists a b : arr, w_arr w 0%nat = Some a /\ w_arr w 1%nat = Some b /\ a_al a = 0%nat /\ a_al b = 1%nat) /\
  live_count w = 26%nat /\ block_count w = 2%nat /\
  match xstep debug2 w (NewMoveAlloc 0%nat 7%nat) (elems 4) with
  | Ok (Threw w') => live_count w' = 30%nat /\ block_count w' = 3%nat /\
      contents w 0%nat = [Some 5; Some 9; Some 5; Some 5; Some 5; Some 5] /\
      contents w' 0%nat = [Some (-1); Some (-1); Some 5; Some (-1); Some (-1); Some 5]
  | _ => False
  end /\
  match xstep debug2 w (MoveAssign 0%nat 1%nat) (elems 4) with
  | Ok (Threw w') => live_count w' = 24%nat /\ block_count w' = 2%nat /\ stuck debug2 w' 0%nat
  | _ => False
  end /\
  match xstep debug2 w (Swap 0%nat 1%nat) (elems 3) with
  | Ok (Threw w') => live_count w' = 29%nat /\ block_count w' = 3%nat
  | _ => False
  end /\
  match xstep debug2 w (Swap 0%nat 1%nat) (elems 22) with Ok (Threw w') => stuck debug2 w' 1%nat | _ => False end /\
  match xstep debug2 w (Swap 1%nat 0%nat) (elems 22) with Ok (Threw w') => stuck debug2 w' 1%nat | _ => False end /\
  match xstep debug2 w (Swap 1%nat 0%nat) (elems 3) with Ok (Threw w') => stuck debug2 w' 0%nat | _ => False end /\
  match xstep debug2 w (Reshape 1%nat shapeC) (elems 8) with Ok (Threw w') => stuck debug2 w' 1%nat | _ => False end /\
  match xstep debug2 w (Reshape 1%nat shapeC) (elems 12) with Ok (Done w' _) => live_count w' = 12%nat | _ => False end.
Proof. exact moves_debug. Qed.
Print Assumptions C54_completes.
Print Assumptions C54_new_leaks.
Print Assumptions C54_copy_leaks.
Print Assumptions C54_make_leaks.
Print Assumptions C54_reshape_leaks.
Print Assumptions C54_value_ub.
Print Assumptions C54_copy_alloc_ub.
Print Assumptions C54_assign_ub.
Print Assumptions C54_move_leaks.
Print Assumptions C54_move_assign_ub.
Print Assumptions C54_swap.
Print Assumptions C54_reshape.
