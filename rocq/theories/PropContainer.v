(** Properties of the array container and of auto_allocator: C03, C27 (moved arrays),
    C31-C37, C49. *)
From Coq Require Import ZArith List Bool.
From Verif Require Import Base Interval Shape Memory Ref Container Spec SpecMem SpecContainer
  ContainerWorld ContainerProps ContainerCases.
Import ListNotations.
Open Scope Z_scope.

(** ** C03: elements of an allocated array are inside its buffer *)
Theorem C03_allocate_in_buffer : forall (V : Type) (c : config V) (x : nat) (h : heap V) (a : arr) (i : list Z),
  a_buf a = null -> in_bounds (a_shape a) i -> (1 <= h_next h)%nat ->
  exists h' a' k b, allocate c x h a = Ok (h', a') /\ same_shape (a_shape a') (a_shape a) /\
    h_next h = k /\ h_blk h' k = Some b /\ b_size b = flat_extent (a_shape a') /\ a_bufsize a' = b_size b /\
    a_buf a' = (k, 0) /\
    (forall j, h_blk h j <> None -> j <> k -> h_blk h' j = h_blk h j) /\
    forall i, in_bounds (a_shape a) i -> ref_ptr (aref_of a') i = elem (a_base a') (a_shape a') i /\
      exists z, elem (a_base a') (a_shape a') i = (k, z) /\ 0 <= z < b_size b.
Proof. exact allocate_in_buffer. Qed.
Example C03_example :
  let s := [mkD 2 3 (-2); mkD (-1) 2 unresolved] in
  a_buf (blank 0 s) = null /\ in_bounds s [4; 0] /\
  exists h' a', allocate debug2 0%nat empty_heap (blank 0 s) = Ok (h', a') /\
    a_bufsize a' = 6 /\ ref_ptr (aref_of a') [4; 0] = (1%nat, 1) /\ ref_ptr (aref_of a') [2; -1] = (1%nat, 4).
Proof.
  cbv zeta. split; [reflexivity|]. split.
  - repeat constructor; discriminate.
  - eexists. eexists. split; [reflexivity|]. repeat split.
Qed.
Print Assumptions C03_allocate_in_buffer.

(** ** C31: construction *)
Theorem C31_construct : forall (V : Type) (c : config V), fair c ->
  forall (w : world V) (s : list dim) (al : nat), reachable c w -> shape_arg c s ->
  exists w' s', step c w (New s al) = Ok w' /\ same_shape s' s /\ denotes w' (w_next w) s' (fun _ => c_dv c) /\
    adds_objects w w' (w_next w) /\ unchanged w w' [w_next w].
Proof. exact (fun V c Hf => @construct_shape V c (reachable c) (reachable_inv c Hf)). Qed.
Theorem C31_construct_value : forall (V : Type) (c : config V), fair c ->
  forall (w : world V) (s : list dim) (v : V) (al : nat), reachable c w -> shape_arg c s ->
  exists w' s', step c w (NewValue s v al) = Ok w' /\ same_shape s' s /\ denotes w' (w_next w) s' (fun _ => v) /\
    adds_objects w w' (w_next w) /\ unchanged w w' [w_next w].
Proof. exact (fun V c Hf => @construct_value V c Hf (reachable c) (reachable_inv c Hf)). Qed.
(** Copying and element-wise moving: C32_copy_construct, C33_move_construct. *)
Theorem C31_copy_construct : forall (V : Type) (c : config V), fair c ->
  forall (w : world V) (o : op V) (y : nat) (s : list dim) (f : list Z -> V),
  reachable c w -> may_copy c w y -> denotes w y s f -> o = NewCopy y \/ (exists al, o = NewCopyAlloc y al) ->
  exists w' s', step c w o = Ok w' /\ same_shape s' s /\ denotes w' (w_next w) s' f /\ denotes w' y s f /\
    adds_objects w w' (w_next w) /\ unchanged w w' [w_next w].
Proof. exact (fun V c Hf => @copy_construct_world V c Hf (reachable c) (reachable_inv c Hf)). Qed.
Example C31_example :
  reachable debug2 (state debug2 pre) /\ shape_arg debug2 shapeA /\ may_copy debug2 (state debug2 pre) 0%nat /\
  live_count (state debug2 pre) = 26%nat /\
  (let w := state debug2 (pre ++ [New shapeA 3]) in
   contents w 2%nat = repeat (Some 0) 6 /\ live_count w = 32%nat /\ block_count w = 3%nat) /\
  (let w := state debug2 (pre ++ [NewCopy 0%nat]) in
   contents w 2%nat = [Some 5; Some 9; Some 5; Some 5; Some 5; Some 5] /\ live_count w = 32%nat).
Proof.
  split; [apply state_reachable; [apply fair2; left; reflexivity|vm_compute; reflexivity]|].
  split; [apply argb_ok; vm_compute; reflexivity|].
  split; [apply copyb_ok; vm_compute; reflexivity|].
  vm_compute. auto.
Qed.
(** A broadcast dimension: the second construction of an element is over a live object. *)
Theorem C31_broadcast_refuted : exists s : list dim, extents_ge 0 s /\ known_strides s /\
  step debug2 empty_world (New s 0) = UB.
Proof.
  exists [mkD 0 2 0; mkD 0 4 1]. split; [repeat constructor; discriminate|].
  split; [repeat constructor; discriminate|reflexivity].
Qed.
Print Assumptions C31_construct.
Print Assumptions C31_construct_value.
Print Assumptions C31_copy_construct.
Print Assumptions C31_broadcast_refuted.

(** ** C32: copies *)
Theorem C32_copy_construct : forall (V : Type) (c : config V), fair c ->
  forall (w : world V) (o : op V) (y : nat) (s : list dim) (f : list Z -> V),
  reachable c w -> may_copy c w y -> denotes w y s f -> o = NewCopy y \/ (exists al, o = NewCopyAlloc y al) ->
  exists w' s', step c w o = Ok w' /\ same_shape s' s /\ denotes w' (w_next w) s' f /\ denotes w' y s f /\
    adds_objects w w' (w_next w) /\ unchanged w w' [w_next w].
Proof. exact (fun V c Hf => @copy_construct_world V c Hf (reachable c) (reachable_inv c Hf)). Qed.
Theorem C32_copy_assign : forall (V : Type) (c : config V), fair c ->
  forall (w : world V) (o : op V) (x y : nat) (s : list dim) (f : list Z -> V),
  reachable c w -> exists_arr w x -> may_copy c w y -> x <> y -> denotes w y s f ->
  o = CopyAssign x y \/ o = AssignCopy x y ->
  exists w' s', step c w o = Ok w' /\ same_shape s' s /\ denotes w' x s' f /\ denotes w' y s f /\ unchanged w w' [x].
Proof. exact (fun V c Hf => @copy_assign_prop V c Hf (reachable c) (reachable_inv c Hf)). Qed.
Theorem C32_self_assign : forall (V : Type) (c : config V), fair c ->
  forall (w : world V) (o : op V) (x : nat), reachable c w -> exists_arr w x ->
  o = CopyAssign x x \/ o = AssignCopy x x \/ o = AssignMove x x \/ o = MoveAssign x x ->
  exists w', step c w o = Ok w' /\ w_heap w' = w_heap w /\ forall z, w_arr w' z = w_arr w z.
Proof. exact (fun V c Hf => @self_assign_prop V c (reachable c) (reachable_inv c Hf)). Qed.
Theorem C32_make_copy : forall (V : Type) (c : config V), fair c ->
  forall (w : world V) (y : nat) (t : list dim) (al : nat) (s : list dim) (f : list Z -> V),
  reachable c w -> shape_arg c t -> denotes w y s f -> within t s ->
  exists w' t', step c w (MakeCopy y t al) = Ok w' /\ same_shape t' t /\ denotes w' (w_next w) t' f /\
    denotes w' y s f /\ adds_objects w w' (w_next w) /\ unchanged w w' [w_next w].
Proof. exact (fun V c Hf => @make_copy_prop V c (reachable c) (reachable_inv c Hf)). Qed.
(** Writes to one array are not visible in another one. *)
Theorem C32_independent : forall (V : Type) (c : config V), fair c ->
  forall (w : world V) (x : nat) (i : list Z) (v : V) (s : list dim) (f : list Z -> V),
  reachable c w -> denotes w x s f -> in_bounds s i ->
  exists w' g, step c w (Write x i v) = Ok w' /\ denotes w' x s g /\ g i = v /\ (forall j, j <> i -> g j = f j) /\
    unchanged w w' [x].
Proof. exact (fun V c Hf => @write_prop V c (reachable c) (reachable_inv c Hf)). Qed.
Example C32_example :
  reachable debug2 (state debug2 pre) /\ may_copy debug2 (state debug2 pre) 0%nat /\
  exists_arr (state debug2 pre) 1%nat /\
  (let w := state debug2 (pre ++ [CopyAssign 1%nat 0%nat; Write 0%nat [4; 0] 7]) in
   dims w 1%nat = dims w 0%nat /\ contents w 1%nat = [Some 5; Some 9; Some 5; Some 5; Some 5; Some 5] /\
   contents w 0%nat = [Some 5; Some 9; Some 5; Some 5; Some 5; Some 7] /\ live_count w = 12%nat) /\
  (let w := state debug2 (pre ++ [MakeCopy 0%nat [mkD 3 2 unresolved; mkD (-1) 1 unresolved] 0]) in
   contents w 2%nat = [Some 9; Some 5]) /\
  (let w := state debug2 (pre ++ [CopyAssign 0%nat 0%nat]) in contents w 0%nat = contents (state debug2 pre) 0%nat).
Proof.
  split; [apply state_reachable; [apply fair2; left; reflexivity|vm_compute; reflexivity]|].
  split; [apply copyb_ok; vm_compute; reflexivity|].
  split; [apply existsb_arr_ok; vm_compute; reflexivity|].
  vm_compute. auto.
Qed.
Print Assumptions C32_copy_construct.
Print Assumptions C32_copy_assign.
Print Assumptions C32_self_assign.
Print Assumptions C32_make_copy.
Print Assumptions C32_independent.

(** ** C33: moves *)
Theorem C33_move_construct : forall (V : Type) (c : config V), fair c ->
  forall (w : world V) (o : op V) (y : nat) (b : arr) (al : nat) (s : list dim) (f : list Z -> V),
  reachable c w -> may_copy c w y -> w_arr w y = Some b -> denotes w y s f ->
  (o = NewMove y /\ al = (if c_pocma c then a_al b else c_default c)) \/ o = NewMoveAlloc y al ->
  exists w' s', step c w o = Ok w' /\ same_shape s' s /\ denotes w' (w_next w) s' f /\ unchanged w w' [w_next w; y] /\
    (a_busy b = false -> al = a_al b ->
       w_heap w' = w_heap w /\ s' = s /\
       exists a' b', w_arr w' (w_next w) = Some a' /\ w_arr w' y = Some b' /\
         a_base a' = a_base b /\ a_buf b' = null /\ a_base b' = null /\ no_index (a_shape b')) /\
    (a_busy b = true \/ al <> a_al b ->
       denotes w' y s (fun i => c_mv c (f i)) /\ adds_objects w w' (w_next w)).
Proof. exact (fun V c Hf => @move_construct_prop V c Hf (reachable c) (reachable_inv c Hf)). Qed.
Theorem C33_move_assign : forall (V : Type) (c : config V), fair c ->
  forall (w : world V) (x y : nat) (a b : arr) (s : list dim) (f : list Z -> V),
  reachable c w -> x <> y -> w_arr w x = Some a -> w_arr w y = Some b -> may_copy c w y -> denotes w y s f ->
  exists w' s', step c w (MoveAssign x y) = Ok w' /\ same_shape s' s /\ denotes w' x s' f /\ unchanged w w' [x; y] /\
    (c_pocma c = true \/ (a_busy a = false /\ a_busy b = false /\ a_al a = a_al b) ->
       w_heap w' = w_heap w /\ s' = s /\
       (forall t g, denotes w x t g -> denotes w' y t g) /\
       exists a' b', w_arr w' x = Some a' /\ w_arr w' y = Some b' /\ a_base a' = a_base b /\ a_base b' = a_base a) /\
    (c_pocma c = false -> a_busy a = true \/ a_busy b = true \/ a_al a <> a_al b ->
       denotes w' y s (fun i => c_mv c (f i)) \/ (no_index s /\ exists t, denotes w' y t f /\ no_index t)).
Proof. exact (fun V c Hf => @move_assign_prop V c Hf (reachable c) (reachable_inv c Hf)). Qed.
Theorem C33_assign_move : forall (V : Type) (c : config V), fair c ->
  forall (w : world V) (x y : nat) (s : list dim) (f : list Z -> V),
  reachable c w -> x <> y -> exists_arr w x -> may_copy c w y -> denotes w y s f ->
  exists w' s', step c w (AssignMove x y) = Ok w' /\ same_shape s' s /\ denotes w' x s' f /\
    denotes w' y s (fun i => c_mv c (f i)) /\ unchanged w w' [x; y].
Proof. exact (fun V c Hf => @assign_move_prop V c Hf (reachable c) (reachable_inv c Hf)). Qed.
Theorem C33_make_move : forall (V : Type) (c : config V), fair c ->
  forall (w : world V) (y : nat) (t : list dim) (al : nat) (s : list dim) (f : list Z -> V),
  reachable c w -> shape_arg c t -> denotes w y s f -> within t s ->
  exists w' t' g, step c w (MakeMove y t al) = Ok w' /\ same_shape t' t /\ denotes w' (w_next w) t' f /\
    denotes w' y s g /\ (forall i, ~ in_bounds t i -> g i = f i) /\ (forall i, in_bounds t i -> g i = c_mv c (f i)) /\
    unchanged w w' [w_next w; y].
Proof. exact (fun V c Hf => @make_move_prop V c (reachable c) (reachable_inv c Hf)). Qed.
(** A shape type whose default is not empty: the moved-from array has a non-empty shape and
    no memory; assigning to it trips an assertion, or (NDEBUG) leaves it without memory. *)
Theorem C33_static_shape_refuted : exists (s : list dim) (w w' : world Z),
  run (static1 true) [New s 0; NewMove 0%nat] empty_world = Ok w /\
  (exists a, w_arr w 0%nat = Some a /\ a_base a = null /\ in_bounds (a_shape a) [0]) /\
  run (static1 true) [New s 0; NewMove 0%nat; AssignValue 0%nat s 7] empty_world = Ok w' /\
  (exists a, w_arr w' 0%nat = Some a /\ a_base a = null /\ in_bounds (a_shape a) [0]) /\
  step (static1 true) w' (Write 0%nat [0] 1) = UB /\
  run (static1 false) [New s 0; NewMove 0%nat; AssignValue 0%nat s 7] empty_world = AssertFail.
Proof. exact static_shape. Qed.
Example C33_example :
  reachable debug2 (state debug2 pre) /\ may_copy debug2 (state debug2 pre) 0%nat /\
  (* taken over *)
  (let w := state debug2 (pre ++ [NewMove 0%nat]) in
   contents w 2%nat = contents (state debug2 pre) 0%nat /\ contents w 0%nat = [] /\ live_count w = 26%nat) /\
  (* element by element: the allocators differ *)
  (let w := state debug2 (pre ++ [NewMoveAlloc 0%nat 1]) in
   contents w 2%nat = contents (state debug2 pre) 0%nat /\ contents w 0%nat = repeat (Some (-1)) 6) /\
  (let w := state debug2 (pre ++ [MoveAssign 1%nat 0%nat]) in
   contents w 1%nat = contents (state debug2 pre) 0%nat /\ contents w 0%nat = repeat (Some (-1)) 6) /\
  (* propagating allocator: swapped *)
  reachable (pocma2 false) (state (pocma2 false) pre) /\
  (let w := state (pocma2 false) (pre ++ [MoveAssign 1%nat 0%nat]) in
   contents w 1%nat = contents (state debug2 pre) 0%nat /\ contents w 0%nat = repeat (Some 0) 20).
Proof.
  split; [apply state_reachable; [apply fair2; left; reflexivity|vm_compute; reflexivity]|].
  split; [apply copyb_ok; vm_compute; reflexivity|].
  split; [vm_compute; auto|]. split; [vm_compute; auto|]. split; [vm_compute; auto|].
  split; [apply state_reachable; [apply fair2; left; reflexivity|vm_compute; reflexivity]|].
  vm_compute; auto.
Qed.
Print Assumptions C33_move_construct.
Print Assumptions C33_move_assign.
Print Assumptions C33_assign_move.
Print Assumptions C33_make_move.
Print Assumptions C33_static_shape_refuted.

(** ** C34: swap *)
Theorem C34_swap : forall (V : Type) (c : config V), fair c ->
  forall (w : world V) (x y : nat) (s : list dim) (f : list Z -> V) (t : list dim) (g : list Z -> V),
  reachable c w -> may_copy c w x -> may_copy c w y -> denotes w x s f -> denotes w y t g ->
  exists w' s' t', step c w (Swap x y) = Ok w' /\ same_shape s' s /\ same_shape t' t /\
    denotes w' x t' g /\ denotes w' y s' f /\ unchanged w w' [x; y].
Proof. exact (fun V c Hf => @swap_prop V c Hf (reachable c) (reachable_inv c Hf)). Qed.
Example C34_example :
  reachable auto2 (state auto2 pre) /\ may_copy auto2 (state auto2 pre) 0%nat /\ may_copy auto2 (state auto2 pre) 1%nat /\
  (let w := state auto2 (pre ++ [NewValue shapeC 3 1; Swap 0%nat 2%nat]) in
   contents w 2%nat = [Some 5; Some 9; Some 5; Some 5; Some 5; Some 5] /\ contents w 0%nat = repeat (Some 3) 6 /\
   live_count w = 32%nat /\ block_count w = 3%nat).
Proof.
  split; [apply state_reachable; [apply fair2; right; auto|vm_compute; reflexivity]|].
  split; [apply copyb_ok; vm_compute; reflexivity|].
  split; [apply copyb_ok; vm_compute; reflexivity|].
  vm_compute. auto.
Qed.
Print Assumptions C34_swap.

(** ** C35: reshape *)
Theorem C35_reshape : forall (V : Type) (c : config V), fair c ->
  forall (w : world V) (x : nat) (t s : list dim) (f : list Z -> V),
  reachable c w -> shape_arg c t -> denotes w x s f -> Forall2 meets t s ->
  exists w' t' g, step c w (Reshape x t) = Ok w' /\ same_shape t' t /\ denotes w' x t' g /\
    (forall i, in_bounds s i -> in_bounds t i -> g i = f i) /\
    (forall i, ~ in_bounds s i -> in_bounds t i -> g i = c_dv c) /\ unchanged w w' [x].
Proof. exact (fun V c Hf => @reshape_prop V c Hf (reachable c) (reachable_inv c Hf)). Qed.
(** Bounds that are apart: no element is common, but an assertion fails. *)
Theorem C35_apart_refuted : exists (w : world Z) (t : list dim), reachable debug2 w /\ exists_arr w 0%nat /\
  shape_arg debug2 t /\ step debug2 w (Reshape 0%nat t) = AssertFail.
Proof. exact reshape_apart. Qed.
(** The new memory is from the default allocator; with a propagating one, the array's
    allocator is replaced. *)
Theorem C35_allocator_refuted : exists (w w' : world Z) (t : list dim) (a a' : arr),
  reachable (pocma2 false) w /\ w_arr w 0%nat = Some a /\ shape_arg (pocma2 false) t /\
  step (pocma2 false) w (Reshape 0%nat t) = Ok w' /\ w_arr w' 0%nat = Some a' /\ a_al a = 3%nat /\ a_al a' = 0%nat.
Proof. exact reshape_allocator. Qed.
Example C35_example :
  reachable debug2 (state debug2 pre) /\ shape_arg debug2 shapeB /\
  Forall2 meets shapeB [mkD 2 3 1; mkD (-1) 2 (-7)] /\ dims (state debug2 pre) 0%nat = Some [mkD 2 3 1; mkD (-1) 2 (-7)] /\
  contents (state debug2 (pre ++ [Reshape 0%nat shapeB])) 0%nat = Some 5 :: Some 5 :: repeat (Some 0) 18.
Proof.
  split; [apply state_reachable; [apply fair2; left; reflexivity|vm_compute; reflexivity]|].
  split; [apply argb_ok; vm_compute; reflexivity|].
  split; [repeat constructor; discriminate|].
  vm_compute. auto.
Qed.
Print Assumptions C35_reshape.
Print Assumptions C35_apart_refuted.
Print Assumptions C35_allocator_refuted.

(** ** C36: all programs *)
(** No legal program has undefined behaviour or trips an assertion. *)
Theorem C36_programs_run : forall (V : Type) (c : config V), fair c ->
  forall ops : list (op V), legal c empty_world ops -> exists w, run c ops empty_world = Ok w.
Proof. exact (@programs_run). Qed.
Theorem C36_step : forall (V : Type) (c : config V), fair c ->
  forall (w : world V) (o : op V), reachable c w -> legal_op c w o ->
  exists w', step c w o = Ok w' /\ reachable c w'.
Proof. exact (@step_reachable). Qed.
(** The live objects are the elements of the arrays; no element belongs to two arrays. *)
Theorem C36_live_objects : forall (V : Type) (c : config V), fair c ->
  forall w : world V, reachable c w ->
  (forall p, alive (w_heap w) p <-> exists x, elem_of w x p) /\
  (forall x y p, elem_of w x p -> elem_of w y p -> x = y).
Proof. exact (fun V c Hf => @live_objects V c (reachable c) (reachable_inv c Hf)). Qed.
(** Every block is the buffer of one array, of the size that array will free, and from the
    allocator of that array. *)
Theorem C36_blocks_owned : forall (V : Type) (c : config V), fair c ->
  forall (w : world V) (k : nat) (b : block V), reachable c w -> h_blk (w_heap w) k = Some b ->
  exists x a, w_arr w x = Some a /\ a_buf a = (k, 0) /\ b_size b = a_bufsize a /\
    b_owner b = (if a_busy a then Inline x else Memory.Base (a_al a)).
Proof. exact (fun V c Hf => @blocks_owned V c (reachable c) (reachable_inv c Hf)). Qed.
Theorem C36_blocks_unshared : forall (V : Type) (c : config V), fair c ->
  forall (w : world V) (x y : nat) (a b : arr) (k : nat), reachable c w -> w_arr w x = Some a -> w_arr w y = Some b ->
  k <> 0%nat -> fst (a_buf a) = k -> fst (a_buf b) = k -> x = y.
Proof. exact (fun V c Hf => @blocks_unshared V c (reachable c) (reachable_inv c Hf)). Qed.
Theorem C36_no_leak : forall (V : Type) (c : config V), fair c ->
  forall w : world V, reachable c w -> (forall x, w_arr w x = None) ->
  (forall k, h_blk (w_heap w) k = None) /\ forall p, ~ alive (w_heap w) p.
Proof. exact (fun V c Hf => @no_leak V c (reachable c) (reachable_inv c Hf)). Qed.
Theorem C36_assign_value : forall (V : Type) (c : config V), fair c ->
  forall (w : world V) (x : nat) (s : list dim) (v : V), reachable c w -> exists_arr w x -> shape_arg c s ->
  exists w' s', step c w (AssignValue x s v) = Ok w' /\ same_shape s' s /\ denotes w' x s' (fun _ => v) /\
    unchanged w w' [x].
Proof. exact (fun V c Hf => @assign_value_prop V c (reachable c) (reachable_inv c Hf)). Qed.
Theorem C36_clear : forall (V : Type) (c : config V), fair c ->
  forall (w : world V) (x : nat), reachable c w -> exists_arr w x ->
  exists w' s' f, step c w (Clear x) = Ok w' /\ same_shape s' (c_shape0 c) /\ no_index s' /\ denotes w' x s' f /\
    unchanged w w' [x].
Proof. exact (fun V c Hf => @clear_prop V c Hf (reachable c) (reachable_inv c Hf)). Qed.
(** A program with every operation, at the end of which no array is left *)
Example C36_example :
  fair debug2 /\ legal debug2 empty_world (prog ++ cleanup) /\
  (let w := state debug2 prog in live_count w = 36%nat /\ block_count w = 6%nat) /\
  (let w := state debug2 (prog ++ cleanup) in
   live_count w = 0%nat /\ block_count w = 0%nat /\ h_next (w_heap w) = 16%nat).
Proof.
  split; [apply fair2; left; reflexivity|]. split; [exact legal_debug|]. vm_compute. auto.
Qed.
Print Assumptions C36_programs_run.
Print Assumptions C36_step.
Print Assumptions C36_live_objects.
Print Assumptions C36_blocks_owned.
Print Assumptions C36_blocks_unshared.
Print Assumptions C36_no_leak.
Print Assumptions C36_assign_value.
Print Assumptions C36_clear.

(** ** C37: auto_allocator.  C31-C36 cover it: [c_cap c] is the capacity. *)
Theorem C37_inline_once : forall (V : Type) (c : config V), fair c ->
  forall (w : world V) (x k1 k2 : nat) (b1 b2 : block V), reachable c w ->
  h_blk (w_heap w) k1 = Some b1 -> h_blk (w_heap w) k2 = Some b2 ->
  b_owner b1 = Inline x -> b_owner b2 = Inline x -> k1 = k2.
Proof. exact (fun V c Hf => @inline_once V c (reachable c) (reachable_inv c Hf)). Qed.
Theorem C37_inline_fits : forall (V : Type) (c : config V), fair c ->
  forall (w : world V) (x k : nat) (b : block V), reachable c w -> h_blk (w_heap w) k = Some b -> b_owner b = Inline x ->
  0 < b_size b <= c_cap c /\ exists a, w_arr w x = Some a /\ a_buf a = (k, 0) /\ a_busy a = true.
Proof. exact (fun V c Hf => @inline_fits V c (reachable c) (reachable_inv c Hf)). Qed.
(** The base allocator is used only for what does not fit. *)
Theorem C37_heap_too_big : forall (V : Type) (c : config V), fair c ->
  forall (w : world V) (k : nat) (b : block V) (al : nat), reachable c w -> h_blk (w_heap w) k = Some b ->
  b_owner b = Memory.Base al -> 0 < b_size b /\ c_cap c < b_size b.
Proof. exact (fun V c Hf => @heap_too_big V c (reachable c) (reachable_inv c Hf)). Qed.
Theorem C37_equal_can_release : forall (V : Type) (c : config V), fair c ->
  forall (w : world V) (x y : nat) (a b : arr) (k : nat) (bl : block V), reachable c w -> x <> y ->
  w_arr w x = Some a -> w_arr w y = Some b -> alloc_eq x a y b = true -> a_buf b = (k, 0) ->
  h_blk (w_heap w) k = Some bl ->
  b_owner bl = Memory.Base (a_al a) /\ inline_block x (w_heap w) (a_buf b) = None.
Proof. exact (fun V c Hf => @equal_can_release V c (reachable c) (reachable_inv c Hf)). Qed.
Example C37_example :
  fair auto2 /\ legal auto2 empty_world (prog ++ cleanup) /\
  (let w := state auto2 prog in
   map (fun k => option_map (@b_owner Z) (h_blk (w_heap w) k)) [4; 9; 10; 12; 13; 15]%nat =
   map (fun x => Some (Inline x)) [3; 4; 8; 0; 2; 10]%nat) /\
  block_count (state auto2 (prog ++ cleanup)) = 0%nat.
Proof.
  split; [apply fair2; right; auto|]. split; [exact legal_auto|]. vm_compute. auto.
Qed.
Example C37_example_heap :
  let w := state auto2 (firstn 5 prog) in
  fair auto2 /\ reachable auto2 w /\ c_cap auto2 = 8 /\
  map (fun k => option_map (fun b => (b_owner b, b_size b)) (h_blk (w_heap w) k)) [1; 2; 3; 4]%nat =
  [Some (Memory.Base 0, 10); Some (Memory.Base 1, 20); Some (Memory.Base 0, 10); Some (Inline 3, 6)].
Proof.
  cbv zeta. assert (Hf : fair auto2) by (apply fair2; right; auto). split; [exact Hf|].
  split; [apply state_reachable; [exact Hf|vm_compute; reflexivity]|]. split; vm_compute; reflexivity.
Qed.
Print Assumptions C37_inline_once.
Print Assumptions C37_inline_fits.
Print Assumptions C37_heap_too_big.
Print Assumptions C37_equal_can_release.

(** ** C49: assignment between arrays without memory *)
(** The shapes are empty, injective, with known strides; the flat_min is not 0. *)
Theorem C49_empty_assign_refuted : exists (s t : list dim) (w : world Z),
  extents_ge 0 s /\ extents_ge 0 t /\ known_strides s /\ known_strides t /\ no_index s /\ no_index t /\
  run release2 [New s 0; New t 0; CopyAssign 0%nat 1%nat] empty_world = Ok w /\
  dims w 1%nat = Some t /\ dims w 0%nat = Some s /\ s <> t /\
  run debug2 [New s 0; New t 0; CopyAssign 0%nat 1%nat] empty_world = AssertFail /\
  run release2 [New s 0; Delete 0%nat] empty_world = UB.
Proof. exact empty_assign. Qed.
(** With flat_min = 0 whenever no memory is needed (part of [shape_arg]) the target gets the
    source's shape in all cases. *)
Theorem C49_assign_shape : forall (V : Type) (c : config V), fair c ->
  forall (w : world V) (o : op V) (x y : nat) (s : list dim) (f : list Z -> V),
  reachable c w -> exists_arr w x -> may_copy c w y -> x <> y -> denotes w y s f ->
  o = CopyAssign x y \/ o = AssignCopy x y ->
  exists w' s', step c w o = Ok w' /\ same_shape s' s /\ denotes w' x s' f /\ denotes w' y s f /\ unchanged w w' [x].
Proof. exact (fun V c Hf => @copy_assign_prop V c Hf (reachable c) (reachable_inv c Hf)). Qed.
Example C49_example :
  let ops := [New [mkD 0 0 4; mkD 0 4 1] 0; New [mkD 0 0 4; mkD 7 4 1] 0] in
  reachable debug2 (state debug2 ops) /\
  dims (state debug2 (ops ++ [CopyAssign 0%nat 1%nat])) 0%nat = Some [mkD 0 0 4; mkD 7 4 1].
Proof.
  cbv zeta. split; [apply state_reachable; [apply fair2; left; reflexivity|vm_compute; reflexivity]|].
  vm_compute. reflexivity.
Qed.
Print Assumptions C49_empty_assign_refuted.
Print Assumptions C49_assign_shape.

(** ** C27: move_reinterpret_shape tests the bounds with the wrong sign *)
(** An offset with which all elements are elements of the old array is rejected... *)
Theorem C27_move_reinterpret_rejects_refuted : exists (w : world Z) (b : arr) (t : list dim) (off : Z),
  reachable (dyn1 false) w /\ w_arr w 0%nat = Some b /\
  (forall i, in_bounds t i -> alive (w_heap w) (elem (ptr_off (a_base b) off) t i)) /\ (exists i, in_bounds t i) /\
  move_reinterpret_shape (dyn1 false) 1%nat (w_heap w) 0%nat b (c_shape0 (dyn1 false)) t off = AssertFail.
Proof. exact reinterpret_rejects. Qed.
(** ... and one with which no element is in the buffer is accepted. *)
Theorem C27_move_reinterpret_accepts_refuted : exists (w : world Z) (b a' b' : arr) (h' : heap Z) (t : list dim) (off : Z),
  reachable (dyn1 false) w /\ w_arr w 0%nat = Some b /\
  move_reinterpret_shape (dyn1 false) 1%nat (w_heap w) 0%nat b (c_shape0 (dyn1 false)) t off = Ok (h', a', b') /\
  (exists i, in_bounds (a_shape a') i) /\
  forall i, in_bounds (a_shape a') i -> ~ alive h' (elem (a_base a') (a_shape a') i).
Proof. exact reinterpret_accepts. Qed.
Print Assumptions C27_move_reinterpret_rejects_refuted.
Print Assumptions C27_move_reinterpret_accepts_refuted.
