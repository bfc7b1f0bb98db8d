(** Programs that use arrays together with copy, move, fill, generate and transform_index. *)
From Coq Require Import ZArith List Bool.
From Verif Require Import Base Interval Shape Memory Ref Container Program Spec SpecMem SpecContainer SpecProgram
  ContainerProps ContainerCases ProgramFacts ProgramCases.
Import ListNotations.
Open Scope Z_scope.

(** ** C58: programs *)
Theorem C58_programs_run : forall (V : Type) (c : config V), fair c ->
  forall ops : list (act V), alegal c empty_world ops -> exists w, arun c ops empty_world = Ok w.
Proof. exact (@aprograms). Qed.
Theorem C58_step : forall (V : Type) (c : config V), fair c ->
  forall (w : world V) (o : act V), areachable c w -> legal_act c w o -> exists w', astep c w o = Ok w' /\ areachable c w'.
Proof. exact (@areach_step). Qed.
Theorem C58_live_objects : forall (V : Type) (c : config V), fair c ->
  forall w : world V, areachable c w ->
  (forall p, alive (w_heap w) p <-> exists x, elem_of w x p) /\
  (forall x y p, elem_of w x p -> elem_of w y p -> x = y).
Proof. exact (fun V c Hf => @live_objects V c (areachable c) (areachable_inv c Hf)). Qed.
Theorem C58_blocks_owned : forall (V : Type) (c : config V), fair c ->
  forall (w : world V) (k : nat) (b : block V), areachable c w -> h_blk (w_heap w) k = Some b ->
  exists x a, w_arr w x = Some a /\ a_buf a = (k, 0) /\ b_size b = a_bufsize a /\
    b_owner b = (if a_busy a then Inline x else Memory.Base (a_al a)).
Proof. exact (fun V c Hf => @blocks_owned V c (areachable c) (areachable_inv c Hf)). Qed.
Theorem C58_no_leak : forall (V : Type) (c : config V), fair c ->
  forall w : world V, areachable c w -> (forall x, w_arr w x = None) ->
  (forall k, h_blk (w_heap w) k = None) /\ forall p, ~ alive (w_heap w) p.
Proof. exact (fun V c Hf => @no_leak V c (areachable c) (areachable_inv c Hf)). Qed.
(** The algorithms.  They do not change shapes or allocate. *)
Theorem C58_fill : forall (V : Type) (c : config V), fair c ->
  forall (w : world V) (x : nat) (v : V) (s : list dim) (f : list Z -> V), areachable c w -> denotes w x s f ->
  exists w', astep c w (Fill x v) = Ok w' /\ denotes w' x s (fun _ => v) /\ w_arr w' = w_arr w /\ unchanged w w' [x].
Proof. exact (@fill_prop). Qed.
(** The value may be an element of the array that is filled. *)
Theorem C58_fill_elem : forall (V : Type) (c : config V), fair c ->
  forall (w : world V) (x y : nat) (i : list Z) (s : list dim) (f : list Z -> V) (t : list dim) (g : list Z -> V),
  areachable c w -> denotes w x s f -> denotes w y t g -> in_bounds t i ->
  exists w', astep c w (FillElem x y i) = Ok w' /\ denotes w' x s (fun _ => g i) /\ w_arr w' = w_arr w /\ unchanged w w' [x].
Proof. exact (@fill_elem_prop). Qed.
Theorem C58_copy : forall (V : Type) (c : config V), fair c ->
  forall (w : world V) (x y : nat) (s : list dim) (f : list Z -> V) (t : list dim) (g : list Z -> V),
  areachable c w -> x <> y -> denotes w x s f -> denotes w y t g -> within s t ->
  exists w', astep c w (CopyTo y x) = Ok w' /\ denotes w' x s g /\ w_arr w' = w_arr w /\ unchanged w w' [x].
Proof. exact (@copy_prop). Qed.
Theorem C58_self_copy : forall (V : Type) (c : config V), fair c ->
  forall (w : world V) (x : nat), areachable c w -> exists_arr w x ->
  exists w', astep c w (CopyTo x x) = Ok w' /\ w_arr w' = w_arr w /\ unchanged w w' [].
Proof. exact (@self_copy_prop). Qed.
Theorem C58_move : forall (V : Type) (c : config V), fair c ->
  forall (w : world V) (x y : nat) (s : list dim) (f : list Z -> V) (t : list dim) (g : list Z -> V),
  areachable c w -> x <> y -> denotes w x s f -> denotes w y t g -> within s t ->
  exists w' g', astep c w (MoveTo y x) = Ok w' /\ denotes w' x s g /\ denotes w' y t g' /\
    (forall i, in_bounds s i -> g' i = c_mv c (g i)) /\ (forall i, ~ in_bounds s i -> g' i = g i) /\
    w_arr w' = w_arr w /\ unchanged w w' [x; y].
Proof. exact (@move_prop). Qed.
Theorem C58_generate : forall (V : Type) (c : config V), fair c ->
  forall (w : world V) (x : nat) (g : nat -> V) (s : list dim) (f : list Z -> V), areachable c w -> denotes w x s f ->
  exists w' l f', astep c w (Generate x g) = Ok w' /\ enumerates (in_bounds s) l /\ denotes w' x s f' /\
    (forall k i, nth_error l k = Some i -> f' i = g k) /\ w_arr w' = w_arr w /\ unchanged w w' [x].
Proof. exact (@generate_prop). Qed.
Theorem C58_transform : forall (V : Type) (c : config V), fair c ->
  forall (w : world V) (x : nat) (fn : list Z -> V) (s : list dim) (f : list Z -> V), areachable c w -> denotes w x s f ->
  exists w', astep c w (Transform x fn) = Ok w' /\ denotes w' x s fn /\ w_arr w' = w_arr w /\ unchanged w w' [x].
Proof. exact (@transform_prop). Qed.
(** move(std::move(y), x) gives x the shape of y. *)
Theorem C58_move_all : forall (V : Type) (c : config V), fair c ->
  forall (w : world V) (x y : nat) (s : list dim) (f : list Z -> V),
  areachable c w -> x <> y -> exists_arr w x -> may_copy c w y -> denotes w y s f ->
  exists w' s', astep c w (MoveAll y x) = Ok w' /\ same_shape s' s /\ denotes w' x s' f /\ unchanged w w' [x; y].
Proof. exact (@move_all_prop). Qed.
(** x.assign(s, y[i]): with an element of another array; with one of its own elements the
    value is destroyed before it is copied. *)
Theorem C58_assign_elem : forall (V : Type) (c : config V), fair c ->
  forall (w : world V) (x : nat) (s : list dim) (y : nat) (i : list Z) (t : list dim) (g : list Z -> V),
  areachable c w -> x <> y -> exists_arr w x -> shape_arg c s -> denotes w y t g -> in_bounds t i ->
  exists w' s', astep c w (AssignElem x s y i) = Ok w' /\ same_shape s' s /\ denotes w' x s' (fun _ => g i) /\
    unchanged w w' [x].
Proof. exact (@assign_elem_prop). Qed.
Theorem C58_assign_own_elem_ub : forall (V : Type) (c : config V), fair c ->
  forall (w : world V) (x : nat) (s : list dim) (i : list Z) (t : list dim) (f : list Z -> V),
  areachable c w -> denotes w x t f -> in_bounds t i -> shape_arg c s -> (exists j, in_bounds s j) ->
  astep c w (AssignElem x s x i) = UB.
Proof. exact (@assign_own_elem_prop). Qed.
(** The operations of Container.v have the same effect after such programs. *)
Theorem C58_construct_value : forall (V : Type) (c : config V), fair c ->
  forall (w : world V) (s : list dim) (v : V) (al : nat), areachable c w -> shape_arg c s ->
  exists w' s', step c w (NewValue s v al) = Ok w' /\ same_shape s' s /\ denotes w' (w_next w) s' (fun _ => v) /\
    adds_objects w w' (w_next w) /\ unchanged w w' [w_next w].
Proof. exact (fun V c Hf => @construct_value V c Hf (areachable c) (areachable_inv c Hf)). Qed.
Theorem C58_copy_construct : forall (V : Type) (c : config V), fair c ->
  forall (w : world V) (o : op V) (y : nat) (s : list dim) (f : list Z -> V),
  areachable c w -> may_copy c w y -> denotes w y s f -> o = NewCopy y \/ (exists al, o = NewCopyAlloc y al) ->
  exists w' s', step c w o = Ok w' /\ same_shape s' s /\ denotes w' (w_next w) s' f /\ denotes w' y s f /\
    adds_objects w w' (w_next w) /\ unchanged w w' [w_next w].
Proof. exact (fun V c Hf => @copy_construct_world V c Hf (areachable c) (areachable_inv c Hf)). Qed.
(** A program with every statement, its state after some of them, and its end *)
Example C58_example :
  fair debug2 /\ alegal debug2 empty_world (aprog ++ acleanup) /\
  (let w := astate debug2 (firstn 5 aprog) in
   contents w 0%nat = map Some [19; 29; 39; 20; 30; 40] /\ contents w 1%nat = map Some [29; 39; 30; 40]) /\
  (let w := astate debug2 (firstn 9 aprog) in
   contents w 0%nat = map Some [30; 30; 30; 30; 30; 30] /\ contents w 1%nat = map Some [102; 104; 103; 105] /\
   contents w 2%nat = map Some [100; -1; -1; 101; -1; -1]) /\
  (let w := astate debug2 aprog in
   dims w 3%nat = dims w 2%nat /\ contents w 0%nat = map Some [101; 101; 101; 101] /\
   live_count w = 20%nat /\ block_count w = 4%nat) /\
  (let w := astate debug2 (aprog ++ acleanup) in live_count w = 0%nat /\ block_count w = 0%nat) /\
  astep debug2 (astate debug2 aprog) (AssignElem 0%nat shapeA 0%nat [3; 0]) = UB.
Proof.
  split; [apply fair2; left; reflexivity|]. split; [apply alegalb_ok; vm_compute; reflexivity|].
  vm_compute. auto 20.
Qed.
Example C58_example_auto :
  fair auto2 /\ areachable auto2 (astate auto2 aprog) /\ exists_arr (astate auto2 aprog) 0%nat /\
  contents (astate auto2 aprog) 3%nat = map Some [100; -1; -1; 101; -1; -1].
Proof.
  split; [apply fair2; right; auto|].
  split; [apply astate_reachable; [apply fair2; right; auto|vm_compute; reflexivity]|].
  split; [apply existsb_arr_ok; vm_compute; reflexivity|]. vm_compute. auto.
Qed.
Print Assumptions C58_programs_run.
Print Assumptions C58_step.
Print Assumptions C58_live_objects.
Print Assumptions C58_blocks_owned.
Print Assumptions C58_no_leak.
Print Assumptions C58_fill.
Print Assumptions C58_fill_elem.
Print Assumptions C58_copy.
Print Assumptions C58_self_copy.
Print Assumptions C58_move.
Print Assumptions C58_generate.
Print Assumptions C58_transform.
Print Assumptions C58_move_all.
Print Assumptions C58_assign_elem.
Print Assumptions C58_assign_own_elem_ub.
Print Assumptions C58_construct_value.
Print Assumptions C58_copy_construct.
