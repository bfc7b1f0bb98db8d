(** Elements as opaque values: C61; uninitialized_allocator: C62. *)
From Coq Require Import ZArith List Bool.
From Verif Require Import Base Interval Shape Memory Ref Container Program Uninit Spec SpecMem SpecContainer SpecProgram
  SpecParam ContainerCases ProgramFacts ProgramCases UninitFacts UninitCases.
Import ListNotations.
Open Scope Z_scope.

(** ** C61: array programs do not look at the elements *)

(** Two programs that differ in the values of elements only, even in their type, have the same
    outcome: the same arrays in the same memory, with corresponding elements; or both fail the same
    way. *)
Theorem C61_programs : forall (V W : Type) (R : V -> W -> Prop) (c : config V) (c' : config W)
  (ops : list (act V)) (ops' : list (act W)) (w : world V) (w' : world W),
  rel_config R c c' -> Forall2 (rel_act R) ops ops' -> rel_world R w w' ->
  rel_out (rel_world R) (arun c ops w) (arun c' ops' w').
Proof. exact (@param_programs). Qed.
Theorem C61_elements : forall (V W : Type) (R : V -> W -> Prop) (c : config V) (c' : config W)
  (ops : list (act V)) (ops' : list (act W)) (w : world V) (w' : world W)
  (x : nat) (s : list dim) (g : list Z -> V) (g' : list Z -> W),
  rel_config R c c' -> Forall2 (rel_act R) ops ops' ->
  arun c ops empty_world = Ok w -> arun c' ops' empty_world = Ok w' -> denotes w x s g -> denotes w' x s g' ->
  forall i, in_bounds s i -> R (g i) (g' i).
Proof. exact (@param_elements). Qed.
(** No values are invented: what holds for the values in the program, for a default constructed
    element and is kept by moving holds for every element. *)
Theorem C61_values : forall (V : Type) (P : V -> Prop) (c : config V) (ops : list (act V)) (w : world V)
  (x : nat) (s : list dim) (g : list Z -> V),
  P (c_dv c) -> (forall v, P v -> P (c_mv c v)) -> Forall (values_in P) ops ->
  arun c ops empty_world = Ok w -> denotes w x s g -> forall i, in_bounds s i -> P (g i).
Proof. exact (@param_values). Qed.
Example C61_example :
  rel_config (fun v v' => v' = 1000 - v) debug2 mirror2 /\
  Forall2 (rel_act (fun v v' => v' = 1000 - v)) aprog (map mirror aprog) /\
  (let w := result (arun debug2 aprog empty_world) in
   elements w 0%nat = map Some [101; 101; 101; 101] /\ elements w 3%nat = map Some [100; -1; -1; 101; -1; -1]) /\
  (let w := result (arun mirror2 (map mirror aprog) empty_world) in
   elements w 0%nat = map Some [899; 899; 899; 899] /\ elements w 3%nat = map Some [900; 1001; 1001; 899; 1001; 1001]).
Proof. split; [exact mirror_config|]. split; [exact mirror_rels|]. vm_compute. auto. Qed.
Print Assumptions C61_programs.
Print Assumptions C61_elements.
Print Assumptions C61_values.

(** ** C62: uninitialized_allocator *)

(** For a trivial type of elements: a legal program does not fail with uninitialized_allocator, and
    every element has the value it has with the ordinary allocator, or is indeterminate. *)
Theorem C62_programs : forall (V : Type) (c : config V),
  (forall a, c_select c a = a) -> (forall v, c_mv c v = v) ->
  forall ops : list (act V), fair c -> alegal c empty_world ops ->
  exists w w', arun (uninitialized c) (map lift_act ops) empty_world = Ok w /\ arun c ops empty_world = Ok w' /\
    areachable (uninitialized c) w /\ rel_world agrees w w'.
Proof. exact (@uninit_reachable). Qed.
(** Elements that are not indeterminate do not depend on the value [c_dv c] that default
    construction gives. *)
Theorem C62_elements : forall (V : Type) (c : config V),
  (forall a, c_select c a = a) -> (forall v, c_mv c v = v) ->
  forall (ops : list (act V)) (w : world (option V)) (w' : world V) (x : nat) (s : list dim)
    (g : list Z -> option V) (g' : list Z -> V),
  arun (uninitialized c) (map lift_act ops) empty_world = Ok w -> arun c ops empty_world = Ok w' ->
  denotes w x s g -> denotes w' x s g' -> forall i v, in_bounds s i -> g i = Some v -> g' i = v.
Proof. exact (@uninit_elements). Qed.
(** Which elements are indeterminate *)
Theorem C62_new : forall (V : Type) (c : config V), fair c ->
  forall (w : world (option V)) (s : list dim) (al : nat), areachable (uninitialized c) w -> shape_arg c s ->
  exists w' s', step (uninitialized c) w (New s al) = Ok w' /\ same_shape s' s /\
    denotes w' (w_next w) s' (fun _ => None) /\ unchanged w w' [w_next w].
Proof. exact (@uninit_new). Qed.
Theorem C62_make_copy : forall (V : Type) (c : config V), fair c ->
  forall (w : world (option V)) (y : nat) (t : list dim) (al : nat) (s : list dim) (f : list Z -> V),
  areachable (uninitialized c) w -> shape_arg c t -> denotes w y s (fun i => Some (f i)) -> within t s ->
  exists w' t', step (uninitialized c) w (MakeCopy y t al) = Ok w' /\ same_shape t' t /\
    denotes w' (w_next w) t' (fun i => Some (f i)) /\ unchanged w w' [w_next w].
Proof. exact (@uninit_make_copy). Qed.
Theorem C62_reshape : forall (V : Type) (c : config V), fair c ->
  forall (w : world (option V)) (x : nat) (t s : list dim) (f : list Z -> option V),
  areachable (uninitialized c) w -> shape_arg c t -> denotes w x s f -> Forall2 meets t s ->
  exists w' t' g, step (uninitialized c) w (Reshape x t) = Ok w' /\ same_shape t' t /\ denotes w' x t' g /\
    (forall i, in_bounds s i -> in_bounds t i -> g i = f i) /\
    (forall i, ~ in_bounds s i -> in_bounds t i -> g i = None) /\ unchanged w w' [x].
Proof. exact (@uninit_reshape). Qed.
Theorem C62_fill : forall (V : Type) (c : config V), fair c ->
  forall (w : world (option V)) (x : nat) (v : V) (s : list dim) (f : list Z -> option V),
  areachable (uninitialized c) w -> denotes w x s f ->
  exists w', astep (uninitialized c) w (lift_act (Fill x v)) = Ok w' /\ denotes w' x s (fun _ => Some v) /\
    unchanged w w' [x].
Proof. exact (@uninit_fill). Qed.
Theorem C62_transform : forall (V : Type) (c : config V), fair c ->
  forall (w : world (option V)) (x : nat) (fn : list Z -> V) (s : list dim) (f : list Z -> option V),
  areachable (uninitialized c) w -> denotes w x s f ->
  exists w', astep (uninitialized c) w (lift_act (Transform x fn)) = Ok w' /\ denotes w' x s (fun i => Some (fn i)) /\
    unchanged w w' [x].
Proof. exact (@uninit_transform). Qed.
(** A type of elements whose objects begin to live in their constructor: an array(shape) can neither
    be destroyed nor written to. *)
Theorem C62_nontrivial_ub : forall (V : Type) (c : config V), fair c ->
  forall (w : world V) (s : list dim) (al : nat), reachable c w -> shape_arg c s -> (exists i, in_bounds s i) ->
  exists w', do_new_skip c w s al = Ok w' /\ step c w' (Delete (w_next w)) = UB /\
    forall i v, in_bounds s i -> step c w' (Write (w_next w) i v) = UB.
Proof. exact (@skip_world). Qed.
Example C62_example :
  (forall dv, fair (plain2 dv)) /\ alegal (plain2 5) empty_world uprog /\
  (let w := result (arun (uninitialized (plain2 5)) (map lift_act uprog) empty_world) in
   elements w 1%nat = map Some [None; None; None; None; Some 7; None] /\
   elements w 2%nat = map Some [None; Some 2; Some 2; None; Some 2; Some 2] /\
   elements w 3%nat = map Some [Some 2; Some 2; Some 2; Some 2]) /\
  (let w := result (arun (plain2 5) uprog empty_world) in
   elements w 1%nat = map Some [5; 5; 5; 5; 7; 5] /\ elements w 2%nat = map Some [5; 2; 2; 5; 2; 2]) /\
  match do_new_skip debug2 (state debug2 pre) shapeA 0 with
  | Ok w' => step debug2 w' (Delete 2%nat) = UB /\ step debug2 w' (Write 2%nat [3; 0] 1) = UB
  | _ => False
  end.
Proof. split; [exact plain_fair|]. split; [apply alegalb_ok; vm_compute; reflexivity|]. vm_compute. auto 10. Qed.
Print Assumptions C62_programs.
Print Assumptions C62_elements.
Print Assumptions C62_new.
Print Assumptions C62_make_copy.
Print Assumptions C62_reshape.
Print Assumptions C62_fill.
Print Assumptions C62_transform.
Print Assumptions C62_nontrivial_ub.
