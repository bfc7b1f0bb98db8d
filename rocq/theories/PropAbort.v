(** Algorithms and programs that an exception stops.  [tear old v] is what is left of an element
    [old] when assigning [v] to it throws, [spoil v] what is left of an element [v] when moving it
    throws; both are arbitrary. *)
From Coq Require Import ZArith List Bool Sorted Lia.
From Verif Require Import Base Interval Shape Traverse Memory Ref Container Program Ein Abort Spec SpecMem SpecAlias SpecContainer
  SpecProgram SpecEin SpecAbort ShapeFacts ContainerProps ContainerCases ProgramCases EinCases AbortFacts AbortWorld AbortCases.
Import ListNotations.
Open Scope Z_scope.

(** ** C66: exceptions *)
Theorem C66_fill : forall (V : Type) (tear : V -> V -> V) (nd : bool) (h : heap V) (dst : aref) (v : V),
  extents_ge 0 (r_shape dst) -> injective_layout (r_shape dst) ->
  (forall i, in_bounds (r_shape dst) i -> alive h (elem (r_base dst) (r_shape dst) i)) ->
  exists l, memory_order (r_shape dst) l /\
    forall k, exists r, fill_t tear nd k h dst v = Ok r /\
      stops (r_base dst) (r_shape dst) l k (fun _ => v) tear h r.
Proof. exact @fill_stops. Qed.
Theorem C66_copy : forall (V : Type) (tear : V -> V -> V) (nd : bool) (h : heap V) (src dst : aref) (g : list Z -> V),
  length (r_shape src) = length (r_shape dst) -> extents_ge 0 (r_shape dst) -> within (r_shape dst) (r_shape src) ->
  injective_layout (r_shape dst) ->
  (forall i, in_bounds (r_shape dst) i -> holds h (elem (r_base src) (r_shape src) i) (g i)) ->
  (forall i, in_bounds (r_shape dst) i -> alive h (elem (r_base dst) (r_shape dst) i)) ->
  (forall i j, in_bounds (r_shape dst) i -> in_bounds (r_shape dst) j ->
     elem (r_base src) (r_shape src) i <> elem (r_base dst) (r_shape dst) j) ->
  exists l, memory_order (r_shape dst) l /\
    forall k, exists r, copy_t tear nd k h src dst = Ok r /\
      stops (r_base dst) (r_shape dst) l k g tear h r.
Proof. exact @copy_stops. Qed.
Theorem C66_move : forall (V : Type) (tear : V -> V -> V) (spoil : V -> V) (nd : bool) (mv : V -> V) (h : heap V) (src dst : aref)
  (g : list Z -> V),
  length (r_shape src) = length (r_shape dst) -> extents_ge 0 (r_shape dst) -> within (r_shape dst) (r_shape src) ->
  injective_layout (r_shape dst) -> injective_layout (r_shape src) ->
  (forall i, in_bounds (r_shape dst) i -> holds h (elem (r_base src) (r_shape src) i) (g i)) ->
  (forall i, in_bounds (r_shape dst) i -> alive h (elem (r_base dst) (r_shape dst) i)) ->
  (forall i j, in_bounds (r_shape dst) i -> in_bounds (r_shape dst) j ->
     elem (r_base src) (r_shape src) i <> elem (r_base dst) (r_shape dst) j) ->
  exists l, memory_order (r_shape dst) l /\
    forall k, exists r, move_t tear spoil nd mv k h src dst = Ok r /\
      stops2 (r_base dst) (r_shape dst) (r_base src) (r_shape src) l k g tear mv spoil h r.
Proof. exact @move_stops. Qed.
(** The generator may throw too ([InValue]). *)
Theorem C66_generate : forall (V : Type) (tear : V -> V -> V) (nd : bool) (f : fault) (h : heap V) (dst : aref) (g : nat -> V),
  extents_ge 0 (r_shape dst) -> injective_layout (r_shape dst) ->
  (forall i, in_bounds (r_shape dst) i -> alive h (elem (r_base dst) (r_shape dst) i)) ->
  exists l val, memory_order (r_shape dst) l /\ (forall n i, nth_error l n = Some i -> val i = g n) /\
    forall k, exists r, generate_t tear nd f k h dst g = Ok r /\
      stops_calls (r_base dst) (r_shape dst) l k val tear f h r.
Proof. exact @generate_stops. Qed.
Theorem C66_transform_index : forall (V : Type) (tear : V -> V -> V) (h : heap V) (dst : aref) (fn : index -> V) (f : fault),
  extents_ge 0 (r_shape dst) -> injective_layout (r_shape dst) ->
  (forall i, in_bounds (r_shape dst) i -> alive h (elem (r_base dst) (r_shape dst) i)) ->
  exists l, enumerates (in_bounds (r_shape dst)) l /\ StronglySorted colex_lt l /\
    forall k, exists r, transform_index_t tear f k h dst fn = Ok r /\
      stops (r_base dst) (r_shape dst) l k fn (left_of tear f) h r.
Proof. exact @transform_stops. Qed.
(** Reductions: an operand or the assignment throws. *)
Theorem C66_reduction : forall (V : Type) (tear : V -> V -> V) (nd : bool) (f : fault) (op : V -> V -> V) (h : heap V) (r : aref)
  (out : list nat) (e : expr V) (B : nat -> span) (n : nat),
  ranks_match ((r, out) :: operands e) -> loops n (out ++ labels e) -> ranges r out (operands e) B ->
  operands_alive h ((r, out) :: operands e) -> operands_apart r (operands e) ->
  exists l, enumerates (loop_index B n) l /\ StronglySorted colex_lt l /\
    forall k, exists res, ein_reduce_t tear nd f k op h r out e = Ok res /\
      stops_reduction r out e op l k (left_of tear f) h res.
Proof. exact @ein_stops. Qed.

Definition ex_heap : heap Z := mkH 2 (fun k => match k with 1%nat => Some (mkB (Memory.Base 0) 12 (fun x => Live x)) | _ => None end).
Definition heap_of (r : outcome (ended (heap Z))) : outcome (heap Z) :=
  match r with Ok (Returned h) | Ok (Raised h) => Ok h | UB => UB | AssertFail => AssertFail end.
Definition dump (r : outcome (ended (heap Z))) : list (option (cell Z)) :=
  match heap_of r with Ok h => map (fun x => peek h (1%nat, x)) (zseq 0 12) | _ => [] end.
Definition live (l : list Z) : list (option (cell Z)) := map (fun x => Some (Live x)) l.
(** Cells 0 to 5 hold the columns [0; 1; 2] and [3; 4; 5]; the destination is in the cells 6 to 11,
    in rows.  The elements are assigned in the order of the destination's addresses. *)
Definition from : aref := mkR (1%nat, 0) [mkD 0 3 1; mkD 0 2 3].
Definition to : aref := mkR (1%nat, 6) [mkD 0 3 2; mkD 0 2 1].
Example C66_example_views :
  length (r_shape from) = length (r_shape to) /\ extents_ge 0 (r_shape to) /\ within (r_shape to) (r_shape from) /\
  injective_layout (r_shape to) /\ injective_layout (r_shape from) /\ nested (r_shape to) /\ ascending (r_shape to) /\
  (forall i, in_bounds (r_shape to) i -> holds ex_heap (elem (r_base from) (r_shape from) i) (offset (r_shape from) i)) /\
  (forall i, in_bounds (r_shape to) i -> alive ex_heap (elem (r_base to) (r_shape to) i)) /\
  (forall i j, in_bounds (r_shape to) i -> in_bounds (r_shape to) j ->
     elem (r_base from) (r_shape from) i <> elem (r_base to) (r_shape to) j).
Proof.
  split; [reflexivity|]. split; [repeat constructor; simpl; lia|].
  split; [intros i Hi; apply box_In in Hi; cbn in Hi; apply box_In; cbn; exact Hi|].
  split; [apply (properb_ok (r_shape to)); reflexivity|]. split; [apply (properb_ok (r_shape from)); reflexivity|].
  split; [split; repeat constructor; cbn [dext dstr]; try lia; unfold nested2; cbn [dext dstr]; intros _ _; lia|].
  split; [repeat constructor; cbn [dext dstr]; lia|].
  split; [intros i Hi; apply box_In in Hi; vm_compute in Hi; intuition (subst; reflexivity)|].
  split; [intros i Hi; exists (6 + offset (r_shape to) i); apply box_In in Hi; vm_compute in Hi; intuition (subst; reflexivity)|].
  intros i j Hi Hj. apply box_In in Hi. apply box_In in Hj. vm_compute in Hi, Hj.
  repeat (destruct Hi as [<-|Hi]; [repeat (destruct Hj as [<-|Hj]; [discriminate|]); destruct Hj|]). destruct Hi.
Qed.
Example C66_example_algorithms :
  dump (copy_t ex_tear false 3 ex_heap from to) = live [0; 1; 2; 3; 4; 5; 0; 3; 1; -7; 10; 11] /\
  raised (copy_t ex_tear false 3 ex_heap from to) = true /\ raised (copy_t ex_tear false 6 ex_heap from to) = false /\
  dump (move_t ex_tear ex_spoil false (fun v => 50 + v) 3 ex_heap from to) = live [50; 51; 2; 53; -8; 5; 0; 3; 1; -7; 10; 11] /\
  dump (fill_t ex_tear false 1 ex_heap to 99) = live [0; 1; 2; 3; 4; 5; 99; -7; 8; 9; 10; 11] /\
  (exists h, generate_t ex_tear false InValue 2 ex_heap to (fun n => 60 + Z.of_nat n) = Ok (Raised (h, 2%nat)) /\
     dump (Ok (Raised h)) = live [0; 1; 2; 3; 4; 5; 60; 61; 8; 9; 10; 11]) /\
  (exists h, generate_t ex_tear false InAssign 2 ex_heap to (fun n => 60 + Z.of_nat n) = Ok (Raised (h, 3%nat)) /\
     dump (Ok (Raised h)) = live [0; 1; 2; 3; 4; 5; 60; 61; -7; 9; 10; 11]) /\
  dump (transform_index_t ex_tear InAssign 1 ex_heap to (fun i => match i with [x; y] => 70 + 10 * x + y | _ => 0 end)) =
    live [0; 1; 2; 3; 4; 5; 70; 7; -7; 9; 10; 11].
Proof. repeat split; try (vm_compute; reflexivity); eexists; split; vm_compute; reflexivity. Qed.
(** A product of matrices, stopped in the middle of the sum of its second element *)
Example C66_example_reduction :
  ranks_match ((mR, [2; 1]%nat) :: operands mul_expr) /\ loops 3 ([2; 1]%nat ++ labels mul_expr) /\
  ranges mR [2; 1]%nat (operands mul_expr) mul_span /\
  operands_alive ex3 ((mR, [2; 1]%nat) :: operands mul_expr) /\ operands_apart mR (operands mul_expr) /\
  dump3 (heap_of (ein_reduce_t ex_tear false InValue 14 Z.add ex3 mR [2; 1]%nat mul_expr)) 3 =
    live [114; 214; 332; 400; 550; 600; 768; 800] /\
  dump3 (heap_of (ein_reduce_t ex_tear false InAssign 14 Z.add ex3 mR [2; 1]%nat mul_expr)) 3 =
    live [114; -7; 332; 400; 550; 600; 768; 800].
Proof.
  split; [exact mul_ranks|]. split; [exact mul_loops|]. split; [exact mul_ranges|]. split; [exact mul_alive|]. split; [exact mul_apart|].
  vm_compute. auto.
Qed.

(** ** Programs in which exceptions are caught after every statement *)
Theorem C66_programs_run : forall (V : Type) (c : config V), fair c -> forall (tear : V -> V -> V) (spoil : V -> V)
  (ops : list (act V * fault * nat)), tlegal tear spoil c empty_world ops -> exists w, trun tear spoil c ops empty_world = Ok w.
Proof. exact @tprograms. Qed.
(** A statement that returns does what it does in Program.v; one that throws leaves the same
    arrays with the same shapes and memory, and only elements of its targets may have changed. *)
Theorem C66_step : forall (V : Type) (c : config V), fair c -> forall (tear : V -> V -> V) (spoil : V -> V)
  (w : world V) (o : act V) (f : fault) (k : nat), treachable tear spoil c w -> legal_act c w o ->
  exists e, tstep tear spoil c w o f k = Ok e /\
    match e with
    | Returned w' => treachable tear spoil c w' /\ astep c w o = Ok w'
    | Raised w' => treachable tear spoil c w' /\ (forall z, w_arr w' z = w_arr w z) /\ unchanged w w' (targets o)
    end.
Proof. exact @tstep_prop. Qed.
Theorem C66_live_objects : forall (V : Type) (c : config V), fair c -> forall (tear : V -> V -> V) (spoil : V -> V)
  (w : world V), treachable tear spoil c w ->
  (forall p, alive (w_heap w) p <-> exists x, elem_of w x p) /\
  (forall x y p, elem_of w x p -> elem_of w y p -> x = y).
Proof. exact (fun V c Hf tear spoil => @live_objects V c (treachable tear spoil c) (treachable_inv c Hf tear spoil)). Qed.
Theorem C66_blocks_owned : forall (V : Type) (c : config V), fair c -> forall (tear : V -> V -> V) (spoil : V -> V)
  (w : world V) (k : nat) (b : block V), treachable tear spoil c w -> h_blk (w_heap w) k = Some b ->
  exists x a, w_arr w x = Some a /\ a_buf a = (k, 0) /\ b_size b = a_bufsize a /\
    b_owner b = (if a_busy a then Inline x else Memory.Base (a_al a)).
Proof. exact (fun V c Hf tear spoil => @blocks_owned V c (treachable tear spoil c) (treachable_inv c Hf tear spoil)). Qed.
Theorem C66_no_leak : forall (V : Type) (c : config V), fair c -> forall (tear : V -> V -> V) (spoil : V -> V)
  (w : world V), treachable tear spoil c w -> (forall x, w_arr w x = None) ->
  (forall k, h_blk (w_heap w) k = None) /\ forall p, ~ alive (w_heap w) p.
Proof. exact (fun V c Hf tear spoil => @no_leak V c (treachable tear spoil c) (treachable_inv c Hf tear spoil)). Qed.
(** What [reshape] and [make_move] that throw leave of the array they move elements from *)
Theorem C66_reshape : forall (V : Type) (c : config V), fair c -> forall (tear : V -> V -> V) (spoil : V -> V)
  (w : world V) (x : nat) (s t : list dim) (f : list Z -> V) (fl : fault) (k : nat) (w' : world V),
  treachable tear spoil c w -> legal_act c w (Run (Reshape x s)) -> denotes w x t f ->
  tstep tear spoil c w (Run (Reshape x s)) fl k = Ok (Raised w') ->
  exists l1 i l2 g, enumerates (fun j => in_bounds t j /\ in_bounds s j) (l1 ++ i :: l2) /\ length l1 = k /\
    denotes w' x t g /\ remains (c_mv c) spoil f g l1 i.
Proof. exact @reshape_raised. Qed.
Theorem C66_make_move : forall (V : Type) (c : config V), fair c -> forall (tear : V -> V -> V) (spoil : V -> V)
  (w : world V) (y : nat) (s : list dim) (al : nat) (t : list dim) (f : list Z -> V) (fl : fault) (k : nat) (w' : world V),
  treachable tear spoil c w -> legal_act c w (Run (MakeMove y s al)) -> denotes w y t f ->
  tstep tear spoil c w (Run (MakeMove y s al)) fl k = Ok (Raised w') ->
  exists l1 i l2 g, enumerates (in_bounds s) (l1 ++ i :: l2) /\ length l1 = k /\
    denotes w' y t g /\ remains (c_mv c) spoil f g l1 i.
Proof. exact @make_move_raised. Qed.
(** So [reshape] is not all or nothing. *)
Theorem C66_reshape_strong_refuted : exists (c : config Z) (w w' : world Z) (x : nat) (s : list dim) (k : nat),
  fair c /\ treachable ex_tear ex_spoil c w /\ legal_act c w (Run (Reshape x s)) /\
  tstep ex_tear ex_spoil c w (Run (Reshape x s)) InAssign k = Ok (Raised w') /\ contents w' x <> contents w x.
Proof. exact reshape_not_strong. Qed.

Example C66_example_program :
  fair debug2 /\ tlegal ex_tear ex_spoil debug2 empty_world (tprog ++ tcleanup) /\
  (let w := tstate debug2 (firstn 3 tprog) in
   contents w 0%nat = map Some [5; 5; 39; 20; 30; 40] /\ live_count w = 6%nat /\ block_count w = 1%nat) /\
  (let w := tstate debug2 (firstn 7 tprog) in
   contents w 0%nat = map Some [5; -1; -8; 20; 30; 40] /\ contents w 2%nat = map Some [100; -7; 30; 40] /\
   live_count w = 10%nat /\ block_count w = 2%nat) /\
  (let w := tstate debug2 tprog in
   contents w 0%nat = map Some [-1; -1; -8; 20; 30; 40] /\ contents w 2%nat = map Some [-1; -7; -7; 40] /\
   dims w 0%nat = dims (tstate debug2 (firstn 1 tprog)) 0%nat /\ live_count w = 10%nat /\ block_count w = 2%nat) /\
  (let w := tstate debug2 (tprog ++ tcleanup) in live_count w = 0%nat /\ block_count w = 0%nat).
Proof.
  split; [apply fair2; left; reflexivity|]. split; [apply tlegalb_ok; vm_compute; reflexivity|].
  vm_compute. auto 20.
Qed.
Print Assumptions C66_fill.
Print Assumptions C66_copy.
Print Assumptions C66_move.
Print Assumptions C66_generate.
Print Assumptions C66_transform_index.
Print Assumptions C66_reduction.
Print Assumptions C66_programs_run.
Print Assumptions C66_step.
Print Assumptions C66_live_objects.
Print Assumptions C66_blocks_owned.
Print Assumptions C66_no_leak.
Print Assumptions C66_reshape.
Print Assumptions C66_make_move.
Print Assumptions C66_reshape_strong_refuted.
