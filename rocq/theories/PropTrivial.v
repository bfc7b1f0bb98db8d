(** Programs over arrays of a trivial type, with [set_shape] and [move_reinterpret_shape]. *)
From Coq Require Import ZArith List Bool.
From Verif Require Import Base Interval Shape Memory Ref Container Program Trivial Spec SpecMem SpecContainer SpecProgram SpecTrivial
  ContainerCases TrivialProps TrivialCases.
Import ListNotations.
Open Scope Z_scope.

(** ** C75 *)
(** Programs run to their end, unless the assertion of a [set_shape] or a [move_reinterpret_shape] fails. *)
Theorem C75_programs : forall (V : Type) (skip : bool) (c : config V), plain_fair c ->
  forall ops : list (tact V), tlegal skip c empty_world ops ->
  (exists w, trun skip c ops empty_world = Ok w) \/ (c_ndebug c = false /\ trun skip c ops empty_world = AssertFail).
Proof. exact (@t_programs). Qed.
Theorem C75_step : forall (V : Type) (skip : bool) (c : config V), plain_fair c ->
  forall (w : world V) (o : tact V), treachable skip c w -> legal_tact c w o ->
  (exists w', tstep skip c w o = Ok w' /\ treachable skip c w') \/
  (c_ndebug c = false /\ tstep skip c w o = AssertFail /\ refuses w o).
Proof. exact (@t_progress). Qed.
(** Memory *)
Theorem C75_blocks_owned : forall (V : Type) (skip : bool) (c : config V), plain_fair c ->
  forall (w : world V) (k : nat) (b : block V), treachable skip c w -> h_blk (w_heap w) k = Some b ->
  exists x a, w_arr w x = Some a /\ a_buf a = (k, 0) /\ b_size b = a_bufsize a /\
    b_owner b = (if a_busy a then Inline x else Memory.Base (a_al a)) /\
    forall y a', w_arr w y = Some a' -> fst (a_buf a') = k -> y = x.
Proof. exact (@t_blocks_owned). Qed.
Theorem C75_elements_in_memory : forall (V : Type) (skip : bool) (c : config V), plain_fair c ->
  forall (w : world V) (x : nat) (a : arr) (i : list Z), treachable skip c w -> w_arr w x = Some a -> in_bounds (a_shape a) i ->
  in_memory (w_heap w) a (elem (a_base a) (a_shape a) i).
Proof. exact (@t_elements). Qed.
Theorem C75_no_leak : forall (V : Type) (skip : bool) (c : config V), plain_fair c ->
  forall w : world V, treachable skip c w -> (forall x, w_arr w x = None) -> forall k, h_blk (w_heap w) k = None.
Proof. exact (@t_no_leak). Qed.
(** What the statements do *)
Theorem C75_frame : forall (V : Type) (skip : bool) (c : config V), plain_fair c ->
  forall (w : world V) (o : tact V) (w' : world V), treachable skip c w -> legal_tact c w o -> tstep skip c w o = Ok w' ->
  kept w w' (changes (w_next w) o).
Proof. exact (@t_frame). Qed.
Theorem C75_transfers : forall (V : Type) (skip : bool) (c : config V), plain_fair c ->
  forall (w : world V) (o : act V) (w' : world V) (x y : nat) (s : list dim) (f : list Z -> cell V),
  treachable skip c w -> plain_act c w o -> tstep skip c w (Plain o) = Ok w' ->
  transfers (w_next w) o x y -> contains w y s f -> exists s', same_shape s' s /\ contains w' x s' f.
Proof. exact (@t_transfers). Qed.
Theorem C75_copies_elements : forall (V : Type) (skip : bool) (c : config V), plain_fair c ->
  forall (w : world V) (o : act V) (w' : world V) (x : nat) (s : list dim) (y : nat) (t : list dim) (f : list Z -> cell V),
  treachable skip c w -> plain_act c w o -> tstep skip c w (Plain o) = Ok w' ->
  copies_elements (w_next w) w o x s y -> injective_layout s -> contains w y t f -> contains w' x s f.
Proof. exact (@t_copies_elements). Qed.
Theorem C75_sets_all : forall (V : Type) (skip : bool) (c : config V), plain_fair c ->
  forall (w : world V) (o : act V) (w' : world V) (x : nat) (s : list dim) (v : cell V),
  treachable skip c w -> plain_act c w o -> tstep skip c w (Plain o) = Ok w' ->
  sets_all skip (c_dv c) (w_next w) w o x s v -> contains w' x s (fun _ => v).
Proof. exact (@t_sets_all). Qed.
Theorem C75_write : forall (V : Type) (skip : bool) (c : config V), plain_fair c ->
  forall (w : world V) (x : nat) (i : list Z) (v : V) (a : arr) (w' : world V),
  treachable skip c w -> w_arr w x = Some a -> in_bounds (a_shape a) i ->
  tstep skip c w (Plain (Run (Write x i v))) = Ok w' ->
  peek (w_heap w') (elem (a_base a) (a_shape a) i) = Some (Live v) /\ w_arr w' = w_arr w /\
  forall p, p <> elem (a_base a) (a_shape a) i -> peek (w_heap w') p = peek (w_heap w) p.
Proof. exact (@t_write). Qed.
Theorem C75_transform : forall (V : Type) (skip : bool) (c : config V), plain_fair c ->
  forall (w : world V) (x : nat) (fn : list Z -> V) (a : arr) (w' : world V),
  treachable skip c w -> w_arr w x = Some a -> injective_layout (a_shape a) ->
  tstep skip c w (Plain (Transform x fn)) = Ok w' -> contains w' x (a_shape a) (fun i => Live (fn i)).
Proof. exact (@t_transform). Qed.
(** The value written last to a place stays. *)
Theorem C75_generate : forall (V : Type) (skip : bool) (c : config V), plain_fair c ->
  forall (w : world V) (x : nat) (g : nat -> V) (a : arr) (w' : world V),
  treachable skip c w -> w_arr w x = Some a -> tstep skip c w (Plain (Generate x g)) = Ok w' ->
  exists l f, enumerates (in_bounds (a_shape a)) l /\ contains w' x (a_shape a) f /\
    forall n i, nth_error l n = Some i ->
      (forall m j, (n < m)%nat -> nth_error l m = Some j -> offset (a_shape a) j <> offset (a_shape a) i) -> f i = Live (g n).
Proof. exact (@t_generate_prop). Qed.
Theorem C75_clear : forall (V : Type) (skip : bool) (c : config V), plain_fair c ->
  forall (w : world V) (x : nat) (w' : world V), treachable skip c w -> exists_arr w x ->
  tstep skip c w (Plain (Run (Clear x))) = Ok w' ->
  exists a', w_arr w' x = Some a' /\ same_shape (a_shape a') (c_shape0 c) /\ a_buf a' = null /\ a_base a' = null.
Proof. exact (@t_clear_prop). Qed.
Theorem C75_delete : forall (V : Type) (skip : bool) (c : config V), plain_fair c ->
  forall (w : world V) (x : nat) (w' : world V), treachable skip c w -> exists_arr w x ->
  tstep skip c w (Plain (Run (Delete x))) = Ok w' -> w_arr w' x = None.
Proof. exact (@t_delete_prop). Qed.
Theorem C75_reshape : forall (V : Type) (skip : bool) (c : config V), plain_fair c ->
  forall (w : world V) (x : nat) (s : list dim) (a : arr) (f : list Z -> cell V) (w' : world V),
  treachable skip c w -> w_arr w x = Some a -> plain_act c w (Run (Reshape x s)) ->
  injective_layout (resolve s) -> contains w x (a_shape a) f -> tstep skip c w (Plain (Run (Reshape x s))) = Ok w' ->
  exists g, contains w' x (resolve s) g /\
    (forall i, in_bounds (a_shape a) i -> in_bounds s i -> g i = f i) /\
    (skip = false -> forall i, ~ in_bounds (a_shape a) i -> in_bounds s i -> g i = Live (c_dv c)).
Proof. exact (@t_reshape). Qed.
(** [set_shape] and [move_reinterpret_shape]: the values stay where they are. *)
Theorem C75_set_shape : forall (V : Type) (skip : bool) (c : config V), plain_fair c ->
  forall (w : world V) (x : nat) (s : list dim) (off : Z) (t : list dim) (f : list Z -> cell V) (w' : world V),
  treachable skip c w -> legal_tact c w (SetShape x s off) -> tstep skip c w (SetShape x s off) = Ok w' -> contains w x t f ->
  w_heap w' = w_heap w /\ exists g, contains w' x s g /\
    forall i j, in_bounds s i -> in_bounds t j -> offset t j = off + offset s i -> g i = f j.
Proof. exact (@t_set_shape). Qed.
Theorem C75_set_shape_back : forall (V : Type) (skip : bool) (c : config V), plain_fair c ->
  forall (w : world V) (x : nat) (s : list dim) (off : Z) (t : list dim) (f : list Z -> cell V) (w1 w2 : world V),
  treachable skip c w -> legal_tact c w (SetShape x s off) -> contains w x t f ->
  tstep skip c w (SetShape x s off) = Ok w1 -> tstep skip c w1 (SetShape x t (- off)) = Ok w2 ->
  w_heap w2 = w_heap w /\ (forall z, w_arr w2 z = w_arr w z).
Proof. exact (@t_set_shape_back). Qed.
Theorem C75_move_shape : forall (V : Type) (skip : bool) (c : config V), plain_fair c ->
  forall (w : world V) (y : nat) (s : list dim) (off : Z) (t : list dim) (f : list Z -> cell V) (w' : world V),
  treachable skip c w -> legal_tact c w (MoveShape y s off) -> tstep skip c w (MoveShape y s off) = Ok w' -> contains w y t f ->
  (exists b', w_arr w' y = Some b' /\ a_shape b' = c_shape0 c /\ a_buf b' = null /\ a_base b' = null) /\
  (forall p, peek (w_heap w) p <> None -> peek (w_heap w') p = peek (w_heap w) p) /\
  exists g, contains w' (w_next w) s g /\
    forall i j, in_bounds s i -> in_bounds t j -> offset t j = off + offset s i -> g i = f j.
Proof. exact (@t_move_shape). Qed.
(** What a release build of [move_reinterpret_shape] needs besides: a base unless the offset is 0, storage that
    is not inline, and the default allocator.  Otherwise the new array cannot be destroyed. *)
Theorem C75_move_null_offset_refuted : exists (c : config Z) (w : world Z) (y : nat) (s : list dim) (off : Z),
  plain_fair c /\ c_ndebug c = true /\ treachable false c w /\ movable c w y s off /\
  (exists b, w_arr w y = Some b /\ a_base b = null) /\ trun false c [MoveShape y s off; Plain (Run (Delete (w_next w)))] w = UB.
Proof. exact null_offset. Qed.
Theorem C75_move_inline_refuted : exists (c : config Z) (w : world Z) (y : nat) (s : list dim),
  plain_fair c /\ c_ndebug c = true /\ treachable false c w /\ movable c w y s 0 /\
  (exists b, w_arr w y = Some b /\ a_busy b = true) /\ trun false c [MoveShape y s 0; Plain (Run (Delete (w_next w)))] w = UB.
Proof. exact inline_moved. Qed.
Theorem C75_move_allocator_refuted : exists (c : config Z) (w : world Z) (y : nat) (s : list dim),
  plain_fair c /\ c_ndebug c = true /\ treachable false c w /\ movable c w y s 0 /\
  (exists b, w_arr w y = Some b /\ a_al b <> c_default c) /\ trun false c [MoveShape y s 0; Plain (Run (Delete (w_next w)))] w = UB.
Proof. exact allocator_moved. Qed.

(** A transposed array, a part of it repeated, a copy of that, one write, four of the places of the copy moved *)
Example C75_example :
  plain_fair debug2 /\ tlegal false debug2 empty_world (tprog ++ tcleanup) /\
  treachable false debug2 (tstate false debug2 (firstn 3 tprog)) /\
  legal_tact debug2 (tstate false debug2 (firstn 3 tprog)) (SetShape 0%nat twice 1) /\
  tcontents (tstate false debug2 (firstn 2 tprog)) 0%nat = map Some [0; 10; 20; 30; 1; 11; 21; 31; 2; 12; 22; 32] /\
  tcontents (tstate false debug2 (firstn 3 tprog)) 0%nat = map Some [0; 1; 2; 10; 11; 12; 20; 21; 22; 30; 31; 32] /\
  tcontents (tstate false debug2 (firstn 4 tprog)) 0%nat = map Some [10; 11; 10; 11; 10; 11; 10; 11] /\
  tcontents (tstate false debug2 (firstn 6 tprog)) 1%nat = map Some [77; 11; 77; 11; 77; 11; 77; 11] /\
  tcontents (tstate false debug2 tprog) 2%nat = [Some 77; None; None; Some 11] /\
  tcontents (tstate false debug2 tprog) 1%nat = [] /\
  block_count (tstate false debug2 tprog) = 2%nat /\ block_count (tstate false debug2 (tprog ++ tcleanup)) = 0%nat /\
  trun false debug2 (firstn 4 tprog ++ [SetShape 0%nat t34 (-1)]) empty_world = AssertFail.
Proof.
  split; [apply plain_fair2; left; reflexivity|]. split; [apply tlegalb_ok; vm_compute; reflexivity|].
  split; [apply tstate_reachable; vm_compute; reflexivity|]. split; [apply tactb_ok; vm_compute; reflexivity|].
  vm_compute. auto 20.
Qed.
(** In a release build the array can have its shape back; with inline storage; without initialization *)
Example C75_example_release :
  plain_fair trelease2 /\ tlegal false trelease2 empty_world (tprog ++ tcleanup) /\
  tcontents (tstate false trelease2 (firstn 4 tprog ++ [SetShape 0%nat t34 (-1)])) 0%nat =
    tcontents (tstate false trelease2 (firstn 3 tprog)) 0%nat /\
  plain_fair tauto2 /\ treachable false tauto2 (tstate false tauto2 tprog2) /\
  tcontents (tstate false tauto2 tprog2) 1%nat = map Some [10; 11; 10; 11; 10; 11; 10; 11] /\
  tcontents (tstate false tauto2 tprog2) 0%nat = repeat (Some 8) 12 /\
  tcontents (tstate false tauto2 tprog2) 2%nat = repeat (Some 8) 6 /\
  plain_act tauto2 (tstate false tauto2 (firstn 6 tprog2)) (Run (Swap 0%nat 1%nat)) /\
  plain_act tauto2 (tstate false tauto2 tprog2) (Run (Reshape 1%nat [mkD 0 2 1; mkD 1 5 2])) /\
  tcontents (tstate false tauto2 (tprog2 ++ [Plain (Run (Reshape 1%nat [mkD 0 2 1; mkD 1 5 2]))])) 1%nat =
    map Some [10; 11; 10; 11; 10; 11; 0; 0; 0; 0] /\
  tcontents (tstate false tauto2 (tprog2 ++ [Plain (Generate 1%nat (fun k => 100 + Z.of_nat k)); Plain (Run (Clear 0%nat))])) 1%nat =
    map Some [103; 107; 103; 107; 103; 107; 103; 107] /\
  tcontents (tstate true trelease2 [Plain (Run (New t34 0)); Plain (Run (Write 0%nat [1; 0] 5))]) 0%nat =
    [None; Some 5; None; None; None; None; None; None; None; None; None; None].
Proof.
  split; [apply plain_fair2; left; reflexivity|]. split; [apply tlegalb_ok; vm_compute; reflexivity|].
  split; [vm_compute; reflexivity|]. split; [apply plain_fair2; right; auto|].
  split; [apply tstate_reachable; vm_compute; reflexivity|].
  split; [vm_compute; reflexivity|]. split; [vm_compute; reflexivity|]. split; [vm_compute; reflexivity|].
  split; [apply plain_actb_ok; vm_compute; reflexivity|]. split; [apply plain_actb_ok; vm_compute; reflexivity|].
  vm_compute. auto.
Qed.
Print Assumptions C75_programs.
Print Assumptions C75_step.
Print Assumptions C75_blocks_owned.
Print Assumptions C75_elements_in_memory.
Print Assumptions C75_no_leak.
Print Assumptions C75_frame.
Print Assumptions C75_transfers.
Print Assumptions C75_copies_elements.
Print Assumptions C75_sets_all.
Print Assumptions C75_write.
Print Assumptions C75_transform.
Print Assumptions C75_generate.
Print Assumptions C75_clear.
Print Assumptions C75_delete.
Print Assumptions C75_reshape.
Print Assumptions C75_set_shape.
Print Assumptions C75_set_shape_back.
Print Assumptions C75_move_shape.
Print Assumptions C75_move_null_offset_refuted.
Print Assumptions C75_move_inline_refuted.
Print Assumptions C75_move_allocator_refuted.
