(** How much work arrays do: elements constructed, assigned and destroyed, and memory allocated. *)
From Coq Require Import ZArith List Bool.
From Verif Require Import Base Interval Shape Memory Ref Container Program Count Spec SpecMem SpecContainer SpecProgram SpecViews
  SpecCount ContainerCases ProgramFacts ProgramCases CountFacts CountWorld CountProps CountInline CountCases.
Import ListNotations.
Open Scope Z_scope.

(** ** C74: counted programs *)
(** Counting changes nothing: a counted program has the outcome of the program. *)
Theorem C74_same_program : forall (V : Type) (c : config V) (ops : list (act V)) (w : world V),
  match n_run c ops w with Ok (w', _) => Ok w' | AssertFail => AssertFail | UB => UB end = arun c ops w.
Proof. exact (@erase). Qed.
(** The numbers of elements in the counts are numbers of indices. *)
Theorem C74_elements : forall s : list dim, extents_ge 0 s -> has_count (in_bounds s) (elements s).
Proof. exact elements_count. Qed.
Theorem C74_shared : forall s t : list dim, Forall2 meets s t ->
  has_count (fun i => in_bounds s i /\ in_bounds t i) (shared s t).
Proof. exact shared_count. Qed.
Example C74_example_elements :
  extents_ge 0 life_shape /\ elements life_shape = 50 /\ elements life_subshape = 28 /\
  Forall2 meets life_subshape life_shape /\ shared life_subshape life_shape = 28 /\
  shared [mkD 0 4 1; mkD 0 9 4] life_shape = 15.
Proof. repeat constructor; cbv; discriminate. Qed.
(** Every legal statement does exactly the work of the specification. *)
Theorem C74_statement : forall (V : Type) (c : config V), fair c ->
  forall (w : world V) (o : act V), areachable c w -> legal_act c w o ->
  exists w', astep c w o = Ok w' /\ n_astep c w o = Ok (w', work c w o).
Proof. exact (@work_prop). Qed.
(** A program: the sums of the work of its statements.  The objects made and not destroyed are the elements of the
    arrays, and the blocks allocated and not released are those the arrays hold. *)
Theorem C74_program : forall (V : Type) (c : config V), fair c ->
  forall ops : list (act V), alegal c empty_world ops -> exists w,
  arun c ops empty_world = Ok w /\ n_run c ops empty_world = Ok (w, work_run c empty_world ops) /\
  has_count (element w) (objects_made (work_run c empty_world ops)) /\
  has_count (holds_block w) (blocks_made (work_run c empty_world ops)).
Proof. exact (@program_balance). Qed.
(** What is destroyed was made, and what was made is destroyed with the arrays. *)
Theorem C74_no_leak : forall (V : Type) (c : config V), fair c ->
  forall (ops : list (act V)) (w : world V), alegal c empty_world ops -> arun c ops empty_world = Ok w ->
  (forall x, w_arr w x = None) ->
  objects_made (work_run c empty_world ops) = 0 /\ blocks_made (work_run c empty_world ops) = 0.
Proof. exact (@program_clean). Qed.
(** In any program, legal or not, that gets to an end *)
Theorem C74_balance : forall (V : Type) (c : config V) (ops : list (act V)) (w : world V) (t : tally),
  n_run c ops empty_world = Ok (w, t) ->
  has_count (alive (w_heap w)) (objects_made t) /\ has_count (base_block (w_heap w)) (blocks_made t).
Proof. exact (@run_balance). Qed.
(** Statements that move copy no element. *)
Theorem C74_moves_do_not_copy : forall (V : Type) (c : config V), fair c ->
  forall (w : world V) (o : act V), areachable c w -> legal_act c w o -> moving o ->
  exists w' t, n_astep c w o = Ok (w', t) /\ no_copies t.
Proof. exact (@moving_prop). Qed.
(** The algorithms construct and destroy nothing. *)
Theorem C74_algorithms_assign : forall (V : Type) (c : config V), fair c ->
  forall (w : world V) (o : act V), areachable c w -> legal_act c w o -> in_place o ->
  exists w' t, n_astep c w o = Ok (w', t) /\ only_assigns t.
Proof. exact (@in_place_prop). Qed.
(** Arrays are moved and swapped without touching an element if their allocators allow it. *)
Theorem C74_move_assign_free : forall (V : Type) (c : config V), fair c ->
  forall (w : world V) (x y : nat), areachable c w -> legal_act c w (Run (MoveAssign x y)) ->
  c_pocma c = true \/ same_allocator w x y = true -> exists w', n_astep c w (Run (MoveAssign x y)) = Ok (w', nothing).
Proof. exact (@move_assign_free). Qed.
Theorem C74_new_move_free : forall (V : Type) (c : config V), fair c ->
  forall (w : world V) (y : nat), areachable c w -> legal_act c w (Run (NewMove y)) ->
  c_pocma c = true \/ could_take w y (c_default c) = true -> exists w', n_astep c w (Run (NewMove y)) = Ok (w', nothing).
Proof. exact (@new_move_free). Qed.
Theorem C74_swap_free_propagating : forall (V : Type) (c : config V), fair c ->
  forall (w : world V) (x y : nat), areachable c w -> legal_act c w (Run (Swap x y)) -> c_pocs c = true ->
  exists w', n_astep c w (Run (Swap x y)) = Ok (w', nothing).
Proof. exact (@pocs_swap_free). Qed.
Theorem C74_swap_free : forall (V : Type) (c : config V), fair c ->
  forall (w : world V) (x y : nat), areachable c w -> legal_act c w (Run (Swap x y)) -> x <> y ->
  c_pocma c = true \/ could_take w x (c_default c) = true /\ could_take w y (c_default c) = true ->
  exists w', n_astep c w (Run (Swap x y)) = Ok (w', nothing).
Proof. exact (@swap_free). Qed.
(** It is not enough that the allocators of the two arrays are equal: the temporary array has a default constructed one. *)
Theorem C74_swap_equal_allocators_refuted : exists (c : config Z) (w w' : world Z) (x y : nat) (t : tally),
  fair c /\ areachable c w /\ legal_act c w (Run (Swap x y)) /\ same_allocator w x y = true /\
  n_astep c w (Run (Swap x y)) = Ok (w', t) /\ n_move t = 100 /\ n_alloc t = 1.
Proof. exact swap_same_moves. Qed.
(** With an allocator that keeps small arrays inside the array object, a program whose shapes are all that small never
    calls the base allocator. *)
Theorem C74_inline : forall (V : Type) (c : config V), fair c -> fits c (c_shape0 c) ->
  forall ops : list (act V), alegal c empty_world ops -> Forall (fitting c) ops ->
  exists w t, n_run c ops empty_world = Ok (w, t) /\ n_alloc t = 0 /\ n_free t = 0.
Proof. exact (@inline_programs). Qed.
Example C74_example_inline :
  fair auto_big /\ fits auto_big (c_shape0 auto_big) /\
  alegal auto_big empty_world (leak_prog ++ leak_end) /\ Forall (fitting auto_big) (leak_prog ++ leak_end) /\
  ~ Forall (fitting auto_small) (leak_prog ++ leak_end) /\
  option_map n_alloc (all_work auto_small (leak_prog ++ leak_end)) = Some 15.
Proof.
  split; [apply big_fair|]. split; [discriminate|]. split; [apply alegalb_ok; vm_compute; reflexivity|].
  split; [apply Forall_forall; intros o Ho; cbn [In leak_prog leak_end app] in Ho; repeat (destruct Ho as [<-|Ho]; [vm_compute; auto; discriminate|]); destruct Ho|].
  split; [|vm_compute; reflexivity]. intros H. inversion H as [|? ? _ H2]; subst. inversion H2 as [|? ? H3 _]; subst.
  vm_compute in H3. apply H3. reflexivity.
Qed.
(** Most of test/array_lifetime.cpp, with its four allocators *)
Example C74_example_programs :
  Forall (fun c => fair c /\ alegal c empty_world (leak_prog ++ leak_end)) four /\
  map (fun c => alldeadb c (leak_prog ++ leak_end)) four = [true; true; true; true] /\
  map (fun c => all_work c (leak_prog ++ leak_end)) four =
    [Some (mkN 21 75 22 18 21 118 15 15); Some (mkN 21 75 13 18 21 109 14 14);
     Some (mkN 21 75 56 18 21 152 0 0); Some (mkN 21 75 22 18 21 118 15 15)].
Proof.
  split; [|split; vm_compute; reflexivity]. apply Forall_forall. intros c Hc. split; [apply four_fair; auto|].
  apply alegalb_ok. apply (four_all (fun c => alegalb c empty_world (leak_prog ++ leak_end))); [vm_compute; reflexivity|auto].
Qed.
Example C74_example_statements :
  Forall (fun c => fair c /\ areachable c (astate c setup)) four /\
  Forall (fun c => legal_act c (astate c setup) (Run (NewCopy 0))) four /\
  Forall (fun c => legal_act c (astate c setup) (Run (NewMove 0))) four /\
  Forall (fun c => legal_act c (astate c setup) (Run (Reshape 0 life_subshape))) four /\
  map (fun c => last_work c setup (Run (NewCopy 0))) four =
    [Some (mkN 0 50 0 0 0 0 1 0); Some (mkN 0 50 0 0 0 0 1 0); Some (mkN 0 50 0 0 0 0 0 0); Some (mkN 0 50 0 0 0 0 1 0)] /\
  map (fun c => last_work c setup (Run (NewMove 0))) four =
    [Some nothing; Some nothing; Some (mkN 0 0 50 0 0 0 0 0); Some nothing] /\
  map (fun c => last_work c setup (Run (Reshape 0 life_shape))) four = [Some nothing; Some nothing; Some nothing; Some nothing] /\
  map (fun c => last_work c setup (Run (Reshape 0 life_subshape))) four =
    [Some (mkN 28 0 0 0 28 50 1 1); Some (mkN 28 0 0 0 28 50 1 1); Some (mkN 28 0 28 0 28 78 0 0);
     Some (mkN 28 0 0 0 28 50 1 1)] /\
  map (fun c => last_work c setup (Transform 0%nat (fun _ => 1))) four =
    [Some (mkN 0 0 0 0 50 0 0 0); Some (mkN 0 0 0 0 50 0 0 0); Some (mkN 0 0 0 0 50 0 0 0); Some (mkN 0 0 0 0 50 0 0 0)].
Proof.
  split; [apply four_reach; vm_compute; reflexivity|].
  split; [apply four_legal; vm_compute; reflexivity|].
  split; [apply four_legal; vm_compute; reflexivity|].
  split; [apply four_legal; vm_compute; reflexivity|].
  vm_compute. auto 10.
Qed.
Definition pair_prog : list (act Z) := setup ++ [Run (New [mkD 0 50 1; mkD 0 1 50] 0)].
Example C74_example_swap :
  Forall (fun c => fair c /\ areachable c (astate c pair_prog)) four /\
  Forall (fun c => legal_act c (astate c pair_prog) (Run (Swap 0 1))) four /\
  Forall (fun c => legal_act c (astate c pair_prog) (Run (MoveAssign 0 1))) four /\
  map (fun c => (c_pocma c, c_pocs c, same_allocator (astate c pair_prog) 0 1,
                 could_take (astate c pair_prog) 0 (c_default c) && could_take (astate c pair_prog) 1 (c_default c))) four =
    [(false, false, true, true); (true, true, true, true); (false, false, false, false); (false, false, true, true)] /\
  map (fun c => last_work c pair_prog (Run (Swap 0 1))) four =
    [Some nothing; Some nothing; Some (mkN 0 0 150 0 0 150 0 0); Some nothing] /\
  map (fun c => last_work c pair_prog (Run (MoveAssign 0 1))) four =
    [Some nothing; Some nothing; Some (mkN 0 0 50 0 0 50 0 0); Some nothing].
Proof.
  split; [apply four_reach; vm_compute; reflexivity|].
  split; [apply four_legal; vm_compute; reflexivity|].
  split; [apply four_legal; vm_compute; reflexivity|].
  vm_compute. auto 10.
Qed.
Print Assumptions C74_same_program.
Print Assumptions C74_elements.
Print Assumptions C74_shared.
Print Assumptions C74_statement.
Print Assumptions C74_program.
Print Assumptions C74_no_leak.
Print Assumptions C74_balance.
Print Assumptions C74_moves_do_not_copy.
Print Assumptions C74_algorithms_assign.
Print Assumptions C74_move_assign_free.
Print Assumptions C74_new_move_free.
Print Assumptions C74_swap_free_propagating.
Print Assumptions C74_swap_free.
Print Assumptions C74_swap_equal_allocators_refuted.
Print Assumptions C74_inline.
