(** C73: how long an array_ref may be used.  For every statement about arrays, whether the elements of
    an array stay where they are and which array has them afterwards ([fate], SpecViews.v), and programs
    that hold array_refs: they read and write the elements of the array that has them. *)
From Coq Require Import ZArith List Bool Lia Arith.
From Verif Require Import Base Interval Shape Memory Ref Container Program Views Spec SpecMem SpecContainer SpecProgram SpecViews Tac
  ShapeFacts ContainerFacts ContainerWorld ContainerProps ContainerCases ProgramFacts ProgramCases ViewsFacts ViewsWorld ViewsCases.
Import ListNotations.
Open Scope Z_scope.

(** Where the elements of the array [z] are after a statement; if they are destroyed nothing is ever
    created in their place *)
Theorem C73_statement : forall (V : Type) (c : config V), fair c ->
  forall (w : world V) (o : act V) (w' : world V) (z : nat),
  areachable c w -> legal_act c w o -> astep c w o = Ok w' ->
  exists_arr w z -> (exists i, in_bounds (shape_of w z) i) ->
  match fate c w o z with
  | Some z' => same_place w z w' z'
  | None => forall p ops w2, elem_of w z p -> arun c ops w' = Ok w2 -> ~ alive (w_heap w2) p
  end.
Proof. exact (fun V c Hf w o w' z R => @fate_spec V c Hf w o w' z (areachable_inv c Hf w R)). Qed.
(** Programs that use array_refs only while the elements exist run, and every array_ref refers to
    elements of its owner at every point (the theorem is about every prefix of a program) *)
Theorem C73_programs : forall (V : Type) (c : config V), fair c ->
  forall ops, vlegal c vempty [] ops ->
  exists st, vrun c ops vempty = Ok st /\
    Forall2 (fun r o => state_of (vs_world st) o r) (vs_refs st) (tracks c vempty [] ops).
Proof. exact @vprograms. Qed.
(** Reading: the value that the owner has *)
Theorem C73_read : forall (V : Type) (c : config V), fair c ->
  forall (st : vstate V) own v r x at_ i s f, vreachable c st own ->
  nth_error (vs_refs st) v = Some r -> nth_error own v = Some (Some (x, at_)) ->
  in_bounds (r_shape r) i -> denotes (vs_world st) x s f ->
  in_bounds s (at_ i) /\ vstep c st (Get v i) = Ok (mkVS (vs_world st) (vs_refs st) (f (at_ i) :: vs_out st)).
Proof. exact @vget. Qed.
(** Writing: one element of the owner *)
Theorem C73_write : forall (V : Type) (c : config V), fair c ->
  forall (st : vstate V) own v r x at_ i e, vreachable c st own ->
  nth_error (vs_refs st) v = Some r -> nth_error own v = Some (Some (x, at_)) -> in_bounds (r_shape r) i ->
  exists st', vstep c st (Put v i e) = Ok st' /\ vs_refs st' = vs_refs st /\ unchanged (vs_world st) (vs_world st') [x] /\
    forall s f, denotes (vs_world st) x s f ->
      denotes (vs_world st') x s (fun j => if list_eq_dec Z.eq_dec j (at_ i) then e else f j).
Proof. exact @vput. Qed.
(** fill: the elements that the array_ref refers to *)
Theorem C73_fill : forall (V : Type) (c : config V), fair c ->
  forall (st : vstate V) own v r x at_ e, vreachable c st own ->
  nth_error (vs_refs st) v = Some r -> nth_error own v = Some (Some (x, at_)) ->
  exists st', vstep c st (FillRef v e) = Ok st' /\ vs_refs st' = vs_refs st /\ unchanged (vs_world st) (vs_world st') [x] /\
    forall s f, denotes (vs_world st) x s f -> exists g, denotes (vs_world st') x s g /\
      (forall i, in_bounds (r_shape r) i -> g (at_ i) = e) /\
      (forall j, in_bounds s j -> (forall i, in_bounds (r_shape r) i -> at_ i <> j) -> g j = f j).
Proof. exact @vfill. Qed.
(** copy: from one array to another or between parts of one that do not overlap *)
Theorem C73_copy : forall (V : Type) (c : config V), fair c ->
  forall (st : vstate V) own u v s r x at_x y at_y, vreachable c st own ->
  nth_error (vs_refs st) u = Some s -> nth_error own u = Some (Some (x, at_x)) ->
  nth_error (vs_refs st) v = Some r -> nth_error own v = Some (Some (y, at_y)) ->
  length (r_shape s) = length (r_shape r) -> within (r_shape r) (r_shape s) ->
  (x = y -> forall i j, in_bounds (r_shape r) i -> in_bounds (r_shape r) j -> at_x i <> at_y j) ->
  exists st', vstep c st (CopyRef u v) = Ok st' /\ vs_refs st' = vs_refs st /\ unchanged (vs_world st) (vs_world st') [y] /\
    forall sx f sy g, denotes (vs_world st) x sx f -> denotes (vs_world st) y sy g -> exists g', denotes (vs_world st') y sy g' /\
      (forall i, in_bounds (r_shape r) i -> g' (at_y i) = f (at_x i)) /\
      (forall j, in_bounds sy j -> (forall i, in_bounds (r_shape r) i -> at_y i <> j) -> g' j = g j).
Proof. exact @vcopy. Qed.
(** Use of an array_ref whose elements are gone is undefined behaviour *)
Theorem C73_dangling : forall (V : Type) (c : config V), fair c ->
  forall (st : vstate V) own v r i, vreachable c st own ->
  nth_error (vs_refs st) v = Some r -> nth_error own v = Some None -> in_bounds (r_shape r) i ->
  vstep c st (Get v i) = UB /\ forall e, vstep c st (Put v i e) = UB.
Proof. exact @vdangling. Qed.

(** Every array_ref of the program is followed; the state just before the last statement *)
Example C73_example :
  fair debug2 /\ vlegal debug2 vempty [] vprog /\
  map (option_map fst) (tracks debug2 vempty [] (firstn 7 vprog)) = [Some 1; Some 1; Some 1]%nat /\
  map (option_map fst) (tracks debug2 vempty [] (firstn 16 vprog)) = [Some 2; Some 2; Some 2; Some 2; Some 1]%nat /\
  map (option_map fst) (tracks debug2 vempty [] vprog) = [None; None; None; None; Some 1%nat] /\
  vs_out (vstate_of debug2 vprog) = [7; 40; 39] /\
  (let w := vs_world (vstate_of debug2 (firstn 16 vprog)) in
   contents w 1%nat = map Some [0; 0; 0; 0; 0; 0] /\ contents w 2%nat = map Some [5; 29; 19; 5; 7; 20]).
Proof.
  split; [apply fair2; left; reflexivity|]. split; [apply vlegalb_ok; vm_compute; reflexivity|]. vm_compute. auto 10.
Qed.
(** The hypotheses of the theorems about reading, writing, fill and copy: array_refs 1, 2 and 3 of the program *)
Example C73_example_owner :
  let st := vstate_of debug2 (firstn 12 vprog) in let own := tracks debug2 vempty [] (firstn 12 vprog) in
  vreachable debug2 st own /\
  (exists r at_, nth_error (vs_refs st) 1%nat = Some r /\ nth_error own 1%nat = Some (Some (2%nat, at_)) /\
     in_bounds (r_shape r) [3; 0] /\ at_ [3; 0] = [3; 0] /\ ref_at (w_heap (vs_world st)) r [3; 0] = Ok 7) /\
  (exists s r at_x at_y, nth_error (vs_refs st) 3%nat = Some s /\ nth_error own 3%nat = Some (Some (2%nat, at_x)) /\
     nth_error (vs_refs st) 2%nat = Some r /\ nth_error own 2%nat = Some (Some (2%nat, at_y)) /\
     length (r_shape s) = length (r_shape r) /\ within (r_shape r) (r_shape s) /\
     forall i j, in_bounds (r_shape r) i -> in_bounds (r_shape r) j -> at_x i <> at_y j).
Proof.
  split; [apply vstate_reachable; [apply fair2; left; reflexivity|vm_compute; reflexivity]|]. split.
  - eexists. eexists. split; [vm_compute; reflexivity|]. split; [vm_compute; reflexivity|].
    split; [apply boundsb_ok; vm_compute; reflexivity|]. split; vm_compute; reflexivity.
  - eexists. eexists. eexists. eexists. split; [vm_compute; reflexivity|]. split; [vm_compute; reflexivity|].
    split; [vm_compute; reflexivity|]. split; [vm_compute; reflexivity|]. split; [reflexivity|].
    split; [apply within_ok; vm_compute; reflexivity|].
    intros i j Hi Hj E. apply box_In in Hi. vm_compute in Hi. apply box_In in Hj. vm_compute in Hj.
    intuition (subst; cbv in E; discriminate).
Qed.
(** Storage of another allocator and in the array object: a move leaves the elements in place and
    moves their values, or destroys them; then [fate] of the destination differs by the shapes *)
Example C73_example_fate :
  (let w := astate debug2 [Run (NewValue shapeA 1 1); Run (NewValue shapeA 2 2); Run (NewValue shapeB 3 2)] in
   areachable debug2 w /\ legal_act debug2 w (Run (MoveAssign 0%nat 1%nat)) /\ legal_act debug2 w (Run (MoveAssign 1%nat 2%nat)) /\
   map (fate debug2 w (Run (MoveAssign 0%nat 1%nat))) [0; 1; 2]%nat = [Some 0; Some 1; Some 2]%nat /\
   map (fate debug2 w (Run (MoveAssign 0%nat 2%nat))) [0; 1; 2]%nat = [None; Some 1%nat; Some 2%nat] /\
   map (fate debug2 w (Run (MoveAssign 1%nat 2%nat))) [0; 1; 2]%nat = [Some 0; Some 2; Some 1]%nat /\
   map (fate debug2 w (Run (Reshape 0%nat small))) [0; 1; 2]%nat = [None; Some 1%nat; Some 2%nat]) /\
  (let w := astate auto2 [Run (NewValue shapeB 1 0); Run (NewValue small 2 0)] in
   areachable auto2 w /\ map (is_inline w) [0; 1]%nat = [false; true] /\
   legal_act auto2 w (Run (NewMove 0%nat)) /\ legal_act auto2 w (Run (NewMove 1%nat)) /\
   map (fate auto2 w (Run (NewMove 0%nat))) [0; 1]%nat = [Some 2; Some 1]%nat /\
   map (fate auto2 w (Run (NewMove 1%nat))) [0; 1]%nat = [Some 0; Some 1]%nat).
Proof.
  split; cbv zeta.
  - split; [apply astate_reachable; [apply fair2; left; reflexivity|vm_compute; reflexivity]|].
    split; [apply act_okb_ok; vm_compute; reflexivity|]. split; [apply act_okb_ok; vm_compute; reflexivity|]. vm_compute. auto 10.
  - split; [apply astate_reachable; [apply fair2; right; auto|vm_compute; reflexivity]|]. split; [vm_compute; reflexivity|].
    split; [apply act_okb_ok; vm_compute; reflexivity|]. split; [apply act_okb_ok; vm_compute; reflexivity|]. vm_compute. auto 10.
Qed.
(** swap of arrays in array objects and on the heap *)
Example C73_example_swap :
  let w := astate auto2 [Run (NewValue small 1 0); Run (NewValue small 2 0); Run (NewValue shapeB 3 0); Run (NewValue shapeB 4 0)] in
  areachable auto2 w /\ map (is_inline w) [0; 1; 2; 3]%nat = [true; true; false; false] /\
  legal_act auto2 w (Run (Swap 0%nat 1%nat)) /\ legal_act auto2 w (Run (Swap 0%nat 2%nat)) /\
  legal_act auto2 w (Run (Swap 2%nat 3%nat)) /\
  map (fate auto2 w (Run (Swap 0%nat 1%nat))) [0; 1; 2; 3]%nat = [Some 0; Some 1; Some 2; Some 3]%nat /\
  map (fate auto2 w (Run (Swap 0%nat 2%nat))) [0; 1; 2; 3]%nat = [None; Some 1; None; Some 3]%nat /\
  map (fate auto2 w (Run (Swap 2%nat 3%nat))) [0; 1; 2; 3]%nat = [Some 0; Some 1; Some 3; Some 2]%nat.
Proof.
  cbv zeta. split; [apply astate_reachable; [apply fair2; right; auto|vm_compute; reflexivity]|]. split; [vm_compute; reflexivity|].
  split; [apply act_okb_ok; vm_compute; reflexivity|]. split; [apply act_okb_ok; vm_compute; reflexivity|].
  split; [apply act_okb_ok; vm_compute; reflexivity|]. vm_compute. auto 10.
Qed.
(** "Swap the contents of two arrays. This performs zero copies or moves of individual elements"
    (array.h:2689-2690): not if the allocators differ and are not exchanged *)
Theorem C73_swap_zero_moves_refuted : exists (c : config Z) (w w' : world Z) (x y : nat),
  fair c /\ areachable c w /\ legal_act c w (Run (Swap x y)) /\ astep c w (Run (Swap x y)) = Ok w' /\
  exists_arr w x /\ (exists i, in_bounds (shape_of w x) i) /\ forall z, ~ same_place w x w' z.
Proof. exact swap_moves_elements. Qed.
Print Assumptions C73_statement.
Print Assumptions C73_programs.
Print Assumptions C73_read.
Print Assumptions C73_write.
Print Assumptions C73_fill.
Print Assumptions C73_copy.
Print Assumptions C73_dangling.
Print Assumptions C73_swap_zero_moves_refuted.
