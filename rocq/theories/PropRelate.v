(** What a program does depends on the arrays it mentions, not on addresses, other arrays or earlier statements;
    threads that mention different arrays do what they do alone. *)
From Coq Require Import ZArith List Bool Lia.
From Verif Require Import Base Interval Shape Memory Ref Container Program Spec SpecMem SpecContainer SpecProgram SpecInterp SpecRelate
  ContainerCases ProgramCases InterpFacts RelateFacts InterpCases.
Import ListNotations.
Open Scope Z_scope.

(** ** C78: programs on different arrays *)

(** In two states in which the arrays [X] look the same, a program that mentions only these and new ones is legal in
    both or neither, and leaves them looking the same. *)
Theorem C78_locality : forall V (c : config V), fair c ->
  forall w1 w2 X ops, areachable c w1 -> areachable c w2 -> w_next w1 = w_next w2 ->
  (forall x, In x X -> same_array w1 w2 x) -> (forall x, mentions ops x -> In x X \/ (w_next w1 <= x)%nat) ->
  alegal c w1 ops ->
  alegal c w2 ops /\
  exists w1' w2', arun c ops w1 = Ok w1' /\ arun c ops w2 = Ok w2' /\ w_next w1' = w_next w2' /\
    forall x, In x X \/ (w_next w1 <= x)%nat -> same_array w1' w2' x.
Proof. exact (@frame_worlds). Qed.
Print Assumptions C78_locality.
(** Threads that declare no arrays and mention different ones: every order of their statements is legal; each thread
    leaves its arrays as it does alone, and other arrays do not change. *)
Theorem C78_threads : forall V (c : config V), fair c ->
  forall w ls ops, areachable c w -> Forall (Forall (fun o => ~ declares o)) ls ->
  (forall j k l l' x, j <> k -> nth_error ls j = Some l -> nth_error ls k = Some l' -> mentions l x -> ~ mentions l' x) ->
  Forall (alegal c w) ls -> weave ls ops ->
  alegal c w ops /\
  exists w', arun c ops w = Ok w' /\
    (forall l, In l ls -> exists w1, arun c l w = Ok w1 /\ forall x, mentions l x -> same_array w1 w' x) /\
    (forall x, (forall l, In l ls -> ~ mentions l x) -> same_array w w' x).
Proof. exact (@threads_worlds). Qed.
Print Assumptions C78_threads.
Theorem C78_order : forall V (c : config V), fair c ->
  forall w ls ops ops', areachable c w -> Forall (Forall (fun o => ~ declares o)) ls ->
  (forall j k l l' x, j <> k -> nth_error ls j = Some l -> nth_error ls k = Some l' -> mentions l x -> ~ mentions l' x) ->
  Forall (alegal c w) ls -> weave ls ops -> weave ls ops' ->
  exists w1 w2, arun c ops w = Ok w1 /\ arun c ops' w = Ok w2 /\ forall x, same_array w1 w2 x.
Proof. exact (@order_worlds). Qed.
Print Assumptions C78_order.

(** Two threads with temporary arrays, in two orders *)
Example C78_example :
  let w := astate debug2 start2 in
  fair debug2 /\ areachable debug2 w /\ Forall (Forall (fun o => ~ declares o)) [thread0; thread1] /\
  (forall j k (l l' : list (act Z)) x, j <> k -> nth_error [thread0; thread1] j = Some l -> nth_error [thread0; thread1] k = Some l' ->
     mentions l x -> ~ mentions l' x) /\
  Forall (alegal debug2 w) [thread0; thread1] /\ weave [thread0; thread1] order1 /\ weave [thread0; thread1] order2 /\
  contents (astate debug2 (start2 ++ order1)) 0%nat = map Some [3; 3; 3; 3] /\
  contents (astate debug2 (start2 ++ order2)) 0%nat = map Some [3; 3; 3; 3] /\
  contents (astate debug2 (start2 ++ order1)) 1%nat = map Some [6; 6; 6; 6; 5; 6] /\
  contents (astate debug2 (start2 ++ order2)) 1%nat = map Some [6; 6; 6; 6; 5; 6].
Proof.
  cbv zeta. split; [apply fair2; left; reflexivity|].
  split; [apply astate_reachable; [apply fair2; left; reflexivity|vm_compute; reflexivity]|].
  split; [exact threads_quiet|]. split; [exact threads_apart|].
  split; [apply Forall_cons; [|apply Forall_cons; [|apply Forall_nil]]; apply alegalb_ok; vm_compute; reflexivity|].
  split; [exact weave_order1|]. split; [exact weave_order2|]. vm_compute. auto.
Qed.
(** Array 1 looks the same, at other addresses *)
Example C78_example_locality :
  let w1 := astate debug2 start2 in let w2 := astate debug2 start3 in
  fair debug2 /\ areachable debug2 w1 /\ areachable debug2 w2 /\ w_next w1 = w_next w2 /\
  (forall x, In x [1; 2]%nat -> same_array w1 w2 x) /\ (forall x, mentions thread1 x -> In x [1; 2]%nat \/ (w_next w1 <= x)%nat) /\
  alegal debug2 w1 thread1 /\ option_map a_base (w_arr w1 1%nat) <> option_map a_base (w_arr w2 1%nat).
Proof.
  cbv zeta. split; [apply fair2; left; reflexivity|].
  split; [apply astate_reachable; [apply fair2; left; reflexivity|vm_compute; reflexivity]|].
  split; [apply astate_reachable; [apply fair2; left; reflexivity|vm_compute; reflexivity]|].
  split; [vm_compute; reflexivity|]. split; [exact same_12|]. split; [exact mentions_12|].
  split; [apply alegalb_ok; vm_compute; reflexivity|]. vm_compute. discriminate.
Qed.
