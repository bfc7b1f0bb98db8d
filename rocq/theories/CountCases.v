(** Concrete programs whose work is counted: those of test/array_lifetime.cpp. *)
From Coq Require Import ZArith List Bool.
From Verif Require Import Base Interval Shape Memory Ref Container Program Count Spec SpecMem SpecContainer SpecProgram SpecViews SpecCount
  ContainerCases ProgramFacts ProgramCases.
From Verif Require CountProps.
Import ListNotations.
Open Scope Z_scope.

(** The shapes of test/array_lifetime.cpp:21-23, of 50 and 28 elements *)
Definition life_shape : list dim := [mkD (-2) 5 2; mkD 4 10 20].
Definition life_subshape : list dim := [mkD (-1) 4 2; mkD 5 7 20].
(** Its allocators (29-31, 75-76): std::allocator, allocators that propagate, and ones with room for 256 and 32 elements *)
Definition std_alloc : config Z := conf false false false false (-1) dyn2.
Definition movable_alloc : config Z := conf false true true true (-1) dyn2.
Definition auto_big : config Z := conf false false false false 256 dyn2.
Definition auto_small : config Z := conf false false false false 32 dyn2.

Definition setup : list (act Z) := [Run (New life_shape 0)].
(** What the last statement of a program does *)
Definition last_work (c : config Z) (ops : list (act Z)) (o : act Z) : option tally :=
  match n_run c ops empty_world with
  | Ok (w, _) => match n_astep c w o with Ok (_, t) => Some t | _ => None end
  | _ => None
  end.
Definition all_work (c : config Z) (ops : list (act Z)) : option tally :=
  match n_run c ops empty_world with Ok (_, t) => Some t | _ => None end.
(** Smaller shapes that need as many blocks *)
Definition leak_shape : list dim := [mkD (-2) 3 2; mkD 4 3 40].
Definition leak_subshape : list dim := [mkD (-1) 2 2; mkD 5 2 40].
(** Some of test_lifetime_leaks (390-470) *)
Definition leak_prog : list (act Z) :=
  [ Run (New dyn2 0); Run (New leak_shape 0); Run (NewValue leak_subshape 7 0); Run (NewCopy 1); Run (NewCopy 0);
    Run (NewCopyAlloc 1 1); Run (NewMove 1); Run (MakeCopy 6 leak_subshape 0); Run (MakeMove 6 leak_subshape 1);
    Run (NewMoveAlloc 6 1);
    Run (CopyAssign 0 3); Run (CopyAssign 0 2); Run (CopyAssign 0 2); Run (MoveAssign 0 5); Run (MoveAssign 0 2);
    Run (CopyAssign 0 3); Run (Clear 3); Run (AssignCopy 4 0); Run (AssignValue 2 leak_shape 9); Fill 2 3;
    Transform 2 (fun _ => 4); MoveTo 2 7; CopyTo 2 7; Run (AssignMove 2 7); Run (Reshape 4 leak_subshape); Run (Swap 0 4);
    Run (Write 0 [0; 6] 8); AssignElem 1 leak_shape 0 [0; 6] ].
Definition leak_end : list (act Z) := map (fun x => Run (Delete x)) (seq 0 10).
Definition alldeadb (c : config Z) (ops : list (act Z)) : bool :=
  forallb (fun x => match w_arr (astate c ops) x with None => true | Some _ => false end) (seq 0 (w_next (astate c ops))).
Lemma std_fair : fair std_alloc. Proof. apply fair2. left. reflexivity. Qed.
Lemma movable_fair : fair movable_alloc. Proof. apply fair2. left. reflexivity. Qed.
Lemma big_fair : fair auto_big. Proof. apply fair2. right. auto. Qed.
Lemma small_fair : fair auto_small. Proof. apply fair2. right. auto. Qed.
Definition two : list (act Z) := [Run (New life_shape 1); Run (New [mkD 0 50 1; mkD 0 1 50] 1)].
Lemma swap_same_moves : exists (c : config Z) (w w' : world Z) (x y : nat) (t : tally),
  fair c /\ areachable c w /\ legal_act c w (Run (Swap x y)) /\ same_allocator w x y = true /\
  n_astep c w (Run (Swap x y)) = Ok (w', t) /\ n_move t = 100 /\ n_alloc t = 1.
Proof.
  assert (R : areachable std_alloc (astate std_alloc two)).
  { apply astate_reachable; [apply std_fair|vm_compute; reflexivity]. }
  assert (L : legal_act std_alloc (astate std_alloc two) (Run (Swap 0 1))) by (apply act_okb_ok; vm_compute; reflexivity).
  destruct (CountProps.work_prop std_alloc std_fair _ _ R L) as [w' [_ E]].
  exists std_alloc, (astate std_alloc two), w', 0%nat, 1%nat, (work std_alloc (astate std_alloc two) (Run (Swap 0 1))).
  split; [apply std_fair|]. split; [exact R|]. split; [exact L|]. split; [vm_compute; reflexivity|]. split; [exact E|].
  split; vm_compute; reflexivity.
Qed.
Definition four : list (config Z) := [std_alloc; movable_alloc; auto_big; auto_small].
Lemma four_fair c : In c four -> fair c.
Proof. intros [<-|[<-|[<-|[<-|[]]]]]; [apply std_fair|apply movable_fair|apply big_fair|apply small_fair]. Qed.
Lemma four_all (P : config Z -> bool) : forallb P four = true -> forall c, In c four -> P c = true.
Proof. intros H. apply forallb_forall. exact H. Qed.
Lemma four_reach ops : forallb (fun c => alegalb c empty_world ops) four = true ->
  Forall (fun c => fair c /\ areachable c (astate c ops)) four.
Proof.
  intros H. apply Forall_forall. intros c Hc. split; [apply four_fair; auto|].
  apply astate_reachable; [apply four_fair; auto|]. apply (four_all _ H c Hc).
Qed.
Lemma four_legal ops o : forallb (fun c => act_okb c (astate c ops) o) four = true ->
  Forall (fun c => legal_act c (astate c ops) o) four.
Proof. intros H. apply Forall_forall. intros c Hc. apply act_okb_ok. apply (four_all _ H c Hc). Qed.
