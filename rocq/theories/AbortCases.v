(** Concrete programs that exceptions stop, for the examples of PropAbort.v. *)
From Coq Require Import ZArith List Bool Lia.
From Verif Require Import Base Interval Shape Memory Ref Container Program Abort Spec SpecMem SpecContainer SpecProgram SpecAbort Tac
  ShapeFacts ContainerFacts ContainerWorld ContainerProps ContainerCases ProgramFacts ProgramCases AbortFacts AbortWorld.
Import ListNotations.
Open Scope Z_scope.

(** An element whose assignment throws is left as -7, one whose move throws as -8 *)
Definition ex_tear (old v : Z) : Z := -7.
Definition ex_spoil (v : Z) : Z := -8.
Fixpoint tlegalb (c : config Z) (w : world Z) (ops : list (act Z * fault * nat)) : bool :=
  match ops with
  | [] => true
  | (o, f, k) :: r => act_okb c w o &&
      match tstep ex_tear ex_spoil c w o f k with Ok (Returned w') | Ok (Raised w') => tlegalb c w' r | _ => true end
  end.
Lemma tlegalb_ok c ops : forall w, tlegalb c w ops = true -> tlegal ex_tear ex_spoil c w ops.
Proof.
  induction ops as [|[[o f] k] r IH]; intros w H; cbn [tlegalb tlegal] in *; auto.
  apply andb_true_iff in H. destruct H as [H1 H2]. split; [apply act_okb_ok; auto|].
  intros e E. rewrite E in H2. destruct e; auto.
Qed.
Definition tstate (c : config Z) (ops : list (act Z * fault * nat)) : world Z :=
  match trun ex_tear ex_spoil c ops empty_world with Ok w => w | _ => empty_world end.
Lemma tstate_reachable c ops : fair c -> tlegalb c empty_world ops = true -> treachable ex_tear ex_spoil c (tstate c ops).
Proof.
  intros Hf H. apply tlegalb_ok in H. exists ops. split; auto.
  destruct (tprograms c Hf ex_tear ex_spoil ops H) as [w E]. unfold tstate. rewrite E. reflexivity.
Qed.
Definition raised {S : Type} (r : outcome (ended S)) : bool := match r with Ok (Raised _) => true | _ => false end.
(** A program in which every kind of statement is stopped *)
Definition wide : list dim := [mkD 2 4 unresolved; mkD (-1) 2 unresolved].
Definition tprog : list (act Z * fault * nat) :=
  [ (Run (New shapeA 0), InAssign, 0%nat);                               (* array 0 *)
    (Transform 0%nat (fun i => match i with [x; y] => 10 * x + y | _ => 0 end), InAssign, 99%nat);
    (Transform 0%nat (fun _ => 5), InValue, 2%nat);
    (Run (MakeCopy 0%nat small 1), InAssign, 3%nat);                     (* does not succeed *)
    (Run (MakeCopy 0%nat small 1), InAssign, 4%nat);                     (* array 2 *)
    (Generate 2%nat (fun n => 100 + Z.of_nat n), InAssign, 1%nat);
    (Run (MakeMove 0%nat small 1), InAssign, 1%nat);                     (* does not succeed *)
    (Fill 2%nat 9, InAssign, 2%nat);
    (Run (Reshape 0%nat wide), InAssign, 2%nat);                         (* does not succeed *)
    (MoveTo 0%nat 2%nat, InAssign, 1%nat) ].
Definition tcleanup : list (act Z * fault * nat) :=
  [ (Run (Delete 0%nat), InAssign, 0%nat); (Run (Delete 2%nat), InAssign, 0%nat) ].
Definition optz_eqb (a b : option Z) : bool :=
  match a, b with Some x, Some y => x =? y | None, None => true | _, _ => false end.
Lemma optz_refl a : optz_eqb a a = true.
Proof. destruct a; auto. apply Z.eqb_refl. Qed.
Lemma reshape_not_strong : exists (c : config Z) (w w' : world Z) (x : nat) (s : list dim) (k : nat),
  fair c /\ treachable ex_tear ex_spoil c w /\ legal_act c w (Run (Reshape x s)) /\
  tstep ex_tear ex_spoil c w (Run (Reshape x s)) InAssign k = Ok (Raised w') /\ contents w' x <> contents w x.
Proof.
  remember (tstate debug2 (firstn 2 tprog)) as w eqn:Ew.
  assert (H : exists w', tstep ex_tear ex_spoil debug2 w (Run (Reshape 0 wide)) InAssign 2 = Ok (Raised w') /\ contents w' 0%nat <> contents w 0%nat).
  { assert (B : match tstep ex_tear ex_spoil debug2 w (Run (Reshape 0 wide)) InAssign 2 with
                | Ok (Raised w') => negb (fold_left andb (map (fun p => optz_eqb (fst p) (snd p)) (combine (contents w' 0%nat) (contents w 0%nat))) true)
                | _ => false
                end = true) by (subst w; vm_compute; reflexivity).
    destruct (tstep ex_tear ex_spoil debug2 w (Run (Reshape 0 wide)) InAssign 2) as [[w'|w']| |]; try discriminate.
    exists w'. split; auto. intros E. rewrite E in B. apply negb_true_iff in B. rewrite <- not_true_iff_false in B. apply B. clear.
    induction (contents w 0%nat) as [|x l IH]; auto. cbn [combine map fold_left fst snd]. rewrite optz_refl. exact IH. }
  destruct H as [w' [E N]]. exists debug2, w, w', 0%nat, wide, 2%nat.
  assert (Hf : fair debug2) by (apply fair2; left; reflexivity).
  split; [auto|]. split; [subst w; apply tstate_reachable; [auto|vm_compute; reflexivity]|].
  split; [subst w; apply act_okb_ok; vm_compute; reflexivity|]. auto.
Qed.
