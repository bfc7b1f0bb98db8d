(** Concrete programs in which something throws, for the examples of PropThrow.v. *)
From Coq Require Import ZArith List Bool Lia.
From Verif Require Import Base Interval Shape Memory Ref Container Throw Spec SpecMem SpecContainer SpecThrow Tac
  ShapeFacts ResolveFacts MemFacts RefFacts SliceFacts ContainerFacts ContainerWorld ContainerProps ContainerCases ThrowProps.
Import ListNotations.
Open Scope Z_scope.

(** Compilation without assertions *)
Definition quiet2 : config Z := conf true false false false (-1) dyn2.
(** Allocators follow copies and moves *)
Definition moving2 : config Z := conf false true true true (-1) dyn2.

(** ** A sufficient test for legality *)
Definition usableb (w : world Z) (x : nat) : bool :=
  match w_arr w x with
  | Some a => negb (is_null (a_base a)) || existsb (fun d => dext d <=? 0) (a_shape a)
  | None => false
  end.
Lemma usableb_ok w x : usableb w x = true -> usable w x.
Proof.
  unfold usableb, usable. destruct (w_arr w x) as [a|]; [|discriminate]. intros H. exists a. split; auto.
  apply orb_true_iff in H. destruct H as [H|H].
  - left. intros E. rewrite E in H. discriminate.
  - right. apply existsb_exists in H. destruct H as [d [Hd He]]. intros i Hi. unfold in_bounds in Hi.
    revert d Hd He. induction Hi as [|e j s i Hj _ IH]; intros d Hd He; [destruct Hd|].
    destruct Hd as [->|Hd]; [unfold in_dim in Hj; lia|eauto].
Qed.
Definition xop_okb (c : config Z) (w : world Z) (o : op Z) : bool :=
  op_okb c w o &&
  match o with
  | New _ _ | NewValue _ _ _ | Clear _ | Delete _ => true
  | NewCopy y | NewCopyAlloc y _ | NewMove y | NewMoveAlloc y _ | MakeCopy y _ _ | MakeMove y _ _ => usableb w y
  | CopyAssign _ y | MoveAssign _ y | AssignCopy _ y | AssignMove _ y => usableb w y
  | AssignValue x s _ => usableb w x || match w_arr w x with Some a => negb (shape_eqb (a_shape a) (resolve s)) | None => false end
  | Reshape x _ | Write x _ _ => usableb w x
  | Swap x y => usableb w x && usableb w y
  end.
Lemma xop_okb_ok c w o : xop_okb c w o = true -> xlegal_op c w o.
Proof.
  unfold xop_okb. rewrite andb_true_iff. intros [H1 H2]. split; [apply op_okb_ok; auto|].
  destruct o; auto using usableb_ok.
  - apply orb_true_iff in H2. destruct H2 as [H2|H2]; [left; apply usableb_ok; auto|right].
    destruct (w_arr w x) as [a|]; [|discriminate]. exists a. split; auto. intros E.
    rewrite (proj2 (shape_eqb_eq _ _) E) in H2. discriminate.
  - apply andb_true_iff in H2. destruct H2. split; apply usableb_ok; auto.
Qed.
Fixpoint xlegalb (c : config Z) (w : world Z) (ops : list (op Z * option nat)) : bool :=
  match ops with
  | [] => true
  | (o, n) :: r => xop_okb c w o &&
      match xstep c w o (allocs n) with Ok x => xlegalb c (fst (settle x)) r | _ => true end
  end.
Lemma xlegalb_ok c ops : forall w, xlegalb c w ops = true -> xlegal c w ops.
Proof.
  induction ops as [|[o n] r IH]; intros w H; cbn [xlegalb xlegal] in *; auto.
  apply andb_true_iff in H. destruct H as [H1 H2]. split; [apply xop_okb_ok; auto|]. intros x E. rewrite E in H2. auto.
Qed.
Definition xstate (c : config Z) (ops : list (op Z * option nat)) : world Z :=
  match xrun c (with_allocs ops) empty_world with Ok w => w | _ => empty_world end.
Lemma xstate_reachable c ops : fair c -> xlegalb c empty_world ops = true -> xreachable c (xstate c ops).
Proof.
  intros Hf H. apply xlegalb_ok in H. exists ops. split; auto.
  destruct (xprograms_run c Hf ops H) as [w E]. unfold xstate. rewrite E. reflexivity.
Qed.
(** Which of the operations throw *)
Fixpoint throws (c : config Z) (ops : list (op Z * option nat)) (w : world Z) : list bool :=
  match ops with
  | [] => []
  | (o, n) :: r => match xstep c w o (allocs n) with
                   | Ok x => snd (settle x) :: throws c r (fst (settle x))
                   | _ => []
                   end
  end.

(** Failures everywhere, then recovery *)
Definition xprog : list (op Z * option nat) :=
  [ (NewValue shapeA 5 0, None);        (* 0 *)
    (New shapeB 1, Some 0%nat);         (* throws; the name 1 is used up *)
    (New shapeB 1, Some 1%nat);         (* 2 *)
    (Write 0%nat [3; -1] 9, Some 0%nat);
    (NewCopy 0%nat, Some 0%nat);        (* throws; 3 *)
    (MakeCopy 0%nat shapeC 1, Some 0%nat); (* throws; 4 *)
    (NewMoveAlloc 0%nat 7, Some 0%nat); (* element by element: throws; 5 *)
    (Swap 0%nat 2%nat, Some 1%nat);     (* throws in the middle: 2 has lost its elements; 6 *)
    (Reshape 0%nat shapeB, Some 0%nat); (* throws; 7 *)
    (CopyAssign 2%nat 0%nat, Some 0%nat) ]. (* throws: 2 has a shape and no storage *)
Definition xrecover : list (op Z * option nat) :=
  [ (CopyAssign 2%nat 0%nat, Some 1%nat);
    (AssignValue 0%nat shapeB 3, Some 0%nat);   (* throws *)
    (AssignValue 0%nat shapeC 4, Some 1%nat) ].
Definition xcleanup : list (op Z * option nat) := [ (Delete 0%nat, Some 0%nat); (Delete 2%nat, Some 0%nat) ].

(** [x] has an element [i] and no storage *)
Definition lostb (w : world Z) (x : nat) (i : list Z) : bool :=
  match w_arr w x with Some a => is_null (a_base a) && boundsb (a_shape a) i | None => false end.
Lemma lostb_ok w x i : lostb w x i = true -> ~ usable w x /\ exists_arr w x.
Proof.
  unfold lostb, usable, exists_arr. destruct (w_arr w x) as [a|]; [|discriminate]. intros H.
  apply andb_true_iff in H. destruct H as [H1 H2]. split; [|eauto]. intros [b [E [C|C]]]; inv E.
  - unfold is_null in H1. apply ptr_eqb_eq in H1. congruence.
  - apply (C i), boundsb_ok; auto.
Qed.
Lemma xprog_debug :
  xreachable debug2 (xstate debug2 xprog) /\
  throws debug2 (xprog ++ xrecover ++ xcleanup) empty_world =
    [false; true; false; false; true; true; true; true; true; true; false; true; false; false; false] /\
  (let w := xstate debug2 xprog in
   contents w 0%nat = [Some 5; Some 9; Some 5; Some 5; Some 5; Some 5] /\
   dims w 2%nat = Some [mkD 2 3 1; mkD (-1) 2 (-7)] /\ ~ usable w 2%nat /\ exists_arr w 2%nat /\
   live_count w = 6%nat /\ block_count w = 1%nat) /\
  (let w := xstate debug2 (xprog ++ xrecover) in
   contents w 2%nat = [Some 5; Some 9; Some 5; Some 5; Some 5; Some 5] /\
   contents w 0%nat = repeat (Some 4) 6 /\ live_count w = 12%nat) /\
  (let w := xstate debug2 (xprog ++ xrecover ++ xcleanup) in live_count w = 0%nat /\ block_count w = 0%nat).
Proof.
  split; [apply xstate_reachable; [apply fair2; left; reflexivity|vm_compute; reflexivity]|].
  split; [vm_compute; reflexivity|]. split; [|vm_compute; auto].
  cbv zeta. split; [vm_compute; reflexivity|]. split; [vm_compute; reflexivity|].
  destruct (lostb_ok (xstate debug2 xprog) 2 [2; -1]) as [H1 H2]; [vm_compute; reflexivity|].
  split; [exact H1|]. split; [exact H2|]. vm_compute. auto.
Qed.
Lemma xprog_others :
  xreachable auto2 (xstate auto2 xprog) /\ xreachable moving2 (xstate moving2 xprog) /\
  throws auto2 (xprog ++ xrecover) empty_world =
    [false; true; false; false; true; false; true; true; true; true; false; true; false].
Proof.
  split; [apply xstate_reachable; [apply fair2; right; auto|vm_compute; reflexivity]|].
  split; [apply xstate_reachable; [apply fair2; left; reflexivity|vm_compute; reflexivity]|].
  vm_compute. reflexivity.
Qed.
Definition lost : list (op Z * option nat) := [(NewValue shapeA 5 0, None); (AssignValue 0%nat shapeB 3, Some 0%nat)].
Lemma retry_debug : exists (w : world Z) (s : list dim), xreachable debug2 w /\
  exists_arr w 0%nat /\ shape_arg debug2 s /\ xstep debug2 w (AssignValue 0%nat s 3) unlimited = AssertFail.
Proof.
  exists (xstate debug2 lost), shapeB.
  split; [apply xstate_reachable; [apply fair2; left; reflexivity|vm_compute; reflexivity]|].
  split; [apply existsb_arr_ok; vm_compute; reflexivity|]. split; [apply argb_ok; reflexivity|]. vm_compute. reflexivity.
Qed.
Definition done (r : outcome (xres (world Z) (world Z))) : world Z :=
  match r with Ok (Done w _) | Ok (Threw w) => w | _ => empty_world end.
Lemma done_ok r : match r with Ok (Done _ f) => b_allocs f = None /\ b_elems f = None | _ => False end -> r = Ok (Done (done r) unlimited).
Proof. destruct r as [[w [a e]|]| |]; try tauto. cbn. intros [-> ->]. reflexivity. Qed.
Lemma threw_ok r : match r with Ok (Threw _) => True | _ => False end -> r = Ok (Threw (done r)).
Proof. destruct r as [[w f|w]| |]; try tauto. Qed.
Lemma retry_release : exists (w w' : world Z) (s : list dim) (a : arr), xreachable quiet2 w /\
  exists_arr w 0%nat /\ shape_arg quiet2 s /\ xstep quiet2 w (AssignValue 0%nat s 3) unlimited = Ok (Done w' unlimited) /\
  w_arr w' 0%nat = Some a /\ a_base a = null /\ size (a_shape a) = 20 /\
  step quiet2 w' (Write 0%nat [3; 0] 1) = UB.
Proof.
  exists (xstate quiet2 lost), (done (xstep quiet2 (xstate quiet2 lost) (AssignValue 0%nat shapeB 3) unlimited)), shapeB,
    (mkA 0 false null 20 null [mkD 3 4 1; mkD 0 5 4]).
  split; [apply xstate_reachable; [apply fair2; left; reflexivity|vm_compute; reflexivity]|].
  split; [apply existsb_arr_ok; vm_compute; reflexivity|]. split; [apply argb_ok; reflexivity|].
  split; [apply done_ok; vm_compute; auto|]. vm_compute. auto.
Qed.
Definition lost2 : list (op Z * option nat) :=
  [(NewValue shapeA 5 0, None); (New dyn2 0, None); (AssignValue 0%nat shapeB 3, Some 0%nat)].
Lemma move_empty : exists (w w' : world Z), xreachable moving2 w /\
  xlegal_op moving2 w (MoveAssign 0%nat 1%nat) /\ usable w 1%nat /\
  xstep moving2 w (MoveAssign 0%nat 1%nat) unlimited = Ok (Done w' unlimited) /\ ~ usable w' 1%nat.
Proof.
  exists (xstate moving2 lost2), (done (xstep moving2 (xstate moving2 lost2) (MoveAssign 0%nat 1%nat) unlimited)).
  split; [apply xstate_reachable; [apply fair2; left; reflexivity|vm_compute; reflexivity]|].
  split; [apply xop_okb_ok; vm_compute; reflexivity|]. split; [apply usableb_ok; vm_compute; reflexivity|].
  split; [apply done_ok; vm_compute; auto|]. apply (lostb_ok _ _ [3; 0]). vm_compute. reflexivity.
Qed.
Lemma swap_loses : exists (w w' : world Z), xreachable debug2 w /\ xlegal_op debug2 w (Swap 0%nat 1%nat) /\
  live_count w = 26%nat /\ xstep debug2 w (Swap 0%nat 1%nat) (allocs (Some 1%nat)) = Ok (Threw w') /\
  ~ usable w' 1%nat /\ live_count w' = 6%nat.
Proof.
  set (w := xstate debug2 [(NewValue shapeA 5 0, None); (New shapeB 1, None)]).
  exists w, (done (xstep debug2 w (Swap 0%nat 1%nat) (allocs (Some 1%nat)))).
  split; [apply xstate_reachable; [apply fair2; left; reflexivity|vm_compute; reflexivity]|].
  split; [apply xop_okb_ok; vm_compute; reflexivity|]. split; [vm_compute; reflexivity|].
  split; [apply threw_ok; vm_compute; auto|]. split; [|vm_compute; auto]. apply (lostb_ok _ _ [2; -1]). vm_compute. reflexivity.
Qed.
Lemma elems_debug :
  let w := state debug2 pre in
  reachable debug2 w /\ shape_arg debug2 shapeC /\ enumerates (in_bounds shapeC) (rect shapeC) /\ length (rect shapeC) = 6%nat /\
  live_count w = 26%nat /\ block_count w = 2%nat /\
  match xstep debug2 w (New shapeC 3) (elems 4) with
  | Ok (Threw w') => live_count w' = 30%nat /\ block_count w' = 3%nat
  | _ => False
  end /\
  match xstep debug2 w (NewCopy 0%nat) (elems 5) with
  | Ok (Threw w') => live_count w' = 31%nat /\ block_count w' = 3%nat
  | _ => False
  end /\
  xstep debug2 w (NewValue shapeC 2 0) (elems 5) = UB /\
  match xstep debug2 w (AssignValue 1%nat shapeC 2) (elems 0) with
  | Ok (Threw w') => live_count w' = 6%nat /\ block_count w' = 2%nat /\ step debug2 w' (Delete 1%nat) = UB
  | _ => False
  end /\
  match xstep debug2 w (NewValue shapeC 2 0) (elems 6) with Ok (Done w' _) => live_count w' = 32%nat | _ => False end.
Proof.
  cbv zeta. split; [apply state_reachable; [apply fair2; left; reflexivity|vm_compute; reflexivity]|].
  split; [apply argb_ok; reflexivity|]. split.
  { split.
    - vm_compute. repeat constructor; simpl; intuition discriminate.
    - intros i. split.
      + intros H. vm_compute in H. repeat (destruct H as [<-|H]; [apply boundsb_ok; reflexivity|]). destruct H.
      + intros H. unfold shapeC, in_bounds in H. assert (L : length i = 2%nat) by (clear - H; do 2 (inversion H as [|? ? ? ? _ H0]; clear H; subst; rename H0 into H); inversion H; reflexivity). destruct i as [|a [|b [|z i]]]; try discriminate.
        assert (Ha : 2 <= a < 2 + 3) by (inversion H; assumption).
        assert (Hb : -1 <= b < -1 + 2) by (inversion H; subst; match goal with G : Forall2 _ [_] _ |- _ => inversion G; assumption end).
        assert (a = 2 \/ a = 3 \/ a = 4) as [-> |[-> | ->]] by lia; assert (b = -1 \/ b = 0) as [-> | ->] by lia;
          vm_compute; tauto. }
  split; [reflexivity|]. vm_compute. auto 10.
Qed.
Lemma moves_debug :
  let w := state debug2 pre in
  reachable debug2 w /\ legal_op debug2 w (Swap 0%nat 1%nat) /\ legal_op debug2 w (Reshape 1%nat shapeC) /\
  legal_op debug2 w (NewMoveAlloc 1%nat 7%nat) /\ legal_op debug2 w (MoveAssign 0%nat 1%nat) /\
  (exists a b : arr, w_arr w 0%nat = Some a /\ w_arr w 1%nat = Some b /\ a_al a = 0%nat /\ a_al b = 1%nat) /\
  live_count w = 26%nat /\ block_count w = 2%nat /\
  match xstep debug2 w (NewMoveAlloc 0%nat 7%nat) (elems 4) with
  | Ok (Threw w') => live_count w' = 30%nat /\ block_count w' = 3%nat /\
      contents w 0%nat = [Some 5; Some 9; Some 5; Some 5; Some 5; Some 5] /\
      contents w' 0%nat = [Some (-1); Some (-1); Some 5; Some (-1); Some (-1); Some 5]
  | _ => False
  end /\
  match xstep debug2 w (MoveAssign 0%nat 1%nat) (elems 4) with
  | Ok (Threw w') => live_count w' = 24%nat /\ block_count w' = 2%nat /\ stuck debug2 w' 0%nat
  | _ => False
  end /\
  match xstep debug2 w (Swap 0%nat 1%nat) (elems 3) with
  | Ok (Threw w') => live_count w' = 29%nat /\ block_count w' = 3%nat
  | _ => False
  end /\
  match xstep debug2 w (Swap 0%nat 1%nat) (elems 22) with Ok (Threw w') => stuck debug2 w' 1%nat | _ => False end /\
  match xstep debug2 w (Swap 1%nat 0%nat) (elems 22) with Ok (Threw w') => stuck debug2 w' 1%nat | _ => False end /\
  match xstep debug2 w (Swap 1%nat 0%nat) (elems 3) with Ok (Threw w') => stuck debug2 w' 0%nat | _ => False end /\
  match xstep debug2 w (Reshape 1%nat shapeC) (elems 8) with Ok (Threw w') => stuck debug2 w' 1%nat | _ => False end /\
  match xstep debug2 w (Reshape 1%nat shapeC) (elems 12) with Ok (Done w' _) => live_count w' = 12%nat | _ => False end.
Proof.
  cbv zeta. split; [apply state_reachable; [apply fair2; left; reflexivity|vm_compute; reflexivity]|].
  do 4 (split; [apply op_okb_ok; vm_compute; reflexivity|]).
  split; [eexists; eexists; split; [vm_compute; reflexivity|split; [vm_compute; reflexivity|vm_compute; auto]]|].
  unfold stuck. vm_compute. auto 30.
Qed.
