(** An operation depends on the arrays it names only, and changes only these and new ones. *)
From Coq Require Import ZArith List Bool Lia Arith.
From Verif Require Import Base Interval Shape Traverse Memory Ref Container Throw Spec SpecMem SpecContainer
  SpecThrow Tac ContainerFacts ContainerWorld ThrowFacts.
Import ListNotations.
Open Scope Z_scope.

Section Lift.
Context {V : Type}.
Variable c : config V.
Implicit Types w : world V.

(** The arrays an operation names *)
Definition args (o : op V) : list nat :=
  match o with
  | New _ _ | NewValue _ _ _ => []
  | NewCopy y | NewCopyAlloc y _ | NewMove y | NewMoveAlloc y _ | MakeCopy y _ _ | MakeMove y _ _ => [y]
  | CopyAssign x y | MoveAssign x y | AssignCopy x y | AssignMove x y | Swap x y => [x; y]
  | AssignValue x _ _ | Clear x | Reshape x _ | Write x _ _ | Delete x => [x]
  end.

Section Names.
Variable m : nat.
Variable X : list nat.
(** [X], and the names from [m] on *)
Definition mine z : Prop := In z X \/ (m <= z)%nat.
Definition rel w w0 : Prop := w_heap w = w_heap w0 /\ w_next w = w_next w0 /\ (m <= w_next w)%nat /\
  forall z, mine z -> w_arr w z = w_arr w0 z.
Definition frame w w' : Prop := forall z, ~ mine z -> w_arr w' z = w_arr w z.
Definition lifts w w0 (r r0 : outcome (xres (world V) (world V))) : Prop :=
  match r, r0 with
  | Ok (Done w' f), Ok (Done w0' f0) => f = f0 /\ rel w' w0' /\ frame w w' /\ frame w0 w0'
  | Ok (Threw w'), Ok (Threw w0') => rel w' w0' /\ frame w w' /\ frame w0 w0'
  | AssertFail, AssertFail | UB, UB => True
  | _, _ => False
  end.
Definition lifts0 w w0 (r r0 : outcome (world V)) : Prop :=
  match r, r0 with
  | Ok w', Ok w0' => rel w' w0' /\ frame w w' /\ frame w0 w0'
  | AssertFail, AssertFail | UB, UB => True
  | _, _ => False
  end.

Lemma frame_trans w w1 w2 : frame w w1 -> frame w1 w2 -> frame w w2.
Proof. intros H1 H2 z Hz. rewrite H2, H1; auto. Qed.
Lemma lifts_from w w0 w1 w01 r r0 : frame w w1 -> frame w0 w01 -> lifts w1 w01 r r0 -> lifts w w0 r r0.
Proof.
  intros F F0. destruct r as [[w' f|w']| |], r0 as [[w0' f0|w0']| |]; cbn [lifts]; auto.
  - intros [-> [R [G G0]]]. split; auto. split; auto. split; eapply frame_trans; eauto.
  - intros [R [G G0]]. split; auto. split; eapply frame_trans; eauto.
Qed.
Lemma lifts_bind w w0 r r0 k catch : lifts w w0 r r0 ->
  (forall w1 w01 f, rel w1 w01 -> lifts w1 w01 (k w1 f) (k w01 f)) ->
  (forall w1 w01, rel w1 w01 -> lifts w1 w01 (catch w1) (catch w01)) ->
  lifts w w0 (xbind r k catch) (xbind r0 k catch).
Proof.
  intros L Hk Hc. destruct r as [[w' f|w']| |], r0 as [[w0' f0|w0']| |]; cbn [lifts xbind bind] in *; try tauto.
  - destruct L as [-> [R [G G0]]]. eapply lifts_from; eauto.
  - destruct L as [R [G G0]]. eapply lifts_from; eauto.
Qed.
Lemma lifts_get w w0 x k k0 : mine x -> rel w w0 -> (forall a, lifts w w0 (k a) (k0 a)) ->
  lifts w w0 (bind (get w x) k) (bind (get w0 x) k0).
Proof.
  intros Hx R H. unfold get. destruct R as [_ [_ [_ R]]]. rewrite (R x Hx).
  destruct (w_arr w0 x); [apply H|exact I].
Qed.
Lemma lifts0_get w w0 x k k0 : mine x -> rel w w0 -> (forall a, lifts0 w w0 (k a) (k0 a)) ->
  lifts0 w w0 (bind (get w x) k) (bind (get w0 x) k0).
Proof.
  intros Hx R H. unfold get. destruct R as [_ [_ [_ R]]]. rewrite (R x Hx).
  destruct (w_arr w0 x); [apply H|exact I].
Qed.
Lemma lifts_nothrow w w0 r r0 f : lifts0 w w0 r r0 -> lifts w w0 (nothrow r f) (nothrow r0 f).
Proof. destruct r, r0; cbn; tauto. Qed.
Lemma lifts_done w w0 r r0 f : lifts0 w w0 r r0 ->
  lifts w w0 (w4 <- r ;; Ok (Done w4 f)) (w4 <- r0 ;; Ok (Done w4 f)).
Proof. destruct r, r0; cbn; tauto. Qed.
Lemma lifts_threw w w0 r r0 : lifts0 w w0 r r0 ->
  lifts w w0 (w4 <- r ;; Ok (Threw w4)) (w4 <- r0 ;; Ok (Threw w4)).
Proof. destruct r, r0; cbn; tauto. Qed.

Lemma rel_put h g g0 x o n n0 : rel (mkW h g n) (mkW h g0 n0) -> rel (mkW h (put g x o) n) (mkW h (put g0 x o) n0).
Proof.
  intros [H1 [H2 [H3 H4]]]. split; [auto|]. split; [auto|]. split; auto. intros z Hz. cbn. unfold put.
  destruct (z =? x)%nat; [reflexivity|apply (H4 z Hz)].
Qed.
Lemma rel_heap w w0 h n : rel w w0 -> (w_next w <= n)%nat -> rel (mkW h (w_arr w) n) (mkW h (w_arr w0) n).
Proof. intros [H1 [H2 [H3 H4]]] L. split; [auto|]. split; [auto|]. split; [cbn; lia|auto]. Qed.
Lemma rel_heap' w w0 h : rel w w0 -> rel (mkW h (w_arr w) (w_next w)) (mkW h (w_arr w0) (w_next w0)).
Proof. intros R. pose proof R as [_ [<- _]]. apply rel_heap; auto. Qed.
Lemma frame_put w h g x o n : mine x -> frame w (mkW h g n) -> frame w (mkW h (put g x o) n).
Proof.
  intros Hx H z Hz. cbn. rewrite put_other; [apply (H z Hz)|]. intros ->. auto.
Qed.
Lemma frame_refl w h n : frame w (mkW h (w_arr w) n).
Proof. intros z Hz. reflexivity. Qed.
Lemma mine_next w w0 : rel w w0 -> mine (w_next w).
Proof. intros [_ [_ [H _]]]. right. auto. Qed.

Lemma lifts_add w w0 r : rel w w0 -> lifts w w0 (add_x w r) (add_x w0 r).
Proof.
  intros R. pose proof R as [_ [En _]]. pose proof (mine_next _ _ R) as Mn. unfold add_x.
  destruct r as [[[h a] f|h]| |]; cbn [xbind bind lifts]; auto.
  - split; auto. rewrite <- En. split; [apply rel_put; auto; apply rel_heap; auto|].
    split; apply frame_put; auto; apply frame_refl.
  - rewrite <- En. split; [apply rel_heap; auto|]. split; apply frame_refl.
Qed.
Lemma lifts_add2 w w0 y r : mine y -> rel w w0 -> lifts w w0 (add2_x w y r) (add2_x w0 y r).
Proof.
  intros My R. pose proof R as [_ [En _]]. pose proof (mine_next _ _ R) as Mn. unfold add2_x.
  destruct r as [[[[h a] b] f|h]| |]; cbn [xbind bind lifts]; auto.
  - split; auto. rewrite <- En. split; [do 2 apply rel_put; auto; apply rel_heap; auto|].
    split; do 2 (apply frame_put; auto); apply frame_refl.
  - rewrite <- En. split; [apply rel_heap; auto|]. split; apply frame_refl.
Qed.
Lemma lifts_change w w0 x r : mine x -> rel w w0 -> lifts w w0 (change_x w x r) (change_x w0 x r).
Proof.
  intros Mx R. unfold change_x. destruct r as [[[h a] f|[h a]]| |]; cbn [xbind bind lifts fst snd]; auto.
  - split; auto. split; [apply rel_put; auto; apply rel_heap'; auto|].
    split; apply frame_put; auto; apply frame_refl.
  - split; [apply rel_put; auto; apply rel_heap'; auto|].
    split; apply frame_put; auto; apply frame_refl.
Qed.
Lemma lifts_new w w0 s al f : rel w w0 -> lifts w w0 (do_new_x c w s al f) (do_new_x c w0 s al f).
Proof. intros R. unfold do_new_x. pose proof R as [-> [-> _]]. apply lifts_add; auto. Qed.
Lemma lifts_new_move w w0 y f : mine y -> rel w w0 -> lifts w w0 (do_new_move_x c w y f) (do_new_move_x c w0 y f).
Proof.
  intros My R. unfold do_new_move_x. apply lifts_get; auto. intros b. pose proof R as [-> [-> _]]. apply lifts_add2; auto.
Qed.
Lemma lifts_move_assign w w0 x y f : mine x -> mine y -> rel w w0 ->
  lifts w w0 (do_move_assign_x c w x y f) (do_move_assign_x c w0 x y f).
Proof.
  intros Mx My R. unfold do_move_assign_x. do 2 (apply lifts_get; auto; intros ?). pose proof R as [<- _].
  destruct (move_assign_op_x c x (w_heap w) a y a0 f) as [[[[h a'] b'] f'|[h a']]| |]; cbn [xbind bind lifts fst snd]; auto.
  - split; auto. split; [do 2 apply rel_put; auto; apply rel_heap'; auto|].
    split; do 2 (apply frame_put; auto); apply frame_refl.
  - split; [apply rel_put; auto; apply rel_heap'; auto|]. split; apply frame_put; auto; apply frame_refl.
Qed.
Lemma lifts_delete w w0 x : mine x -> rel w w0 -> lifts0 w w0 (do_delete c w x) (do_delete c w0 x).
Proof.
  intros Mx R. unfold do_delete. apply lifts0_get; auto. intros a. pose proof R as [<- _].
  destruct (deallocate c x (w_heap w) a) as [[h a']| |]; cbn [bind lifts0]; auto.
  split; [apply rel_put; auto; apply rel_heap'; auto|]. split; apply frame_put; auto; apply frame_refl.
Qed.
Lemma lifts_reshape w w0 x s f : mine x -> rel w w0 -> lifts w w0 (do_reshape_x c w x s f) (do_reshape_x c w0 x s f).
Proof.
  intros Mx R. unfold do_reshape_x. apply lifts_get; auto. intros a.
  destruct (shape_eqb (a_shape a) (resolve s)).
  { cbn. split; auto. split; auto. split; intros z _; auto. }
  pose proof (mine_next _ _ R) as Mn. pose proof R as [_ [<- _]]. set (n := w_next w) in *.
  apply lifts_bind; [apply lifts_new; auto| |].
  - intros w1 w01 f1 R1. apply lifts_get; auto. intros b. pose proof R1 as [<- _].
    destruct (move_common c (w_heap w1) a b (resolve s)) as [h2| |]; cbn [bind]; [|exact I|exact I].
    eapply lifts_from; [apply (frame_refl w1 h2 (w_next w1))|apply (frame_refl w01 h2 (w_next w01))|].
    apply lifts_bind; [apply lifts_move_assign; auto; apply rel_heap'; auto| |].
    + intros w3 w03 f3 R3. apply lifts_done. apply lifts_delete; auto.
    + intros w3 w03 R3. apply lifts_threw. apply lifts_delete; auto.
  - intros w1 w01 R1. cbn. split; auto. split; intros z _; auto.
Qed.
Lemma lifts_swap w w0 x y f : mine x -> mine y -> rel w w0 -> lifts w w0 (do_swap_x c w x y f) (do_swap_x c w0 x y f).
Proof.
  intros Mx My R. unfold do_swap_x. destruct (c_pocs c) eqn:E.
  - apply lifts_nothrow. unfold do_swap. rewrite E. do 2 (apply lifts0_get; auto; intros ?).
    destruct (swap_allocators a a0) as [a1 b1]. destruct (swap_except_allocator a1 b1) as [a2 b2].
    pose proof R as [<- _]. cbn [change2 bind lifts0].
    split; [do 2 apply rel_put; auto; apply rel_heap'; auto|].
    split; do 2 (apply frame_put; auto); apply frame_refl.
  - pose proof (mine_next _ _ R) as Mn. pose proof R as [_ [<- _]]. set (n := w_next w) in *.
    assert (Out : forall w1 w01, rel w1 w01 -> lifts w1 w01 (w4 <- do_delete c w1 n ;; Ok (Threw w4)) (w4 <- do_delete c w01 n ;; Ok (Threw w4))).
    { intros. apply lifts_threw. apply lifts_delete; auto. }
    apply lifts_bind; [apply lifts_new_move; auto| |].
    + intros w1 w01 f1 R1. apply lifts_bind; [apply lifts_move_assign; auto| |auto].
      intros w2 w02 f2 R2. apply lifts_bind; [apply lifts_move_assign; auto| |auto].
      intros w3 w03 f3 R3. apply lifts_done. apply lifts_delete; auto.
    + intros w1 w01 R1. cbn. split; auto. split; intros z _; auto.
Qed.
Lemma xstep_lifts w w0 o f : incl (args o) X -> rel w w0 -> lifts w w0 (xstep c w o f) (xstep c w0 o f).
Proof.
  intros HX R. assert (M : forall z, In z (args o) -> mine z) by (intros z Hz; left; auto).
  assert (Eh : w_heap w0 = w_heap w) by (symmetry; apply R). assert (En : w_next w0 = w_next w) by (symmetry; apply R).
  destruct o; cbn [args In] in M; cbn [xstep]; rewrite ?Eh, ?En;
    try solve [auto using lifts_new, lifts_new_move, lifts_move_assign, lifts_reshape, lifts_swap, lifts_add];
    try (apply lifts_get; [auto|auto|intros ?]); try solve [auto using lifts_add, lifts_add2, lifts_change];
    try (apply lifts_get; [auto|auto|intros ?]); try solve [auto using lifts_add, lifts_add2, lifts_change].
  - apply lifts_nothrow. cbn [step]. apply lifts0_get; auto. intros a. rewrite Eh, En.
    destruct (store (w_heap w) (ref_ptr (aref_of a) i) v) as [h'| |]; cbn [bind lifts0]; auto.
    split; [apply rel_heap; auto|]. split; apply frame_refl.
  - apply lifts_nothrow. apply lifts_delete; auto.
Qed.
End Names.
End Lift.
