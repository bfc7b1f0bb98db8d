(** Facts about exceptions. *)
From Coq Require Import ZArith List Bool Lia Permutation Arith.
From Verif Require Import Base Interval Shape Traverse Memory Ref Container Throw Spec SpecMem SpecContainer
  SpecThrow Tac ShapeFacts ResolveFacts MemFacts RefFacts SliceFacts ContainerFacts ContainerWorld.
Import ListNotations.
Open Scope Z_scope.

(** ** The throwing functions and those of Container.v *)

(** [r] returns what [r0] does, or throws with a state in [P]. *)
Definition tracks {A B : Type} (P : B -> Prop) (r : outcome (xres A B)) (r0 : outcome A) : Prop :=
  match r with
  | Ok (Done a f) => r0 = Ok a /\ b_elems f = None
  | Ok (Threw b) => P b
  | AssertFail => r0 = AssertFail
  | UB => r0 = UB
  end.
Lemma tracks_bind {A B C D} (P : B -> Prop) (Q : D -> Prop) r r0 (k : A -> budget -> outcome (xres C D)) k0 catch :
  tracks P r r0 -> (forall a f, b_elems f = None -> r0 = Ok a -> tracks Q (k a f) (k0 a)) ->
  (forall b, P b -> exists d, catch b = Ok (Threw d) /\ Q d) ->
  tracks Q (xbind r k catch) (bind r0 k0).
Proof.
  intros Hr Hk Hc. destruct r as [[a f|b]| |]; cbn [xbind bind tracks] in *.
  - destruct Hr as [-> Hf]. cbn [bind]. apply Hk; auto.
  - destruct (Hc b Hr) as [d [-> Hd]]. exact Hd.
  - rewrite Hr. auto.
  - rewrite Hr. auto.
Qed.
Lemma tracks_done {A B} (P : B -> Prop) (r0 : outcome A) f : b_elems f = None -> tracks P (nothrow r0 f) r0.
Proof. intros Hf. unfold nothrow. destruct r0; cbn; auto. Qed.
Lemma tracks_step {A A' B} (P : B -> Prop) (r0 : outcome A') (k : A' -> outcome (xres A B)) k0 :
  (forall a, r0 = Ok a -> tracks P (k a) (k0 a)) -> tracks P (bind r0 k) (bind r0 k0).
Proof. destruct r0; cbn [bind]; auto; intros; reflexivity. Qed.
Lemma tracks_weaken {A B} (P Q : B -> Prop) (r : outcome (xres A B)) r0 :
  (forall b, P b -> Q b) -> tracks P r r0 -> tracks Q r r0.
Proof. intros H. destruct r as [[a f|b]| |]; cbn [tracks]; auto. Qed.

Lemma bind_ret {A} (r : outcome A) : bind r (fun a => Ok a) = r.
Proof. destruct r; auto. Qed.

Section Tracks.
Context {V : Type}.
Variable c : config V.
Implicit Types h : heap V.

(** The members after an allocation that failed *)
Definition failed (a : arr) (s : shape) : arr :=
  mkA (a_al a) (a_busy a) (a_buf a) (flat_extent (resolve s)) (a_base a) (resolve s).

Lemma allocate_tracks x h a f : b_elems f = None ->
  tracks (fun ha => ha = (h, failed a (a_shape a))) (allocate_x c x h a f) (allocate c x h a).
Proof.
  intros Hf. unfold allocate_x, allocate. apply tracks_step. intros _ _.
  destruct (0 <? flat_extent (resolve (a_shape a))); [|cbn; auto].
  unfold alloc_get_x, alloc_get. destruct (negb (a_busy a) && _); [cbn; auto|].
  destruct (spend (b_allocs f)); [cbn; auto|]. cbn. reflexivity.
Qed.
Lemma each_tracks {A} (one : heap V -> A -> outcome (heap V)) l : forall h f, b_elems f = None ->
  tracks (fun _ => False) (construct_each one l h f) (foldM one l h).
Proof.
  induction l as [|p r IH]; intros h f Hf; cbn [construct_each foldM]; [cbn; auto|].
  rewrite Hf. cbn [spend]. apply tracks_step. intros h' _. apply IH. reflexivity.
Qed.
Lemma construct_tracks h a init f : b_elems f = None ->
  tracks (fun _ => False) (construct_x c h a init f) (construct c h a init).
Proof.
  intros Hf. unfold construct_x, construct. do 2 (apply tracks_step; intros ? _). apply each_tracks; auto.
Qed.
Lemma copy_construct_tracks h a b f : b_elems f = None ->
  tracks (fun _ => False) (copy_construct_x c h a b f) (copy_construct c h a b).
Proof.
  intros Hf. unfold copy_construct_x, copy_construct. do 3 (apply tracks_step; intros ? _). apply each_tracks; auto.
Qed.
Lemma move_construct_tracks h a b f : b_elems f = None ->
  tracks (fun _ => False) (move_construct_x c h a b f) (move_construct c h a b).
Proof.
  intros Hf. unfold move_construct_x, move_construct. do 3 (apply tracks_step; intros ? _). apply each_tracks; auto.
Qed.
Lemma ctor_shape_tracks x h al s f : b_elems f = None ->
  tracks (fun h' => h' = h) (ctor_shape_x c x h al s f) (ctor_shape c x h al s).
Proof.
  intros Hf. unfold ctor_shape_x, ctor_shape.
  eapply tracks_bind; [apply allocate_tracks; auto| |].
  - intros [h1 a] f1 Hf1 _. eapply tracks_bind; [apply construct_tracks; auto| |].
    + intros h2 f2 Hf2 _. cbn. auto.
    + intros ? [].
  - intros ha ->. eexists. split; reflexivity.
Qed.
(** After a failed [refit]: the old storage is gone *)
Definition let_go x h a (s : shape) (ha : heap V * arr) : Prop :=
  exists h1 a1, deallocate c x h a = Ok (h1, a1) /\ ha = (h1, failed a1 s).
Lemma refit_tracks same x h a s f : b_elems f = None ->
  tracks (let_go x h a s) (refit_x c same x h a s f)
    (if same then h' <- destroy c h a ;; Ok (h', a)
     else ' (h', a') <- deallocate c x h a ;; allocate c x h' (with_shape a' s)).
Proof.
  intros Hf. unfold refit_x. destruct same.
  - apply tracks_step. intros h' _. cbn. auto.
  - apply tracks_step. intros [h' a'] E. eapply tracks_weaken; [|apply allocate_tracks; auto].
    intros ha ->. exists h', a'. auto.
Qed.
Lemma assign_value_tracks x h a s init f : b_elems f = None ->
  tracks (let_go x h a (resolve s)) (assign_value_x c x h a s init f) (assign_value c x h a s init).
Proof.
  intros Hf. unfold assign_value_x, assign_value.
  eapply tracks_bind; [apply refit_tracks; auto| |eauto].
  intros [h1 a1] f1 Hf1 _. eapply tracks_bind; [apply construct_tracks; auto| |intros ? []].
  intros h2 f2 Hf2 _. cbn. auto.
Qed.
Lemma assign_copy_tracks x h a b f : b_elems f = None ->
  tracks (let_go x h a (a_shape b)) (assign_copy_x c x h a b f) (assign_copy c x h a b).
Proof.
  intros Hf. unfold assign_copy_x. destruct (ptr_eqb (a_base a) (a_base b)) eqn:E; [apply tracks_done; auto|].
  unfold assign_copy. rewrite E.
  eapply tracks_bind; [apply refit_tracks; auto| |eauto].
  intros [h1 a1] f1 Hf1 _. eapply tracks_bind; [apply copy_construct_tracks; auto| |intros ? []].
  intros h2 f2 Hf2 _. cbn. auto.
Qed.
Lemma assign_move_tracks x h a b f : b_elems f = None ->
  tracks (let_go x h a (a_shape b)) (assign_move_x c x h a b f) (assign_move c x h a b).
Proof.
  intros Hf. unfold assign_move_x. destruct (ptr_eqb (a_base a) (a_base b)) eqn:E; [apply tracks_done; auto|].
  unfold assign_move. rewrite E.
  eapply tracks_bind; [apply refit_tracks; auto| |eauto].
  intros [h1 a1] f1 Hf1 _. eapply tracks_bind; [apply move_construct_tracks; auto| |intros ? []].
  intros h2 f2 Hf2 _. cbn. auto.
Qed.
Lemma deallocate_null x h a h1 a1 : deallocate c x h a = Ok (h1, a1) -> is_null (a_base a1) = true.
Proof.
  unfold deallocate. destruct (is_null (a_base a)) eqn:E; [intros H; inv H; auto|].
  destruct (destroy c h a); cbn [bind]; [|discriminate|discriminate].
  destruct (alloc_put _ _ _ _ _ _) as [[h2 bz]| |]; cbn [bind]; [|discriminate|discriminate].
  intros H. inv H. reflexivity.
Qed.
Lemma deallocate_nothing x h a : is_null (a_base a) = true -> deallocate c x h a = Ok (h, a).
Proof. intros H. unfold deallocate. rewrite H. auto. Qed.
Lemma let_go_nothing x h a s ha : let_go x h a s ha ->
  exists h1 a1, deallocate c x h a = Ok (h1, a1) /\ fst ha = h1 /\ deallocate c x (fst ha) (snd ha) = Ok (h1, snd ha).
Proof.
  intros [h1 [a1 [E ->]]]. exists h1, a1. split; auto. cbn [fst snd]. split; auto. apply deallocate_nothing.
  cbn [failed a_base]. eapply deallocate_null; eauto.
Qed.
(** What a delegating constructor leaves *)
Definition undone x h al (h' : heap V) : Prop :=
  h' = h \/ exists h1 a a2, ctor_shape c x h al (c_shape0 c) = Ok (h1, a) /\ deallocate c x h1 a = Ok (h', a2).
Lemma ctor_value_tracks x h al s v f : b_elems f = None ->
  tracks (undone x h al) (ctor_value_x c x h al s v f) (ctor_value c x h al s v).
Proof.
  intros Hf. unfold ctor_value_x, ctor_value.
  eapply tracks_bind; [apply ctor_shape_tracks; auto| |intros h1 ->; eexists; split; [reflexivity|left; auto]].
  intros [h1 a] f1 Hf1 E.
  rewrite <- (bind_ret (assign_value c x h1 a s (fun _ => Ok v))).
  eapply tracks_bind; [apply assign_value_tracks; auto| |].
  - intros ha2 f2 Hf2 _. cbn. auto.
  - intros ha2 L. destruct (let_go_nothing _ _ _ _ _ L) as [h2 [a2 [E1 [E2 E3]]]]. rewrite E3. cbn [bind].
    eexists. split; [reflexivity|]. right. exists h1, a, a2. auto.
Qed.
Lemma ctor_copy_alloc_tracks x h b al f : b_elems f = None ->
  tracks (undone x h al) (ctor_copy_alloc_x c x h b al f) (ctor_copy_alloc c x h b al).
Proof.
  intros Hf. unfold ctor_copy_alloc_x, ctor_copy_alloc.
  eapply tracks_bind; [apply ctor_shape_tracks; auto| |intros h1 ->; eexists; split; [reflexivity|left; auto]].
  intros [h1 a] f1 Hf1 E.
  rewrite <- (bind_ret (assign_copy c x h1 a b)).
  eapply tracks_bind; [apply assign_copy_tracks; auto| |].
  - intros ha2 f2 Hf2 _. cbn. auto.
  - intros ha2 L. destruct (let_go_nothing _ _ _ _ _ L) as [h2 [a2 [E1 [E2 E3]]]]. rewrite E3. cbn [bind].
    eexists. split; [reflexivity|]. right. exists h1, a, a2. auto.
Qed.
Lemma ctor_copy_tracks x h b f : b_elems f = None ->
  tracks (fun h' => h' = h) (ctor_copy_x c x h b f) (ctor_copy c x h b).
Proof.
  intros Hf. unfold ctor_copy_x, ctor_copy.
  rewrite <- (bind_ret (assign_copy c x h _ b)).
  eapply tracks_bind; [apply assign_copy_tracks; auto| |].
  - intros ha f1 Hf1 _. cbn. auto.
  - intros ha [h1 [a1 [E ->]]]. cbn in E. inv E. eexists. split; reflexivity.
Qed.
Lemma clear_tracks x h a f : b_elems f = None ->
  tracks (let_go x h a (c_shape0 c)) (clear_x c x h a f) (clear c x h a).
Proof.
  intros Hf. unfold clear_x, clear. apply tracks_step. intros [h1 a1] E.
  eapply tracks_bind; [apply allocate_tracks; auto| |].
  - intros [h2 a2] f2 Hf2 _. eapply tracks_bind; [apply construct_tracks; auto| |intros ? []].
    intros h3 f3 Hf3 _. cbn. auto.
  - intros ha ->. eexists. split; [reflexivity|]. exists h1, a1. auto.
Qed.
Lemma move_elements_tracks x h a b f : b_elems f = None ->
  tracks (fun h' => h' = h) (move_elements_x c x h a b f)
    (' (h1, a1) <- allocate c x h (with_shape a (a_shape b)) ;; h2 <- move_construct c h1 a1 b ;; Ok (h2, a1, b)).
Proof.
  intros Hf. unfold move_elements_x.
  eapply tracks_bind; [apply allocate_tracks; auto| |intros ha ->; eexists; split; reflexivity].
  intros [h1 a1] f1 Hf1 _. eapply tracks_bind; [apply move_construct_tracks; auto| |intros ? []].
  intros h2 f2 Hf2 _. cbn. auto.
Qed.
Lemma ctor_move_tracks x h y b f : b_elems f = None ->
  tracks (fun h' => h' = h) (ctor_move_x c x h y b f) (ctor_move c x h y b).
Proof.
  intros Hf. unfold ctor_move_x.
  destruct (c_pocma c || alloc_eq _ _ _ _) eqn:E; [apply tracks_done; auto|].
  unfold ctor_move. rewrite E. apply move_elements_tracks; auto.
Qed.
Lemma ctor_move_alloc_tracks x h y b al f : b_elems f = None ->
  tracks (fun h' => h' = h) (ctor_move_alloc_x c x h y b al f) (ctor_move_alloc c x h y b al).
Proof.
  intros Hf. unfold ctor_move_alloc_x.
  destruct (alloc_eq _ _ _ _) eqn:E; [apply tracks_done; auto|].
  unfold ctor_move_alloc. rewrite E. apply move_elements_tracks; auto.
Qed.
(** After a failed copy assignment: the allocator may have been replaced *)
Definition let_go_al x h a (s : shape) (ha : heap V * arr) : Prop :=
  exists h1 a1 al, deallocate c x h a = Ok (h1, a1) /\ ha = (h1, failed (set_al a1 al) s).
Lemma deallocate_twice x h a h1 a1 h2 a2 al : deallocate c x h a = Ok (h1, a1) ->
  deallocate c x h1 (set_al a1 al) = Ok (h2, a2) -> h2 = h1 /\ a2 = set_al a1 al.
Proof.
  intros E1 E2. rewrite deallocate_nothing in E2; [inv E2; auto|]. cbn [set_al a_base]. eapply deallocate_null; eauto.
Qed.
Lemma let_go_is x h a s ha : let_go x h a s ha -> let_go_al x h a s ha.
Proof.
  intros [h1 [a1 [E ->]]]. exists h1, a1, (a_al a1). split; auto.
Qed.
Lemma copy_assign_tracks x h a y b f : (x = y -> a = b) -> b_elems f = None ->
  tracks (let_go_al x h a (a_shape b)) (copy_assign_op_x c x h a y b f) (copy_assign_op c x h a y b).
Proof.
  intros Hxy Hf. unfold copy_assign_op_x. destruct (ptr_eqb (a_base a) (a_base b)) eqn:E; [apply tracks_done; auto|].
  assert (Nxy : x <> y) by (intros I; rewrite (Hxy I), ptr_eqb_refl in E; discriminate).
  unfold copy_assign_op. rewrite E. destruct (c_pocca c); cbn [bind].
  - destruct (alloc_eq x a y b) eqn:Ea; cbn [negb bind].
    + assert (a_al b = a_al a) as ->.
      { unfold alloc_eq in Ea. destruct (a_busy a || a_busy b); apply Nat.eqb_eq in Ea; congruence. }
      replace (set_al a (a_al a)) with a by (destruct a; auto).
      eapply tracks_weaken; [|apply assign_copy_tracks; auto]. apply let_go_is.
    + destruct (deallocate c x h a) as [[h1 a1]| |] eqn:E1; cbn [bind]; try reflexivity.
      eapply tracks_weaken; [|apply assign_copy_tracks; auto]. intros ha [h2 [a2 [E2 ->]]].
      destruct (deallocate_twice _ _ _ _ _ _ _ _ E1 E2) as [-> ->].
      exists h1, a1, (a_al b). auto.
  - eapply tracks_weaken; [|apply assign_copy_tracks; auto]. apply let_go_is.
Qed.
Lemma make_copy_tracks x h src s al f : b_elems f = None ->
  tracks (fun h' => h' = h) (make_copy_x c x h src s al f) (make_copy c x h src s al).
Proof.
  intros Hf. unfold make_copy_x, make_copy.
  eapply tracks_bind; [apply ctor_shape_tracks; auto| |intros ha ->; eexists; split; reflexivity].
  intros [h1 a] f1 Hf1 _. apply tracks_step. intros h2 _. cbn. auto.
Qed.
Lemma make_move_tracks x h src s al f : b_elems f = None ->
  tracks (fun h' => h' = h) (make_move_x c x h src s al f) (make_move c x h src s al).
Proof.
  intros Hf. unfold make_move_x, make_move.
  eapply tracks_bind; [apply ctor_shape_tracks; auto| |intros ha ->; eexists; split; reflexivity].
  intros [h1 a] f1 Hf1 _. apply tracks_step. intros h2 _. cbn. auto.
Qed.
Lemma move_assign_tracks x h a y b f : b_elems f = None ->
  tracks (let_go x h a (a_shape b)) (move_assign_op_x c x h a y b f) (move_assign_op c x h a y b).
Proof.
  intros Hf. unfold move_assign_op_x.
  destruct (ptr_eqb (a_base a) (a_base b)) eqn:E1; [apply tracks_done; auto|].
  destruct (c_pocma c) eqn:E2; [apply tracks_done; auto|].
  destruct (alloc_eq x a y b) eqn:E3; [apply tracks_done; auto|].
  unfold move_assign_op. rewrite E1, E2, E3. cbn [orb].
  eapply tracks_bind; [apply assign_move_tracks; auto| |eauto].
  intros [h1 a1] f1 Hf1 _. cbn. auto.
Qed.

End Tracks.
