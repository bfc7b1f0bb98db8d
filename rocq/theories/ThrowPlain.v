(** A call that returns did what it does when nothing throws; and nothing throws without a limit. *)
From Coq Require Import ZArith List Bool Lia Arith.
From Verif Require Import Base Interval Shape Traverse Memory Ref Container Throw Spec SpecMem SpecContainer SpecThrow Tac.
Import ListNotations.
Open Scope Z_scope.

Definition follows {A B : Type} (f : budget) (r : outcome (xres A B)) (r0 : outcome A) : Prop :=
  (forall a f', r = Ok (Done a f') -> r0 = Ok a) /\ (f = unlimited -> r = nothrow r0 unlimited).

Lemma follows_bind {A B C D} f (r : outcome (xres A B)) r0 (k : A -> budget -> outcome (xres C D)) k0 catch :
  follows f r r0 -> (forall a f', follows f' (k a f') (k0 a)) -> (forall b d f', catch b <> Ok (Done d f')) ->
  follows f (xbind r k catch) (bind r0 k0).
Proof.
  intros [H1 H2] Hk Hc. split.
  - intros d f'. destruct r as [[a f1|b]| |]; cbn [xbind bind]; try discriminate.
    + intros E. rewrite (H1 a f1 eq_refl). cbn [bind]. apply (proj1 (Hk a f1) d f' E).
    + intros E. destruct (Hc b d f' E).
  - intros E. rewrite (H2 E). destruct r0 as [a| |]; cbn [nothrow bind xbind]; auto. apply (Hk a unlimited); auto.
Qed.
Lemma follows_step {A A' B} f (r0 : outcome A') (k : A' -> outcome (xres A B)) k0 :
  (forall a, follows f (k a) (k0 a)) -> follows f (bind r0 k) (bind r0 k0).
Proof. intros H. destruct r0; cbn [bind]; [apply H| |]; split; auto; discriminate. Qed.
Lemma follows_nothrow {A B} f (r0 : outcome A) : @follows A B f (nothrow r0 f) r0.
Proof.
  split; [|intros ->; auto]. intros a f'. destruct r0; cbn [nothrow bind]; [|discriminate|discriminate].
  intros H. inv H. auto.
Qed.
Lemma follows_done {A B} f (a : A) : @follows A B f (Ok (Done a f)) (Ok a).
Proof. apply (follows_nothrow f (Ok a)). Qed.
Lemma follows_ret {A B C} f (r : outcome (xres A B)) (r0 : outcome A) (catch : B -> outcome (xres A C)) :
  follows f r r0 -> (forall b d f', catch b <> Ok (Done d f')) -> follows f (xbind r (fun a f' => Ok (Done a f')) catch) r0.
Proof.
  intros H Hc. replace r0 with (bind r0 (fun a => Ok a)) by (destruct r0; auto).
  apply follows_bind; auto. intros. apply follows_done.
Qed.
Lemma follows_map {A B C D} f (r : outcome (xres A B)) r0 (g : A -> C) (catch : B -> outcome (xres C D)) :
  follows f r r0 -> (forall b d f', catch b <> Ok (Done d f')) ->
  follows f (xbind r (fun a f' => Ok (Done (g a) f')) catch) (a <- r0 ;; Ok (g a)).
Proof. intros H Hc. apply follows_bind; auto. intros. apply follows_done. Qed.

Section Plain.
Context {V : Type}.
Variable c : config V.

Ltac catches := intros; first [discriminate | cbn; discriminate].

Lemma allocate_follows x h a f : follows f (allocate_x c x h a f) (allocate c x h a).
Proof.
  unfold allocate_x, allocate. apply follows_step. intros _.
  destruct (0 <? flat_extent (resolve (a_shape a))); [|apply follows_done].
  unfold alloc_get_x, alloc_get. destruct (negb (a_busy a) && (flat_extent (resolve (a_shape a)) <=? c_cap c)).
  - destruct (alloc_block h (Inline x) _) as [h' p]. apply follows_done.
  - destruct (alloc_block h (Base (a_al a)) _) as [h' p].
    split.
    + intros b f'. destruct (spend (b_allocs f)); [|discriminate]. intros H. inv H. auto.
    + intros ->. reflexivity.
Qed.
Lemma each_follows {A} (one : heap V -> A -> outcome (heap V)) l : forall h f,
  follows f (construct_each one l h f) (foldM one l h).
Proof.
  induction l as [|p r IH]; intros h f; cbn [construct_each foldM]; [apply follows_done|].
  destruct (spend (b_elems f)) as [m|] eqn:E.
  - destruct (one h p) as [h'| |]; cbn [bind]; [|split; auto; discriminate|split; auto; discriminate].
    destruct (IH h' (mkBud (b_allocs f) m)) as [H1 H2]. split; auto.
    intros ->. apply H2. cbn in E. inv E. reflexivity.
  - split; [discriminate|]. intros ->. discriminate.
Qed.
Lemma construct_follows h a init f : follows f (construct_x c h a init f) (construct c h a init).
Proof. unfold construct_x, construct. do 2 (apply follows_step; intros ?). apply each_follows. Qed.
Lemma copy_construct_follows h a b f : follows f (copy_construct_x c h a b f) (copy_construct c h a b).
Proof. unfold copy_construct_x, copy_construct. do 3 (apply follows_step; intros ?). apply each_follows. Qed.
Lemma move_construct_follows h a b f : follows f (move_construct_x c h a b f) (move_construct c h a b).
Proof. unfold move_construct_x, move_construct. do 3 (apply follows_step; intros ?). apply each_follows. Qed.
Lemma ctor_shape_follows x h al s f : follows f (ctor_shape_x c x h al s f) (ctor_shape c x h al s).
Proof.
  unfold ctor_shape_x, ctor_shape. apply follows_bind; [apply allocate_follows| |catches].
  intros [h1 a] f1. apply follows_map; [apply construct_follows|catches].
Qed.
Lemma refit_follows same x h a s f : follows f (refit_x c same x h a s f)
    (if same then h' <- destroy c h a ;; Ok (h', a)
     else ' (h', a') <- deallocate c x h a ;; allocate c x h' (with_shape a' s)).
Proof.
  unfold refit_x. destruct same; apply follows_step.
  - intros h'. apply follows_done.
  - intros [h' a']. apply allocate_follows.
Qed.
Lemma assign_value_follows x h a s init f : follows f (assign_value_x c x h a s init f) (assign_value c x h a s init).
Proof.
  unfold assign_value_x, assign_value. apply follows_bind; [apply refit_follows| |catches].
  intros [h1 a1] f1. apply follows_map; [apply construct_follows|catches].
Qed.
Lemma assign_copy_follows x h a b f : follows f (assign_copy_x c x h a b f) (assign_copy c x h a b).
Proof.
  unfold assign_copy_x. destruct (ptr_eqb (a_base a) (a_base b)) eqn:E; [apply follows_nothrow|].
  unfold assign_copy. rewrite E. apply follows_bind; [apply refit_follows| |catches].
  intros [h1 a1] f1. apply follows_map; [apply copy_construct_follows|catches].
Qed.
Lemma assign_move_follows x h a b f : follows f (assign_move_x c x h a b f) (assign_move c x h a b).
Proof.
  unfold assign_move_x. destruct (ptr_eqb (a_base a) (a_base b)) eqn:E; [apply follows_nothrow|].
  unfold assign_move. rewrite E. apply follows_bind; [apply refit_follows| |catches].
  intros [h1 a1] f1. apply follows_map; [apply move_construct_follows|catches].
Qed.
Lemma dealloc_catch {A} x (ha : heap V * arr) (d : A) f' :
  (' (h2, _) <- deallocate c x (fst ha) (snd ha) ;; Ok (Threw h2)) <> Ok (Done d f').
Proof. destruct (deallocate c x (fst ha) (snd ha)) as [[h2 a2]| |]; cbn; discriminate. Qed.
Lemma ctor_value_follows x h al s v f : follows f (ctor_value_x c x h al s v f) (ctor_value c x h al s v).
Proof.
  unfold ctor_value_x, ctor_value. apply follows_bind; [apply ctor_shape_follows| |catches].
  intros [h1 a] f1. apply follows_ret; [apply assign_value_follows|]. intros. apply dealloc_catch.
Qed.
Lemma ctor_copy_alloc_follows x h b al f : follows f (ctor_copy_alloc_x c x h b al f) (ctor_copy_alloc c x h b al).
Proof.
  unfold ctor_copy_alloc_x, ctor_copy_alloc. apply follows_bind; [apply ctor_shape_follows| |catches].
  intros [h1 a] f1. apply follows_ret; [apply assign_copy_follows|]. intros. apply dealloc_catch.
Qed.
Lemma ctor_copy_follows x h b f : follows f (ctor_copy_x c x h b f) (ctor_copy c x h b).
Proof. unfold ctor_copy_x, ctor_copy. apply follows_ret; [apply assign_copy_follows|catches]. Qed.
Lemma clear_follows x h a f : follows f (clear_x c x h a f) (clear c x h a).
Proof.
  unfold clear_x, clear. apply follows_step. intros [h1 a1]. apply follows_bind; [apply allocate_follows| |catches].
  intros [h2 a2] f2. apply follows_map; [apply construct_follows|catches].
Qed.
Lemma move_elements_follows x h a b f : follows f (move_elements_x c x h a b f)
    (' (h1, a1) <- allocate c x h (with_shape a (a_shape b)) ;; h2 <- move_construct c h1 a1 b ;; Ok (h2, a1, b)).
Proof.
  unfold move_elements_x. apply follows_bind; [apply allocate_follows| |catches].
  intros [h1 a1] f1. apply (follows_map f1 (move_construct_x c h1 a1 b f1) _ (fun h2 => (h2, a1, b))); [apply move_construct_follows|catches].
Qed.
Lemma ctor_move_follows x h y b f : follows f (ctor_move_x c x h y b f) (ctor_move c x h y b).
Proof.
  unfold ctor_move_x. destruct (c_pocma c || alloc_eq _ _ _ _) eqn:E; [apply follows_nothrow|].
  unfold ctor_move. rewrite E. apply move_elements_follows.
Qed.
Lemma ctor_move_alloc_follows x h y b al f : follows f (ctor_move_alloc_x c x h y b al f) (ctor_move_alloc c x h y b al).
Proof.
  unfold ctor_move_alloc_x. destruct (alloc_eq _ _ _ _) eqn:E; [apply follows_nothrow|].
  unfold ctor_move_alloc. rewrite E. apply move_elements_follows.
Qed.
Lemma copy_assign_follows x h a y b f : follows f (copy_assign_op_x c x h a y b f) (copy_assign_op c x h a y b).
Proof.
  unfold copy_assign_op_x. destruct (ptr_eqb (a_base a) (a_base b)) eqn:E; [apply follows_nothrow|].
  unfold copy_assign_op. rewrite E. apply follows_step. intros [h1 a1]. apply assign_copy_follows.
Qed.
Lemma move_assign_follows x h a y b f : follows f (move_assign_op_x c x h a y b f) (move_assign_op c x h a y b).
Proof.
  unfold move_assign_op_x.
  destruct (ptr_eqb (a_base a) (a_base b)) eqn:E1; [apply follows_nothrow|].
  destruct (c_pocma c) eqn:E2; [apply follows_nothrow|].
  destruct (alloc_eq x a y b) eqn:E3; [apply follows_nothrow|].
  unfold move_assign_op. rewrite E1, E2, E3. cbn [orb].
  apply follows_bind; [apply assign_move_follows| |catches]. intros [h1 a1] f1. apply follows_done.
Qed.
Lemma make_copy_follows x h src s al f : follows f (make_copy_x c x h src s al f) (make_copy c x h src s al).
Proof.
  unfold make_copy_x, make_copy. apply follows_bind; [apply ctor_shape_follows| |catches].
  intros [h1 a] f1. apply follows_step. intros h2. apply follows_done.
Qed.
Lemma make_move_follows x h src s al f : follows f (make_move_x c x h src s al f) (make_move c x h src s al).
Proof.
  unfold make_move_x, make_move. apply follows_bind; [apply ctor_shape_follows| |catches].
  intros [h1 a] f1. apply follows_step. intros h2. apply follows_done.
Qed.

Lemma add_follows (w : world V) r r0 f : follows f r r0 -> follows f (add_x w r) (add w r0).
Proof.
  intros H. unfold add_x, add. apply follows_bind; [auto| |catches]. intros [h a] f1. apply follows_done.
Qed.
Lemma add2_follows (w : world V) y r r0 f : follows f r r0 -> follows f (add2_x w y r) (add2 w y r0).
Proof.
  intros H. unfold add2_x, add2. apply follows_bind; [auto| |catches]. intros [[h a] b] f1. apply follows_done.
Qed.
Lemma change_follows (w : world V) x r r0 f : follows f r r0 -> follows f (change_x w x r) (change w x r0).
Proof.
  intros H. unfold change_x, change. apply follows_bind; [auto| |catches]. intros [h a] f1. apply follows_done.
Qed.
Lemma do_new_follows (w : world V) s al f : follows f (do_new_x c w s al f) (do_new c w s al).
Proof. unfold do_new_x, do_new. apply add_follows, ctor_shape_follows. Qed.
Lemma do_move_assign_follows (w : world V) x y f : follows f (do_move_assign_x c w x y f) (do_move_assign c w x y).
Proof.
  unfold do_move_assign_x, do_move_assign. do 2 (apply follows_step; intros ?).
  unfold change2. apply follows_bind; [apply move_assign_follows| |catches]. intros [[h' a'] b'] f1. apply follows_done.
Qed.
Lemma delete_catch (w : world V) n {A} (d : A) f' : (w4 <- do_delete c w n ;; Ok (Threw w4)) <> Ok (Done d f').
Proof. destruct (do_delete c w n); cbn; discriminate. Qed.
Lemma delete_follows (w : world V) n f : @follows (world V) (world V) f (w4 <- do_delete c w n ;; Ok (Done w4 f)) (do_delete c w n).
Proof. apply (follows_nothrow f (do_delete c w n)). Qed.
Lemma do_reshape_follows (w : world V) x s f : follows f (do_reshape_x c w x s f) (do_reshape c w x s).
Proof.
  unfold do_reshape_x, do_reshape. apply follows_step. intros a.
  destruct (shape_eqb (a_shape a) (resolve s)); [apply follows_done|].
  apply follows_bind; [unfold do_new_x, do_new; apply add_follows, ctor_shape_follows| |catches].
  intros w1 f1. do 2 (apply follows_step; intros ?).
  apply follows_bind; [apply do_move_assign_follows| |].
  - intros w3 f3. apply delete_follows.
  - intros. apply delete_catch.
Qed.
Lemma do_new_move_follows (w : world V) y f : follows f (do_new_move_x c w y f) (do_new_move c w y).
Proof. unfold do_new_move_x, do_new_move. apply follows_step. intros b. apply add2_follows, ctor_move_follows. Qed.
Lemma do_swap_follows (w : world V) x y f : follows f (do_swap_x c w x y f) (do_swap c w x y).
Proof.
  unfold do_swap_x. destruct (c_pocs c) eqn:E; [apply follows_nothrow|]. unfold do_swap. rewrite E.
  apply follows_bind; [apply do_new_move_follows| |catches]. intros w1 f1.
  apply follows_bind; [apply do_move_assign_follows| |intros; apply delete_catch]. intros w2 f2.
  apply follows_bind; [apply do_move_assign_follows| |intros; apply delete_catch]. intros w3 f3. apply delete_follows.
Qed.
Lemma xstep_follows (w : world V) o f : follows f (xstep c w o f) (step c w o).
Proof.
  destruct o; cbn [xstep step].
  - apply add_follows, ctor_shape_follows.
  - apply add_follows, ctor_value_follows.
  - apply follows_step. intros b. apply add_follows, ctor_copy_follows.
  - apply follows_step. intros b. apply add_follows, ctor_copy_alloc_follows.
  - apply do_new_move_follows.
  - apply follows_step. intros b. apply add2_follows, ctor_move_alloc_follows.
  - apply follows_step. intros b. apply add_follows, make_copy_follows.
  - apply follows_step. intros b. apply add_follows, make_move_follows.
  - do 2 (apply follows_step; intros ?). apply change_follows, copy_assign_follows.
  - apply do_move_assign_follows.
  - do 2 (apply follows_step; intros ?). apply change_follows, assign_copy_follows.
  - do 2 (apply follows_step; intros ?). apply change_follows, assign_move_follows.
  - apply follows_step; intros ?. apply change_follows, assign_value_follows.
  - apply follows_step; intros ?. apply change_follows, clear_follows.
  - apply do_reshape_follows.
  - apply do_swap_follows.
  - apply follows_nothrow.
  - apply follows_nothrow.
Qed.
End Plain.
