(** The container and the algorithms do not look at the values of the elements. *)
From Coq Require Import ZArith List Bool Lia Arith.
From Verif Require Import Base Interval Shape Traverse Memory Ref Container Program Tac SpecParam.
Import ListNotations.
Open Scope Z_scope.

Lemma rel_bind {A B A' B'} (P : A -> B -> Prop) (Q : A' -> B' -> Prop) r r' f f' :
  rel_out P r r' -> (forall a b, P a b -> rel_out Q (f a) (f' b)) -> rel_out Q (bind r f) (bind r' f').
Proof. destruct r, r'; simpl; try tauto. intros H1 H2. apply H2, H1. Qed.
Lemma rel_refl {A} (r : outcome A) : rel_out eq r r.
Proof. destruct r; simpl; auto. Qed.
Lemma rel_same {A A' B'} (Q : A' -> B' -> Prop) (r : outcome A) f f' :
  (forall a, rel_out Q (f a) (f' a)) -> rel_out Q (bind r f) (bind r f').
Proof. intros H. destruct r; simpl; auto. Qed.
Lemma rel_fold {A S S'} (P : S -> S' -> Prop) (f : S -> A -> outcome S) (f' : S' -> A -> outcome S') l :
  (forall s s' a, P s s' -> rel_out P (f s a) (f' s' a)) ->
  forall s s', P s s' -> rel_out P (foldM f l s) (foldM f' l s').
Proof.
  intros H. induction l as [|a l IH]; intros s s' Hs; simpl; auto.
  eapply rel_bind; [apply H, Hs|]. intros b b' Hb. apply IH, Hb.
Qed.

Section Param.
Context {V W : Type}.
Variable R : V -> W -> Prop.
Notation HR := (rel_heap R).

Lemma rel_peek h h' p : HR h h' ->
  match peek h p, peek h' p with
  | None, None => True | Some x, Some y => rel_cell R x y | _, _ => False end.
Proof.
  intros [_ H]. unfold peek. destruct (fst p) as [|n] eqn:E; auto. specialize (H (S n)).
  destruct (h_blk h (S n)) as [b|], (h_blk h' (S n)) as [b'|]; try tauto.
  destruct H as [_ [Hs Hc]]. rewrite Hs. destruct ((0 <=? snd p) && (snd p <? b_size b')); auto.
Qed.
Lemma rel_upd h h' p x y : HR h h' -> rel_cell R x y -> HR (upd h p x) (upd h' p y).
Proof.
  intros [H1 H2] Hc. split; auto. intros k. unfold upd. cbn [h_blk]. specialize (H2 k).
  destruct (k =? fst p)%nat; auto.
  destruct (h_blk h k) as [b|], (h_blk h' k) as [b'|]; try tauto.
  destruct H2 as [A [B C]]. split; [exact A|]. split; [exact B|]. intros i. cbn [b_cell]. destruct (i =? snd p); auto.
Qed.
Lemma rel_load h h' p : HR h h' -> rel_out R (load h p) (load h' p).
Proof.
  intros H. apply (rel_peek _ _ p) in H. unfold load.
  destruct (peek h p) as [[|v]|], (peek h' p) as [[|v']|]; simpl in *; tauto.
Qed.
Lemma rel_store h h' p v v' : HR h h' -> R v v' -> rel_out HR (store h p v) (store h' p v').
Proof.
  intros H Hv. pose proof (rel_peek _ _ p H) as G. unfold store.
  destruct (peek h p) as [[|u]|], (peek h' p) as [[|u']|]; simpl in *; try tauto. apply rel_upd; auto.
Qed.
Lemma rel_construct_at h h' p v v' : HR h h' -> R v v' -> rel_out HR (construct_at h p v) (construct_at h' p v').
Proof.
  intros H Hv. pose proof (rel_peek _ _ p H) as G. unfold construct_at.
  destruct (peek h p) as [[|u]|], (peek h' p) as [[|u']|]; simpl in *; try tauto. apply rel_upd; auto.
Qed.
Lemma rel_destroy_at h h' p : HR h h' -> rel_out HR (destroy_at h p) (destroy_at h' p).
Proof.
  intros H. pose proof (rel_peek _ _ p H) as G. unfold destroy_at.
  destruct (peek h p) as [[|u]|], (peek h' p) as [[|u']|]; simpl in *; try tauto. apply rel_upd; simpl; auto.
Qed.
Lemma rel_alloc h h' o n : HR h h' ->
  HR (fst (alloc_block h o n)) (fst (alloc_block h' o n)) /\ snd (alloc_block h o n) = snd (alloc_block h' o n).
Proof.
  intros [H1 H2]. unfold alloc_block. cbn [fst snd]. rewrite H1. split; auto. split; cbn [h_next h_blk]; auto.
  intros k. destruct (k =? h_next h')%nat; [|apply H2]. split; auto. split; auto. simpl. auto.
Qed.
Lemma rel_no_live b b' : rel_block R b b' -> no_live b = no_live b'.
Proof.
  intros [_ [E H]]. unfold no_live. rewrite E. induction (zseq 0 (Z.to_nat (b_size b'))) as [|x l IH]; simpl; auto.
  rewrite IH. f_equal. specialize (H x). destruct (b_cell b x), (b_cell b' x); simpl in *; tauto.
Qed.
Lemma rel_free h h' o p n : HR h h' -> rel_out HR (free_block h o p n) (free_block h' o p n).
Proof.
  intros [H1 H2]. unfold free_block. destruct (fst p) as [|k]; [simpl; auto|]. pose proof (H2 (S k)) as G.
  destruct (h_blk h (S k)) as [b|], (h_blk h' (S k)) as [b'|]; try (simpl; tauto).
  rewrite (rel_no_live _ _ G). destruct G as [A [B _]]. rewrite A, B.
  destruct ((snd p =? 0) && (b_size b' =? n) && owner_eqb (b_owner b') o && no_live b'); [|simpl; auto].
  split; auto. cbn [h_blk]. intros j. destruct (j =? S k)%nat; auto. apply H2.
Qed.

Variables (c : config V) (c' : config W).
Hypothesis Hc : rel_config R c c'.
Definition HA {A} (r : heap V * A) (r' : heap W * A) : Prop := HR (fst r) (fst r') /\ snd r = snd r'.
Definition HA2 {A B} (r : heap V * A * B) (r' : heap W * A * B) : Prop :=
  HR (fst (fst r)) (fst (fst r')) /\ snd (fst r) = snd (fst r') /\ snd r = snd r'.

Lemma r_nd : c_ndebug c = c_ndebug c'. Proof. apply Hc. Qed.
Lemma r_pocca : c_pocca c = c_pocca c'. Proof. apply Hc. Qed.
Lemma r_pocma : c_pocma c = c_pocma c'. Proof. apply Hc. Qed.
Lemma r_pocs : c_pocs c = c_pocs c'. Proof. apply Hc. Qed.
Lemma r_select a : c_select c a = c_select c' a. Proof. apply Hc. Qed.
Lemma r_default : c_default c = c_default c'. Proof. apply Hc. Qed.
Lemma r_cap : c_cap c = c_cap c'. Proof. apply Hc. Qed.
Lemma r_shape0 : c_shape0 c = c_shape0 c'. Proof. apply Hc. Qed.
Lemma r_dv : R (c_dv c) (c_dv c'). Proof. apply Hc. Qed.
Lemma r_mv v v' : R v v' -> R (c_mv c v) (c_mv c' v'). Proof. apply Hc. Qed.
Ltac cfg := rewrite ?r_nd, ?r_pocca, ?r_pocma, ?r_pocs, ?r_default, ?r_cap, ?r_shape0, ?r_select in *.

Lemma rel_alloc_get x h h' a n : HR h h' -> HA2 (alloc_get c x h a n) (alloc_get c' x h' a n).
Proof.
  intros H. unfold alloc_get. cfg. destruct (negb (a_busy a) && (n <=? c_cap c')).
  - destruct (rel_alloc h h' (Inline x) n H) as [A B]. destruct (alloc_block h _ n), (alloc_block h' _ n).
    split; [exact A|]. split; [reflexivity|exact B].
  - destruct (rel_alloc h h' (Base (a_al a)) n H) as [A B]. destruct (alloc_block h _ n), (alloc_block h' _ n).
    split; [exact A|]. split; [reflexivity|exact B].
Qed.
Lemma rel_alloc_put x h h' a p n : HR h h' -> rel_out HA (alloc_put c x h a p n) (alloc_put c' x h' a p n).
Proof.
  intros H. unfold alloc_put, inline_block. cfg. pose proof (proj2 H (fst p)) as G.
  assert (N : rel_out (@HA bool) (h1 <- free_block h (Base (a_al a)) p n ;; Ok (h1, a_busy a))
                         (h1 <- free_block h' (Base (a_al a)) p n ;; Ok (h1, a_busy a))).
  { eapply rel_bind; [apply rel_free, H|]. intros g g' Hg. split; auto. }
  destruct (h_blk h (fst p)) as [b|], (h_blk h' (fst p)) as [b'|]; try tauto.
  destruct G as [A [B _]]. rewrite A. destruct (owner_eqb (b_owner b') (Inline x) && (snd p =? 0)); auto.
  apply rel_same. intros _. rewrite B. eapply rel_bind; [apply rel_free, H|]. intros g g' Hg. split; auto.
Qed.
Lemma rel_allocate x h h' a : HR h h' -> rel_out HA (allocate c x h a) (allocate c' x h' a).
Proof.
  intros H. unfold allocate. cfg. apply rel_same. intros _. cbv zeta.
  destruct (0 <? flat_extent (resolve (a_shape a))); [|split; auto].
  pose proof (rel_alloc_get x h h' a (flat_extent (resolve (a_shape a))) H) as G.
  destruct (alloc_get c x h a _) as [[h1 b1] p1], (alloc_get c' x h' a _) as [[h2 b2] p2].
  destruct G as [A [B C]]. cbn [fst snd] in *. subst. split; auto.
Qed.
Lemma rel_construct h h' a i i' : HR h h' -> (forall h h', HR h h' -> rel_out R (i h) (i' h')) ->
  rel_out HR (construct c h a i) (construct c' h' a i').
Proof.
  intros H Hi. unfold construct. cfg. apply rel_same. intros _. apply rel_same. intros l.
  apply rel_fold; auto. intros s s' p Hs. eapply rel_bind; [apply Hi, Hs|]. intros v v' Hv. apply rel_construct_at; auto.
Qed.
Lemma rel_construct_default h h' a : HR h h' -> rel_out HR (construct_default c h a) (construct_default c' h' a).
Proof. intros H. apply rel_construct; auto. intros. apply r_dv. Qed.
Lemma rel_copy_construct h h' a b : HR h h' -> rel_out HR (copy_construct c h a b) (copy_construct c' h' a b).
Proof.
  intros H. unfold copy_construct. cfg. do 2 (apply rel_same; intros _). apply rel_same. intros l.
  apply rel_fold; auto. intros s s' p Hs. eapply rel_bind; [apply rel_load, Hs|]. intros v v' Hv. apply rel_construct_at; auto.
Qed.
Lemma rel_move_construct h h' a b : HR h h' -> rel_out HR (move_construct c h a b) (move_construct c' h' a b).
Proof.
  intros H. unfold move_construct. cfg. do 2 (apply rel_same; intros _). apply rel_same. intros l.
  apply rel_fold; auto. intros s s' p Hs. eapply rel_bind; [apply rel_load, Hs|]. intros v v' Hv.
  eapply rel_bind; [apply rel_construct_at; eauto|]. intros g g' Hg. apply rel_store; auto. apply r_mv; auto.
Qed.
Lemma rel_destroy h h' a : HR h h' -> rel_out HR (destroy c h a) (destroy c' h' a).
Proof.
  intros H. unfold destroy. cfg. apply rel_same. intros _. apply rel_same. intros l.
  apply rel_fold; auto. intros. apply rel_destroy_at; auto.
Qed.
(* A step that returns a heap and something else *)
Ltac pairs Q := let g := fresh "g" in let b := fresh "b" in let g' := fresh "g'" in let b' := fresh "b'" in
  let A := fresh "A" in let B := fresh "B" in
  eapply rel_bind; [apply Q; eauto|]; intros [g b] [g' b'] [A B]; cbn [fst snd] in A, B; subst b'.
Lemma rel_deallocate x h h' a : HR h h' -> rel_out HA (deallocate c x h a) (deallocate c' x h' a).
Proof.
  intros H. unfold deallocate. cfg. destruct (is_null (a_base a)); [split; auto|].
  eapply rel_bind; [apply rel_destroy, H|]. intros g g' Hg. cbv zeta. pairs rel_alloc_put. split; auto.
Qed.
Lemma rel_ctor_shape x h h' al s : HR h h' -> rel_out HA (ctor_shape c x h al s) (ctor_shape c' x h' al s).
Proof.
  intros H. unfold ctor_shape. pairs rel_allocate. eapply rel_bind; [apply rel_construct_default; eauto|]. split; auto.
Qed.
Lemma rel_assign_value x h h' a s i i' : HR h h' -> (forall h h', HR h h' -> rel_out R (i h) (i' h')) ->
  rel_out HA (assign_value c x h a s i) (assign_value c' x h' a s i').
Proof.
  intros H Hi. unfold assign_value. cbv zeta. eapply rel_bind with (P := HA).
  - destruct (shape_eqb (a_shape a) (resolve s)).
    + eapply rel_bind; [apply rel_destroy, H|]. split; auto.
    + pairs rel_deallocate. apply rel_allocate; auto.
  - intros [g b] [g' b'] [A B]. cbn [fst snd] in A, B. subst b'.
    eapply rel_bind; [apply rel_construct; eauto|]. split; auto.
Qed.
Lemma rel_ctor_value x h h' al s v v' : HR h h' -> R v v' -> rel_out HA (ctor_value c x h al s v) (ctor_value c' x h' al s v').
Proof. intros H Hv. unfold ctor_value. cfg. pairs rel_ctor_shape. apply rel_assign_value; auto. Qed.
Lemma rel_assign_copy x h h' a b : HR h h' -> rel_out HA (assign_copy c x h a b) (assign_copy c' x h' a b).
Proof.
  intros H. unfold assign_copy. cfg. cbv zeta. destruct (ptr_eqb (a_base a) (a_base b)).
  { destruct (negb (is_null (a_base a))); apply rel_same; intros _; split; auto. }
  eapply rel_bind with (P := HA).
  - destruct (negb (is_null (a_base a)) && shape_eqb (a_shape a) (a_shape b)).
    + eapply rel_bind; [apply rel_destroy, H|]. split; auto.
    + pairs rel_deallocate. apply rel_allocate; auto.
  - intros [g d] [g' d'] [A B]. cbn [fst snd] in A, B. subst d'.
    eapply rel_bind; [apply rel_copy_construct; eauto|]. split; auto.
Qed.
Lemma rel_assign_move x h h' a b : HR h h' -> rel_out HA (assign_move c x h a b) (assign_move c' x h' a b).
Proof.
  intros H. unfold assign_move. cfg. cbv zeta. destruct (ptr_eqb (a_base a) (a_base b)).
  { destruct (negb (is_null (a_base a))); apply rel_same; intros _; split; auto. }
  eapply rel_bind with (P := HA).
  - destruct (negb (is_null (a_base a)) && shape_eqb (a_shape a) (a_shape b)).
    + eapply rel_bind; [apply rel_destroy, H|]. split; auto.
    + pairs rel_deallocate. apply rel_allocate; auto.
  - intros [g d] [g' d'] [A B]. cbn [fst snd] in A, B. subst d'.
    eapply rel_bind; [apply rel_move_construct; eauto|]. split; auto.
Qed.
Lemma rel_ctor_copy x h h' b : HR h h' -> rel_out HA (ctor_copy c x h b) (ctor_copy c' x h' b).
Proof. intros H. unfold ctor_copy. cfg. apply rel_assign_copy; auto. Qed.
Lemma rel_ctor_copy_alloc x h h' b al : HR h h' -> rel_out HA (ctor_copy_alloc c x h b al) (ctor_copy_alloc c' x h' b al).
Proof. intros H. unfold ctor_copy_alloc. cfg. pairs rel_ctor_shape. apply rel_assign_copy; auto. Qed.
Lemma rel_move_elements x h h' a b : HR h h' ->
  rel_out HA2 (' (h1, a1) <- allocate c x h a ;; h2 <- move_construct c h1 a1 b ;; Ok (h2, a1, b))
              (' (h1, a1) <- allocate c' x h' a ;; h2 <- move_construct c' h1 a1 b ;; Ok (h2, a1, b)).
Proof.
  intros H. pairs rel_allocate. eapply rel_bind; [apply rel_move_construct; eauto|]. split; auto.
Qed.
Lemma rel_ctor_move x h h' y b : HR h h' -> rel_out HA2 (ctor_move c x h y b) (ctor_move c' x h' y b).
Proof.
  intros H. unfold ctor_move. cfg. cbv zeta.
  destruct (c_pocma c' || alloc_eq x (blank (if c_pocma c' then a_al b else c_default c') (c_shape0 c')) y b).
  - split; auto.
  - apply rel_move_elements; auto.
Qed.
Lemma rel_ctor_move_alloc x h h' y b al : HR h h' -> rel_out HA2 (ctor_move_alloc c x h y b al) (ctor_move_alloc c' x h' y b al).
Proof.
  intros H. unfold ctor_move_alloc. cfg. cbv zeta. destruct (alloc_eq x (blank al (c_shape0 c')) y b).
  - split; auto.
  - apply rel_move_elements; auto.
Qed.
Lemma rel_copy_assign x h h' a y b : HR h h' -> rel_out HA (copy_assign_op c x h a y b) (copy_assign_op c' x h' a y b).
Proof.
  intros H. unfold copy_assign_op. cfg. cbv zeta. destruct (ptr_eqb (a_base a) (a_base b)).
  { destruct (negb (is_null (a_base a))); apply rel_same; intros _; split; auto. }
  eapply rel_bind with (P := HA).
  - destruct (c_pocca c'); [|split; auto]. eapply rel_bind with (P := HA).
    + destruct (negb (alloc_eq x a y b)); [apply rel_deallocate; auto|split; auto].
    + intros [g d] [g' d'] [A B]. cbn [fst snd] in A, B. subst d'. split; auto.
  - intros [g d] [g' d'] [A B]. cbn [fst snd] in A, B. subst d'. apply rel_assign_copy; auto.
Qed.
Lemma rel_move_assign x h h' a y b : HR h h' -> rel_out HA2 (move_assign_op c x h a y b) (move_assign_op c' x h' a y b).
Proof.
  intros H. unfold move_assign_op. cfg. cbv zeta. destruct (ptr_eqb (a_base a) (a_base b)).
  { destruct (negb (is_null (a_base a))); apply rel_same; intros _; split; auto. }
  destruct (c_pocma c'); [split; auto|]. destruct (alloc_eq x a y b); [split; auto|].
  pairs rel_assign_move. split; auto.
Qed.
Lemma rel_clear x h h' a : HR h h' -> rel_out HA (clear c x h a) (clear c' x h' a).
Proof.
  intros H. unfold clear. cfg. pairs rel_deallocate. pairs rel_allocate.
  eapply rel_bind; [apply rel_construct_default; eauto|]. split; auto.
Qed.
Lemma rel_copy h h' src dst n : HR h h' -> rel_out HR (copy n h src dst) (copy n h' src dst).
Proof.
  intros H. unfold copy. destruct (empty (r_shape dst)); auto. apply rel_same. intros _. apply rel_same. intros l.
  apply rel_fold; auto. intros s s' p Hs. unfold copy_assign. eapply rel_bind; [apply rel_load, Hs|]. intros v v' Hv. apply rel_store; auto.
Qed.
Lemma rel_move_each s s' p : HR s s' -> rel_out HR (Ref.move_assign (c_mv c) s p) (Ref.move_assign (c_mv c') s' p).
Proof.
  intros Hs. unfold move_assign. eapply rel_bind; [apply rel_load, Hs|]. intros v v' Hv.
  eapply rel_bind; [apply rel_store; eauto|]. intros g g' Hg. apply rel_store; auto. apply r_mv; auto.
Qed.
Lemma rel_move h h' src dst n : HR h h' -> rel_out HR (move n (c_mv c) h src dst) (move n (c_mv c') h' src dst).
Proof.
  intros H. unfold move. destruct (empty (r_shape dst)); auto. apply rel_same. intros _. apply rel_same. intros l.
  apply rel_fold; auto. intros. apply rel_move_each; auto.
Qed.
Lemma rel_make_copy x h h' src s al : HR h h' -> rel_out HA (make_copy c x h src s al) (make_copy c' x h' src s al).
Proof. intros H. unfold make_copy. cfg. pairs rel_ctor_shape. eapply rel_bind; [apply rel_copy; eauto|]. split; auto. Qed.
Lemma rel_make_move x h h' src s al : HR h h' -> rel_out HA (make_move c x h src s al) (make_move c' x h' src s al).
Proof. intros H. unfold make_move. cfg. pairs rel_ctor_shape. eapply rel_bind; [apply rel_move; eauto|]. split; auto. Qed.
Lemma rel_fill h h' dst v v' n : HR h h' -> R v v' -> rel_out HR (fill n h dst v) (fill n h' dst v').
Proof.
  intros H Hv. unfold fill. apply rel_same. intros l. apply rel_fold; auto. intros. apply rel_store; auto.
Qed.
Lemma rel_generate h h' dst g g' n : HR h h' -> (forall k, R (g k) (g' k)) -> rel_out HA (generate n h dst g) (generate n h' dst g').
Proof.
  intros H Hg. unfold generate, assign_each. apply rel_same. intros l. apply rel_fold; [|split; auto].
  intros [s k] [s' k'] p [Hs Hk]. cbn [fst snd] in *. subst k'. eapply rel_bind; [apply rel_store; eauto|]. split; auto.
Qed.
Lemma rel_transform h h' dst g g' : HR h h' -> (forall k, R (g k) (g' k)) -> rel_out HR (transform_index h dst g) (transform_index h' dst g').
Proof.
  intros H Hg. unfold transform_index. apply rel_same. intros l. apply rel_fold; auto. intros. apply rel_store; auto.
Qed.

(** ** Programs *)
Notation WR := (rel_world R).

Lemma rel_get w w' x : WR w w' -> rel_out eq (get w x) (get w' x).
Proof. intros [_ [H _]]. unfold get. rewrite H. destruct (w_arr w' x); simpl; auto. Qed.
Lemma rel_put f f' x o : (forall z : nat, f z = f' z :> option arr) -> forall z, put f x o z = put f' x o z.
Proof. intros H z. unfold put. destruct (z =? x)%nat; auto. Qed.
Lemma rel_mk h h' f f' n : HR h h' -> (forall z, f z = f' z) -> WR (mkW h f n) (mkW h' f' n).
Proof. intros. split; auto. Qed.
Lemma rel_add w w' r r' : WR w w' -> rel_out HA r r' -> rel_out WR (add w r) (add w' r').
Proof.
  intros [_ [Hw Hn]] H. unfold add. eapply rel_bind; [apply H|]. intros [h a] [h' a'] [A B]. cbn [fst snd] in *. subst a'.
  rewrite Hn. apply rel_mk; auto using rel_put.
Qed.
Lemma rel_add2 w w' y r r' : WR w w' -> rel_out HA2 r r' -> rel_out WR (add2 w y r) (add2 w' y r').
Proof.
  intros [_ [Hw Hn]] H. unfold add2. eapply rel_bind; [apply H|]. intros [[h a] b] [[h' a'] b'] [A [B C]]. cbn [fst snd] in *. subst a' b'.
  rewrite Hn. apply rel_mk; auto using rel_put.
Qed.
Lemma rel_change w w' x r r' : WR w w' -> rel_out HA r r' -> rel_out WR (change w x r) (change w' x r').
Proof.
  intros [_ [Hw Hn]] H. unfold change. eapply rel_bind; [apply H|]. intros [h a] [h' a'] [A B]. cbn [fst snd] in *. subst a'.
  rewrite Hn. apply rel_mk; auto using rel_put.
Qed.
Lemma rel_change2 w w' x y r r' : WR w w' -> rel_out HA2 r r' -> rel_out WR (change2 w x y r) (change2 w' x y r').
Proof.
  intros [_ [Hw Hn]] H. unfold change2. eapply rel_bind; [apply H|]. intros [[h a] b] [[h' a'] b'] [A [B C]]. cbn [fst snd] in *. subst a' b'.
  rewrite Hn. apply rel_mk; auto using rel_put.
Qed.
(* A use of an array *)
Ltac gets := match goal with |- rel_out _ (bind (get _ _) _) _ => eapply rel_bind; [apply rel_get; eassumption|]; intros ? ? <- end.
Lemma rel_do_new w w' s al : WR w w' -> rel_out WR (do_new c w s al) (do_new c' w' s al).
Proof. intros H. unfold do_new. rewrite (proj2 (proj2 H)). apply rel_add; auto. apply rel_ctor_shape, H. Qed.
Lemma rel_do_new_move w w' y : WR w w' -> rel_out WR (do_new_move c w y) (do_new_move c' w' y).
Proof. intros H. unfold do_new_move. gets. rewrite (proj2 (proj2 H)). apply rel_add2; auto. apply rel_ctor_move, H. Qed.
Lemma rel_do_move_assign w w' x y : WR w w' -> rel_out WR (do_move_assign c w x y) (do_move_assign c' w' x y).
Proof. intros H. unfold do_move_assign. do 2 gets. apply rel_change2; auto. apply rel_move_assign, H. Qed.
Lemma rel_do_delete w w' x : WR w w' -> rel_out WR (do_delete c w x) (do_delete c' w' x).
Proof.
  intros H. unfold do_delete. gets. eapply rel_bind; [apply rel_deallocate, H|]. intros [h a1] [h' a2] [A B]. cbn [fst snd] in *.
  rewrite (proj2 (proj2 H)). apply rel_mk; auto. apply rel_put, H.
Qed.
Lemma rel_move_common h h' a b s : HR h h' -> rel_out HR (move_common c h a b s) (move_common c' h' a b s).
Proof.
  intros H. unfold move_common. cfg. cbv zeta. apply rel_same. intros l. apply rel_fold; auto. intros. apply rel_move_each; auto.
Qed.
Lemma rel_do_reshape w w' x s : WR w w' -> rel_out WR (do_reshape c w x s) (do_reshape c' w' x s).
Proof.
  intros H. unfold do_reshape. gets. cbv zeta. destruct (shape_eqb (a_shape a) (resolve s)); auto. cfg.
  rewrite (proj2 (proj2 H)). eapply rel_bind; [apply rel_do_new; eauto|]. intros w1 w1' H1. gets.
  eapply rel_bind; [apply rel_move_common, H1|]. intros h2 h2' H2.
  eapply rel_bind; [apply rel_do_move_assign|].
  - rewrite (proj2 (proj2 H1)). apply rel_mk; auto. apply H1.
  - intros w3 w3' H3. apply rel_do_delete; auto.
Qed.
Lemma rel_do_swap w w' x y : WR w w' -> rel_out WR (do_swap c w x y) (do_swap c' w' x y).
Proof.
  intros H. unfold do_swap. cfg. destruct (c_pocs c').
  - do 2 gets. apply rel_change2; auto. split; auto. apply H.
  - cbv zeta. rewrite (proj2 (proj2 H)). eapply rel_bind; [apply rel_do_new_move; eauto|]. intros w1 w1' H1.
    eapply rel_bind; [apply rel_do_move_assign; eauto|]. intros w2 w2' H2.
    eapply rel_bind; [apply rel_do_move_assign; eauto|]. intros w3 w3' H3. apply rel_do_delete; auto.
Qed.
Lemma rel_step w w' o o' : WR w w' -> rel_op R o o' -> rel_out WR (step c w o) (step c' w' o').
Proof.
  intros H Ho. pose proof (proj1 H) as Hh. pose proof (proj2 (proj2 H)) as Hn.
  destruct o, o'; simpl in Ho; try tauto; repeat match goal with
    | G : _ /\ _ |- _ => destruct G
    | G : ?a = ?b |- _ => is_var b; subst b
    end; unfold step; cbv zeta; rewrite ?Hn; repeat gets.
  - apply rel_do_new; auto.
  - apply rel_add; auto. apply rel_ctor_value; auto.
  - apply rel_add; auto. apply rel_ctor_copy; auto.
  - apply rel_add; auto. apply rel_ctor_copy_alloc; auto.
  - apply rel_do_new_move; auto.
  - apply rel_add2; auto. apply rel_ctor_move_alloc; auto.
  - apply rel_add; auto. apply rel_make_copy; auto.
  - apply rel_add; auto. apply rel_make_move; auto.
  - apply rel_change; auto. apply rel_copy_assign; auto.
  - apply rel_do_move_assign; auto.
  - apply rel_change; auto. apply rel_assign_copy; auto.
  - apply rel_change; auto. apply rel_assign_move; auto.
  - apply rel_change; auto. apply rel_assign_value; auto.
  - apply rel_change; auto. apply rel_clear; auto.
  - apply rel_do_reshape; auto.
  - apply rel_do_swap; auto.
  - eapply rel_bind; [apply rel_store; eauto|]. intros h1 h1' H1. apply rel_mk; auto. apply H.
  - apply rel_do_delete; auto.
Qed.
Lemma rel_astep w w' o o' : WR w w' -> rel_act R o o' -> rel_out WR (astep c w o) (astep c' w' o').
Proof.
  intros H Ho. pose proof (proj1 H) as Hh. pose proof (proj2 (proj2 H)) as Hn.
  assert (K : forall h h', HR h h' -> WR (mkW h (w_arr w) (w_next w)) (mkW h' (w_arr w') (w_next w'))).
  { intros h h' G. rewrite Hn. apply rel_mk; auto. apply H. }
  destruct o, o'; simpl in Ho; try tauto; repeat match goal with
    | G : _ /\ _ |- _ => destruct G
    | G : ?a = ?b |- _ => is_var b; subst b
    end; unfold astep; cbv zeta; cfg; repeat gets.
  - apply rel_step; auto.
  - eapply rel_bind; [apply rel_fill; eauto|auto].
  - eapply rel_bind; [apply rel_load; eauto|]. intros v v' Hv. eapply rel_bind; [apply rel_fill; eauto|auto].
  - eapply rel_bind; [apply rel_copy; eauto|auto].
  - eapply rel_bind; [apply rel_move; eauto|auto].
  - apply rel_step; auto. simpl. auto.
  - eapply rel_bind; [|intros; apply K; eassumption]. eapply rel_bind; [apply rel_generate; eauto|]. intros r r' [G _]. exact G.
  - eapply rel_bind; [apply rel_transform; eauto|auto].
  - apply rel_change; auto. apply rel_assign_value; auto. intros. apply rel_load; auto.
Qed.
Lemma rel_arun ops ops' : Forall2 (rel_act R) ops ops' -> forall w w', WR w w' -> rel_out WR (arun c ops w) (arun c' ops' w').
Proof.
  induction 1 as [|o o' r r' Ho _ IH]; intros w w' Hw; simpl; auto.
  eapply rel_bind; [apply rel_astep; eauto|]. intros w1 w1' H1. apply IH; auto.
Qed.
Lemma rel_empty : WR empty_world empty_world.
Proof. split; [split|]; auto. simpl. auto. Qed.
End Param.
