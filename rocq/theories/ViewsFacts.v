(** Where the elements of arrays are after an operation. *)
From Coq Require Import Arith.
From Verif Require Import Tac Interval Shape Traverse Memory Ref Container Program Views Spec SpecMem SpecContainer SpecProgram SpecViews
  ShapeFacts ResolveFacts TraverseFacts MemFacts RefFacts SliceFacts ContainerFacts ContainerWorld ContainerProps ProgramFacts.
Import ListNotations.
Open Scope Z_scope.

(** ** Blocks are not used again *)

Section Grows.
Context {V : Type}.
Implicit Types h : heap V.

Definition grows h h' : Prop :=
  (h_next h <= h_next h')%nat /\ forall k, (k < h_next h)%nat -> h_blk h k = None -> h_blk h' k = None.
Lemma grows_refl h : grows h h.
Proof. split; auto. Qed.
Lemma grows_trans h h1 h2 : grows h h1 -> grows h1 h2 -> grows h h2.
Proof. intros [A B] [C D]. split; [lia|]. intros k L E. apply D; [lia|auto]. Qed.
Lemma grows_next h h' : grows h h' -> (h_next h <= h_next h')%nat.
Proof. intros [H _]. auto. Qed.
Lemma grows_dead h h' k : grows h h' -> (k < h_next h)%nat -> h_blk h k = None -> h_blk h' k = None.
Proof. intros [_ H]. auto. Qed.
Lemma grows_upd h p c : grows h (upd h p c).
Proof.
  split; [cbn [upd h_next]; lia|]. intros k _ E. cbn [upd h_blk]. rewrite E. destruct (_ =? _)%nat; auto.
Qed.
Lemma grows_store h p v h' : store h p v = Ok h' -> grows h h'.
Proof. unfold store. destruct (peek h p) as [[]|]; intros E; inv E. apply grows_upd. Qed.
Lemma grows_construct_at h p v h' : construct_at h p v = Ok h' -> grows h h'.
Proof. unfold construct_at. destruct (peek h p) as [[]|]; intros E; inv E. apply grows_upd. Qed.
Lemma grows_destroy_at h p h' : destroy_at h p = Ok h' -> grows h h'.
Proof. unfold destroy_at. destruct (peek h p) as [[]|]; intros E; inv E. apply grows_upd. Qed.
Lemma grows_alloc h o n : grows h (fst (alloc_block h o n)).
Proof.
  split; cbn [alloc_block fst h_next h_blk]; [lia|]. intros k L E. destruct (Nat.eqb_spec k (h_next h)); [lia|auto].
Qed.
Lemma grows_free h o p n h' : free_block h o p n = Ok h' -> grows h h'.
Proof.
  unfold free_block. destruct (fst p) eqn:Ep; [discriminate|]. destruct (h_blk h (S n0)); [|discriminate].
  destruct (_ && _); intros E; inv E. split; cbn [h_next h_blk]; [lia|]. intros k _ E. rewrite E. destruct (_ =? _)%nat; auto.
Qed.
Lemma bind_inv {A B} (r : outcome A) (f : A -> outcome B) b : bind r f = Ok b -> exists a, r = Ok a /\ f a = Ok b.
Proof. destruct r; cbn [bind]; intros E; try discriminate. eauto. Qed.
Lemma grows_fold {A} (f : heap V -> A -> outcome (heap V)) (l : list A) :
  (forall h x h', f h x = Ok h' -> grows h h') -> forall h h', foldM f l h = Ok h' -> grows h h'.
Proof.
  intros H. induction l as [|x l IH]; cbn [foldM]; intros h h' E; [inv E; apply grows_refl|].
  apply bind_inv in E. destruct E as [h1 [E1 E2]]. eapply grows_trans; [eapply H; eauto|eauto].
Qed.

Variable c : config V.
Ltac binds :=
  repeat match goal with
  | E : bind _ _ = Ok _ |- _ => apply bind_inv in E; destruct E as [? [? E]]
  | p : (_ * _)%type |- _ => destruct p
  | E : Ok _ = Ok _ |- _ => inv E
  end.

Lemma grows_construct h a init h' : construct c h a init = Ok h' -> grows h h'.
Proof.
  unfold construct. intros E. binds. eapply grows_fold; [|exact E]. intros ? ? ? E1; cbn beta in E1. binds.
  eapply grows_construct_at; eauto.
Qed.
Lemma grows_copy_construct h a b h' : copy_construct c h a b = Ok h' -> grows h h'.
Proof.
  unfold copy_construct. intros E. binds. eapply grows_fold; [|exact E]. intros ? ? ? E1; cbn beta in E1. binds.
  eapply grows_construct_at; eauto.
Qed.
Lemma grows_move_construct h a b h' : move_construct c h a b = Ok h' -> grows h h'.
Proof.
  unfold move_construct. intros E. binds. eapply grows_fold; [|exact E]. intros ? ? ? E1; cbn beta in E1. binds.
  eapply grows_trans; [eapply grows_construct_at; eauto|eapply grows_store; eauto].
Qed.
Lemma grows_destroy h a h' : destroy c h a = Ok h' -> grows h h'.
Proof.
  unfold destroy. intros E. binds. eapply grows_fold; [|exact E]. intros ? ? ? E1; cbn beta in E1. eapply grows_destroy_at; eauto.
Qed.
Lemma grows_allocate x h a h' a' : allocate c x h a = Ok (h', a') -> grows h h'.
Proof.
  unfold allocate, alloc_get. intros E. binds. destruct (0 <? _); [|inv E; apply grows_refl].
  destruct (negb _ && _); cbn in E; inv E; apply grows_alloc.
Qed.
Lemma grows_deallocate x h a h' a' : deallocate c x h a = Ok (h', a') -> grows h h'.
Proof.
  unfold deallocate. destruct (is_null _); intros E; [inv E; apply grows_refl|]. binds.
  eapply grows_trans; [eapply grows_destroy; eauto|].
  match goal with E : alloc_put _ _ _ _ _ _ = Ok _ |- _ => revert E end. unfold alloc_put.
  destruct (inline_block _ _ _); intros E; binds; eapply grows_free; eauto.
Qed.
Lemma grows_ctor_shape x h al s h' a' : ctor_shape c x h al s = Ok (h', a') -> grows h h'.
Proof.
  unfold ctor_shape. intros E. binds. eapply grows_trans; [eapply grows_allocate; eauto|eapply grows_construct; eauto].
Qed.
Lemma grows_refit (test : bool) x h a s h' a' :
  (if test then h' <- destroy c h a ;; Ok (h', a)
   else ' (h', a') <- deallocate c x h a ;; allocate c x h' (with_shape a' s)) = Ok (h', a') -> grows h h'.
Proof.
  destruct test; intros E; binds; [eapply grows_destroy; eauto|].
  eapply grows_trans; [eapply grows_deallocate; eauto|eapply grows_allocate; eauto].
Qed.
Lemma grows_assign_value x h a s init h' a' : assign_value c x h a s init = Ok (h', a') -> grows h h'.
Proof.
  unfold assign_value. intros E. apply bind_inv in E. destruct E as [[h1 a1] [E1 E2]]. binds.
  eapply grows_trans; [eapply grows_refit; eauto|eapply grows_construct; eauto].
Qed.
Lemma grows_assign_copy x h a b h' a' : assign_copy c x h a b = Ok (h', a') -> grows h h'.
Proof.
  unfold assign_copy. intros E. destruct (ptr_eqb _ _).
  - destruct (negb _); binds; apply grows_refl.
  - apply bind_inv in E. destruct E as [[h1 a1] [E1 E2]]. binds.
    eapply grows_trans; [eapply grows_refit; eauto|eapply grows_copy_construct; eauto].
Qed.
Lemma grows_assign_move x h a b h' a' : assign_move c x h a b = Ok (h', a') -> grows h h'.
Proof.
  unfold assign_move. intros E. destruct (ptr_eqb _ _).
  - destruct (negb _); binds; apply grows_refl.
  - apply bind_inv in E. destruct E as [[h1 a1] [E1 E2]]. binds.
    eapply grows_trans; [eapply grows_refit; eauto|eapply grows_move_construct; eauto].
Qed.
End Grows.

(** ** The storage of one array *)

Section Fate.
Context {V : Type}.
Variable c : config V.
Hypothesis Hf : fair c.
Implicit Types w : world V.
Implicit Types h : heap V.

(** [a'] has the elements of [a], in the same places *)
Definition keeps (a a' : arr) : Prop := a_buf a' = a_buf a /\ a_base a' = a_base a /\ a_shape a' = a_shape a.
Lemma keeps_refl a : keeps a a.
Proof. split; auto. Qed.
Lemma keeps_trans a b d : keeps a b -> keeps b d -> keeps a d.
Proof. intros [A [B C]] [A' [B' C']]. split; [|split]; congruence. Qed.
Lemma keeps_blk a a' : keeps a a' -> blk a' = blk a.
Proof. intros [A _]. unfold blk. rewrite A. auto. Qed.

Lemma dealloc_gone x h a h' a' : heap_ok h -> valid c x h a -> blk a <> 0%nat -> deallocate c x h a = Ok (h', a') ->
  h_blk h' (blk a) = None.
Proof.
  intros Hh Hv Hk E. destruct (deallocate_raw c x h a Hh Hv) as [h1 [a1 [E1 [Hm [Hl _]]]]]. rewrite E in E1. inv E1.
  destruct Hl as [_ [_ [_ [Hl _]]]]. apply Hl; [|left; auto]. rewrite (no_memory_blk _ Hm). simpl. intuition.
Qed.
Lemma blk_lt x h a : heap_ok h -> valid c x h a -> blk a <> 0%nat -> (blk a < h_next h)%nat.
Proof.
  intros [_ [_ H]] Hv Hk. destruct (repr_block _ _ _ _ _ Hv) as [[E _]|[_ E]]; [congruence|].
  destruct (le_lt_dec (h_next h) (blk a)) as [L|L]; auto. rewrite H in E by auto. congruence.
Qed.
Lemma blk_base x h a : valid c x h a -> blk a <> 0%nat -> is_null (a_base a) = false.
Proof.
  intros [_ [[H _]|[_ [k [b [_ [Hin _]]]]]]] Hk; [destruct (Hk (no_memory_blk _ H))|].
  apply is_null_block. destruct Hin as [Hk0 [_ [E _]]]. rewrite E. auto.
Qed.

(** After giving the array the shape [s] *)
Definition refitted h a s h' a' : Prop :=
  blk a <> 0%nat -> if shape_dec (a_shape a) s then keeps a a' else h_blk h' (blk a) = None.
Lemma shape_eqb_dec s t : shape_eqb s t = if shape_dec s t then true else false.
Proof.
  destruct (shape_dec s t) as [->|N]; [apply shape_eqb_eq; auto|].
  destruct (shape_eqb s t) eqn:E; auto. apply shape_eqb_eq in E. congruence.
Qed.
Lemma refit_gone x h a s h' a' h2 : heap_ok h -> valid c x h a -> blk a <> 0%nat ->
  (' (h', a') <- deallocate c x h a ;; allocate c x h' (with_shape a' s)) = Ok (h', a') -> grows h' h2 ->
  h_blk h2 (blk a) = None.
Proof.
  intros Hh Hv Hk E G. apply bind_inv in E. destruct E as [[h1 a1] [E1 E2]].
  pose proof (grows_deallocate _ _ _ _ _ _ E1) as G1. pose proof (grows_allocate _ _ _ _ _ _ E2) as G2.
  pose proof (blk_lt _ _ _ Hh Hv Hk). apply (grows_trans _ _ _ G2 G); [destruct G1; lia|].
  eapply dealloc_gone; eauto.
Qed.
Lemma assign_value_refits x h a s init h' a' : heap_ok h -> valid c x h a ->
  assign_value c x h a s init = Ok (h', a') -> refitted h a (resolve s) h' a'.
Proof.
  intros Hh Hv E Hk. unfold assign_value in E. rewrite shape_eqb_dec in E.
  apply bind_inv in E. destruct E as [[h1 a1] [E1 E2]]. apply bind_inv in E2. destruct E2 as [h2 [E2 E3]]. inv E3.
  pose proof (grows_construct _ _ _ _ _ E2) as G. destruct (shape_dec _ _).
  - apply bind_inv in E1. destruct E1 as [h3 [_ E1]]. inv E1. apply keeps_refl.
  - eapply refit_gone; eauto.
Qed.
Lemma assign_copy_refits x h a y b h' a' : heap_ok h -> valid c x h a -> valid c y h b -> apart a b ->
  assign_copy c x h a b = Ok (h', a') -> refitted h a (a_shape b) h' a'.
Proof.
  intros Hh Hv Hvb Hap E Hk. unfold assign_copy in E. destruct (ptr_eqb (a_base a) (a_base b)) eqn:Eb.
  { destruct (bases_equal _ _ _ _ _ _ Hv Hvb Hap Eb) as [M _]. destruct (Hk (no_memory_blk _ M)). }
  rewrite (blk_base _ _ _ Hv Hk), shape_eqb_dec in E. cbn [negb andb] in E.
  apply bind_inv in E. destruct E as [[h1 a1] [E1 E2]]. apply bind_inv in E2. destruct E2 as [h2 [E2 E3]]. inv E3.
  pose proof (grows_copy_construct _ _ _ _ _ E2) as G. destruct (shape_dec _ _).
  - apply bind_inv in E1. destruct E1 as [h3 [_ E1]]. inv E1. apply keeps_refl.
  - eapply refit_gone; eauto.
Qed.
Lemma assign_move_refits x h a y b h' a' : heap_ok h -> valid c x h a -> valid c y h b -> apart a b ->
  assign_move c x h a b = Ok (h', a') -> refitted h a (a_shape b) h' a'.
Proof.
  intros Hh Hv Hvb Hap E Hk. unfold assign_move in E. destruct (ptr_eqb (a_base a) (a_base b)) eqn:Eb.
  { destruct (bases_equal _ _ _ _ _ _ Hv Hvb Hap Eb) as [M _]. destruct (Hk (no_memory_blk _ M)). }
  rewrite (blk_base _ _ _ Hv Hk), shape_eqb_dec in E. cbn [negb andb] in E.
  apply bind_inv in E. destruct E as [[h1 a1] [E1 E2]]. apply bind_inv in E2. destruct E2 as [h2 [E2 E3]]. inv E3.
  pose proof (grows_move_construct _ _ _ _ _ E2) as G. destruct (shape_dec _ _).
  - apply bind_inv in E1. destruct E1 as [h3 [_ E1]]. inv E1. apply keeps_refl.
  - eapply refit_gone; eauto.
Qed.

(** ** Arrays of a program *)

(** What becomes of the storage of [z] *)
Definition sends w z (r : option nat) w' : Prop :=
  forall a, w_arr w z = Some a -> blk a <> 0%nat ->
  match r with
  | Some z' => exists a', w_arr w' z' = Some a' /\ keeps a a'
  | None => h_blk (w_heap w') (blk a) = None
  end.
Lemma sends_refl w z : sends w z (Some z) w.
Proof. intros a E _. exists a. split; auto. apply keeps_refl. Qed.
Lemma sends_trans w z z1 w1 r w2 : sends w z (Some z1) w1 -> sends w1 z1 r w2 -> sends w z r w2.
Proof.
  intros S1 S2 a Ea Hk. destruct (S1 a Ea Hk) as [a1 [Ea1 K1]]. pose proof (keeps_blk _ _ K1) as Ek.
  specialize (S2 a1 Ea1). rewrite Ek in S2. specialize (S2 Hk). destruct r as [z2|]; auto.
  destruct S2 as [a2 [Ea2 K2]]. exists a2. split; auto. eapply keeps_trans; eauto.
Qed.
Lemma sends_gone w z w1 w2 : Inv c w -> sends w z None w1 -> grows (w_heap w) (w_heap w1) -> grows (w_heap w1) (w_heap w2) ->
  sends w z None w2.
Proof.
  intros Hw S [G1 _] [_ G] a Ea Hk. apply G; [|apply S; auto].
  pose proof (blk_lt z (w_heap w) a (proj1 Hw) (inv_valid c w z a Hw Ea) Hk). lia.
Qed.
Lemma sends_eq w z w' : w_arr w' z = w_arr w z -> sends w z (Some z) w'.
Proof. intros E a Ea _. exists a. split; [congruence|]. apply keeps_refl. Qed.
Lemma sends_unchanged w w' X z : unchanged w w' X -> ~ In z X -> sends w z (Some z) w'.
Proof. intros U N. apply sends_eq. apply U. auto. Qed.

Lemma shape_of_some w x a : w_arr w x = Some a -> shape_of w x = a_shape a.
Proof. unfold shape_of. intros ->. auto. Qed.
Lemma allocator_of_some w x a : w_arr w x = Some a -> allocator_of w x = a_al a.
Proof. unfold allocator_of. intros ->. auto. Qed.
Lemma is_inline_some w x a : w_arr w x = Some a -> is_inline w x = a_busy a.
Proof. unfold is_inline. intros ->. auto. Qed.
Lemma same_allocator_some w x y a b : w_arr w x = Some a -> w_arr w y = Some b ->
  same_allocator w x y = negb (a_busy a || a_busy b) && (a_al a =? a_al b)%nat.
Proof.
  intros Ea Eb. unfold same_allocator. rewrite (is_inline_some w x a Ea), (is_inline_some w y b Eb),
    (allocator_of_some w x a Ea), (allocator_of_some w y b Eb). destruct (a_busy a), (a_busy b); auto.
Qed.
Lemma could_take_some w y b al : w_arr w y = Some b -> could_take w y al = negb (a_busy b) && (a_al b =? al)%nat.
Proof. intros Eb. unfold could_take. rewrite (is_inline_some w y b Eb), (allocator_of_some w y b Eb). auto. Qed.
Lemma alloc_eq_other x a y b : x <> y -> alloc_eq x a y b = negb (a_busy a || a_busy b) && (a_al a =? a_al b)%nat.
Proof.
  intros N. unfold alloc_eq. apply Nat.eqb_neq in N. rewrite N. destruct (a_busy a || a_busy b); auto.
Qed.

(** Only [x] changes *)
Lemma sends_refit w x a s h' a' z : w_arr w x = Some a -> refitted (w_heap w) a s h' a' ->
  sends w z (refit w x s z) (mkW h' (put (w_arr w) x (Some a')) (w_next w)).
Proof.
  intros Ea R d Ed Hk. unfold refit. destruct (Nat.eqb_spec z x) as [->|N].
  - rewrite Ea in Ed. inv Ed. rewrite (shape_of_some w x d Ea). specialize (R Hk). destruct (shape_dec _ _); auto.
    exists a'. cbn [w_arr]. rewrite put_same. auto.
  - exists d. cbn [w_arr]. rewrite put_other by auto. split; auto. apply keeps_refl.
Qed.

Definition eqal (a b : arr) : bool := negb (a_busy a || a_busy b) && (a_al a =? a_al b)%nat.

(** x = std::move(y) *)
Lemma move_assign_parts w x y a b w' : Inv c w -> x <> y -> w_arr w x = Some a -> w_arr w y = Some b ->
  copyable c b -> do_move_assign c w x y = Ok w' ->
  exists a' b', w_arr w' x = Some a' /\ w_arr w' y = Some b' /\ (forall z, z <> x -> z <> y -> w_arr w' z = w_arr w z) /\
    w_next w' = w_next w /\ grows (w_heap w) (w_heap w') /\
    (if c_pocma c || eqal a b then (blk a <> 0%nat -> keeps a b') /\ (blk b <> 0%nat -> keeps b a') /\
       a_busy a' = a_busy a /\ a_busy b' = a_busy b
     else (blk b <> 0%nat -> keeps b b') /\ refitted (w_heap w) a (a_shape b) (w_heap w') a') /\
    (c_pocma c = false -> a_al a' = a_al a /\ a_al b' = a_al b).
Proof.
  intros Hw N Ea Eb Hc E. unfold do_move_assign in E. rewrite (get_ok w x a Ea), (get_ok w y b Eb) in E. cbn [bind] in E.
  unfold change2 in E. apply bind_inv in E. destruct E as [[[h' a'] b'] [E E2]]. inv E2. cbn [w_arr w_next w_heap].
  exists a', b'. rewrite put_same, put_other, put_same by auto. split; auto. split; auto.
  split; [intros z N1 N2; rewrite !put_other by auto; auto|]. split; auto.
  pose proof (inv_valid c w x a Hw Ea) as Va. pose proof (inv_valid c w y b Hw Eb) as Vb.
  pose proof (inv_apart c w x y a b Hw N Ea Eb) as Hap.
  unfold move_assign_op in E. destruct (ptr_eqb (a_base a) (a_base b)) eqn:Ep.
  - destruct (bases_equal _ _ _ _ _ _ Va Vb Hap Ep) as [Ma Mb].
    pose proof (no_memory_blk _ Ma) as Ka. pose proof (no_memory_blk _ Mb) as Kb.
    assert (Q : a_busy a' = a_busy a /\ a_busy b' = a_busy b /\ a_al a' = a_al a /\ a_al b' = a_al b /\ h' = w_heap w).
    { destruct (negb (is_null (a_base a))); apply bind_inv in E; destruct E as [_ [_ E]]; inv E; auto. }
    destruct Q as [Q1 [Q2 [Q3 [Q4 ->]]]]. split; [apply grows_refl|]. split; [|auto].
    destruct (c_pocma c || eqal a b); [split; [congruence|split; [congruence|auto]]|split; [congruence|]].
    intros K. congruence.
  - rewrite (alloc_eq_other x a y b N) in E. fold (eqal a b) in E. destruct (c_pocma c) eqn:Em; cbn [orb].
    + unfold swap_allocators, swap_except_allocator, set_al in E. cbn in E. inv E. split; [apply grows_refl|].
      split; [|discriminate]. split; [intros _; split; auto|]. split; [intros _; split; auto|]. auto.
    + destruct (eqal a b) eqn:Eq.
      * unfold swap_except_allocator in E. inv E. split; [apply grows_refl|].
        split; [|auto]. split; [intros _; split; auto|]. split; [intros _; split; auto|]. auto.
      * apply bind_inv in E. destruct E as [[h1 a1] [E E3]]. inv E3.
        destruct (inv_has c w y b' Hw Eb) as [f Hb].
        pose proof (assign_move_refits x (w_heap w) a y b' h' a' (proj1 Hw) Va Vb Hap E) as R.
        destruct (assign_move_spec c x y (w_heap w) a b' f Hf (proj1 Hw) Va Vb Hb Hap Hc)
          as [h2 [a2 [E2 [_ [_ [_ [_ [_ [_ [Al _]]]]]]]]]]. rewrite E in E2. inv E2.
        split; [eapply grows_assign_move; eauto|]. split; [|auto]. split; auto. intros _. apply keeps_refl.
Qed.
Lemma trade_l x y : trade x y x = y.
Proof. unfold trade. rewrite Nat.eqb_refl. auto. Qed.
Lemma trade_r x y : trade x y y = x.
Proof. unfold trade. rewrite Nat.eqb_refl. destruct (Nat.eqb_spec y x); auto. Qed.
Lemma trade_other x y z : z <> x -> z <> y -> trade x y z = z.
Proof. intros A B. unfold trade. apply Nat.eqb_neq in A, B. rewrite A, B. auto. Qed.
Lemma trade_same x z : trade x x z = z.
Proof. unfold trade. destruct (Nat.eqb_spec z x); auto. Qed.
Lemma refit_same w x z : refit w x (shape_of w x) z = Some z.
Proof. unfold refit. destruct (_ =? _)%nat; auto. destruct (shape_dec _ _); congruence. Qed.

Lemma move_assign_sends w x y a b w' z : Inv c w -> w_arr w x = Some a -> w_arr w y = Some b -> copyable c b ->
  do_move_assign c w x y = Ok w' -> sends w z (fate_op c w (MoveAssign x y) z) w' /\ grows (w_heap w) (w_heap w').
Proof.
  intros Hw Ea Eb Hc E. cbn [fate_op]. destruct (Nat.eq_dec x y) as [<-|N].
  - destruct (self_world c w (MoveAssign x x) x a Hw Ea) as [w2 [E2 [_ [U [_ Eh]]]]]; auto.
    cbn [step] in E2. rewrite E in E2. inv E2. rewrite trade_same, refit_same, Eh. split; [|apply grows_refl].
    destruct (_ || _); apply (sends_unchanged w w2 []); auto.
  - destruct (move_assign_parts w x y a b w' Hw N Ea Eb Hc E) as [a' [b' [Ea' [Eb' [O [_ [G [P _]]]]]]]]. split; auto.
    rewrite (same_allocator_some w x y a b Ea Eb). fold (eqal a b). destruct (c_pocma c || eqal a b).
    + destruct P as [P1 [P2 _]]. intros d Ed Hk. destruct (Nat.eq_dec z x) as [->|Nx].
      * rewrite trade_l. rewrite Ea in Ed. inv Ed. eauto.
      * destruct (Nat.eq_dec z y) as [->|Ny].
        -- rewrite trade_r. rewrite Eb in Ed. inv Ed. eauto.
        -- rewrite trade_other by auto. exists d. rewrite O by auto. split; auto. apply keeps_refl.
    + destruct P as [P1 P2]. intros d Ed Hk. unfold refit. destruct (Nat.eqb_spec z x) as [->|Nx].
      * rewrite Ea in Ed. inv Ed. rewrite (shape_of_some w x d Ea), (shape_of_some w y b Eb). specialize (P2 Hk).
        destruct (shape_dec _ _); eauto.
      * destruct (Nat.eq_dec z y) as [->|Ny].
        -- rewrite Eb in Ed. inv Ed. eauto.
        -- exists d. rewrite O by auto. split; auto. apply keeps_refl.
Qed.

(** array x(std::move(y)) *)
Lemma new_move_parts w y b al w' : Inv c w -> w_arr w y = Some b ->
  do_new_move c w y = Ok w' /\ al = (if c_pocma c then a_al b else c_default c) \/ step c w (NewMoveAlloc y al) = Ok w' ->
  exists a' b', w_arr w' (w_next w) = Some a' /\ w_arr w' y = Some b' /\
    (forall z, z <> w_next w -> z <> y -> w_arr w' z = w_arr w z) /\
    w_next w' = S (w_next w) /\ grows (w_heap w) (w_heap w') /\ a_al a' = al /\ a_al b' = a_al b /\ a_busy b' = a_busy b /\
    (if negb (a_busy b) && (a_al b =? al)%nat then keeps b a' /\ blk b' = 0%nat /\ a_busy a' = false
     else b' = b /\ a_shape a' = resolve (a_shape b)).
Proof.
  intros Hw Eb E. pose proof (inv_lt c w y b Hw Eb) as Ly. pose proof (inv_valid c w y b Hw Eb) as Vb.
  assert (H : exists h' a' b', w' = mkW h' (put (put (w_arr w) y (Some b')) (w_next w) (Some a')) (S (w_next w)) /\
     (if negb (a_busy b) && (a_al b =? al)%nat
      then h' = w_heap w /\ (a', b') = swap_except_allocator (blank al (c_shape0 c)) b
      else b' = b /\ exists h1, allocate c (w_next w) (w_heap w) (with_shape (blank al (c_shape0 c)) (a_shape b)) = Ok (h1, a') /\
             move_construct c h1 a' b = Ok h')).
  { assert (Eq : alloc_eq (w_next w) (blank al (c_shape0 c)) y b = negb (a_busy b) && (a_al b =? al)%nat).
    { rewrite alloc_eq_other by lia. cbn [blank a_busy a_al orb]. rewrite Nat.eqb_sym. auto. }
    destruct E as [[E Eal]|E].
    - unfold do_new_move in E. rewrite (get_ok w y b Eb) in E. cbn [bind] in E. unfold add2 in E.
      apply bind_inv in E. destruct E as [[[h' a'] b'] [E E2]]. inv E2. exists h', a', b'. split; auto.
      unfold ctor_move in E. rewrite Eq in E.
      destruct (c_pocma c) eqn:Em.
      + assert (Hbz : a_busy b = false).
        { apply (not_busy c y (w_heap w)); auto. destruct Hf as [_ [_ [_ [Hc|[_ [Hc _]]]]]]; [auto|congruence]. }
        rewrite Hbz, Nat.eqb_refl. cbn [negb andb]. cbn in E. inv E. auto.
      + cbn [orb] in E. destruct (negb _ && _).
        * cbn in E. inv E. auto.
        * apply bind_inv in E. destruct E as [[h1 a1] [E1 E2]]. apply bind_inv in E2. destruct E2 as [h2 [E2 E3]]. inv E3. eauto.
    - cbn [step] in E. rewrite (get_ok w y b Eb) in E. cbn [bind] in E. unfold add2 in E.
      apply bind_inv in E. destruct E as [[[h' a'] b'] [E E2]]. inv E2. exists h', a', b'. split; auto.
      unfold ctor_move_alloc in E. rewrite Eq in E. destruct (negb _ && _).
      + cbn in E. inv E. auto.
      + apply bind_inv in E. destruct E as [[h1 a1] [E1 E2]]. apply bind_inv in E2. destruct E2 as [h2 [E2 E3]]. inv E3. eauto. }
  destruct H as [h' [a' [b' [-> H]]]]. cbn [w_arr w_next w_heap]. exists a', b'. rewrite put_same, put_other, put_same by lia.
  split; auto. split; auto. split; [intros z N1 N2; rewrite !put_other by auto; auto|]. split; auto.
  destruct (negb (a_busy b) && _).
  - destruct H as [-> H]. inv H. split; [apply grows_refl|]. cbn. split; auto. split; auto. split; auto.
    split; [split; auto|]. split; auto.
  - destruct H as [-> [h1 [E1 E2]]].
    destruct (allocate_spec c (w_next w) (w_heap w) (with_shape (blank al (c_shape0 c)) (a_shape b))) as [h2 [a2 [E3 [_ [_ [Es Ea]]]]]]; auto;
      [apply Hw|apply Vb|]. rewrite E1 in E3. inv E3. cbn in Ea, Es. split.
    { eapply grows_trans; [eapply grows_allocate; eauto|eapply grows_move_construct; eauto]. }
    auto.
Qed.
Lemma new_move_sends w y b o w' z : Inv c w -> w_arr w y = Some b -> (o = NewMove y \/ exists al, o = NewMoveAlloc y al) ->
  step c w o = Ok w' -> sends w z (fate_op c w o z) w' /\ grows (w_heap w) (w_heap w').
Proof.
  intros Hw Eb Ho E.
  assert (Fr : z = w_next w -> w_arr w z = None) by (intros ->; apply (fresh c); auto).
  assert (H : forall al w', do_new_move c w y = Ok w' /\ al = (if c_pocma c then a_al b else c_default c) \/ step c w (NewMoveAlloc y al) = Ok w' ->
    sends w z (if (z =? y)%nat && (negb (a_busy b) && (a_al b =? al)%nat) then Some (w_next w) else Some z) w' /\ grows (w_heap w) (w_heap w')).
  { intros al w2 H. destruct (new_move_parts w y b al w2 Hw Eb H) as [a' [b' [Ea' [Eb' [O [_ [G [_ [_ [_ P]]]]]]]]]]. split; auto.
    destruct (Nat.eqb_spec z y) as [->|N]; cbn [andb].
    - destruct (negb (a_busy b) && _).
      + intros d Ed Hk. rewrite Eb in Ed. inv Ed. destruct P as [P _]. eauto.
      + destruct P as [-> _]. apply sends_eq. congruence.
    - intros d Ed Hk. exists d. rewrite O; auto; [split; auto; apply keeps_refl|]. intros Q. rewrite (Fr Q) in Ed. discriminate. }
  destruct Ho as [->|[al ->]]; cbn [fate_op]; rewrite (could_take_some w y b _ Eb).
  - destruct (H _ w' (or_introl (conj E eq_refl))) as [H1 H2]. split; auto.
    destruct (c_pocma c) eqn:Em; auto. cbn [orb].
    assert (Hbz : a_busy b = false).
    { apply (not_busy c y (w_heap w)); [apply (inv_valid c w y b Hw Eb)|]. destruct Hf as [_ [_ [_ [Hc|[_ [Hc _]]]]]]; [auto|congruence]. }
    rewrite Hbz, Nat.eqb_refl in H1. auto.
  - apply H. auto.
Qed.

(** The end of an array *)
Lemma delete_parts w x a w' : Inv c w -> w_arr w x = Some a -> do_delete c w x = Ok w' ->
  (forall z, z <> x -> w_arr w' z = w_arr w z) /\ grows (w_heap w) (w_heap w') /\
  (blk a <> 0%nat -> h_blk (w_heap w') (blk a) = None).
Proof.
  intros Hw Ea E. unfold do_delete in E. rewrite (get_ok w x a Ea) in E. cbn [bind] in E.
  apply bind_inv in E. destruct E as [[h' a'] [E E2]]. inv E2. cbn [w_arr w_heap].
  split; [intros z N; apply put_other; auto|]. split; [eapply grows_deallocate; eauto|].
  intros Hk. eapply dealloc_gone; eauto; [apply Hw|apply inv_valid; auto].
Qed.
Lemma delete_sends w x a w' z : Inv c w -> w_arr w x = Some a -> do_delete c w x = Ok w' ->
  sends w z (if (z =? x)%nat then None else Some z) w'.
Proof.
  intros Hw Ea E. destruct (delete_parts w x a w' Hw Ea E) as [O [G D]]. destruct (Nat.eqb_spec z x) as [->|N].
  - intros d Ed Hk. rewrite Ea in Ed. inv Ed. auto.
  - apply sends_eq. auto.
Qed.
(** clear() *)
Lemma clear_sends w x a w' z : Inv c w -> w_arr w x = Some a -> step c w (Clear x) = Ok w' ->
  sends w z (if (z =? x)%nat then None else Some z) w'.
Proof.
  intros Hw Ea E. cbn [step] in E. rewrite (get_ok w x a Ea) in E. cbn [bind] in E. unfold change in E.
  apply bind_inv in E. destruct E as [[h' a'] [E E2]]. inv E2. destruct (Nat.eqb_spec z x) as [->|N].
  - intros d Ed Hk. rewrite Ea in Ed. inv Ed. cbn [w_heap]. unfold clear in E.
    apply bind_inv in E. destruct E as [[h1 a1] [E1 E2]]. apply bind_inv in E2. destruct E2 as [[h2 a2] [E2 E3]].
    apply bind_inv in E3. destruct E3 as [h3 [E3 E4]]. inv E4.
    eapply (refit_gone x (w_heap w) d (c_shape0 c) h2 a' h'); [apply Hw|apply inv_valid; auto|auto| |].
    + rewrite E1. cbn [bind]. exact E2.
    + eapply grows_construct; exact E3.
  - apply sends_eq. cbn [w_arr]. apply put_other. auto.
Qed.
(** x = y *)
Lemma copy_assign_sends w x y a b w' z : Inv c w -> w_arr w x = Some a -> w_arr w y = Some b ->
  step c w (CopyAssign x y) = Ok w' -> sends w z (fate_op c w (CopyAssign x y) z) w'.
Proof.
  intros Hw Ea Eb E. cbn [fate_op]. destruct (Nat.eq_dec x y) as [<-|N].
  - destruct (self_world c w (CopyAssign x x) x a Hw Ea) as [w2 [E2 [_ [U _]]]]; auto.
    rewrite E in E2. inv E2. rewrite Nat.eqb_refl, refit_same. rewrite !andb_false_r. cbn [andb].
    apply (sends_unchanged w w2 []); auto.
  - cbn [step] in E. rewrite (get_ok w x a Ea), (get_ok w y b Eb) in E. cbn [bind] in E. unfold change in E.
    apply bind_inv in E. destruct E as [[h' a'] [E E2]]. inv E2.
    rewrite (same_allocator_some w x y a b Ea Eb). fold (eqal a b). rewrite (proj2 (Nat.eqb_neq x y) N).
    rewrite andb_true_r.
    pose proof (inv_valid c w x a Hw Ea) as Va. pose proof (inv_valid c w y b Hw Eb) as Vb.
    pose proof (inv_apart c w x y a b Hw N Ea Eb) as Hap.
    destruct (Nat.eqb_spec z x) as [->|Nz].
    2: { cbn [andb]. unfold refit. apply Nat.eqb_neq in Nz. rewrite Nz. apply Nat.eqb_neq in Nz. apply sends_eq.
         cbn [w_arr]. apply put_other; auto. }
    intros d Ed Hk. rewrite Ea in Ed. inv Ed. cbn [andb]. unfold refit. rewrite Nat.eqb_refl, (shape_of_some w x d Ea), (shape_of_some w y b Eb).
    unfold copy_assign_op in E. destruct (ptr_eqb (a_base d) (a_base b)) eqn:Ep.
    { destruct (bases_equal _ _ _ _ _ _ Va Vb Hap Ep) as [M _]. destruct (Hk (no_memory_blk _ M)). }
    rewrite (alloc_eq_other x d y b N) in E. fold (eqal d b) in E. cbn [w_arr w_heap].
    assert (R : assign_copy c x (w_heap w) d b = Ok (h', a') ->
      if shape_dec (a_shape d) (a_shape b)
      then exists a'0, put (w_arr w) x (Some a') x = Some a'0 /\ keeps d a'0 else h_blk h' (blk d) = None).
    { intros E2. pose proof (assign_copy_refits x (w_heap w) d y b h' a' (proj1 Hw) Va Vb Hap E2 Hk) as R.
      rewrite put_same. destruct (shape_dec _ _); eauto. }
    destruct (c_pocca c); cbn [andb].
    + destruct (eqal d b) eqn:Eq; cbn [negb bind] in *.
      * assert (Es : set_al d (a_al b) = d).
        { unfold eqal in Eq. apply andb_true_iff in Eq. destruct Eq as [_ Eq]. apply Nat.eqb_eq in Eq. rewrite <- Eq. destruct d; auto. }
        rewrite Es in E. specialize (R E). destruct (shape_dec _ _); auto.
      * apply bind_inv in E. destruct E as [[h1 a1] [E1 E2]]. apply bind_inv in E1. destruct E1 as [[h0 a0] [E0 E1]]. inv E1.
        pose proof (grows_assign_copy _ _ _ _ _ _ _ E2) as [_ G]. apply G.
        { pose proof (grows_deallocate _ _ _ _ _ _ E0) as [G1 _]. pose proof (blk_lt _ _ _ (proj1 Hw) Va Hk). lia. }
        eapply dealloc_gone; eauto. apply Hw.
    + cbn [bind] in E. specialize (R E). destruct (shape_dec _ _); auto.
Qed.
Lemma assign_sends w o x y a b w' z : Inv c w -> w_arr w x = Some a -> w_arr w y = Some b ->
  o = AssignCopy x y \/ o = AssignMove x y -> step c w o = Ok w' -> sends w z (refit w x (shape_of w y) z) w'.
Proof.
  intros Hw Ea Eb Ho E. destruct (Nat.eq_dec x y) as [<-|N].
  - destruct (self_world c w o x a Hw Ea) as [w2 [E2 [_ [U _]]]]; [tauto|].
    rewrite E in E2. inv E2. rewrite refit_same. apply (sends_unchanged w w2 []); auto.
  - pose proof (inv_valid c w x a Hw Ea) as Va. pose proof (inv_valid c w y b Hw Eb) as Vb.
    pose proof (inv_apart c w x y a b Hw N Ea Eb) as Hap. rewrite (shape_of_some w y b Eb).
    destruct Ho as [-> | ->]; cbn [step] in E; rewrite (get_ok w x a Ea), (get_ok w y b Eb) in E; cbn [bind] in E; unfold change in E;
      apply bind_inv in E; destruct E as [[h' a'] [E E2]]; inv E2; apply (sends_refit w x a); auto.
    + eapply assign_copy_refits; eauto. apply Hw.
    + eapply assign_move_refits; eauto. apply Hw.
Qed.
Lemma assign_value_sends w x a s init h' a' z : Inv c w -> w_arr w x = Some a ->
  assign_value c x (w_heap w) a s init = Ok (h', a') ->
  sends w z (refit w x (resolve s) z) (mkW h' (put (w_arr w) x (Some a')) (w_next w)).
Proof.
  intros Hw Ea E. apply (sends_refit w x a); auto. eapply assign_value_refits; eauto; [apply Hw|apply inv_valid; auto].
Qed.

(** reshape *)
Lemma reshape_sends w x a s w' z : Inv c w -> w_arr w x = Some a -> shape_arg c s -> Forall2 meets s (a_shape a) ->
  do_reshape c w x s = Ok w' -> sends w z (refit w x (resolve s) z) w'.
Proof.
  intros Hw Ea Hs Hm E. destruct (reshape_world c Hf w x a s Hw Ea Hs Hm) as [w0 [E0 [_ [U _]]]].
  rewrite E in E0. inv E0. unfold refit. destruct (Nat.eqb_spec z x) as [->|Nz].
  2: { apply (sends_unchanged w w0 [x]); auto. simpl. intuition. }
  unfold do_reshape in E. rewrite (get_ok w x a Ea) in E. cbn [bind] in E. rewrite shape_eqb_dec in E.
  rewrite (shape_of_some w x a Ea). destruct (shape_dec (a_shape a) (resolve s)) as [Es|Ns].
  { inv E. apply sends_refl. }
  set (n := w_next w) in *. pose proof (inv_lt c w x a Hw Ea) as Lx.
  destruct (new_world c w (resolve s) (c_default c) Hw) as [w1 [E1 [I1 [U1 [N1 [D1 [b [Eb _]]]]]]]]; [apply shape_arg_resolve; auto|].
  rewrite E1 in E. cbn [bind] in E. fold n in Eb. rewrite (get_ok w1 n b Eb) in E. cbn [bind] in E.
  destruct (denotes_has _ _ _ _ _ D1 Eb) as [Esb Hb]. rewrite proper_resolve2 in Esb by apply Hs.
  apply bind_inv in E. destruct E as [h2 [E2 E]]. apply bind_inv in E. destruct E as [w3 [E3 E4]].
  destruct (U1 x) as [X1 _]; [simpl; intuition lia|]. rewrite Ea in X1.
  assert (Hap : apart a b) by (apply (inv_apart c w1 x n); auto; lia).
  assert (Hm' : Forall2 meets (a_shape b) (a_shape a)) by (rewrite <- Esb; apply meets_resolve; auto).
  destruct (inv_has c w1 x a I1 X1) as [f0 Hf0].
  destruct (move_common_spec c x n (w_heap w1) a b f0 (fun _ => c_dv c) (proj1 I1)
       (inv_valid c w1 x a I1 X1) (inv_valid c w1 n b I1 Eb) Hf0 Hb Hap Hm') as [h3 [g0 [E5 [V1 [V2 [_ [_ [_ L2]]]]]]]].
  rewrite <- Esb, E2 in E5. inv E5. destruct (inv_two c w1 x n a b h3) as [I2 U2]; auto; [lia|].
  set (w2 := mkW h3 (w_arr w1) (w_next w1)) in *.
  assert (Cb : copyable c b) by (right; rewrite <- Esb; apply Hs).
  destruct (move_assign_world c Hf w2 x n a b) as [w3' [E3' [I3 [_ [_ [_ [a3 [b3 [Ea3 [Eb3 _]]]]]]]]]]; auto; [lia|].
  rewrite E3 in E3'. inv E3'.
  assert (S1 : sends w x (Some x) w2) by (apply sends_eq; cbn [w2 w_arr]; congruence).
  destruct (move_assign_sends w2 x n a b w3' x I2 X1 Eb Cb E3) as [S2 _]. cbn [fate_op] in S2.
  pose proof (delete_sends w3' n b3 w0 n I3 Eb3 E4) as S3. rewrite Nat.eqb_refl in S3.
  destruct (delete_parts w3' n b3 w0 I3 Eb3 E4) as [_ [G4 _]].
  destruct (c_pocma c || same_allocator w2 x n).
  - rewrite trade_l in S2. eapply sends_trans; [eapply sends_trans; [exact S1|exact S2]|exact S3].
  - unfold refit in S2. rewrite Nat.eqb_refl, (shape_of_some w2 x a X1), (shape_of_some w2 n b Eb), <- Esb in S2.
    destruct (shape_dec (a_shape a) (resolve s)); [congruence|].
    assert (S : sends w2 x None w0).
    { eapply (sends_gone w2 x w3' w0); auto.
      destruct (move_assign_sends w2 x n a b w3' x I2 X1 Eb Cb E3) as [_ G]. auto. }
    eapply sends_trans; [exact S1|exact S].
Qed.

(** swap *)
Definition nonempty (a : arr) : Prop := exists i, in_bounds (a_shape a) i.
Lemma nonempty_blk x h a : valid c x h a -> nonempty a -> blk a <> 0%nat.
Proof. intros Hv [i Hi]. destruct (repr_elem _ _ _ _ _ _ Hv Hi) as [? [H _]]. auto. Qed.
Lemma nonempty_proper x h a : valid c x h a -> blk a <> 0%nat -> resolve (a_shape a) = a_shape a.
Proof.
  intros Hv Hk. destruct (valid_memory _ _ _ _ Hv) as [[_ [_ [_ [Z _]]]]|[Hp _]]; [destruct (Hk Z)|]. apply proper_resolve; auto.
Qed.
Lemma resolve_shape_dec a b (A : Type) (p q : A) y h : valid c y h b -> nonempty a ->
  (if shape_dec (a_shape a) (resolve (a_shape b)) then p else q) = (if shape_dec (a_shape a) (a_shape b) then p else q).
Proof.
  intros Hv [i Hi]. destruct (valid_memory _ _ _ _ Hv) as [[_ [Hn _]]|[Hp _]].
  - destruct (shape_dec _ _) as [E|_].
    { destruct (Hn i). apply resolve_in_bounds. rewrite <- E. auto. }
    destruct (shape_dec _ _) as [E|_]; auto. destruct (Hn i). rewrite <- E. auto.
  - rewrite proper_resolve; auto.
Qed.
Definition arrives w z (r : option nat) w' : Prop :=
  forall a, w_arr w z = Some a -> nonempty a ->
  match r with
  | Some z' => exists a', w_arr w' z' = Some a' /\ keeps a a'
  | None => h_blk (w_heap w') (blk a) = None
  end.
Lemma sends_arrives w z r w' : Inv c w -> sends w z r w' -> arrives w z r w'.
Proof. intros Hw S a Ea Hn. apply S; auto. eapply nonempty_blk; eauto. apply (inv_valid c w z a Hw Ea). Qed.

Lemma busy_iff x h a : valid c x h a -> blk a <> 0%nat -> (a_busy a = true <-> flat_extent (a_shape a) <= c_cap c).
Proof.
  intros [_ [[Hm _]|[_ [k [b [_ [Hin _]]]]]]] Hk; [destruct (Hk (no_memory_blk _ Hm))|].
  destruct Hin as [_ [_ [_ [E1 [E2 [_ [_ H]]]]]]]. rewrite <- E2, <- E1. exact H.
Qed.
Lemma busy_blk x h a : valid c x h a -> a_busy a = true -> blk a <> 0%nat.
Proof. intros Hv Hb. destruct (valid_memory _ _ _ _ Hv) as [[[_ [_ H]] _]|[_ [H _]]]; [congruence|auto]. Qed.
Lemma moves_quiet x h a : c_pocma c = true -> valid c x h a -> a_busy a = false.
Proof.
  intros Hp Hv. apply (not_busy c x h); auto. destruct Hf as [_ [_ [_ [Hc|[_ [Hc _]]]]]]; [auto|congruence].
Qed.
Lemma swap_sends w x y a b w' z : Inv c w -> w_arr w x = Some a -> w_arr w y = Some b -> copyable c a -> copyable c b ->
  do_swap c w x y = Ok w' ->
  arrives w z (fate_op c w (Swap x y) z) w'.
Proof.
  intros Hw Ea Eb Ca Cb E. cbn [fate_op].
  assert (Hsame : forall z, z <> x -> z <> y -> arrives w z (Some z) w').
  { intros u N1 N2. apply sends_arrives; auto. destruct (swap_world c Hf w x y a b Hw Ea Eb Ca Cb) as [w0 [E0 [_ [U _]]]].
    rewrite E in E0. inv E0. apply (sends_unchanged w w0 [x; y]); auto. simpl. intuition. }
  rewrite (same_allocator_some w x y a b Ea Eb). fold (eqal a b).
  unfold do_swap in E. destruct (c_pocs c) eqn:Ep.
  - cbn [orb]. rewrite (get_ok w x a Ea), (get_ok w y b Eb) in E. cbn in E. inv E.
    destruct (Nat.eq_dec x y) as [<-|N].
    + rewrite trade_same. rewrite Ea in Eb. inv Eb. intros d Ed _.
      destruct (Nat.eq_dec z x) as [->|Nz].
      * rewrite Ea in Ed. inv Ed. cbn [w_arr]. rewrite put_same. eexists. split; [reflexivity|]. split; auto.
      * exists d. cbn [w_arr]. rewrite !put_other by auto. split; auto. apply keeps_refl.
    + intros d Ed Hn. destruct (Nat.eq_dec z x) as [->|Nx]; [|destruct (Nat.eq_dec z y) as [->|Ny]].
      * rewrite trade_l. rewrite Ea in Ed. inv Ed. cbn [w_arr]. rewrite put_other, put_same by auto.
        eexists. split; [reflexivity|]. split; auto.
      * rewrite trade_r. rewrite Eb in Ed. inv Ed. cbn [w_arr]. rewrite put_same.
        eexists. split; [reflexivity|]. split; auto.
      * rewrite trade_other by auto. apply (Hsame z Nx Ny d Ed Hn).
  - cbn [orb]. set (n := w_next w) in *.
    pose proof (inv_lt c w x a Hw Ea) as Lx. pose proof (inv_lt c w y b Hw Eb) as Ly. fold n in Lx, Ly.
    pose proof (inv_valid c w x a Hw Ea) as Va. pose proof (inv_valid c w y b Hw Eb) as Vb.
    apply bind_inv in E. destruct E as [w1 [E1 E]]. apply bind_inv in E. destruct E as [w2 [E2 E]].
    apply bind_inv in E. destruct E as [w3 [E3 E4]].
    destruct (new_move_world c Hf w y b Hw Eb Cb) as [w1' [E1' [I1 [U1 [N1 [M1 [t [b1 [Et [Eb1 _]]]]]]]]]].
    rewrite E1 in E1'. inv E1'. fold n in Et, U1, N1, M1.
    destruct (new_move_parts w y b _ w1' Hw Eb (or_introl (conj E1 eq_refl)))
      as [t' [b1' [Et' [Eb1' [O1 [_ [G1 [At [Ab1 [Bb1 P1]]]]]]]]]].
    fold n in Et', O1. rewrite Et in Et'. inv Et'. rewrite Eb1 in Eb1'. inv Eb1'.
    destruct (inv_denotes c w y b Hw Eb) as [fb Db].
    assert (Ht : refines (a_shape t') (a_shape b)).
    { destruct (M1 _ _ Db) as [s' [R D]]. destruct (denotes_has _ _ _ _ _ D Et) as [-> _]. auto. }
    pose proof (refines_copyable c b t' (inv_shape c w y b Hw Eb) Ht Cb) as Ct.
    destruct (Nat.eq_dec x y) as [<-|N].
    + rewrite Ea in Eb. inv Eb. rewrite trade_same.
      destruct (Nat.eq_dec z x) as [->|Nz].
      2:{ rewrite (proj2 (Nat.eqb_neq z x)) by auto. cbn [orb]. destruct (_ || _); apply Hsame; auto. }
      replace (if c_pocma c || eqal b b then _ else _) with (Some x).
      2:{ rewrite refit_same, (could_take_some w x b _ Ea), Nat.eqb_refl. cbn [orb]. unfold eqal. rewrite Nat.eqb_refl.
          destruct (c_pocma c); auto. destruct (a_busy b); auto. }
      destruct (self_world c w1' (MoveAssign x x) x b1' I1 Eb1) as [w2' [E2' [I2 [U2 [_ _]]]]]; auto.
      cbn [step] in E2'. rewrite E2 in E2'. inv E2'.
      destruct (U2 n) as [T1 _]; [intros []|]. destruct (U2 x) as [X1 _]; [intros []|]. rewrite Eb1 in X1. rewrite Et in T1.
      destruct (move_assign_parts w2' x n b1' t' w3 I2) as [a3 [t3 [Ea3 [Et3 [O3 [_ [_ [P3 _]]]]]]]]; auto; [lia|].
      destruct (move_assign_world c Hf w2' x n b1' t') as [w3' [E3' [I3 _]]]; auto; [lia|]. rewrite E3 in E3'. inv E3'.
      destruct (delete_parts w3' n t3 w' I3 Et3 E4) as [O4 _].
      intros d Ed Hn. rewrite Ea in Ed. inv Ed. pose proof (nonempty_blk _ _ _ Va Hn) as Hk.
      exists a3. rewrite O4 by lia. split; auto.
      destruct (negb (a_busy d) && (a_al d =? (if c_pocma c then a_al d else c_default c))%nat) eqn:Q0.
      * apply andb_true_iff in Q0. destruct Q0 as [Bz Q]. apply negb_true_iff in Bz. destruct P1 as [K1 [K2 K3]]. pose proof (keeps_blk _ _ K1) as Kb.
        assert (Q2 : eqal b1' t' = true) by (unfold eqal; rewrite Bb1, Bz, K3, Ab1, At, Q; auto).
        rewrite Q2, orb_true_r in P3. destruct P3 as [_ [P3 _]]. eapply keeps_trans; [exact K1|]. apply P3. congruence.
      * destruct P1 as [-> Es]. destruct (c_pocma c) eqn:Em.
        { rewrite Nat.eqb_refl, (moves_quiet x (w_heap w) d) in Q0 by auto. discriminate. }
        assert (Q2 : eqal d t' = false) by (unfold eqal; rewrite At; destruct (a_busy d); cbn [negb andb orb] in *; auto; rewrite Q0; apply andb_false_r).
        rewrite Q2 in P3. cbn [orb] in P3. destruct P3 as [_ P3]. specialize (P3 Hk).
        rewrite Es, (nonempty_proper _ _ _ Va Hk) in P3. destruct (shape_dec _ _); [auto|congruence].
    + destruct (U1 x) as [X1 _]; [simpl; intuition lia|]. rewrite Ea in X1.
      destruct (move_assign_parts w1' y x b1' a w2 I1) as [b2 [a2 [Eb2 [Ea2 [O2 [_ [G2 [P2 A2]]]]]]]]; auto.
      destruct (move_assign_world c Hf w1' y x b1' a) as [w2' [E2' [I2 _]]]; auto. rewrite E2 in E2'. inv E2'.
      assert (T1 : w_arr w2' n = Some t') by (rewrite O2; auto; lia).
      destruct (move_assign_parts w2' x n a2 t' w3 I2) as [a3 [t3 [Ea3 [Et3 [O3 [_ [G3 [P3 A3]]]]]]]]; auto; [lia|].
      destruct (move_assign_world c Hf w2' x n a2 t') as [w3' [E3' [I3 _]]]; auto; [lia|]. rewrite E3 in E3'. inv E3'.
      destruct (delete_parts w3' n t3 w' I3 Et3 E4) as [O4 [G4 D4]].
      assert (Ex : w_arr w' x = Some a3) by (rewrite O4; auto; lia).
      assert (Ey : w_arr w' y = Some b2) by (rewrite O4, O3; auto; lia).
      destruct (c_pocma c || eqal a b) eqn:Tr.
      * (* storage is exchanged *)
        assert (Bz : a_busy a = false /\ a_busy b = false).
        { destruct (c_pocma c) eqn:Em; [split; eapply moves_quiet; eauto|]. cbn [orb] in Tr. unfold eqal in Tr.
          destruct (a_busy a), (a_busy b); try discriminate; auto. }
        destruct Bz as [Bza Bzb]. rewrite Bzb in P1, Bb1. cbn [negb andb] in P1.
        assert (Q1 : c_pocma c || eqal b1' a = true).
        { destruct (c_pocma c); auto. cbn [orb] in *. unfold eqal in *. rewrite Bza, Bb1, Ab1, Nat.eqb_sym. rewrite Bza, Bzb in Tr. auto. }
        rewrite Q1 in P2. destruct P2 as [P2b [P2a [B2b B2a]]].
        intros d Ed Hn. destruct (Nat.eq_dec z x) as [->|Nx]; [|destruct (Nat.eq_dec z y) as [->|Ny]].
        -- rewrite trade_l. rewrite Ea in Ed. inv Ed. exists b2. split; auto. apply P2a. eapply nonempty_blk; eauto.
        -- rewrite trade_r. rewrite Eb in Ed. inv Ed. pose proof (nonempty_blk _ _ _ Vb Hn) as Hk.
           exists a3. split; auto.
           destruct (a_al d =? (if c_pocma c then a_al d else c_default c))%nat eqn:Q.
           ++ destruct P1 as [K1 [K2 K3]]. pose proof (keeps_blk _ _ K1) as Kb.
              assert (Q2 : c_pocma c || eqal a2 t' = true).
              { destruct (c_pocma c) eqn:Em; auto. cbn [orb] in *. unfold eqal in *. destruct (A2 eq_refl) as [_ ->].
                rewrite B2a, Bza, K3, At. rewrite Bza, Bzb in Tr. cbn [negb orb andb] in *. apply Nat.eqb_eq in Tr. rewrite Tr. auto. }
              rewrite Q2 in P3. destruct P3 as [_ [P3 _]]. eapply keeps_trans; [exact K1|]. apply P3. congruence.
           ++ destruct P1 as [-> Es]. destruct (c_pocma c) eqn:Em; [rewrite Nat.eqb_refl in Q; discriminate|].
              cbn [orb] in *. specialize (P2b Hk). pose proof (keeps_blk _ _ P2b) as Kb.
              assert (Q2 : eqal a2 t' = false).
              { unfold eqal in *. destruct (A2 eq_refl) as [_ ->]. rewrite Bza, Bzb in Tr. cbn [negb orb andb] in Tr.
                apply Nat.eqb_eq in Tr. rewrite At, Tr, Q. apply andb_false_r. }
              rewrite Q2 in P3. destruct P3 as [_ P3]. specialize (P3 ltac:(congruence)).
              rewrite Es, (nonempty_proper _ _ _ Vb Hk) in P3. pose proof P2b as [_ [_ Es2]]. rewrite Es2 in P3.
              destruct (shape_dec _ _); [|congruence]. eapply keeps_trans; [exact P2b|exact P3].
        -- rewrite trade_other by auto. apply (Hsame z Nx Ny d Ed Hn).
      * (* the elements are moved *)
        apply orb_false_iff in Tr. destruct Tr as [Em Tr]. rewrite Em in *. cbn [orb] in *.
        assert (Q1 : eqal b1' a = false).
        { unfold eqal in *. rewrite Ab1, Bb1, orb_comm, Nat.eqb_sym. auto. }
        rewrite Q1 in P2. destruct P2 as [P2a P2b]. destruct (A2 eq_refl) as [_ Aa2].
        pose proof (inv_valid c w2' x a2 I2 Ea2) as Va2. pose proof (inv_valid c w2' n t' I2 T1) as Vt.
        assert (Ba2 : blk a <> 0%nat -> a_busy a2 = a_busy a).
        { intros Hk. destruct (P2a Hk) as [K2a [_ K2c]]. assert (Hk2 : blk a2 <> 0%nat) by (unfold blk in *; congruence).
          apply eq_iff_eq_true. rewrite (busy_iff _ _ _ Va Hk), (busy_iff _ _ _ Va2 Hk2), K2c. reflexivity. }
        intros d Ed Hn. destruct (Nat.eq_dec z x) as [->|Nx]; [|destruct (Nat.eq_dec z y) as [->|Ny]].
        -- rewrite Nat.eqb_refl. cbn [orb]. rewrite Ea in Ed. inv Ed. pose proof (nonempty_blk _ _ _ Va Hn) as Hk.
           rewrite (could_take_some w x d _ Ea). pose proof (P2a Hk) as K2. pose proof (keeps_blk _ _ K2) as Kb.
           assert (Hk2 : blk a2 <> 0%nat) by congruence. specialize (Ba2 Hk).
           assert (Gx : h_blk (w_heap w3') (blk a2) = None -> h_blk (w_heap w') (blk d) = None).
           { intros Dd. rewrite <- Kb. eapply (grows_dead (w_heap w3')); eauto.
             rewrite Kb. pose proof (blk_lt x _ _ (proj1 Hw) Va Hk).
             pose proof (grows_next _ _ G1). pose proof (grows_next _ _ G2). pose proof (grows_next _ _ G3). lia. }
           unfold refit. rewrite Nat.eqb_refl, trade_l, (shape_of_some w x d Ea), (shape_of_some w y b Eb).
           destruct (negb (a_busy d) && (a_al d =? c_default c)%nat) eqn:Q.
           ++ apply andb_true_iff in Q. destruct Q as [Bz Q]. apply negb_true_iff in Bz. rewrite Bz in Ba2.
              destruct (a_busy t') eqn:Bt.
              ** replace (eqal a2 t') with false in P3 by (unfold eqal; rewrite Bt, orb_true_r; auto).
                 destruct P3 as [_ P3]. specialize (P3 Hk2). apply Gx.
                 pose proof (busy_iff _ _ _ Va2 Hk2) as F1. pose proof (busy_iff _ _ _ Vt (busy_blk _ _ _ Vt Bt)) as F2.
                 destruct (shape_dec (a_shape a2) (a_shape t')) as [Es|_]; auto. rewrite Es, Ba2 in F1. rewrite Bt in F2.
                 assert (X : false = true) by (apply F1, F2; auto). discriminate X.
              ** replace (eqal a2 t') with true in P3 by (unfold eqal; rewrite Bt, Ba2, Aa2, At, Q; auto).
                 destruct P3 as [P3 _]. pose proof (keeps_blk _ _ (P3 Hk2)) as Kb3.
                 rewrite <- Kb, <- Kb3. apply D4. congruence.
           ++ replace (eqal a2 t') with false in P3
                by (unfold eqal; rewrite Ba2, Aa2, At; destruct (a_busy d); cbn [negb andb orb] in *; auto; rewrite Q, andb_false_r; auto).
              destruct P3 as [_ P3]. specialize (P3 Hk2). destruct K2 as [K2a [K2b K2c]]. rewrite K2c in P3.
              assert (P4 : if shape_dec (a_shape d) (a_shape b) then keeps a2 a3 else h_blk (w_heap w3') (blk a2) = None).
              { rewrite <- (resolve_shape_dec d b Prop _ _ y (w_heap w) Vb Hn).
                destruct Ht as [Ht|Ht]; rewrite Ht in P3; auto.
                rewrite (resolve_shape_dec d b Prop _ _ y (w_heap w) Vb Hn). auto. }
              destruct (shape_dec (a_shape d) (a_shape b)).
              ** exists a3. split; auto. eapply keeps_trans; [|exact P4]. split; auto.
              ** apply Gx. auto.
        -- rewrite Nat.eqb_refl, orb_true_r. rewrite Eb in Ed. inv Ed. pose proof (nonempty_blk _ _ _ Vb Hn) as Hk.
           rewrite (could_take_some w y d _ Eb).
           unfold refit. rewrite Nat.eqb_refl, trade_r, (shape_of_some w x a Ea), (shape_of_some w y d Eb).
           destruct (negb (a_busy d) && (a_al d =? c_default c)%nat) eqn:Q.
           ++ destruct P1 as [K1 [K2 K3]]. pose proof (keeps_blk _ _ K1) as Kb.
              assert (Q4 : eqal a2 t' = false).
              { apply andb_true_iff in Q. destruct Q as [Bz Q]. apply negb_true_iff in Bz. apply Nat.eqb_eq in Q.
                unfold eqal in *. rewrite Bz, Q in Tr. rewrite K3, Aa2, At. destruct (a_busy a) eqn:Bza.
                - rewrite Ba2 by (eapply busy_blk; eauto). auto.
                - cbn [negb orb andb] in Tr. rewrite Tr. apply andb_false_r. }
              rewrite Q4 in P3. destruct P3 as [P3 _]. pose proof (keeps_blk _ _ (P3 ltac:(congruence))) as Kb3.
              rewrite <- Kb, <- Kb3. apply D4. congruence.
           ++ destruct P1 as [-> Es]. specialize (P2b Hk). destruct (shape_dec (a_shape d) (a_shape a)).
              ** exists b2. split; auto.
              ** pose proof (blk_lt y _ _ (proj1 Hw) Vb Hk).
                 pose proof (grows_next _ _ G1). pose proof (grows_next _ _ G2). pose proof (grows_next _ _ G3).
                 eapply (grows_dead (w_heap w3')); eauto; [lia|]. eapply (grows_dead (w_heap w2')); eauto. lia.
        -- rewrite (proj2 (Nat.eqb_neq z x)), (proj2 (Nat.eqb_neq z y)) by auto. apply (Hsame z Nx Ny d Ed Hn).
Qed.
End Fate.
