(** Proofs about programs that hold array_refs: what each statement does to them. *)
From Coq Require Import ZArith List Bool Lia Permutation Arith.
From Verif Require Import Base Interval Shape Memory Ref Container Program Views Spec SpecMem SpecContainer SpecProgram SpecViews Tac
  ShapeFacts ResolveFacts TraverseFacts MemFacts RefFacts SliceFacts ContainerFacts ContainerWorld ContainerProps ProgramFacts ViewsFacts.
Import ListNotations.
Open Scope Z_scope.

Section Grows.
Context {V : Type}.
Variable c : config V.
Implicit Types (w : world V) (h : heap V).
Ltac binds :=
  repeat match goal with
  | E : bind _ _ = Ok _ |- _ => apply bind_inv in E; destruct E as [? [? E]]
  | p : (_ * _)%type |- _ => destruct p
  | E : Ok _ = Ok _ |- _ => inv E
  end.

Lemma grows_copy nd h (s r : aref) h' : copy nd h s r = Ok h' -> grows h h'.
Proof.
  unfold copy. destruct (empty _); intros E; binds; [apply grows_refl|].
  eapply grows_fold; [|exact E]. intros ? ? ? E1. unfold copy_assign in E1. binds. eapply grows_store; eauto.
Qed.
Lemma grows_move_list mv l : forall h h', foldM (@move_assign V mv) l h = Ok h' -> grows h h'.
Proof.
  intros h h' E. eapply grows_fold; [|exact E]. intros ? ? ? E1. unfold move_assign in E1. binds.
  eapply grows_trans; eapply grows_store; eauto.
Qed.
Lemma grows_move nd mv h (s r : aref) h' : move nd mv h s r = Ok h' -> grows h h'.
Proof.
  unfold move. destruct (empty _); intros E; binds; [apply grows_refl|]. eapply grows_move_list; eauto.
Qed.
Lemma grows_fill nd h (r : aref) v h' : fill nd h r v = Ok h' -> grows h h'.
Proof.
  unfold fill. intros E. binds. eapply grows_fold; [|exact E]. intros ? ? ? E1. cbn beta in E1. eapply grows_store; eauto.
Qed.
Lemma grows_transform h (r : aref) fn h' : transform_index h r fn = Ok h' -> grows h h'.
Proof.
  unfold transform_index. intros E. binds. eapply grows_fold; [|exact E]. intros ? ? ? E1. cbn beta in E1. eapply grows_store; eauto.
Qed.
Lemma grows_generate nd h (r : aref) g h' n : generate nd h r g = Ok (h', n) -> grows h h'.
Proof.
  unfold generate. intros E. binds. clear H. unfold assign_each in E. revert E.
  enough (G : forall st st', foldM (fun (st : heap V * nat) (p : ptr) => h'0 <- store (fst st) p (g (snd st));; Ok (h'0, S (snd st))) x st = Ok st' ->
    grows (fst st) (fst st')) by (intros E; apply G in E; auto).
  induction x as [|p l IH]; cbn [foldM]; intros st st' E; [inv E; apply grows_refl|].
  apply bind_inv in E. destruct E as [st1 [E1 E2]]. apply bind_inv in E1. destruct E1 as [h1 [E1 E3]]. inv E3.
  eapply grows_trans; [eapply grows_store; eauto|]. apply IH in E2. auto.
Qed.
Lemma grows_ctor_move x h y b h' a' b' : ctor_move c x h y b = Ok (h', a', b') -> grows h h'.
Proof.
  unfold ctor_move. destruct (_ || _); intros E; [inv E; apply grows_refl|]. binds.
  eapply grows_trans; [eapply grows_allocate; eauto|eapply grows_move_construct; eauto].
Qed.
Lemma grows_ctor_move_alloc x h y b al h' a' b' : ctor_move_alloc c x h y b al = Ok (h', a', b') -> grows h h'.
Proof.
  unfold ctor_move_alloc. destruct (alloc_eq _ _ _ _); intros E; [inv E; apply grows_refl|]. binds.
  eapply grows_trans; [eapply grows_allocate; eauto|eapply grows_move_construct; eauto].
Qed.
Lemma grows_copy_assign_op x h a y b h' a' : copy_assign_op c x h a y b = Ok (h', a') -> grows h h'.
Proof.
  unfold copy_assign_op. destruct (ptr_eqb _ _).
  - destruct (negb _); intros E; binds; apply grows_refl.
  - intros E. apply bind_inv in E. destruct E as [[h1 a1] [E1 E2]].
    eapply grows_trans; [|eapply grows_assign_copy; eauto].
    destruct (c_pocca c); [|inv E1; apply grows_refl]. apply bind_inv in E1. destruct E1 as [[h2 a2] [E1 E3]]. inv E3.
    destruct (negb _); [eapply grows_deallocate; eauto|inv E1; apply grows_refl].
Qed.
Lemma grows_move_assign_op x h a y b h' a' b' : move_assign_op c x h a y b = Ok (h', a', b') -> grows h h'.
Proof.
  unfold move_assign_op. destruct (ptr_eqb _ _).
  - destruct (negb _); intros E; binds; apply grows_refl.
  - destruct (c_pocma c); [intros E; inv E; apply grows_refl|].
    destruct (alloc_eq _ _ _ _); intros E; [inv E; apply grows_refl|]. binds. eapply grows_assign_move; eauto.
Qed.
Lemma grows_do_move_assign w x y w' : do_move_assign c w x y = Ok w' -> grows (w_heap w) (w_heap w').
Proof.
  unfold do_move_assign, change2. intros E. binds. eapply grows_move_assign_op; eauto.
Qed.
Lemma grows_do_new w s al w' : do_new c w s al = Ok w' -> grows (w_heap w) (w_heap w').
Proof. unfold do_new, add. intros E. binds. eapply grows_ctor_shape; eauto. Qed.
Lemma grows_do_new_move w y w' : do_new_move c w y = Ok w' -> grows (w_heap w) (w_heap w').
Proof. unfold do_new_move, add2. intros E. binds. eapply grows_ctor_move; eauto. Qed.
Lemma grows_do_delete w y w' : do_delete c w y = Ok w' -> grows (w_heap w) (w_heap w').
Proof. unfold do_delete. intros E. binds. eapply grows_deallocate; eauto. Qed.

Lemma step_grows w o w' : step c w o = Ok w' -> grows (w_heap w) (w_heap w').
Proof.
  destruct o; cbn [step]; intros E; try (unfold add, add2, change in E; binds; cbn [w_heap]; fail).
  - eapply grows_do_new; eauto.
  - unfold add, ctor_value in E. binds. eapply grows_trans; [eapply grows_ctor_shape; eauto|eapply grows_assign_value; eauto].
  - unfold add, ctor_copy in E. binds. eapply grows_assign_copy; eauto.
  - unfold add, ctor_copy_alloc in E. binds. eapply grows_trans; [eapply grows_ctor_shape; eauto|eapply grows_assign_copy; eauto].
  - eapply grows_do_new_move; eauto.
  - unfold add2 in E. binds. eapply grows_ctor_move_alloc; eauto.
  - unfold add, make_copy in E. binds. eapply grows_trans; [eapply grows_ctor_shape; eauto|eapply grows_copy; eauto].
  - unfold add, make_move in E. binds. eapply grows_trans; [eapply grows_ctor_shape; eauto|eapply grows_move; eauto].
  - unfold change in E. binds. eapply grows_copy_assign_op; eauto.
  - eapply grows_do_move_assign; eauto.
  - unfold change in E. binds. eapply grows_assign_copy; eauto.
  - unfold change in E. binds. eapply grows_assign_move; eauto.
  - unfold change in E. binds. eapply grows_assign_value; eauto.
  - unfold change, clear in E. binds. eapply grows_trans; [eapply grows_deallocate; eauto|].
    eapply grows_trans; [eapply grows_allocate; eauto|eapply grows_construct; eauto].
  - unfold do_reshape in E. apply bind_inv in E. destruct E as [a [_ E]].
    destruct (shape_eqb _ _); [inv E; apply grows_refl|]. binds.
    eapply grows_trans; [eapply grows_do_new; eauto|]. eapply grows_trans; [|eapply grows_do_delete; eauto].
    eapply grows_trans; [|eapply grows_do_move_assign; eauto]. cbn [w_heap].
    unfold move_common in *. binds. eapply grows_move_list; eauto.
  - unfold do_swap in E. destruct (c_pocs c).
    + apply bind_inv in E. destruct E as [a [_ E]]. apply bind_inv in E. destruct E as [b [_ E]]. cbn in E. inv E. apply grows_refl.
    + binds. eapply grows_trans; [eapply grows_do_new_move; eauto|]. eapply grows_trans; [eapply grows_do_move_assign; eauto|].
      eapply grows_trans; [eapply grows_do_move_assign; eauto|]. eapply grows_do_delete; eauto.
  - binds. eapply grows_store; eauto.
  - eapply grows_do_delete; eauto.
Qed.
Lemma astep_grows w o w' : astep c w o = Ok w' -> grows (w_heap w) (w_heap w').
Proof.
  destruct o; cbn [astep]; intros E.
  - eapply step_grows; eauto.
  - binds. eapply grows_fill; eauto.
  - binds. eapply grows_fill; eauto.
  - binds. eapply grows_copy; eauto.
  - binds. eapply grows_move; eauto.
  - apply (step_grows w (MoveAssign x y)); auto.
  - apply bind_inv in E. destruct E as [a [_ E]]. apply bind_inv in E. destruct E as [h [E1 E2]]. inv E2.
    apply bind_inv in E1. destruct E1 as [[h' n] [E1 E2]]. inv E2. eapply grows_generate; eauto.
  - binds. eapply grows_transform; eauto.
  - unfold change in E. binds. eapply grows_assign_value; eauto.
Qed.
End Grows.

(** ** Every statement *)

Section Steps.
Context {V : Type}.
Variable c : config V.
Hypothesis Hf : fair c.
Implicit Types (w : world V) (h : heap V).

Lemma add_sends w r w' z : Inv c w -> add w r = Ok w' -> sends w z (Some z) w'.
Proof.
  intros Hw E a Ea _. pose proof (inv_lt c w z a Hw Ea) as L. unfold add in E.
  apply bind_inv in E. destruct E as [[h' b] [_ E]]. inv E. exists a. cbn [w_arr]. rewrite put_other by lia.
  split; auto. apply keeps_refl.
Qed.
Lemma heap_sends w (r : outcome (heap V)) w' z : (h' <- r ;; Ok (mkW h' (w_arr w) (w_next w))) = Ok w' -> sends w z (Some z) w'.
Proof. intros E. apply bind_inv in E. destruct E as [h' [_ E]]. inv E. apply sends_eq. auto. Qed.
Lemma step_arrives w o w' z : Inv c w -> legal_op c w o -> step c w o = Ok w' ->
  arrives w z (fate_op c w o z) w'.
Proof.
  intros Hw L E.
  assert (S : forall r, sends w z r w' -> arrives w z r w') by (intros r; apply sends_arrives with (c := c); auto).
  destruct o; cbn [legal_op] in L.
  - apply S. eapply add_sends; eauto.
  - apply S. eapply add_sends; eauto.
  - apply S. cbn [step] in E. apply bind_inv in E. destruct E as [b [_ E]]. eapply add_sends; eauto.
  - apply S. cbn [step] in E. apply bind_inv in E. destruct E as [b [_ E]]. eapply add_sends; eauto.
  - destruct L as [b [Eb _]]. apply S. eapply new_move_sends; eauto.
  - destruct L as [b [Eb _]]. apply S. eapply new_move_sends; eauto.
  - apply S. cbn [step] in E. apply bind_inv in E. destruct E as [b [_ E]]. eapply add_sends; eauto.
  - apply S. cbn [step] in E. apply bind_inv in E. destruct E as [b [_ E]]. eapply add_sends; eauto.
  - destruct L as [[a Ea] [b [Eb Cb]]]. apply S. eapply copy_assign_sends; eauto.
  - destruct L as [[a Ea] [b [Eb Cb]]]. apply S. apply (proj1 (move_assign_sends c Hf w x y a b w' z Hw Ea Eb Cb E)).
  - destruct L as [[a Ea] [b [Eb Cb]]]. apply S. cbn [fate_op]. apply (assign_sends c w (AssignCopy x y) x y a b w' z); auto.
  - destruct L as [[a Ea] [b [Eb Cb]]]. apply S. cbn [fate_op]. apply (assign_sends c w (AssignMove x y) x y a b w' z); auto.
  - destruct L as [[a Ea] Hs]. apply S. cbn [step] in E. rewrite (get_ok w x a Ea) in E. cbn [bind] in E. unfold change in E.
    apply bind_inv in E. destruct E as [[h' a'] [E E2]]. inv E2. eapply assign_value_sends; eauto.
  - destruct L as [a Ea]. apply S. eapply clear_sends; eauto.
  - destruct L as [Hs [a [Ea Hm]]]. apply S. eapply reshape_sends; eauto.
  - destruct L as [[a [Ea Ca]] [b [Eb Cb]]]. eapply swap_sends; eauto.
  - apply S. cbn [step] in E. apply bind_inv in E. destruct E as [b [_ E]]. eapply heap_sends; eauto.
  - destruct L as [a Ea]. apply S. eapply delete_sends; eauto.
Qed.
Lemma astep_arrives w o w' z : Inv c w -> legal_act c w o -> astep c w o = Ok w' ->
  arrives w z (fate c w o z) w'.
Proof.
  intros Hw L E.
  assert (S : forall r, sends w z r w' -> arrives w z r w') by (intros r; apply sends_arrives with (c := c); auto).
  destruct o; cbn [legal_act fate] in *.
  - apply step_arrives; auto.
  - apply S. cbn [astep] in E. apply bind_inv in E. destruct E as [b [_ E]]. eapply heap_sends; eauto.
  - apply S. cbn [astep] in E. apply bind_inv in E. destruct E as [a [_ E]]. apply bind_inv in E. destruct E as [b [_ E]].
    apply bind_inv in E. destruct E as [v [_ E]]. eapply heap_sends; eauto.
  - apply S. cbn [astep] in E. apply bind_inv in E. destruct E as [a [_ E]]. apply bind_inv in E. destruct E as [b [_ E]].
    eapply heap_sends; eauto.
  - apply S. cbn [astep] in E. apply bind_inv in E. destruct E as [a [_ E]]. apply bind_inv in E. destruct E as [b [_ E]].
    eapply heap_sends; eauto.
  - destruct L as [[a Ea] [b [Eb Cb]]]. apply S. apply (proj1 (move_assign_sends c Hf w x y a b w' z Hw Ea Eb Cb E)).
  - apply S. cbn [astep] in E. apply bind_inv in E. destruct E as [b [_ E]]. eapply heap_sends; eauto.
  - apply S. cbn [astep] in E. apply bind_inv in E. destruct E as [b [_ E]]. eapply heap_sends; eauto.
  - destruct L as [[a Ea] [Hs [N [b [Eb Hi]]]]]. apply S. cbn [astep] in E.
    rewrite (get_ok w x a Ea), (get_ok w y b Eb) in E. cbn [bind] in E. unfold change in E.
    apply bind_inv in E. destruct E as [[h' a'] [E E2]]. inv E2. eapply assign_value_sends; eauto.
Qed.

(** Where the elements were, nothing is created later *)
Lemma peek_none h p : h_blk h (fst p) = None -> peek h p = None.
Proof. intros E. unfold peek. rewrite E. destruct (fst p); auto. Qed.
Lemma dead_alive h p : h_blk h (fst p) = None -> ~ alive h p.
Proof. intros E [v H]. unfold holds in H. rewrite peek_none in H by auto. discriminate. Qed.
Lemma arun_grows ops : forall w w', arun c ops w = Ok w' -> grows (w_heap w) (w_heap w').
Proof.
  unfold arun. induction ops as [|o ops IH]; cbn [foldM]; intros w w' E; [inv E; apply grows_refl|].
  apply bind_inv in E. destruct E as [w1 [E1 E2]]. eapply grows_trans; [eapply astep_grows; eauto|eauto].
Qed.
Lemma fate_same w o w' z z' : Inv c w -> legal_act c w o -> astep c w o = Ok w' ->
  (exists i, in_bounds (shape_of w z) i) -> fate c w o z = Some z' -> exists_arr w z -> same_place w z w' z'.
Proof.
  intros Hw L E Hn F [a Ea]. rewrite (shape_of_some w z a Ea) in Hn.
  pose proof (astep_arrives w o w' z Hw L E a Ea Hn) as A. rewrite F in A. destruct A as [a' [E1 [_ [B D]]]].
  exists a, a'. auto.
Qed.
Lemma fate_gone w o w' z p : Inv c w -> legal_act c w o -> astep c w o = Ok w' ->
  fate c w o z = None -> elem_of w z p -> h_blk (w_heap w') (fst p) = None /\ (fst p < h_next (w_heap w'))%nat.
Proof.
  intros Hw L E F [a [Ea [i [Hi ->]]]].
  assert (Hn : nonempty a) by (exists i; auto).
  pose proof (astep_arrives w o w' z Hw L E a Ea Hn) as A. rewrite F in A.
  pose proof (inv_valid c w z a Hw Ea) as Va. destruct (repr_elem _ _ _ _ _ i Va Hi) as [b [Hk [_ [_ [_ [Ee _]]]]]].
  rewrite Ee. cbn [fst]. split; auto. pose proof (blk_lt c z _ _ (proj1 Hw) Va Hk).
  pose proof (grows_next _ _ (astep_grows c w o w' E)). lia.
Qed.
Lemma fate_spec w o w' z : Inv c w -> legal_act c w o -> astep c w o = Ok w' ->
  exists_arr w z -> (exists i, in_bounds (shape_of w z) i) ->
  match fate c w o z with
  | Some z' => same_place w z w' z'
  | None => forall p ops w2, elem_of w z p -> arun c ops w' = Ok w2 -> ~ alive (w_heap w2) p
  end.
Proof.
  intros Hw L E Ez Hn. destruct (fate c w o z) as [z'|] eqn:F; [eapply fate_same; eauto|].
  intros p ops w2 Hp R. destruct (fate_gone w o w' z p Hw L E F Hp) as [D Lt].
  apply dead_alive. eapply grows_dead; eauto. eapply arun_grows; eauto.
Qed.

(** ** array_refs *)

Definition dead h (r : aref) : Prop :=
  forall i, in_bounds (r_shape r) i -> h_blk h (fst (r_base r)) = None /\ (fst (r_base r) < h_next h)%nat.
Lemma dead_grows h h' r : grows h h' -> dead h r -> dead h' r.
Proof.
  intros G D i Hi. destruct (D i Hi) as [D1 D2]. pose proof (grows_next _ _ G). split; [|lia]. eapply grows_dead; eauto.
Qed.
Lemma views_after w o w' x at_ r : Inv c w -> legal_act c w o -> astep c w o = Ok w' ->
  views w x at_ r -> match fate c w o x with Some x' => views w' x' at_ r | None => dead (w_heap w') r end.
Proof.
  intros Hw L E Hv. destruct (fate c w o x) as [x'|] eqn:F; intros i Hi; destruct (Hv i Hi) as [a [Ea [Hj Ee]]].
  - destruct (fate_same w o w' x x') as [a1 [a' [E1 [E2 [B S]]]]]; auto; [|exists a; auto|].
    { rewrite (shape_of_some w x a Ea). eauto. }
    rewrite Ea in E1. inv E1. exists a'. rewrite B, S. auto.
  - destruct (fate_gone w o w' x (elem (r_base r) (r_shape r) i)) as [D Lt]; auto.
    exists a. split; auto. exists (at_ i). auto.
Qed.
Lemma views_ref w x a : w_arr w x = Some a -> views w x (fun i => i) (aref_of a).
Proof. intros Ea i Hi. exists a. auto. Qed.
Lemma views_alive w x at_ r i : Inv c w -> views w x at_ r -> in_bounds (r_shape r) i ->
  alive (w_heap w) (elem (r_base r) (r_shape r) i).
Proof.
  intros Hw Hv Hi. destruct (Hv i Hi) as [a [Ea [Hj ->]]]. eapply inv_alive; eauto.
Qed.
Lemma views_elem w x at_ r p : views w x at_ r -> is_elem (r_base r) (r_shape r) p -> elem_of w x p.
Proof. intros Hv [i [Hi ->]]. destruct (Hv i Hi) as [a [Ea [Hj E]]]. exists a. split; auto. exists (at_ i). auto. Qed.
Lemma slice_within r args i : length args = length (r_shape r) -> args_within args (r_shape r) ->
  in_bounds (r_shape (ref_slice r args)) i -> in_bounds (r_shape r) (full_index args i).
Proof. intros Hl Hw Hi. eapply selects_within; eauto. apply slice_in_bounds; auto. Qed.
Lemma views_slice w x at_ r args : Inv c w -> views w x at_ r -> length args = length (r_shape r) ->
  args_within args (r_shape r) -> views w x (fun i => at_ (full_index args i)) (ref_slice r args).
Proof.
  intros Hw Hv Hl Ha i Hi. pose proof (slice_within r args i Hl Ha Hi) as Hj.
  assert (Hb : fst (r_base r) <> O) by (apply (alive_block (w_heap w) (elem (r_base r) (r_shape r) (full_index args i))); eapply views_alive; eauto).
  destruct (slice_denotes r args Hl Hb) as [_ [S1 [S2 _]]].
  destruct (Hv _ Hj) as [a [Ea [Hk E]]]. exists a. split; auto. split; auto. rewrite <- elem_ref, S1 by auto. auto.
Qed.
Lemma slice_extents args : forall s, length args = length s -> extents_ge 0 s ->
  Forall (fun a => match a with AInt i => 0 <= iext i | ADim d => 0 <= dext d | _ => True end) args ->
  extents_ge 0 (shape_slice s args).
Proof.
  induction args as [|a r IH]; intros [|d s] Hl Hs Ha; simpl in Hl; try discriminate; [constructor|].
  rewrite shape_slice_cons. inversion Hs as [|? ? H1 H2]; subst. inversion Ha as [|? ? H3 H4]; subst.
  specialize (IH s ltac:(lia) H2 H4). destruct a; cbn [app]; auto; constructor; auto.
Qed.

Lemma full_index_inj args : forall i j, length i = kept args -> length j = kept args ->
  full_index args i = full_index args j -> i = j.
Proof.
  induction args as [|a r IH]; intros i j Hi Hj E; cbn [kept full_index] in *.
  - destruct i, j; auto; discriminate.
  - destruct a; [inv E; auto|..]; (destruct i as [|x i], j as [|y j]; try discriminate; inv E; f_equal; apply IH; auto).
Qed.
Lemma slice_injective r args : length args = length (r_shape r) -> args_within args (r_shape r) ->
  injective_layout (r_shape r) -> injective_layout (r_shape (ref_slice r args)).
Proof.
  intros Hl Ha J i j Hi Hj E. pose proof (slice_within r args i Hl Ha Hi) as Hi2. pose proof (slice_within r args j Hl Ha Hj) as Hj2.
  destruct (slice_in_bounds args (r_shape r) i Hl Hi) as [Ki _]. destruct (slice_in_bounds args (r_shape r) j Hl Hj) as [Kj _].
  apply (full_index_inj args); auto. apply J; auto.
  pose proof (slice_offset args (r_shape r) i Hl Ki). pose proof (slice_offset args (r_shape r) j Hl Kj).
  unfold ref_slice, make_array_ref_at in E. cbn [r_shape] in E. lia.
Qed.

(** Reading and writing *)
Lemma views_get w x at_ r i s f : views w x at_ r -> in_bounds (r_shape r) i -> denotes w x s f ->
  ref_at (w_heap w) r i = Ok (f (at_ i)).
Proof.
  intros Hv Hi [a [Ea [<- H]]]. destruct (Hv i Hi) as [a' [Ea' [Hj E]]]. rewrite Ea in Ea'. inv Ea'.
  unfold ref_at. apply load_holds. rewrite elem_ref, E. auto.
Qed.
Lemma views_change w x at_ r h' : Inv c w -> views w x at_ r ->
  only_changes (is_elem (r_base r) (r_shape r)) (w_heap w) h' ->
  (forall i, in_bounds (r_shape r) i -> alive h' (elem (r_base r) (r_shape r) i)) ->
  Inv c (mkW h' (w_arr w) (w_next w)) /\ unchanged w (mkW h' (w_arr w) (w_next w)) [x].
Proof.
  intros Hw Hv O A. apply (inv_values c w h' (is_elem (r_base r) (r_shape r))); auto.
  - split; auto. split; [|apply is_elem_dec]. intros p [i [Hi ->]]. split; auto. eapply views_alive; eauto.
  - intros p Hp. exists x. split; [left; auto|]. eapply views_elem; eauto.
Qed.
Lemma only_changes_one (P : ptr -> Prop) h p v : P p -> only_changes P h (upd h p (Live v)).
Proof. intro H. apply (upds_only_changes h [(p, Live v)]). intros q [<-|[]]. auto. Qed.
Lemma views_put w x at_ r i e : Inv c w -> views w x at_ r -> in_bounds (r_shape r) i ->
  exists h', store (w_heap w) (ref_ptr r i) e = Ok h' /\ Inv c (mkW h' (w_arr w) (w_next w)) /\
    unchanged w (mkW h' (w_arr w) (w_next w)) [x] /\
    forall s f, denotes w x s f ->
      denotes (mkW h' (w_arr w) (w_next w)) x s (fun j => if list_eq_dec Z.eq_dec j (at_ i) then e else f j).
Proof.
  intros Hw Hv Hi. pose proof (views_alive w x at_ r i Hw Hv Hi) as A. rewrite elem_ref. rewrite store_ok by auto.
  eexists. split; [reflexivity|]. set (p := elem (r_base r) (r_shape r) i) in *.
  destruct (views_change w x at_ r (upd (w_heap w) p (Live e)) Hw Hv) as [I U].
  { apply only_changes_one. exists i. auto. }
  { intros j Hj. destruct (ptr_dec p (elem (r_base r) (r_shape r) j)) as [<-|N].
    - exists e. unfold holds. apply peek_upd_same. destruct A as [v ->]. discriminate.
    - destruct (views_alive w x at_ r j Hw Hv Hj) as [v H]. exists v. unfold holds. rewrite peek_upd_other; auto. }
  split; auto. split; auto. intros s f [a [Ea [<- D]]]. exists a. cbn [w_arr w_heap]. split; auto. split; auto.
  destruct (Hv i Hi) as [a' [Ea' [Hk E]]]. rewrite Ea in Ea'. inv Ea'. fold p in E.
  intros j Hj. unfold holds. destruct (list_eq_dec _ _ _) as [->|N].
  - rewrite <- E. apply peek_upd_same. destruct A as [v ->]. discriminate.
  - rewrite peek_upd_other; [apply D; auto|]. rewrite E. intro Q. apply N.
    pose proof (inv_injective c w x a' Hw Ea) as J. unfold elem in Q. inv Q.
    symmetry. apply J; auto. lia.
Qed.
Lemma views_fill w x at_ r e : Inv c w -> extents_ge 0 (r_shape r) -> views w x at_ r ->
  exists h', fill (c_ndebug c) (w_heap w) r e = Ok h' /\ Inv c (mkW h' (w_arr w) (w_next w)) /\
    unchanged w (mkW h' (w_arr w) (w_next w)) [x] /\
    forall s f, denotes w x s f -> exists g, denotes (mkW h' (w_arr w) (w_next w)) x s g /\
      (forall i, in_bounds (r_shape r) i -> g (at_ i) = e) /\
      (forall j, in_bounds s j -> (forall i, in_bounds (r_shape r) i -> at_ i <> j) -> g j = f j).
Proof.
  intros Hw He Hv. destruct (fill_spec (c_ndebug c) (w_heap w) r e He) as [h' [E [D O]]].
  { intros i Hi. eapply views_alive; eauto. }
  exists h'. split; auto. destruct (views_change w x at_ r h' Hw Hv O) as [I U].
  { intros i Hi. exists e. auto. }
  split; auto. split; auto. intros s f [a [Ea [<- F]]].
  destruct (inv_denotes c (mkW h' (w_arr w) (w_next w)) x a I Ea) as [g G]. exists g. split; auto.
  destruct (denotes_has _ x a _ g G Ea) as [_ H]. cbn [w_heap] in H. split.
  - intros i Hi. destruct (Hv i Hi) as [a' [Ea' [Hk E2]]]. rewrite Ea in Ea'. inv Ea'.
    specialize (H _ Hk). rewrite <- E2 in H. specialize (D i Hi). unfold holds in H, D. congruence.
  - intros j Hj N. specialize (H j Hj). specialize (F j Hj). destruct O as [O _]. unfold holds in H, F. rewrite O in H; [congruence|].
    intros [i [Hi Q]]. destruct (Hv i Hi) as [a' [Ea' [Hk E2]]]. rewrite Ea in Ea'. inv Ea'. apply (N i Hi).
    rewrite E2 in Q. pose proof (inv_injective c w x a' Hw Ea) as J. unfold elem in Q. inv Q.
    symmetry. apply J; auto. lia.
Qed.
(** copy between array_refs, which may refer to the same elements *)
Lemma fold_copy_alive l : forall h, (forall ab : ptr * ptr, In ab l -> alive h (fst ab) /\ alive h (snd ab)) ->
  exists h', foldM (@copy_assign V) l h = Ok h' /\ only_changes (fun p => In p (map snd l)) h h' /\
    forall p, alive h p -> alive h' p.
Proof.
  induction l as [|[p q] l IH]; intros h H; cbn [foldM].
  - exists h. split; auto. split; [apply only_changes_refl|auto].
  - destruct (H (p, q) (or_introl eq_refl)) as [[v Hp] Hq]. cbn [fst snd] in *.
    unfold copy_assign at 1. cbn [fst snd]. rewrite (proj2 (load_holds h p v) Hp). cbn [bind]. rewrite store_ok by auto. cbn [bind].
    assert (K : forall r, alive h r -> alive (upd h q (Live v)) r).
    { intros r Hr. destruct (ptr_dec q r) as [<-|N].
      - exists v. unfold holds. apply peek_upd_same. destruct Hq as [u ->]. discriminate.
      - destruct Hr as [u Hr]. exists u. unfold holds. rewrite peek_upd_other; auto. }
    destruct (IH (upd h q (Live v))) as [h' [E [O A]]].
    { intros ab I. destruct (H ab (or_intror I)). auto. }
    exists h'. split; auto. split; [|auto]. cbn [map snd].
    pose proof (only_changes_one (fun r => In r (q :: map snd l)) h q v (or_introl eq_refl)) as O1.
    destruct O as [Oa [Ob Oc]]. destruct O1 as [Pa [Pb Pc]]. split; [|split; [congruence|intros k; rewrite Oc; auto]].
    intros r N. rewrite Oa; [apply Pa; auto|]. intro I. apply N. right. auto.
Qed.
Lemma views_copy w x at_x s y at_y r : Inv c w -> extents_ge 0 (r_shape r) -> views w x at_x s -> views w y at_y r ->
  length (r_shape s) = length (r_shape r) -> within (r_shape r) (r_shape s) ->
  exists h', copy (c_ndebug c) (w_heap w) s r = Ok h' /\ Inv c (mkW h' (w_arr w) (w_next w)) /\
    unchanged w (mkW h' (w_arr w) (w_next w)) [y].
Proof.
  intros Hw He Hs Hr Hl Hi. unfold copy. destruct (empty (r_shape r)) eqn:E.
  { exists (w_heap w). split; auto. replace (mkW (w_heap w) (w_arr w) (w_next w)) with w by (destruct w; auto). split; auto. intros z Hz. auto. }
  pose proof (not_empty_ge1 _ He E) as H1. rewrite (proj2 (in_range_corners _ _ Hl H1) Hi). cbn [assert_ bind].
  assert (Hnull : forall b sh i, alive (w_heap w) (elem b sh i) -> is_null b = false).
  { intros b sh i A. apply alive_block in A. cbn [elem fst] in A. apply is_null_block. auto. }
  destruct (values_copy_spec (c_ndebug c) (r_shape s) (r_base s) (r_shape r) (r_base r) Hl He) as [l [En El]].
  { destruct (box (r_shape r)) as [|i l] eqn:B.
    - right. intros i Q. apply box_In in Q. rewrite B in Q. auto.
    - left. assert (Q : in_bounds (r_shape r) i) by (apply box_In; rewrite B; left; auto).
      split; eapply Hnull; eapply views_alive; eauto. }
  rewrite El. cbn [bind].
  destruct (fold_copy_alive (map (fun i => (elem (r_base s) (r_shape s) i, elem (r_base r) (r_shape r) i)) l) (w_heap w)) as [h' [Eh [O A]]].
  { intros ab I. apply in_map_iff in I. destruct I as [i [<- Ii]]. apply En in Ii. cbn [fst snd]. split; eapply views_alive; eauto. }
  exists h'. split; auto. rewrite map_map in O. cbn [snd] in O. apply (views_change w y at_y r); auto.
  - destruct O as [Oa Ob]. split; auto. intros p N. apply Oa. intro I. apply N. apply in_map_iff in I. destruct I as [i [<- Ii]].
    exists i. split; auto. apply En; auto.
  - intros i Q. apply A. eapply views_alive; eauto.
Qed.

(** ... and when they do not *)
Lemma views_copy_values w x at_x s y at_y r : Inv c w -> extents_ge 0 (r_shape r) -> injective_layout (r_shape r) ->
  views w x at_x s -> views w y at_y r ->
  length (r_shape s) = length (r_shape r) -> within (r_shape r) (r_shape s) ->
  (x = y -> forall i j, in_bounds (r_shape r) i -> in_bounds (r_shape r) j -> at_x i <> at_y j) ->
  exists h', copy (c_ndebug c) (w_heap w) s r = Ok h' /\
    forall sx f sy g, denotes w x sx f -> denotes w y sy g -> exists g', denotes (mkW h' (w_arr w) (w_next w)) y sy g' /\
      (forall i, in_bounds (r_shape r) i -> g' (at_y i) = f (at_x i)) /\
      (forall j, in_bounds sy j -> (forall i, in_bounds (r_shape r) i -> at_y i <> j) -> g' j = g j).
Proof.
  intros Hw He J Hs Hr Hl Hi Hd.
  destruct (copy_spec (c_ndebug c) (w_heap w) s r Hl He Hi J) as [h' [E [D O]]].
  { intros i Q. eapply views_alive; eauto. } { intros i Q. eapply views_alive; eauto. }
  { intros i j Qi Qj E. destruct (Hs i (Hi i Qi)) as [a [Ea [Ka Fa]]]. destruct (Hr j Qj) as [b [Eb [Kb Fb]]].
    assert (Exy : x = y).
    { apply (inv_elem_unique c w x y (elem (r_base s) (r_shape s) i) Hw).
      - eapply views_elem; eauto. exists i. auto.
      - rewrite E. eapply views_elem; eauto. exists j. auto. }
    subst y. rewrite Ea in Eb. inv Eb. apply (Hd eq_refl i j Qi Qj).
    rewrite Fa, Fb in E. pose proof (inv_injective c w x b Hw Ea) as Jb. unfold elem in E. inv E. apply Jb; auto. lia. }
  exists h'. split; auto. intros sx f sy g [a [Ea [<- F]]] [b [Eb [<- G]]].
  destruct (views_copy w x at_x s y at_y r Hw He Hs Hr Hl Hi) as [h2 [E2 [I _]]]. rewrite E in E2. inv E2.
  destruct (inv_denotes c (mkW h2 (w_arr w) (w_next w)) y b I Eb) as [g' G']. exists g'. split; auto.
  destruct (denotes_has _ y b _ g' G' Eb) as [_ H]. cbn [w_heap] in H. split.
  - intros i Q. destruct (Hr i Q) as [b' [Eb' [Kb Fb]]]. rewrite Eb in Eb'. inv Eb'.
    destruct (Hs i (Hi i Q)) as [a' [Ea' [Ka Fa]]]. rewrite Ea in Ea'. inv Ea'.
    specialize (H _ Kb). specialize (F _ Ka). specialize (D i Q). rewrite Fb, Fa in D. unfold holds in H, F. congruence.
  - intros j Hj N. specialize (H j Hj). specialize (G j Hj). destruct O as [O _]. unfold holds in H, G. rewrite O in H; [congruence|].
    intros [i [Q E2]]. destruct (Hr i Q) as [b' [Eb' [Kb Fb]]]. rewrite Eb in Eb'. inv Eb'. apply (N i Q).
    rewrite Fb in E2. pose proof (inv_injective c w y b' Hw Eb) as Jb. unfold elem in E2. inv E2.
    symmetry. apply Jb; auto. lia.
Qed.

(** ** Programs *)

Definition vinv (st : vstate V) (own : list owner) : Prop :=
  Inv c (vs_world st) /\
  Forall2 (fun r o => (extents_ge 0 (r_shape r) /\ injective_layout (r_shape r)) /\
                      match o with Some (x, at_) => views (vs_world st) x at_ r | None => dead (w_heap (vs_world st)) r end)
          (vs_refs st) own.
Lemma vinv_empty : vinv vempty [].
Proof. split; [apply inv_empty|constructor]. Qed.
Lemma vinv_nth st own v r o : vinv st own -> nth_error (vs_refs st) v = Some r -> nth_error own v = Some o ->
  (extents_ge 0 (r_shape r) /\ injective_layout (r_shape r)) /\
  match o with Some (x, at_) => views (vs_world st) x at_ r | None => dead (w_heap (vs_world st)) r end.
Proof.
  intros [_ H]. revert v. induction H as [|? ? ? ? H1 H2 IH]; intros [|v] E1 E2; try discriminate; cbn [nth_error] in *.
  - inv E1. inv E2. auto.
  - eapply IH; eauto.
Qed.
Lemma vinv_ref st own v x : vinv st own -> nth_error own v = Some x -> exists r, nth_error (vs_refs st) v = Some r.
Proof.
  intros [_ H]. revert v. induction H as [|? ? ? ? H1 H2 IH]; intros [|v] E; try discriminate; cbn [nth_error] in *; eauto.
Qed.
Lemma vinv_set_heap st own h' : vinv st own -> Inv c (vs_world (set_heap st h')) -> grows (w_heap (vs_world st)) h' ->
  vinv (set_heap st h') own.
Proof.
  intros [Hw H] I G. split; auto. unfold set_heap in *. cbn [vs_refs vs_world] in *.
  induction H as [|? ow ? ? [H1 H2] H3 IH]; constructor; auto. split; auto. destruct ow as [[z at_]|]; auto.
  cbn [w_heap]. eapply dead_grows; eauto.
Qed.
Lemma vstep_ok st own o : vinv st own -> legal_vact c st own o ->
  exists st', vstep c st o = Ok st' /\ vinv st' (track c st own o).
Proof.
  intros Hv L. pose proof Hv as [Hw Hr]. destruct o; cbn [legal_vact vstep track] in *.
  - destruct (astep_ok c Hf (vs_world st) o Hw L) as [w' [E I]]. rewrite E. cbn [bind].
    eexists. split; [reflexivity|]. split; auto. cbn [vs_refs vs_world].
    clear Hv. induction Hr as [|r x ? ? [H1 H2] H3 IH]; cbn [map]; constructor; auto.
    split; auto. destruct x as [[x' at_]|]; cbn [after].
    + pose proof (views_after (vs_world st) o w' x' at_ r Hw L E H2) as Q. destruct (fate c (vs_world st) o x'); auto.
    + eapply dead_grows; eauto. eapply astep_grows; eauto.
  - destruct L as [a Ea]. rewrite (get_ok _ x a Ea). cbn [bind]. eexists. split; [reflexivity|]. split; auto. cbn [vs_refs vs_world].
    apply Forall2_app; auto. constructor; [|constructor]. split; [split; [eapply inv_extents; eauto|eapply inv_injective; eauto]|apply views_ref; auto].
  - destruct L as [[x Ex] [r [Er [Hl [Ha He]]]]]. destruct (vinv_nth st own v r _ Hv Er Ex) as [H1 H2]. destruct x as [z at_].
    unfold get_ref. rewrite Er. cbn [bind]. eexists. split; [reflexivity|]. split; auto. cbn [vs_refs vs_world].
    apply Forall2_app; auto. constructor; [|constructor]. rewrite (nth_error_nth _ _ _ Ex). cbn [part].
    split; [split; [apply slice_extents; auto; apply H1|apply slice_injective; auto; apply H1]|eapply views_slice; eauto].
  - destruct L as [[x Ex] [r [Er Hi]]]. destruct (vinv_nth st own v r _ Hv Er Ex) as [H1 H2]. destruct x as [z at_].
    unfold get_ref. rewrite Er. cbn [bind]. destruct (views_alive _ _ _ _ i Hw H2 Hi) as [e A].
    unfold ref_at. rewrite elem_ref, (proj2 (load_holds _ _ _) A). cbn [bind]. eexists. split; [reflexivity|]. split; auto.
  - destruct L as [[x Ex] [r [Er Hi]]]. destruct (vinv_nth st own v r _ Hv Er Ex) as [H1 H2]. destruct x as [z at_].
    unfold get_ref. rewrite Er. cbn [bind]. destruct (views_put _ z at_ r i e Hw H2 Hi) as [h' [E [I _]]]. rewrite E. cbn [bind].
    eexists. split; [reflexivity|]. apply vinv_set_heap; auto. eapply grows_store; eauto.
  - destruct L as [x Ex]. destruct (vinv_ref st own v _ Hv Ex) as [r Er]. destruct (vinv_nth st own v r _ Hv Er Ex) as [H1 H2].
    destruct x as [z at_]. unfold get_ref. rewrite Er. cbn [bind].
    destruct (views_fill _ z at_ r e Hw (proj1 H1) H2) as [h' [E [I _]]]. rewrite E. cbn [bind].
    eexists. split; [reflexivity|]. apply vinv_set_heap; auto. eapply grows_fill; eauto.
  - destruct L as [[x Ex] [[y Ey] [s [r [Es [Er [Hl Hi]]]]]]].
    destruct (vinv_nth st own u s _ Hv Es Ex) as [_ H2]. destruct (vinv_nth st own v r _ Hv Er Ey) as [H3 H4].
    destruct x as [x at_x], y as [y at_y]. unfold get_ref. rewrite Es, Er. cbn [bind].
    destruct (views_copy _ x at_x s y at_y r Hw (proj1 H3) H2 H4 Hl Hi) as [h' [E [I _]]]. rewrite E. cbn [bind].
    eexists. split; [reflexivity|]. apply vinv_set_heap; auto. eapply grows_copy; eauto.
Qed.
Lemma vrun_ok ops : forall st own, vinv st own -> vlegal c st own ops ->
  exists st', vrun c ops st = Ok st' /\ vinv st' (tracks c st own ops).
Proof.
  unfold vrun. induction ops as [|o ops IH]; intros st own Hv L; cbn [foldM tracks vlegal] in *; [eauto|].
  destruct L as [L1 L2]. destruct (vstep_ok st own o Hv L1) as [st1 [E I]]. rewrite E. cbn [bind]. apply IH; auto.
Qed.
Lemma vreachable_inv st own : vreachable c st own -> vinv st own.
Proof.
  intros [ops [L [R ->]]]. destruct (vrun_ok ops vempty [] vinv_empty L) as [st' [E I]]. rewrite R in E. inv E. auto.
Qed.

(** ** For PropViews.v *)

Lemma dead_dangles w r : dead (w_heap w) r -> dangles w r /\ forall i, in_bounds (r_shape r) i -> ref_at (w_heap w) r i = UB.
Proof.
  intros D. split; intros i Hi; destruct (D i Hi) as [N _].
  - apply dead_alive. auto.
  - unfold ref_at, load. rewrite elem_ref, peek_none; auto.
Qed.
Lemma vprograms ops : vlegal c vempty [] ops ->
  exists st, vrun c ops vempty = Ok st /\ Forall2 (fun r o => state_of (vs_world st) o r) (vs_refs st) (tracks c vempty [] ops).
Proof.
  intros L. destruct (vrun_ok ops vempty [] vinv_empty L) as [st [E [Hw I]]]. exists st. split; auto.
  induction I as [|r o ? ? [_ H1] H2 IH]; constructor; auto. destruct o as [[x at_]|]; auto. apply dead_dangles; auto.
Qed.
Lemma vget st own v r x at_ i s f : vreachable c st own -> nth_error (vs_refs st) v = Some r ->
  nth_error own v = Some (Some (x, at_)) -> in_bounds (r_shape r) i -> denotes (vs_world st) x s f ->
  in_bounds s (at_ i) /\ vstep c st (Get v i) = Ok (mkVS (vs_world st) (vs_refs st) (f (at_ i) :: vs_out st)).
Proof.
  intros R Er Eo Hi D. pose proof (vreachable_inv st own R) as Hv. destruct (vinv_nth st own v r _ Hv Er Eo) as [_ H].
  split.
  - destruct (H i Hi) as [a [Ea [Hj _]]]. destruct D as [b [Eb [<- _]]]. rewrite Ea in Eb. inv Eb. auto.
  - cbn [vstep]. unfold get_ref. rewrite Er. cbn [bind]. rewrite (views_get _ x at_ r i s f H Hi D). auto.
Qed.
Lemma vput st own v r x at_ i e : vreachable c st own -> nth_error (vs_refs st) v = Some r ->
  nth_error own v = Some (Some (x, at_)) -> in_bounds (r_shape r) i ->
  exists st', vstep c st (Put v i e) = Ok st' /\ vs_refs st' = vs_refs st /\ unchanged (vs_world st) (vs_world st') [x] /\
    forall s f, denotes (vs_world st) x s f ->
      denotes (vs_world st') x s (fun j => if list_eq_dec Z.eq_dec j (at_ i) then e else f j).
Proof.
  intros R Er Eo Hi. pose proof (vreachable_inv st own R) as Hv. destruct (vinv_nth st own v r _ Hv Er Eo) as [_ H].
  cbn [vstep]. unfold get_ref. rewrite Er. cbn [bind].
  destruct (views_put (vs_world st) x at_ r i e (proj1 Hv) H Hi) as [h' [E [I [U D]]]]. rewrite E. cbn [bind].
  eexists. split; [reflexivity|]. split; auto.
Qed.
Lemma vfill st own v r x at_ e : vreachable c st own -> nth_error (vs_refs st) v = Some r ->
  nth_error own v = Some (Some (x, at_)) ->
  exists st', vstep c st (FillRef v e) = Ok st' /\ vs_refs st' = vs_refs st /\ unchanged (vs_world st) (vs_world st') [x] /\
    forall s f, denotes (vs_world st) x s f -> exists g, denotes (vs_world st') x s g /\
      (forall i, in_bounds (r_shape r) i -> g (at_ i) = e) /\
      (forall j, in_bounds s j -> (forall i, in_bounds (r_shape r) i -> at_ i <> j) -> g j = f j).
Proof.
  intros R Er Eo. pose proof (vreachable_inv st own R) as Hv. destruct (vinv_nth st own v r _ Hv Er Eo) as [[He _] H].
  cbn [vstep]. unfold get_ref. rewrite Er. cbn [bind].
  destruct (views_fill (vs_world st) x at_ r e (proj1 Hv) He H) as [h' [E [I [U D]]]]. rewrite E. cbn [bind].
  eexists. split; [reflexivity|]. split; auto.
Qed.
Lemma vcopy st own u v s r x at_x y at_y : vreachable c st own ->
  nth_error (vs_refs st) u = Some s -> nth_error own u = Some (Some (x, at_x)) ->
  nth_error (vs_refs st) v = Some r -> nth_error own v = Some (Some (y, at_y)) ->
  length (r_shape s) = length (r_shape r) -> within (r_shape r) (r_shape s) ->
  (x = y -> forall i j, in_bounds (r_shape r) i -> in_bounds (r_shape r) j -> at_x i <> at_y j) ->
  exists st', vstep c st (CopyRef u v) = Ok st' /\ vs_refs st' = vs_refs st /\ unchanged (vs_world st) (vs_world st') [y] /\
    forall sx f sy g, denotes (vs_world st) x sx f -> denotes (vs_world st) y sy g -> exists g', denotes (vs_world st') y sy g' /\
      (forall i, in_bounds (r_shape r) i -> g' (at_y i) = f (at_x i)) /\
      (forall j, in_bounds sy j -> (forall i, in_bounds (r_shape r) i -> at_y i <> j) -> g' j = g j).
Proof.
  intros R Es Eu Er Ev Hl Hi Hd. pose proof (vreachable_inv st own R) as Hv.
  destruct (vinv_nth st own u s _ Hv Es Eu) as [_ Hs]. destruct (vinv_nth st own v r _ Hv Er Ev) as [[He J] Hr].
  cbn [vstep]. unfold get_ref. rewrite Es, Er. cbn [bind].
  destruct (views_copy_values (vs_world st) x at_x s y at_y r (proj1 Hv) He J Hs Hr Hl Hi Hd) as [h' [E D]].
  destruct (views_copy (vs_world st) x at_x s y at_y r (proj1 Hv) He Hs Hr Hl Hi) as [h2 [E2 [_ U]]].
  rewrite E in E2. inv E2. rewrite E. cbn [bind]. eexists. split; [reflexivity|]. split; auto.
Qed.
Lemma vdangling st own v r i : vreachable c st own -> nth_error (vs_refs st) v = Some r -> nth_error own v = Some None ->
  in_bounds (r_shape r) i -> vstep c st (Get v i) = UB /\ forall e, vstep c st (Put v i e) = UB.
Proof.
  intros R Er Eo Hi. pose proof (vreachable_inv st own R) as Hv. destruct (vinv_nth st own v r _ Hv Er Eo) as [_ H].
  destruct (dead_dangles _ _ H) as [_ D]. cbn [vstep]. unfold get_ref. rewrite Er. cbn [bind]. split.
  - rewrite D by auto. auto.
  - intros e. specialize (D i Hi). unfold ref_at, load in D. unfold store. destruct (peek _ _) as [[|]|]; auto. discriminate.
Qed.
End Steps.
