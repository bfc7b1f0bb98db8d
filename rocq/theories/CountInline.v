(** Arrays that fit into the array object: programs that use no others never call the base allocator. *)
From Coq Require Import ZArith List Bool Lia Arith.
From Verif Require Import Base Interval Shape Traverse Memory Ref Container Program Count.
From Verif Require Import Spec SpecMem SpecContainer SpecProgram SpecViews SpecCount.
From Verif Require Import Tac ShapeFacts ResolveFacts MemFacts RefFacts SliceFacts ContainerFacts ContainerWorld ProgramFacts
  ContainerProps CountFacts CountWorld CountProps.
Import ListNotations.
Open Scope Z_scope.

Section Inline.
Context {V : Type}.
Variable c : config V.
Implicit Types (h : heap V) (w : world V).

(** ** Where the shapes of the arrays come from *)

Section Shapes.
Variable P : list dim -> Prop.
Hypothesis P0 : P (c_shape0 c).
Hypothesis Presolve : forall s, P s -> P (resolve s).
Definition shaped (a : arr) : Prop := P (a_shape a).
Definition all_shaped w : Prop := forall x a, w_arr w x = Some a -> shaped a.
Definition yields {A} (good : A -> Prop) (m : outcome A) : Prop := forall r, m = Ok r -> good r.
Definition one (r : heap V * arr) : Prop := shaped (snd r).
Definition both (r : heap V * arr * arr) : Prop := shaped (snd (fst r)) /\ shaped (snd r).

Lemma yields_ok {A} (good : A -> Prop) a : good a -> yields good (Ok a).
Proof. intros H r E. injection E as <-. exact H. Qed.
Lemma yields_bind {A B} (g : A -> Prop) (good : B -> Prop) (m : outcome A) f : yields g m ->
  (forall a, g a -> yields good (f a)) -> yields good (bind m f).
Proof. intros Hm Hf r E. destruct m as [a| |]; try discriminate. cbn [bind] in E. apply (Hf a); auto. Qed.
Lemma yields_any {A B} (good : B -> Prop) (m : outcome A) f : (forall a, yields good (f a)) -> yields good (bind m f).
Proof. intros H. apply (yields_bind (fun _ => True)); auto. intros r _. exact I. Qed.
Lemma allocate_shaped x h a : shaped a -> yields one (allocate c x h a).
Proof.
  intros H. unfold allocate. apply yields_any. intros _. cbv zeta.
  assert (Hr : P (resolve (a_shape a))) by (apply Presolve; exact H).
  destruct (0 <? flat_extent (resolve (a_shape a))); [destruct (alloc_get _ _ _ _ _) as [[h' b] p]|]; apply yields_ok; exact Hr.
Qed.
Lemma deallocate_shaped x h a : shaped a -> yields one (deallocate c x h a).
Proof.
  intros H. unfold deallocate. destruct (is_null (a_base a)); [apply yields_ok; exact H|]. apply yields_any. intros h1. cbv zeta.
  apply yields_any. intros [h2 busy]. apply yields_ok. exact P0.
Qed.
Lemma ctor_shape_shaped x h al s : P s -> yields one (ctor_shape c x h al s).
Proof.
  intros H. unfold ctor_shape. eapply yields_bind; [apply allocate_shaped; exact H|]. intros [h1 a] Ha. apply yields_any. intros h2.
  apply yields_ok. exact Ha.
Qed.
Lemma refit_shaped (b : bool) x h a s : shaped a -> P s ->
  yields one (if b then h' <- destroy c h a ;; Ok (h', a) else ' (h', a') <- deallocate c x h a ;; allocate c x h' (with_shape a' s)).
Proof.
  intros Ha Hs. destruct b.
  - apply yields_any. intros h'. apply yields_ok. exact Ha.
  - apply yields_any. intros [h' a']. apply allocate_shaped. exact Hs.
Qed.
Lemma assign_value_shaped x h a s init : shaped a -> P s -> yields one (assign_value c x h a s init).
Proof.
  intros Ha Hs. unfold assign_value. cbv zeta. eapply yields_bind; [apply refit_shaped; auto|]. intros [h1 a1] H1.
  apply yields_any. intros h2. apply yields_ok. exact H1.
Qed.
Lemma assign_copy_shaped x h a b : shaped a -> shaped b -> yields one (assign_copy c x h a b).
Proof.
  intros Ha Hb. unfold assign_copy. destruct (ptr_eqb _ _).
  - destruct (negb _); cbv zeta; apply yields_any; intros _; apply yields_ok; auto.
  - eapply yields_bind; [apply refit_shaped; auto|]. intros [h1 a1] H1. apply yields_any. intros h2. apply yields_ok. exact H1.
Qed.
Lemma assign_move_shaped x h a b : shaped a -> shaped b -> yields one (assign_move c x h a b).
Proof.
  intros Ha Hb. unfold assign_move. destruct (ptr_eqb _ _).
  - destruct (negb _); cbv zeta; apply yields_any; intros _; apply yields_ok; auto.
  - eapply yields_bind; [apply refit_shaped; auto|]. intros [h1 a1] H1. apply yields_any. intros h2. apply yields_ok. exact H1.
Qed.
Lemma blank_shaped al : shaped (blank al (c_shape0 c)).
Proof. exact P0. Qed.
Lemma move_in_shaped x h al b : shaped b ->
  yields both (' (h1, a1) <- allocate c x h (with_shape (blank al (c_shape0 c)) (a_shape b)) ;; h2 <- move_construct c h1 a1 b ;; Ok (h2, a1, b)).
Proof.
  intros Hb. eapply yields_bind; [apply allocate_shaped; exact Hb|]. intros [h1 a1] H1. apply yields_any. intros h2.
  apply yields_ok. split; [exact H1|exact Hb].
Qed.
Lemma copy_assign_shaped x h a y b : shaped a -> shaped b -> yields one (copy_assign_op c x h a y b).
Proof.
  intros Ha Hb. unfold copy_assign_op. destruct (ptr_eqb _ _).
  - destruct (negb _); cbv zeta; apply yields_any; intros _; apply yields_ok; auto.
  - apply (yields_bind one).
    + destruct (c_pocca c); [|apply yields_ok; exact Ha]. apply (yields_bind one).
      * destruct (negb _); [apply deallocate_shaped; exact Ha|apply yields_ok; exact Ha].
      * intros [h1 a1] H1. apply yields_ok. exact H1.
    + intros [h1 a1] H1. apply assign_copy_shaped; auto.
Qed.
Lemma move_assign_shaped x h a y b : shaped a -> shaped b -> yields both (move_assign_op c x h a y b).
Proof.
  intros Ha Hb. unfold move_assign_op. destruct (ptr_eqb _ _).
  - destruct (negb _); cbv zeta; apply yields_any; intros _; apply yields_ok; split; auto.
  - destruct (c_pocma c); [apply yields_ok; split; auto|]. destruct (alloc_eq _ _ _ _); [apply yields_ok; split; auto|].
    eapply yields_bind; [apply assign_move_shaped; auto|]. intros [h1 a1] H1. apply yields_ok. split; auto.
Qed.
Lemma put_shaped f x a : (forall z b, f z = Some b -> shaped b) -> shaped a -> forall z b, put f x (Some a) z = Some b -> shaped b.
Proof. intros Hf Ha z b. unfold put. destruct (z =? x)%nat; [intros E; injection E as <-; exact Ha|apply Hf]. Qed.
Lemma add_shaped w r : all_shaped w -> yields one r -> yields all_shaped (add w r).
Proof. intros Hw Hr. eapply yields_bind; [exact Hr|]. intros [h' a'] H1. apply yields_ok. intros z b. cbn [w_arr]. apply put_shaped; auto. Qed.
Lemma change_shaped w x r : all_shaped w -> yields one r -> yields all_shaped (change w x r).
Proof. intros Hw Hr. eapply yields_bind; [exact Hr|]. intros [h' a'] H1. apply yields_ok. intros z b. cbn [w_arr]. apply put_shaped; auto. Qed.
Lemma add2_shaped w y r : all_shaped w -> yields both r -> yields all_shaped (add2 w y r).
Proof.
  intros Hw Hr. eapply yields_bind; [exact Hr|]. intros [[h' a'] b'] [H1 H2]. apply yields_ok. intros z b. cbn [w_arr].
  apply put_shaped; [|exact H1]. apply put_shaped; [exact Hw|exact H2].
Qed.
Lemma change2_shaped w x y r : all_shaped w -> yields both r -> yields all_shaped (change2 w x y r).
Proof.
  intros Hw Hr. eapply yields_bind; [exact Hr|]. intros [[h' a'] b'] [H1 H2]. apply yields_ok. intros z b. cbn [w_arr].
  apply put_shaped; [|exact H1]. apply put_shaped; [exact Hw|exact H2].
Qed.
Lemma get_shaped w x : all_shaped w -> yields shaped (get w x).
Proof. intros Hw r E. unfold get in E. destruct (w_arr w x) as [a|] eqn:Ea; [|discriminate]. injection E as <-. eapply Hw; eauto. Qed.
Lemma heap_shaped w (r : outcome (heap V)) : all_shaped w -> yields all_shaped (h' <- r ;; Ok (mkW h' (w_arr w) (w_next w))).
Proof. intros Hw. apply yields_any. intros h'. apply yields_ok. exact Hw. Qed.
Lemma do_new_shaped w s al : all_shaped w -> P s -> yields all_shaped (do_new c w s al).
Proof. intros Hw Hs. apply add_shaped; auto. apply ctor_shape_shaped; auto. Qed.
Lemma do_new_move_shaped w y : all_shaped w -> yields all_shaped (do_new_move c w y).
Proof.
  intros Hw. eapply yields_bind; [apply get_shaped; exact Hw|]. intros b Hb. apply add2_shaped; auto. unfold ctor_move. cbv zeta.
  destruct (_ || _); [apply yields_ok; split; [exact Hb|exact P0]|]. apply move_in_shaped; auto.
Qed.
Lemma do_move_assign_shaped w x y : all_shaped w -> yields all_shaped (do_move_assign c w x y).
Proof.
  intros Hw. eapply yields_bind; [apply get_shaped; exact Hw|]. intros a Ha. eapply yields_bind; [apply get_shaped; exact Hw|]. intros b Hb.
  apply change2_shaped; auto. apply move_assign_shaped; auto.
Qed.
Lemma do_delete_shaped w x : all_shaped w -> yields all_shaped (do_delete c w x).
Proof.
  intros Hw. apply yields_any. intros a. apply yields_any. intros [h' a']. apply yields_ok. intros z b. cbn [w_arr]. unfold put.
  destruct (z =? x)%nat; [discriminate|]. apply Hw.
Qed.
(** The shapes named in a statement *)
Definition names (o : act V) : Prop :=
  match o with
  | Run (New s _) | Run (NewValue s _ _) | Run (MakeCopy _ s _) | Run (MakeMove _ s _) | Run (AssignValue _ s _)
  | Run (Reshape _ s) | AssignElem _ s _ _ => P s
  | _ => True
  end.
Lemma step_shaped w o : all_shaped w -> names (Run o) -> yields all_shaped (step c w o).
Proof.
  intros Hw. assert (G : forall x, yields shaped (get w x)) by (intros; apply get_shaped; auto).
  destruct o; cbn [names step]; intros N;
    repeat match goal with |- yields _ (bind (get _ _) _) => eapply yields_bind; [apply G|]; intros ? ? end.
  - apply do_new_shaped; auto.
  - apply add_shaped; auto. unfold ctor_value. eapply yields_bind; [apply ctor_shape_shaped; exact P0|]. intros [h1 a1] H1.
    apply assign_value_shaped; auto.
  - apply add_shaped; auto. apply assign_copy_shaped; auto.
  - apply add_shaped; auto. unfold ctor_copy_alloc. eapply yields_bind; [apply ctor_shape_shaped; exact P0|]. intros [h1 a1] H1.
    apply assign_copy_shaped; auto.
  - apply do_new_move_shaped; auto.
  - apply add2_shaped; auto. unfold ctor_move_alloc. cbv zeta.
    destruct (alloc_eq _ _ _ _); [apply yields_ok; split; [assumption|exact P0]|]. apply move_in_shaped; auto.
  - apply add_shaped; auto. unfold make_copy. eapply yields_bind; [apply ctor_shape_shaped; exact N|]. intros [h1 a1] H1.
    apply yields_any. intros h2. apply yields_ok. exact H1.
  - apply add_shaped; auto. unfold make_move. eapply yields_bind; [apply ctor_shape_shaped; exact N|]. intros [h1 a1] H1.
    apply yields_any. intros h2. apply yields_ok. exact H1.
  - apply change_shaped; auto. apply copy_assign_shaped; auto.
  - apply do_move_assign_shaped; auto.
  - apply change_shaped; auto. apply assign_copy_shaped; auto.
  - apply change_shaped; auto. apply assign_move_shaped; auto.
  - apply change_shaped; auto. apply assign_value_shaped; auto.
  - apply change_shaped; auto. unfold clear. apply yields_any. intros [h1 a1].
    eapply yields_bind; [apply allocate_shaped; exact P0|]. intros [h2 a2] H2. apply yields_any. intros h3. apply yields_ok. exact H2.
  - unfold do_reshape. eapply yields_bind; [apply G|]. intros a Ha. cbv zeta. destruct (shape_eqb _ _); [apply yields_ok; exact Hw|].
    eapply yields_bind; [apply do_new_shaped; [exact Hw|apply Presolve; exact N]|]. intros w1 H1.
    apply yields_any. intros b. apply yields_any. intros h2.
    eapply yields_bind; [apply do_move_assign_shaped; exact H1|]. intros w3 H3. apply do_delete_shaped; auto.
  - unfold do_swap. destruct (c_pocs c).
    + eapply yields_bind; [apply G|]. intros a Ha. eapply yields_bind; [apply G|]. intros b Hb. apply change2_shaped; auto.
      apply yields_ok. split; auto.
    + eapply yields_bind; [apply do_new_move_shaped; exact Hw|]. intros w1 H1.
      eapply yields_bind; [apply do_move_assign_shaped; exact H1|]. intros w2 H2.
      eapply yields_bind; [apply do_move_assign_shaped; exact H2|]. intros w3 H3. apply do_delete_shaped; auto.
  - apply heap_shaped; auto.
  - apply do_delete_shaped; auto.
Qed.
Lemma astep_shaped w o : all_shaped w -> names o -> yields all_shaped (astep c w o).
Proof.
  intros Hw. assert (G : forall x, yields shaped (get w x)) by (intros; apply get_shaped; auto).
  destruct o; cbn [names astep]; intros N; try (apply step_shaped; auto; exact I);
    repeat match goal with |- yields _ (bind (get _ _) _) => eapply yields_bind; [apply G|]; intros ? ? end; try (apply heap_shaped; exact Hw).
  - apply yields_any. intros v. apply heap_shaped; auto.
  - apply change_shaped; auto. apply assign_value_shaped; auto.
Qed.
End Shapes.

(** ** No base allocator *)

Definition fitting_shape (s : list dim) : Prop := shape_arg c s /\ fits c s.
Lemma fitting_resolve s : fitting_shape s -> fitting_shape (resolve s).
Proof.
  intros [Hs Hl]. split; [apply shape_arg_resolve; auto|]. unfold fits. rewrite resolve_known; [exact Hl|]. apply Hs.
Qed.
Lemma new_held_inline s : fits c s -> blocks (new_held c s) = 0.
Proof.
  intros H. unfold fits in H. unfold blocks, new_held. cbn [hd_mem hd_inline]. destruct (0 <? flat_extent (resolve s)); [|reflexivity].
  apply Z.leb_le in H. rewrite H. reflexivity.
Qed.
Definition off_heap w : Prop := forall x, blocks (held_by w x) = 0.
Definition no_memory_calls (t : tally) : Prop := n_alloc t = 0 /\ n_free t = 0.
Lemma alive_count w : Inv c w -> exists n, has_count (alive (w_heap w)) n.
Proof.
  intros Hw. destruct (live_objects c (Inv c) (fun w H => H) w Hw) as [Hl Hu].
  destruct (listed_all c w Hw) as [N E]. exists (Z.of_nat (length (map (place w) (listed w)))), (map (place w) (listed w)).
  split; [|reflexivity]. split.
  - assert (Hi : forall a b, In a (listed w) -> In b (listed w) -> place w a = place w b -> a = b).
    { intros [x i] [y j] Ha Hb. apply E in Ha. apply E in Hb. destruct Ha as [a [Ea Hi]], Hb as [b [Eb Hj]].
      unfold place. cbn [fst snd] in *. rewrite Ea, Eb. intros Ep.
      assert (x = y) by (apply (Hu x y (elem (a_base a) (a_shape a) i)); [exists a|exists b]; (split; [auto|]); [exists i|exists j]; auto).
      subst y. rewrite Ea in Eb. injection Eb as <-. f_equal. apply (inv_injective c w x a Hw Ea); auto. apply (elem_inj (a_base a)); auto. }
    revert N Hi. generalize (listed w). intros l. induction l as [|a l IH]; intros N Hi; [constructor|].
    inversion N as [|? ? N1 N2]; subst. cbn [map]. constructor.
    + intros I. apply in_map_iff in I. destruct I as [b [Eb Ib]]. apply N1. rewrite (Hi a b); auto; [left; auto|right; auto].
    + apply IH; auto. intros x y Hx Hy. apply Hi; right; auto.
  - intros p. rewrite Hl, in_map_iff. split.
    + intros [[x i] [<- Hi]]. apply E in Hi. destruct Hi as [a [Ea Hi]]. unfold place. cbn [fst snd] in *. rewrite Ea.
      exists x, a. split; auto. exists i. auto.
    + intros [x [a [Ea [i [Hi Ep]]]]]. exists (x, i). unfold place. cbn [fst snd]. rewrite Ea. split; auto. apply E. exists a. auto.
Qed.
Lemma off_heap_grows w w' t : Inv c w -> Inv c w' -> off_heap w -> grows (w_heap w) t (w_heap w') -> no_memory_calls t -> off_heap w'.
Proof.
  intros Hw Hw' Ho G [T1 T2]. destruct (alive_count w Hw) as [n Hn].
  assert (Hk : has_count (based (w_heap w)) 0).
  { exists []. split; [|reflexivity]. split; [constructor|]. intros k. split; [intros []|]. intros [b [al [Hb Hal]]].
    destruct Hw as (H1 & H2 & H3 & H4). destruct (H4 k) as [x [a [Ea Ek]]]; [congruence|].
    destruct (H2 x a Ea) as [_ Hv]. destruct Hv as [_ [[Hm _]|[_ [k' [b' [Hb' [(Hk' & Eb & _ & _ & _ & _ & Ho' & _) _]]]]]]].
    - pose proof (no_memory_blk a Hm). destruct H1 as [_ [H0 _]]. congruence.
    - unfold blk in Ek. rewrite Eb in Ek. cbn [fst] in Ek. subst k'. rewrite Hb' in Hb. injection Hb as ->.
      specialize (Ho x). unfold held_by in Ho. rewrite Ea in Ho. unfold blocks in Ho. cbn [hd_mem hd_inline] in Ho. rewrite Eb in Ho.
      replace (is_null (k, 0)) with false in Ho by (symmetry; apply is_null_block; auto). cbn [negb andb] in Ho.
      destruct (a_busy a); [congruence|discriminate]. }
  destruct (G n 0 (conj (proj1 Hw) (conj Hn Hk))) as [_ [_ Hb']].
  apply (blocks_arrays c w' _ Hw') in Hb'.
  replace (0 + kept_blocks t) with 0 in Hb' by (unfold kept_blocks; lia).
  intros x. destruct Hb' as [l [[_ E] L]]. destruct l; [|cbn [length] in L; lia].
  assert (Hx : ~ holds_block w' x) by (intros H; apply E in H; exact H).
  unfold holds_block in Hx. unfold blocks in *. destruct (_ && _); [contradiction|reflexivity].
Qed.
Lemma calls_plus t u : no_memory_calls t -> no_memory_calls u -> no_memory_calls (plus t u).
Proof. intros [H1 H2] [H3 H4]. unfold no_memory_calls, plus. cbn [n_alloc n_free]. lia. Qed.
Lemma calls_times n t : no_memory_calls t -> no_memory_calls (times n t).
Proof. intros [H1 H2]. unfold no_memory_calls, times. cbn [n_alloc n_free]. rewrite H1, H2. lia. Qed.
Lemma calls_nothing : no_memory_calls nothing.
Proof. split; reflexivity. Qed.
Lemma calls_kind t : n_alloc t = 0 -> n_free t = 0 -> no_memory_calls t.
Proof. split; auto. Qed.
Lemma making_calls k a : no_memory_calls k -> blocks a = 0 -> no_memory_calls (making k a).
Proof. intros Hk E. unfold making. rewrite E, times_0, plus_l. apply calls_times; auto. Qed.
Lemma unmaking_calls a : blocks a = 0 -> no_memory_calls (unmaking a).
Proof. intros E. unfold unmaking. rewrite E, times_0, plus_r. apply calls_times. split; reflexivity. Qed.
Lemma redoing_calls k a : no_memory_calls k -> no_memory_calls (redoing k a).
Proof. intros Hk. unfold redoing. apply calls_plus; apply calls_times; auto. split; reflexivity. Qed.
Lemma replacing_calls k a b : no_memory_calls k -> blocks a = 0 -> fits c (hd_shape b) -> no_memory_calls (replacing c k a b).
Proof.
  intros Hk Ea Hb. unfold replacing. destruct (_ && _); [apply calls_nothing|]. destruct (_ && _); [apply redoing_calls; auto|].
  apply calls_plus; [apply unmaking_calls; auto|]. apply making_calls; auto. apply new_held_inline; auto.
Qed.
Lemma valuing_calls a s : blocks a = 0 -> fits c s -> no_memory_calls (valuing c a s).
Proof.
  intros Ea Hs. unfold valuing. destruct (shape_dec _ _); [apply redoing_calls; split; reflexivity|].
  apply calls_plus; [apply unmaking_calls; auto|]. apply making_calls; [split; reflexivity|]. apply new_held_inline; auto.
Qed.
Hypothesis Hf : fair c.
Hypothesis F0 : fits c (c_shape0 c).
Lemma F0' : fitting_shape (c_shape0 c).
Proof. split; auto. apply Hf. Qed.
Lemma held_fits w x : all_shaped fitting_shape w -> exists_arr w x -> fits c (hd_shape (held_by w x)) /\ fits c (shape_of w x).
Proof. intros H [a Ea]. unfold held_by, shape_of. rewrite Ea. split; apply (H x a Ea). Qed.
Lemma op_calls w o : off_heap w -> all_shaped fitting_shape w -> legal_op c w o -> fitting c (Run o) ->
  no_memory_calls (work_op c w o).
Proof.
  intros Ho Hs L Fo.
  assert (K : forall k, In k [one_default; one_copy; one_move; one_copy_assign; one_move_assign; one_destroy] -> no_memory_calls k).
  { intros k [<-|[<-|[<-|[<-|[<-|[<-|[]]]]]]]; split; reflexivity. }
  assert (B : blocks (bare c) = 0) by reflexivity.
  assert (N0 : blocks (new_held c (c_shape0 c)) = 0) by (apply new_held_inline; auto).
  assert (E : forall x, may_copy c w x -> exists_arr w x) by (intros x [a [Ea _]]; exists a; auto).
  destruct o; cbn [legal_op fitting work_op] in *;
    repeat match goal with
    | |- no_memory_calls (if ?b then _ else _) => destruct b
    | |- no_memory_calls nothing => apply calls_nothing
    | |- no_memory_calls (plus _ _) => apply calls_plus
    | |- no_memory_calls (times _ _) => apply calls_times
    | |- no_memory_calls (making _ _) => apply making_calls
    | |- no_memory_calls (unmaking _) => apply unmaking_calls
    | |- no_memory_calls (replacing _ _ _ _) => apply replacing_calls
    | |- no_memory_calls (valuing _ _ _) => apply valuing_calls
    | |- no_memory_calls _ => apply K; simpl; tauto
    | |- blocks (new_held _ _) = 0 => apply new_held_inline
    | |- blocks (held_by _ _) = 0 => apply Ho
    end; auto.
  all: try (apply (held_fits w y); auto; first [apply E; tauto|destruct L as [b [Eb _]]; exists b; exact Eb]).
  destruct L as [L _]. cbn [new_held hd_shape]. apply (fitting_resolve s (conj L Fo)).
Qed.
Lemma new_move_calls w y : all_shaped fitting_shape w -> exists_arr w y -> no_memory_calls (work_op c w (NewMove y)).
Proof.
  intros Hs E. cbn [work_op]. destruct (_ || _); [apply calls_nothing|]. apply making_calls; [split; reflexivity|].
  apply new_held_inline. apply (held_fits w y); auto.
Qed.
Lemma move_assign_calls w x y : off_heap w -> all_shaped fitting_shape w -> exists_arr w y -> no_memory_calls (work_op c w (MoveAssign x y)).
Proof.
  intros Ho Hs E. cbn [work_op]. destruct (_ || _); [apply calls_nothing|]. apply replacing_calls; [split; reflexivity|apply Ho|].
  apply (held_fits w y); auto.
Qed.
Lemma after_step w w' (m : counted (world V)) t : Inv c w -> Inv c w' -> off_heap w -> growing (w_heap w) m -> strip m = Ok w' ->
  gives m t -> no_memory_calls t -> off_heap w'.
Proof.
  intros Hw Hw' Ho G E Hg Ht. pose proof (strip_some m w' t E Hg) as Em. apply (off_heap_grows w w' t); auto.
  exact (G w' t Em).
Qed.
Lemma delete_calls w x : off_heap w -> no_memory_calls (work_op c w (Delete x)).
Proof. intros Ho. cbn [work_op]. apply unmaking_calls. apply Ho. Qed.
Lemma swap_calls w x y a b : Inv c w -> off_heap w -> all_shaped fitting_shape w ->
  w_arr w x = Some a -> w_arr w y = Some b -> copyable c a -> copyable c b -> no_memory_calls (work c w (Run (Swap x y))).
Proof.
  intros Hw Ho Hs Ea Eb Ca Cb. cbn [work]. destruct (c_pocs c); [apply calls_nothing|].
  set (n := w_next w). pose proof (inv_lt c w x a Hw Ea) as Lx. pose proof (inv_lt c w y b Hw Eb) as Ly.
  unfold swap_ops. cbn [work_ops]. apply calls_plus; [apply new_move_calls; [exact Hs|exists b; auto]|].
  destruct (new_move_world c Hf w y b Hw Eb Cb) as [w1 [E1 [I1 [U1 [N1 [M1 [t [b1 [Et [Eb1 _]]]]]]]]]].
  cbn [step]. rewrite E1.
  assert (O1 : off_heap w1).
  { apply (after_step w w1 (n_do_new_move c w y) (work_op c w (NewMove y))); auto; [apply growing_do_new_move|rewrite strip_do_new_move; auto| |].
    - apply (do_new_move_gives c w y b); auto.
    - apply new_move_calls; auto. exists b; auto. }
  assert (S1 : all_shaped fitting_shape w1) by (apply (do_new_move_shaped fitting_shape F0' fitting_resolve w y Hs w1 E1)).
  fold n in Et, U1, N1, M1, Lx, Ly |- *. destruct (inv_denotes c w y b Hw Eb) as [fb Db].
  assert (Ht : refines (a_shape t) (a_shape b)).
  { destruct (M1 _ _ Db) as [s' [R D]]. destruct (denotes_has _ _ _ _ _ D Et) as [-> _]. auto. }
  pose proof (refines_copyable c b t (inv_shape c w y b Hw Eb) Ht Cb) as Ct.
  destruct (Nat.eq_dec x y) as [<-|N].
  - rewrite Ea in Eb. injection Eb as <-.
    destruct (self_world c w1 (MoveAssign x x) x b1 I1 Eb1) as [w2 [E2 [I2 [U2 [N2 _]]]]]; auto. cbn [step] in E2.
    apply calls_plus; [apply move_assign_calls; auto; exists b1; auto|]. rewrite E2.
    assert (O2 : off_heap w2).
    { apply (after_step w1 w2 (n_do_move_assign c w1 x x) (work_op c w1 (MoveAssign x x))); auto;
        [apply growing_do_move_assign|rewrite strip_do_move_assign; auto| |].
      - apply (do_move_assign_gives c Hf w1 x x b1 b1); auto.
      - apply move_assign_calls; auto. exists b1; auto. }
    assert (S2 : all_shaped fitting_shape w2) by (apply (do_move_assign_shaped fitting_shape fitting_resolve w1 x x S1 w2 E2)).
    destruct (U2 n) as [T1 T2]; [intros []|]. destruct (U2 x) as [X1 _]; [intros []|].
    rewrite Et in T1. rewrite Eb1 in X1.
    destruct (move_assign_world c Hf w2 x n b1 t) as [w3 [E3 [I3 [U3 [N3 [M3 [a3 [t3 [Ea3 [Et3 _]]]]]]]]]]; auto; [lia|].
    apply calls_plus; [apply move_assign_calls; auto; exists t; auto|]. rewrite E3.
    assert (O3 : off_heap w3).
    { apply (after_step w2 w3 (n_do_move_assign c w2 x n) (work_op c w2 (MoveAssign x n))); auto;
        [apply growing_do_move_assign|rewrite strip_do_move_assign; auto| |].
      - apply (do_move_assign_gives c Hf w2 x n b1 t); auto.
      - apply move_assign_calls; auto. exists t; auto. }
    apply calls_plus; [apply delete_calls; auto|]. destruct (do_delete c w3 n); apply calls_nothing.
  - destruct (U1 x) as [X1 X2]; [simpl; intuition lia|]. rewrite Ea in X1.
    destruct (move_assign_world c Hf w1 y x b1 a) as [w2 [E2 [I2 [U2 [N2 [M2 [b2 [a2 [Eb2 [Ea2 _]]]]]]]]]]; auto.
    apply calls_plus; [apply move_assign_calls; auto; exists a; auto|]. rewrite E2.
    assert (O2 : off_heap w2).
    { apply (after_step w1 w2 (n_do_move_assign c w1 y x) (work_op c w1 (MoveAssign y x))); auto;
        [apply growing_do_move_assign|rewrite strip_do_move_assign; auto| |].
      - apply (do_move_assign_gives c Hf w1 y x b1 a); auto.
      - apply move_assign_calls; auto. exists a; auto. }
    assert (S2 : all_shaped fitting_shape w2) by (apply (do_move_assign_shaped fitting_shape fitting_resolve w1 y x S1 w2 E2)).
    destruct (U2 n) as [T1 T2]; [simpl; intuition lia|]. rewrite Et in T1.
    destruct (move_assign_world c Hf w2 x n a2 t) as [w3 [E3 [I3 [U3 [N3 [M3 [a3 [t3 [Ea3 [Et3 _]]]]]]]]]]; auto; [lia|].
    apply calls_plus; [apply move_assign_calls; auto; exists t; auto|]. rewrite E3.
    assert (O3 : off_heap w3).
    { apply (after_step w2 w3 (n_do_move_assign c w2 x n) (work_op c w2 (MoveAssign x n))); auto;
        [apply growing_do_move_assign|rewrite strip_do_move_assign; auto| |].
      - apply (do_move_assign_gives c Hf w2 x n a2 t); auto.
      - apply move_assign_calls; auto. exists t; auto. }
    apply calls_plus; [apply delete_calls; auto|]. destruct (do_delete c w3 n); apply calls_nothing.
Qed.
Lemma act_calls w o : Inv c w -> off_heap w -> all_shaped fitting_shape w -> legal_act c w o -> fitting c o -> no_memory_calls (work c w o).
Proof.
  intros Hw Ho Hs L Fo. destruct o as [o| | | | | | | |]; cbn [legal_act fitting] in *.
  - assert (D : (exists x y, o = Swap x y) \/ (forall x y, o <> Swap x y))
      by (destruct o; try (right; intros; discriminate); left; eauto).
    destruct D as [[x [y ->]]|D].
    + destruct L as [[a [Ea Ca]] [b [Eb Cb]]]. apply (swap_calls w x y a b); auto.
    + replace (work c w (Run o)) with (work_op c w o) by (destruct o; try reflexivity; exfalso; eapply D; eauto).
      apply op_calls; auto.
  - apply calls_times. split; reflexivity.
  - apply calls_times. split; reflexivity.
  - apply calls_times. split; reflexivity.
  - apply calls_times. split; reflexivity.
  - cbn [work]. apply move_assign_calls; auto. destruct L as [_ [b [Eb _]]]. exists b; auto.
  - apply calls_times. split; reflexivity.
  - apply calls_times. split; reflexivity.
  - cbn [work]. apply valuing_calls; auto.
Qed.
Lemma fitting_names w o : legal_act c w o -> fitting c o -> names fitting_shape o.
Proof.
  destruct o as [o| | | | | | | |]; cbn [legal_act fitting names]; auto; try (intros; split; tauto).
  destruct o; cbn [legal_op]; auto; intros; split; tauto.
Qed.
Lemma run_calls ops : forall w, Inv c w -> off_heap w -> all_shaped fitting_shape w -> alegal c w ops -> Forall (fitting c) ops ->
  no_memory_calls (work_run c w ops).
Proof.
  induction ops as [|o ops IH]; intros w Hw Ho Hs L Fo; cbn [work_run]; [apply calls_nothing|].
  destruct L as [L1 L2]. inversion Fo as [|? ? F1 F2]; subst. apply calls_plus; [apply act_calls; auto|].
  destruct (astep_ok c Hf w o Hw L1) as [w1 [E1 I1]]. rewrite E1. apply IH; auto.
  - apply (after_step w w1 (n_astep c w o) (work c w o)); auto; [apply growing_astep|rewrite strip_astep; auto|apply work_gives; auto|].
    apply act_calls; auto.
  - apply (astep_shaped fitting_shape F0' fitting_resolve w o Hs); auto. apply (fitting_names w); auto.
Qed.
Lemma inline_programs ops : alegal c empty_world ops -> Forall (fitting c) ops ->
  exists w t, n_run c ops empty_world = Ok (w, t) /\ n_alloc t = 0 /\ n_free t = 0.
Proof.
  intros L F. destruct (run_work c Hf ops empty_world (inv_empty c) L) as [w [_ E]]. exists w, (work_run c empty_world ops).
  split; auto. apply run_calls; auto; [apply inv_empty|intros x; reflexivity|intros x a Ea; discriminate].
Qed.
End Inline.
