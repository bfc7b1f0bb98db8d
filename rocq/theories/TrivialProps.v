(** Programs over arrays of a trivial type: proofs of the statements in PropTrivial.v. *)
From Coq Require Import ZArith List Lia Bool Arith.
From Verif Require Import Base Interval Shape Traverse Memory Ref Container Program Trivial Spec SpecMem SpecContainer
  SpecProgram SpecTrivial Tac ShapeFacts ResolveFacts MemFacts RefFacts SliceFacts ContainerFacts ContainerWorld ContainerProps
  AliasFacts TrivialFacts TrivialWorld.
Import ListNotations.
Open Scope Z_scope.

Section Props.
Context {V : Type}.
Variable skip : bool.
Variable c : config V.
Implicit Types w : world V.

Lemma t_inv_empty : TInv c empty_world.
Proof.
  split; [split; [auto|split; auto]|]. split; [intros x a E; discriminate|]. split; [intros x y a b _ E; discriminate|].
  intros k Hk. cbn in Hk. congruence.
Qed.
Hypothesis Hf : plain_fair c.

Lemma tstep_ok w o : TInv c w -> legal_tact c w o ->
  (exists w', tstep skip c w o = Ok w' /\ TInv c w' /\ kept w w' (changes (w_next w) o)) \/
  (c_ndebug c = false /\ tstep skip c w o = AssertFail /\ refuses w o).
Proof.
  intros Hw L. destruct o as [o|x s off|y s off].
  - left. destruct (t_act_spec skip c Hf w o Hw L) as [w' [E [[I K] _]]]. exists w'. auto.
  - pose proof L as [_ [_ [a [Ea _]]]].
    destruct (t_set_shape_world skip c w x a s off Hw L Ea) as [[w' [E [[I K] _]]]|[H1 [H2 H3]]]; [left; exists w'; auto|].
    right. split; auto. split; auto. left. exists x, s, off, a. auto.
  - pose proof L as [_ [_ [b [Eb _]]]].
    destruct (t_move_shape_world skip c Hf w y b s off Hw L Eb) as [[w' [a' [b' [E [[I K] _]]]]]|[H1 [H2 H3]]]; [left; exists w'; auto|].
    right. split; auto. split; auto. right. exists y, s, off, b. split; auto. split; auto.
    unfold is_subset_of in H3. unfold in_span. intros [C1 C2].
    apply andb_false_iff in H3. rewrite Z.geb_leb, !Z.leb_gt in H3. lia.
Qed.
Lemma trun_inv ops : forall w, TInv c w -> tlegal skip c w ops ->
  (exists w', trun skip c ops w = Ok w' /\ TInv c w') \/ (c_ndebug c = false /\ trun skip c ops w = AssertFail).
Proof.
  induction ops as [|o r IH]; intros w Hw L; cbn [trun foldM]; [left; exists w; auto|].
  destruct L as [L1 L2]. destruct (tstep_ok w o Hw L1) as [[w1 [E [I1 _]]]|[Hn [-> _]]]; [|right; auto].
  rewrite E. cbn [bind]. apply (IH w1 I1 (L2 w1 E)).
Qed.
Lemma treachable_inv w : treachable skip c w -> TInv c w.
Proof.
  intros [ops [L E]]. destruct (trun_inv ops empty_world t_inv_empty L) as [[w' [E' I]]|[_ E']]; rewrite E in E'; [|discriminate].
  inv E'. auto.
Qed.
Lemma tlegal_snoc ops o : forall w w', tlegal skip c w ops -> trun skip c ops w = Ok w' -> legal_tact c w' o ->
  tlegal skip c w (ops ++ [o]).
Proof.
  induction ops as [|p r IH]; intros w w' L E H; cbn [app tlegal].
  - cbn in E. inv E. split; auto.
  - destruct L as [L1 L2]. split; auto. intros w1 E1. apply (IH w1 w'); auto.
    unfold trun in E. cbn [foldM] in E. rewrite E1 in E. exact E.
Qed.
Lemma treachable_step w o w' : treachable skip c w -> legal_tact c w o -> tstep skip c w o = Ok w' -> treachable skip c w'.
Proof.
  intros [ops [L E]] H E'. exists (ops ++ [o]). split; [eapply tlegal_snoc; eauto|].
  unfold trun in *. rewrite foldM_app, E. cbn [bind foldM]. rewrite E'. auto.
Qed.

Lemma t_programs ops : tlegal skip c empty_world ops ->
  (exists w, trun skip c ops empty_world = Ok w) \/ (c_ndebug c = false /\ trun skip c ops empty_world = AssertFail).
Proof. intros L. destruct (trun_inv ops empty_world t_inv_empty L) as [[w [E _]]|H]; [left; exists w|right]; auto. Qed.
Lemma t_progress w o : treachable skip c w -> legal_tact c w o ->
  (exists w', tstep skip c w o = Ok w' /\ treachable skip c w') \/
  (c_ndebug c = false /\ tstep skip c w o = AssertFail /\ refuses w o).
Proof.
  intros R L. destruct (tstep_ok w o (treachable_inv w R) L) as [[w' [E _]]|H]; [left|right; auto].
  exists w'. split; auto. eapply treachable_step; eauto.
Qed.
Lemma t_frame w o w' : treachable skip c w -> legal_tact c w o -> tstep skip c w o = Ok w' -> kept w w' (changes (w_next w) o).
Proof.
  intros R L E. destruct (tstep_ok w o (treachable_inv w R) L) as [[w1 [E1 [_ K]]]|[_ [E1 _]]]; rewrite E in E1; [|discriminate].
  inv E1. auto.
Qed.
Lemma t_blocks_owned w k b : treachable skip c w -> h_blk (w_heap w) k = Some b ->
  exists x a, w_arr w x = Some a /\ a_buf a = (k, 0) /\ b_size b = a_bufsize a /\
    b_owner b = (if a_busy a then Inline x else Memory.Base (a_al a)) /\
    forall y a', w_arr w y = Some a' -> fst (a_buf a') = k -> y = x.
Proof.
  intros R Hb. pose proof (treachable_inv w R) as Hw. pose proof Hw as [_ [Hv [Hap Ho]]].
  destruct (Ho k) as [x [a [Ea Ek]]]; [congruence|]. exists x, a. split; auto. destruct (Hv x a Ea) as [_ [_ Va]].
  assert (Hk : k <> 0%nat).
  { intros ->. destruct (proj1 Hw) as [_ [H0 _]]. congruence. }
  destruct Va as [[Hm _]|[_ [k' [b' [Hb' Hin]]]]]; [rewrite (no_memory_blk _ Hm) in Ek; congruence|].
  rewrite (t_blk _ _ _ _ _ Hin) in Ek. subst k'. rewrite Hb in Hb'. inv Hb'.
  destruct Hin as [_ [E1 [_ [E2 [_ [E3 _]]]]]]. split; auto. split; auto. split; auto.
  intros y a' Ea' Ek. destruct (Nat.eq_dec y x) as [E|N]; auto. exfalso. apply Hk. rewrite <- Ek. apply (Hap y x a' a N Ea' Ea).
  unfold blk. rewrite Ek, E1. auto.
Qed.
Lemma t_elements w x a i : treachable skip c w -> w_arr w x = Some a -> in_bounds (a_shape a) i ->
  in_memory (w_heap w) a (elem (a_base a) (a_shape a) i).
Proof.
  intros R Ea Hi. destruct (t_elem_block c x _ a i (t_inv_valid c w x a (treachable_inv w R) Ea) Hi) as [E1 [_ E2]]. split; auto.
Qed.
Lemma t_contains w x a : treachable skip c w -> w_arr w x = Some a -> exists f, contains w x (a_shape a) f.
Proof. intros R. apply (t_inv_contains c); apply treachable_inv; auto. Qed.
Lemma t_no_leak w : treachable skip c w -> (forall x, w_arr w x = None) -> forall k, h_blk (w_heap w) k = None.
Proof.
  intros R H k. destruct (h_blk (w_heap w) k) as [b|] eqn:E; auto.
  destruct (t_blocks_owned w k b R E) as [x [a [Ea _]]]. rewrite H in Ea. discriminate.
Qed.
Lemma t_all w o w' : treachable skip c w -> plain_act c w o -> tstep skip c w (Plain o) = Ok w' ->
   (forall x y, transfers (w_next w) o x y -> transfer w w' x y) /\
   (forall x s y, copies_elements (w_next w) w o x s y -> injective_layout s ->
      forall t f, contains w y t f -> contains w' x s f) /\
   (forall x s v, sets_all skip (c_dv c) (w_next w) w o x s v -> contains w' x s (fun _ => v)).
Proof.
  intros R L E. destruct (t_act_spec skip c Hf w o (treachable_inv w R) L) as [w1 [E1 [_ H]]].
  cbn [tstep] in E. rewrite E in E1. inv E1. auto.
Qed.
Lemma t_transfers w o w' x y s f : treachable skip c w -> plain_act c w o -> tstep skip c w (Plain o) = Ok w' ->
  transfers (w_next w) o x y -> contains w y s f -> exists s', same_shape s' s /\ contains w' x s' f.
Proof.
  intros R L E T C. destruct (t_all w o w' R L E) as [H _]. destruct (H x y T s f C) as [s' [Rs C']].
  exists s'. split; auto. apply refines_same; auto.
Qed.
Lemma t_copies_elements w o w' x s y t f : treachable skip c w -> plain_act c w o -> tstep skip c w (Plain o) = Ok w' ->
  copies_elements (w_next w) w o x s y -> injective_layout s -> contains w y t f -> contains w' x s f.
Proof. intros R L E. destruct (t_all w o w' R L E) as [_ [H _]]. eauto. Qed.
Lemma t_sets_all w o w' x s v : treachable skip c w -> plain_act c w o -> tstep skip c w (Plain o) = Ok w' ->
  sets_all skip (c_dv c) (w_next w) w o x s v -> contains w' x s (fun _ => v).
Proof. intros R L E. destruct (t_all w o w' R L E) as [_ [_ H]]. auto. Qed.
Lemma t_write w x i v a w' : treachable skip c w -> w_arr w x = Some a -> in_bounds (a_shape a) i ->
  tstep skip c w (Plain (Run (Write x i v))) = Ok w' ->
  peek (w_heap w') (elem (a_base a) (a_shape a) i) = Some (Live v) /\ w_arr w' = w_arr w /\
  forall p, p <> elem (a_base a) (a_shape a) i -> peek (w_heap w') p = peek (w_heap w) p.
Proof.
  intros R Ea Hi E. destruct (t_write_world skip c w x a i v (treachable_inv w R) Ea Hi) as [w1 [E1 [_ [H1 [H2 H3]]]]].
  cbn [tstep t_astep] in E. rewrite E in E1. inv E1. auto.
Qed.
Lemma t_transform w x (fn : list Z -> V) a w' : treachable skip c w -> w_arr w x = Some a -> injective_layout (a_shape a) ->
  tstep skip c w (Plain (Transform x fn)) = Ok w' -> contains w' x (a_shape a) (fun i => Live (fn i)).
Proof.
  intros R Ea Hinj E. pose proof (treachable_inv w R) as Hw. cbn [tstep t_astep] in E. rewrite (get_ok w x a Ea) in E. cbn [bind] in E.
  destruct (t_transform_spec c x (w_heap w) a fn (proj1 Hw) (t_inv_valid c w x a Hw Ea)) as [h' [Eh [_ [_ H]]]].
  rewrite Eh in E. cbn [bind] in E. inv E. apply (t_has_denotes (mkW h' (w_arr w) (w_next w)) x a); auto. cbn [w_heap].
  apply H. intros i j I J Q. f_equal. f_equal. apply Hinj; auto. apply (elem_inj (a_base a)); auto.
Qed.
Lemma t_generate_prop w x g a w' : treachable skip c w -> w_arr w x = Some a ->
  tstep skip c w (Plain (Generate x g)) = Ok w' ->
  exists l f, enumerates (in_bounds (a_shape a)) l /\ contains w' x (a_shape a) f /\
    forall n i, nth_error l n = Some i ->
      (forall m j, (n < m)%nat -> nth_error l m = Some j -> offset (a_shape a) j <> offset (a_shape a) i) -> f i = Live (g n).
Proof.
  intros R Ea E. pose proof (treachable_inv w R) as Hw. cbn [tstep t_astep] in E. rewrite (get_ok w x a Ea) in E. cbn [bind] in E.
  pose proof (t_inv_valid c w x a Hw Ea) as Va.
  destruct (t_generate_values c x (w_heap w) a g (proj1 Hw) Va) as [r [l [Er [Hl H]]]].
  destruct (t_generate_spec c x (w_heap w) a g (proj1 Hw) Va) as [r' [Er' [V1 _]]]. rewrite Er in Er'. inv Er'.
  rewrite Er in E. cbn [bind] in E. inv E. destruct (tvalid_has c x _ a V1) as [f Hff]. exists l, f. split; auto.
  split; [apply (t_has_denotes (mkW (fst r') (w_arr w) (w_next w)) x a); auto|]. intros n i Ei Hm. specialize (H n i Ei Hm).
  rewrite Hff in H; [congruence|]. apply Hl. eapply nth_error_In; eauto.
Qed.
Lemma t_clear_prop w x w' : treachable skip c w -> exists_arr w x -> tstep skip c w (Plain (Run (Clear x))) = Ok w' ->
  exists a', w_arr w' x = Some a' /\ same_shape (a_shape a') (c_shape0 c) /\ a_buf a' = null /\ a_base a' = null.
Proof.
  intros R [a Ea] E. destruct (t_clear_world skip c Hf w x a (treachable_inv w R) Ea) as [w1 [E1 [_ [a' [Ea' [Es [M1 [M2 _]]]]]]]].
  cbn [tstep t_astep] in E. rewrite E in E1. inv E1. exists a'. split; auto. split; auto. rewrite Es. apply refines_same. right; auto.
Qed.
Lemma t_delete_prop w x w' : treachable skip c w -> exists_arr w x -> tstep skip c w (Plain (Run (Delete x))) = Ok w' ->
  w_arr w' x = None.
Proof.
  intros R [a Ea] E. destruct (t_delete_world c Hf w x a (treachable_inv w R) Ea) as [w1 [E1 [_ H]]].
  cbn [tstep t_astep t_step] in E. rewrite E in E1. inv E1. auto.
Qed.
Lemma t_reshape w x s a f w' : treachable skip c w -> w_arr w x = Some a -> plain_act c w (Run (Reshape x s)) ->
  injective_layout (resolve s) -> contains w x (a_shape a) f -> tstep skip c w (Plain (Run (Reshape x s))) = Ok w' ->
  exists g, contains w' x (resolve s) g /\
    (forall i, in_bounds (a_shape a) i -> in_bounds s i -> g i = f i) /\
    (skip = false -> forall i, ~ in_bounds (a_shape a) i -> in_bounds s i -> g i = Live (c_dv c)).
Proof.
  intros R Ea [Hs [a0 [Ea0 Hm]]] Hinj C E. replace a0 with a in * by congruence.
  destruct (t_reshape_world skip c Hf w x a s (treachable_inv w R) Ea Hs Hm) as [w1 [E1 [_ H]]].
  cbn [tstep t_astep t_step] in E. rewrite E in E1. inv E1. auto.
Qed.

(** ** set_shape and move_reinterpret_shape *)

Lemma moved_contents w w' x y a a' t s off f : treachable skip c w -> TInv c w' -> w_arr w x = Some a -> w_arr w' y = Some a' ->
  a_shape a' = s -> (is_null (a_base a) = false -> a_base a' = ptr_off (a_base a) off) ->
  (forall p, peek (w_heap w) p <> None -> peek (w_heap w') p = peek (w_heap w) p) ->
  contains w x t f -> exists g, contains w' y s g /\
    forall i j, in_bounds s i -> in_bounds t j -> offset t j = off + offset s i -> g i = f j.
Proof.
  intros R I' Ea Ea' Es Eb Hk C. pose proof (treachable_inv w R) as Hw.
  destruct (t_inv_contains c w' y a' I' Ea') as [g G]. rewrite Es in G. exists g. split; auto. intros i j Hi Hj Eo.
  destruct (t_denotes_has w x a t f C Ea) as [-> Hff]. specialize (Hff j Hj).
  destruct G as [a0 [Ea0 [_ G]]]. rewrite Ea' in Ea0. inv Ea0. specialize (G i Hi).
  assert (En : is_null (a_base a) = false).
  { destruct (tvalid_base c x _ a (t_inv_valid c w x a Hw Ea)) as [H|H]; auto. destruct (H j Hj). }
  specialize (Eb En).
  assert (Ee : elem (a_base a0) (a_shape a0) i = elem (a_base a) (a_shape a) j).
  { unfold elem. rewrite Eb. unfold ptr_off. cbn [fst snd]. f_equal. lia. }
  rewrite Ee in G. rewrite Hk in G by congruence. congruence.
Qed.
Lemma t_set_shape w x s off t f w' : treachable skip c w -> legal_tact c w (SetShape x s off) ->
  tstep skip c w (SetShape x s off) = Ok w' -> contains w x t f ->
  w_heap w' = w_heap w /\ exists g, contains w' x s g /\
    forall i j, in_bounds s i -> in_bounds t j -> offset t j = off + offset s i -> g i = f j.
Proof.
  intros R L E C. pose proof C as [a [Ea [Et _]]].
  destruct (t_set_shape_world skip c w x a s off (treachable_inv w R) L Ea) as [[w1 [E1 [D [Eh Ea']]]]|[_ [E1 _]]];
    rewrite E in E1; [|discriminate]. inv E1. split; auto.
  eapply (moved_contents w w1 x x); eauto; [apply D|cbn [set_base a_base]; intros En; unfold pointer_add; rewrite En; auto|].
  intros p _. rewrite Eh. auto.
Qed.
Lemma t_set_shape_back w x s off t f w1 w2 : treachable skip c w -> legal_tact c w (SetShape x s off) -> contains w x t f ->
  tstep skip c w (SetShape x s off) = Ok w1 -> tstep skip c w1 (SetShape x t (- off)) = Ok w2 ->
  w_heap w2 = w_heap w /\ (forall z, w_arr w2 z = w_arr w z).
Proof.
  intros R L C E1 E2. pose proof C as [a [Ea [Et _]]].
  destruct (t_set_shape_world skip c w x a s off (treachable_inv w R) L Ea) as [[w' [E1' [[_ K] [Eh Ea']]]]|[_ [E1' _]]];
    rewrite E1 in E1'; [|discriminate]. inv E1'.
  cbn [tstep] in E2. rewrite (get_ok w' x _ Ea') in E2. cbn [bind] in E2.
  assert (En : is_null (a_base a) = true -> a_base a = null) by (intros Q; apply ptr_eqb_eq; exact Q).
  assert (Hr : forall a2, arr_set_shape c (set_base (with_shape a s) (pointer_add (a_base a) off)) (a_shape a) (- off) = Ok a2 -> a2 = a).
  { unfold arr_set_shape. intros a2. destruct (assert_ _ _) as [u| |]; cbn [bind]; try discriminate.
    destruct (assert_ _ _) as [u'| |]; cbn [bind]; try discriminate. intros Q. inv Q.
    destruct a as [al bz bu bs ba sh]. unfold set_base, with_shape, pointer_add. cbn [a_base a_shape a_al a_buf a_bufsize a_busy] in *.
    destruct (is_null ba) eqn:E0.
    - rewrite ?E0. reflexivity.
    - assert (is_null (ptr_off ba off) = false \/ is_null (ptr_off ba off) = true) as [Q|Q] by (destruct (is_null (ptr_off ba off)); auto); rewrite Q.
      + destruct ba as [k z]. unfold ptr_off. cbn [fst snd]. do 2 f_equal. lia.
      + exfalso. apply ptr_eqb_eq in Q. destruct (tvalid_memory c x _ _ (t_inv_valid c w x _ (treachable_inv w R) Ea)) as [[_ [_ [_ [_ H]]]]|[_ [H1 [_ H2]]]].
        * cbn [a_base] in H. congruence.
        * unfold blk in *. cbn [a_buf a_base] in *. unfold ptr_off, null in Q. inv Q. congruence. }
  destruct (arr_set_shape _ _ _ _) as [a2| |] eqn:E3; cbn [bind] in E2; try discriminate. specialize (Hr a2 eq_refl). inv E2.
  cbn [w_heap w_arr]. split; auto. intros z. destruct (Nat.eq_dec z x) as [->|N]; [rewrite put_same; auto|].
  rewrite put_other by auto. apply (K z). simpl. intuition.
Qed.
Lemma t_move_shape w y s off t f w' : treachable skip c w -> legal_tact c w (MoveShape y s off) ->
  tstep skip c w (MoveShape y s off) = Ok w' -> contains w y t f ->
  (exists b', w_arr w' y = Some b' /\ a_shape b' = c_shape0 c /\ a_buf b' = null /\ a_base b' = null) /\
  (forall p, peek (w_heap w) p <> None -> peek (w_heap w') p = peek (w_heap w) p) /\
  exists g, contains w' (w_next w) s g /\
    forall i j, in_bounds s i -> in_bounds t j -> offset t j = off + offset s i -> g i = f j.
Proof.
  intros R L E C. pose proof C as [b [Eb [Et _]]].
  destruct (t_move_shape_world skip c Hf w y b s off (treachable_inv w R) L Eb)
    as [[w1 [a' [b' [E1 [D [Hk [Ea' [Eb' [[M1 [M2 _]] [Sb [_ [Sa Ba]]]]]]]]]]]]|[_ [E1 _]]]; rewrite E in E1; [|discriminate].
  inv E1. split; [exists b'; auto|]. split; auto.
  eapply (moved_contents w w1 y (w_next w)); eauto. apply D.
Qed.
End Props.
