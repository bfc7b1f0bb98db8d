(** What happens when move-constructing an element throws. *)
From Coq Require Import ZArith List Bool Lia Arith Permutation.
From Verif Require Import Base Interval Shape Traverse Memory Ref Container Throw Spec SpecMem SpecContainer
  SpecThrow Tac ShapeFacts IntervalFacts ResolveFacts TraverseFacts MemFacts RefFacts SliceFacts ContainerFacts ContainerWorld
  ContainerProps ThrowPlain ThrowElems.
Import ListNotations.
Open Scope Z_scope.

Section Moves.
Context {V : Type}.
Variable c : config V.
Implicit Types (h : heap V) (w : world V) (o : op V).

(** What moving element [i] from [b] to [a] writes *)
Definition moves (a b : arr) (g : list Z -> V) (i : list Z) : list (ptr * cell V) :=
  [(elem (a_base a) (a_shape a) i, Live (g i)); (elem (a_base b) (a_shape b) i, Live (c_mv c (g i)))].
(** The first [k] elements of [a] are move-constructed; the others are not. *)
Definition half_move x y h a b g k h' : Prop := exists l1 l2,
  repr c raw_cells x h a /\ valid c y h b /\ has h b g /\ apart a b /\
  (forall i, in_bounds (a_shape a) i <-> in_bounds (a_shape b) i) /\
  enumerates (in_bounds (a_shape a)) (l1 ++ l2) /\ length l1 = k /\ l2 <> [] /\
  h' = upds h (flat_map (moves a b g) l1).

Lemma NoDup_app_l {A} (l1 l2 : list A) : NoDup (l1 ++ l2) -> NoDup l1.
Proof.
  induction l1 as [|a r IH]; intros H; constructor; simpl in H; inv H; [|auto].
  intros I. apply H2. apply in_or_app. auto.
Qed.

Lemma moves_distinct x y h a b g l1 l2 : repr c raw_cells x h a -> valid c y h b -> apart a b ->
  (forall i, in_bounds (a_shape a) i <-> in_bounds (a_shape b) i) ->
  enumerates (in_bounds (a_shape a)) (l1 ++ l2) ->
  Permutation (map fst (flat_map (moves a b g) l1))
    (map (elem (a_base a) (a_shape a)) l1 ++ map (elem (a_base b) (a_shape b)) l1) /\
  NoDup (map fst (flat_map (moves a b g) l1)) /\
  (forall i j, in_bounds (a_shape a) i -> in_bounds (a_shape b) j ->
     elem (a_base a) (a_shape a) i <> elem (a_base b) (a_shape b) j).
Proof.
  intros Ha Hb Hap Hs Hl.
  assert (Hp : Permutation (map fst (flat_map (moves a b g) l1))
    (map (elem (a_base a) (a_shape a)) l1 ++ map (elem (a_base b) (a_shape b)) l1)).
  { rewrite map_flat_map. unfold moves. cbn [map fst]. apply interleave_perm. }
  assert (Hdis : forall i j, in_bounds (a_shape a) i -> in_bounds (a_shape b) j ->
     elem (a_base a) (a_shape a) i <> elem (a_base b) (a_shape b) j).
  { intros i j Hi Hj E. destruct (elem_block _ _ _ _ _ i Ha Hi) as [E1 E2].
    destruct (elem_block _ _ _ _ _ j Hb Hj) as [E3 E4]. apply E2, Hap. congruence. }
  assert (Hi1 : forall i, In i l1 -> in_bounds (a_shape a) i) by (intros i Hi; apply Hl, in_or_app; auto).
  split; auto. split; auto.
  eapply Permutation_NoDup; [apply Permutation_sym; exact Hp|]. apply NoDup_app.
  - pose proof (NoDup_map_elem (a_base a) (a_shape a) _ (repr_injective _ _ _ _ _ Ha) Hl) as N.
    rewrite map_app in N. eapply NoDup_app_l; eauto.
  - assert (Hl' : enumerates (in_bounds (a_shape b)) (l1 ++ l2)).
    { destruct Hl as [N I]. split; auto. intros i. rewrite I. apply Hs. }
    pose proof (NoDup_map_elem (a_base b) (a_shape b) _ (repr_injective _ _ _ _ _ Hb) Hl') as N.
    rewrite map_app in N. eapply NoDup_app_l; eauto.
  - intros p H1 H2. apply in_map_iff in H1, H2. destruct H1 as [i [<- Hi]], H2 as [j [E Hj]].
    apply (Hdis i j); auto. apply Hs; auto.
Qed.

Lemma move_construct_half x y h a b g k l0 : repr c raw_cells x h a -> valid c y h b -> has h b g ->
  apart a b -> a_shape a = resolve (a_shape b) -> copyable c b ->
  enumerates (in_bounds (a_shape a)) l0 -> (k < length l0)%nat ->
  exists h', move_construct_x c h a b (elems k) = Ok (Threw h') /\ half_move x y h a b g k h'.
Proof.
  intros Ha Hb Hg Hap Es Hcp H0 Hk. unfold move_construct_x. rewrite (repr_assert _ _ _ _ _ Ha). cbn [bind].
  rewrite assert_same by auto. cbn [bind].
  destruct (values_copy_spec (c_ndebug c) (a_shape b) (a_base b) (a_shape a) (a_base a)) as [l [Hl ->]].
  { rewrite Es, resolve_length; auto. }
  { eapply repr_extents; eauto. }
  { eapply pair_base; eauto. }
  cbn [bind].
  destruct (firstn_half l l0 _ k H0 Hl Hk) as [E1 [E2 [E3 E4]]].
  assert (Hs : forall i, in_bounds (a_shape a) i <-> in_bounds (a_shape b) i).
  { intros i. rewrite Es. apply resolve_in_bounds. }
  destruct (moves_distinct x y h a b g _ _ Ha Hb Hap Hs E1) as [Hp [Hnd Hdis]].
  assert (Hi1 : forall i, In i (firstn k l) -> in_bounds (a_shape a) i) by (intros i Hi; apply Hl; eapply firstn_In; eauto).
  exists (upds h (flat_map (moves a b g) (firstn k l))). split.
  - apply each_half; [rewrite map_length; auto|]. rewrite firstn_map, foldM_map. cbn [fst snd].
    apply foldM_upds; auto. intros h' i Hi Hout Hin _. unfold load.
    assert (P1 : peek h' (elem (a_base b) (a_shape b) i) = Some (Live (g i))).
    { rewrite Hin by (right; left; auto). apply Hg, Hs; auto. }
    assert (P2 : peek h' (elem (a_base a) (a_shape a) i) = Some Raw).
    { rewrite Hin by (left; auto). eapply raw_peek; eauto. }
    rewrite P1. cbn [bind]. unfold construct_at. rewrite P2. cbn [bind]. unfold store.
    rewrite peek_upd_other by (apply Hdis; auto; apply Hs; auto). rewrite P1. reflexivity.
  - exists (firstn k l), (skipn k l). repeat (split; [assumption|]). reflexivity.
Qed.

Lemma half_move_unfold x y h a b g k h' : half_move x y h a b g k h' -> repr c raw_cells x h a.
Proof. intros (l1 & l2 & H & _). exact H. Qed.

(** The elements that were not constructed are still raw: destroying the array is undefined. *)
Lemma half_move_destroy x y h a b g k h' : half_move x y h a b g k h' -> destroy c h' a = UB.
Proof.
  intros (l1 & l2 & Hr & Hb & Hg & Hap & Hs & Hl & Hk & Hne & ->). unfold destroy. rewrite (repr_assert _ _ _ _ _ Hr). cbn [bind].
  destruct (values_spec (c_ndebug c) (a_shape a) (a_base a) (repr_extents _ _ _ _ _ Hr) (repr_base _ _ _ _ _ Hr))
    as [l [Hl' ->]]. cbn [bind].
  destruct l2 as [|i r]; [congruence|].
  assert (Hi : in_bounds (a_shape a) i) by (apply Hl, in_or_app; right; left; auto).
  destruct (moves_distinct x y h a b g _ _ Hr Hb Hap Hs Hl) as [Hp [Hnd Hdis]].
  apply (destroy_raw_ub _ _ (elem (a_base a) (a_shape a) i)).
  - apply NoDup_map_elem; auto. eapply repr_injective; eauto.
  - apply in_map. apply Hl'. auto.
  - rewrite peek_upds_out; [eapply raw_peek; eauto|]. intros C.
    apply (Permutation_in _ Hp), in_app_or in C. destruct C as [C|C]; apply in_map_iff in C; destruct C as [j [E Hj]].
    + assert (j = i).
      { apply (repr_injective _ _ _ _ _ Hr); [apply Hl, in_or_app; auto|auto|]. eapply elem_inj; eauto. }
      subst j. destruct Hl as [N _]. apply NoDup_remove_2 in N. apply N. apply in_or_app. auto.
    + symmetry in E. apply Hdis in E; auto. apply Hs, Hl, in_or_app. auto.
Qed.
Lemma half_move_deallocate x y h a b g k h' : half_move x y h a b g k h' -> deallocate c x h' a = UB.
Proof.
  intros H. unfold deallocate. destruct (is_null (a_base a)) eqn:E.
  - exfalso. destruct H as (l1 & l2 & Hr & _ & _ & _ & _ & Hl & Hk & Hne & _).
    destruct (repr_base _ _ _ _ _ Hr) as [C|C]; [congruence|].
    destruct l2 as [|i r]; [congruence|]. apply (C i). apply Hl, in_or_app. right; left; auto.
  - rewrite (half_move_destroy _ _ _ _ _ _ _ _ H). auto.
Qed.

Lemma half_move_facts x y h a b g k h' : heap_ok h -> half_move x y h a b g k h' ->
  local h [blk a; blk b] h' [blk a; blk b] /\ blk a <> 0%nat /\ valid c y h' b /\
  (exists m g', has h' b g' /\ NoDup m /\ length m = k /\
     (forall i, In i m -> in_bounds (a_shape b) i /\ g' i = c_mv c (g i)) /\ (forall i, ~ In i m -> g' i = g i)) /\
  exists objs b0, NoDup objs /\ length objs = k /\ h_blk h' (blk a) = Some b0 /\
    b_owner b0 = (if a_busy a then Inline x else Base (a_al a)) /\ (a_busy a = true -> 0 < b_size b0 <= c_cap c) /\
    (forall p, In p objs -> fst p = blk a) /\
    forall p, alive h' p <-> alive h p \/ In p objs.
Proof.
  intros Hh (l1 & l2 & Hr & Hb & Hg & Hap & Hs & Hl & Hk & Hne & ->).
  destruct (moves_distinct x y h a b g _ _ Hr Hb Hap Hs Hl) as [Hp [Hnd Hdis]].
  assert (Hib : forall i, In i l1 -> in_bounds (a_shape a) i).
  { intros i Hi. apply Hl. apply in_or_app; auto. }
  set (ws := flat_map (moves a b g) l1) in *.
  assert (Hw : exists i, in_bounds (a_shape a) i).
  { destruct l2 as [|i r]; [congruence|]. exists i. apply Hl. apply in_or_app. right. left; auto. }
  destruct Hw as [i0 Hi0]. destruct (repr_elem _ _ _ _ _ _ Hr Hi0) as [b0 [Hb0 [Eb [Hin _]]]].
  assert (Hcase : forall p, In p (map fst ws) -> (exists i, In i l1 /\ p = elem (a_base a) (a_shape a) i) \/
                                            (exists i, In i l1 /\ p = elem (a_base b) (a_shape b) i)).
  { intros p I. apply (Permutation_in _ Hp), in_app_or in I. destruct I as [I|I]; apply in_map_iff in I;
      destruct I as [i [<- Hi]]; [left|right]; exists i; auto. }
  assert (Hsrc : forall i, In i l1 -> peek (upds h ws) (elem (a_base b) (a_shape b) i) = Some (Live (c_mv c (g i)))).
  { intros i Hi. apply peek_upds_in; auto.
    - unfold ws. apply in_flat_map. exists i. split; auto. right; left; auto.
    - pose proof (Hg i (proj1 (Hs i) (Hib i Hi))) as G. unfold holds in G. congruence. }
  assert (Hdst : forall i, In i l1 -> peek (upds h ws) (elem (a_base a) (a_shape a) i) = Some (Live (g i))).
  { intros i Hi. apply peek_upds_in; auto.
    - unfold ws. apply in_flat_map. exists i. split; auto. left; auto.
    - rewrite (raw_peek _ _ _ _ _ Hr (Hib i Hi)). congruence. }
  split; [|split; [exact Hb0|split; [|split]]].
  - apply upds_local; auto. intros p I. destruct (Hcase p I) as [[i [Hi ->]]|[i [Hi ->]]].
    + left. destruct (elem_block _ _ _ _ _ i Hr (Hib i Hi)); auto.
    + right. left. destruct (elem_block _ _ _ _ _ i Hb (proj1 (Hs i) (Hib i Hi))); auto.
  - apply (live_after c live_cells); auto; [apply live_live| |].
    + intros i Hi. destruct (in_dec ptr_dec (elem (a_base b) (a_shape b) i) (map fst ws)) as [I|I].
      * destruct (Hcase _ I) as [[j [Hj E]]|[j [Hj E]]]; [symmetry in E; apply Hdis in E; auto; contradiction|].
        rewrite E. eexists. apply Hsrc; auto.
      * exists (g i). unfold holds. rewrite peek_upds_out by auto. apply Hg; auto.
    + intros p I Ep. destruct (Hcase p I) as [[i [Hi ->]]|[i [Hi ->]]]; [exfalso|exists i; split; auto; apply Hs; auto].
      destruct (elem_block _ _ _ _ _ i Hr (Hib i Hi)) as [E3 E4]. unfold apart in Hap. rewrite <- Ep, E3 in Hap. auto.
  - exists l1, (fun i => if in_dec (list_eq_dec Z.eq_dec) i l1 then c_mv c (g i) else g i).
    split.
    { intros i Hi. unfold holds. destruct (in_dec (list_eq_dec Z.eq_dec) i l1) as [I|I]; auto.
      rewrite peek_upds_out; [apply Hg; auto|]. intros C. destruct (Hcase _ C) as [[j [Hj E]]|[j [Hj E]]].
      - symmetry in E. apply Hdis in E; auto.
      - assert (j = i); [|congruence].
        symmetry. apply (repr_injective _ _ _ _ _ Hb); auto; [apply Hs; auto|]. eapply elem_inj; eauto. }
    split; [destruct Hl as [N _]; eapply NoDup_app_l; eauto|]. split; auto. split.
    + intros i Hi. split; [apply Hs; auto|]. destruct (in_dec (list_eq_dec Z.eq_dec) i l1); [auto|contradiction].
    + intros i Hi. destruct (in_dec (list_eq_dec Z.eq_dec) i l1); [contradiction|auto].
  - destruct (upds_block h ws (blk a) b0 Eb) as [b' [Eb' [Es Eo]]].
    exists (map (elem (a_base a) (a_shape a)) l1), b'.
    split; [pose proof (NoDup_map_elem (a_base a) (a_shape a) _ (repr_injective _ _ _ _ _ Hr) Hl) as N;
            rewrite map_app in N; eapply NoDup_app_l; eauto|].
    split; [rewrite map_length; auto|]. split; auto.
    rewrite Es, Eo. unfold in_block in Hin. split; [tauto|]. split; [intros Z; split; [tauto|]; apply Hin; auto|].
    split.
    { intros p I. apply in_map_iff in I. destruct I as [i [<- Hi]]. apply (elem_block _ _ _ _ _ _ Hr (Hib i Hi)). }
    intros p. destruct (in_dec ptr_dec p (map fst ws)) as [I|I].
    + destruct (Hcase p I) as [[i [Hi ->]]|[i [Hi ->]]].
      * split; [intros _; right; apply in_map; auto|]. intros _. exists (g i). apply Hdst; auto.
      * split.
        -- intros _. left. exists (g i). apply Hg, Hs; auto.
        -- intros _. exists (c_mv c (g i)). apply Hsrc; auto.
    + unfold alive, holds. rewrite peek_upds_out by auto. split; auto. intros [H|H]; auto. exfalso. apply I.
      apply (Permutation_in _ (Permutation_sym Hp)), in_or_app. auto.
Qed.

(** ** The member functions *)

Lemma assign_move_half x y h a b g k l0 : fair c -> heap_ok h -> valid c x h a -> valid c y h b -> has h b g ->
  apart a b -> copyable c b -> enumerates (in_bounds (a_shape b)) l0 -> (k < length l0)%nat ->
  exists h1 a1 h', assign_move_x c x h a b (elems k) = Ok (Threw (h', a1)) /\ half_move x y h1 a1 b g k h' /\
    local h [blk a] h1 [blk a1].
Proof.
  intros Hf Hh Ha Hb Hhas Hap Hcp H0 Hk. unfold assign_move_x. destruct (ptr_eqb (a_base a) (a_base b)) eqn:E.
  - exfalso. destruct (bases_equal _ _ _ _ _ _ Ha Hb Hap E) as [M1 M2].
    destruct l0 as [|i r]; [simpl in Hk; lia|].
    destruct (repr_elem _ _ _ _ _ i Hb) as [_ [N _]]; [apply H0; left; auto|]. apply N, no_memory_blk; auto.
  - rewrite refit_elems.
    destruct (assign_storage c x y h a b Hf Hh Ha Hb) as [h1 [a1 [E1 [Hr [Hl [Es Eal]]]]]].
    unfold nothrow. rewrite E1. unfold xbind at 1. cbn [bind].
    destruct (frame_local c _ y h h1 _ _ b Hh Hl Hb) as [Hb1 [Hh1 [Hk1 _]]].
    { intros [I|[]]. rewrite <- I. apply Hap. auto. }
    assert (H1 : enumerates (in_bounds (a_shape a1)) l0).
    { rewrite Es. destruct H0 as [N I]. split; auto. intros i. rewrite I. symmetry. apply resolve_in_bounds. }
    destruct (move_construct_half x y h1 a1 b g k l0) as [h2 [E2 Hhalf]]; auto.
    { intros I. rewrite I. apply Hk1. left; auto. }
    rewrite E2. unfold xbind. cbn [bind]. exists h1, a1, h2. auto.
Qed.
Lemma move_elements_half x y h al b g k l0 : fair c -> heap_ok h -> valid c y h b -> has h b g -> copyable c b ->
  enumerates (in_bounds (a_shape b)) l0 -> (k < length l0)%nat ->
  exists h1 a1 h', move_elements_x c x h (blank al (c_shape0 c)) b (elems k) = Ok (Threw h') /\
    half_move x y h1 a1 b g k h' /\ local h [0%nat] h1 [blk a1].
Proof.
  intros Hf Hh Hb Hhas Hcp H0 Hk. unfold move_elements_x. rewrite allocate_elems.
  destruct (allocate_spec c x h (with_shape (blank al (c_shape0 c)) (a_shape b))) as [h1 [a1 [E1 [Hr [Hl [Es Ea]]]]]]; auto; [apply Hb|].
  change (blk (with_shape (blank al (c_shape0 c)) (a_shape b))) with 0%nat in Hl.
  unfold nothrow. rewrite E1. unfold xbind at 1. cbn [bind].
  destruct (frame_local c _ y h h1 _ _ b Hh Hl Hb) as [Hb1 [Hh1 [Hk1 _]]]; [intros [I|[]]; auto|].
  assert (H1 : enumerates (in_bounds (a_shape a1)) l0).
  { rewrite Es. destruct H0 as [N I]. split; auto. intros i. rewrite I. symmetry. apply resolve_in_bounds. }
  destruct (move_construct_half x y h1 a1 b g k l0) as [h2 [E2 Hhalf]]; auto.
  { intros I. rewrite I. apply Hk1. left; auto. }
  rewrite E2. unfold xbind. cbn [bind]. exists h1, a1, h2. auto.
Qed.

(** ** Programs *)

Hypothesis Hf : fair c.

Lemma half_move_leaks w y b h1 a g h' k : Inv c w -> w_arr w y = Some b -> has (w_heap w) b g ->
  local (w_heap w) [0%nat] h1 [blk a] -> half_move (w_next w) y h1 a b g k h' ->
  leaks_moved c w (mkW h' (w_arr w) (S (w_next w))) y k.
Proof.
  intros Hw Eb Hg Hl Hh. pose proof Hw as [Ho [Hv [Hpair _]]].
  assert (Hr : repr c raw_cells (w_next w) h1 a) by (eapply half_move_unfold; eauto).
  destruct (half_move_facts _ _ _ _ _ _ _ _ (proj1 Hl) Hh) as [Hl2 [Hn [_ [Hmoved [objs [b0 [N [L [Eb0 [Eo [Ec [Hin Hal]]]]]]]]]]]].
  assert (Hfresh : h_blk (w_heap w) (blk a) = None).
  { destruct Hl as [_ [_ [_ [_ C1]]]]. destruct Ho as [_ [_ Hfr]].
    destruct (C1 (blk a)) as [[I|[]]|[I|I]]; [left; auto|congruence|apply Hfr; auto|congruence]. }
  assert (Hsep : forall z a0, w_arr w z = Some a0 -> blk a0 <> blk a).
  { intros z a0 Ea E. destruct (Hv z a0 Ea) as [_ Hva].
    destruct (repr_block _ _ _ _ _ Hva) as [[I _]|[_ I]]; unfold blk in *; congruence. }
  split; [|split].
  - intros z Hz. cbn [w_arr]. split; auto. intros s f [a0 [Ea [Es Hff]]]. exists a0. cbn [w_arr w_heap]. split; auto. split; auto.
    subst s. destruct (Hv z a0 Ea) as [_ Hva].
    destruct (frame_local c _ z _ h1 _ _ a0 Ho Hl Hva) as [Hva1 [F1 _]]; [intros [I|[]]; auto|].
    destruct (frame_local c _ z h1 h' _ _ a0 (proj1 Hl) Hl2 Hva1) as [_ [F2 _]].
    + intros [I|[I|[]]]; [exfalso; exact (Hsep z a0 Ea (eq_sym I))|].
      assert (Hap : apart a0 b) by (apply (inv_apart c w z y); auto; intros ->; apply Hz; left; auto).
      apply Hap. auto.
    + apply F2, F1. exact Hff.
  - exists (blk a), b0, objs. cbn [w_heap w_arr]. split; auto. split; auto. split.
    { intros Hc. rewrite Eo. destruct (a_busy a); eauto. specialize (Ec eq_refl). lia. }
    split; [exact Hsep|]. split; auto. split; auto. split; auto.
    intros p. rewrite Hal. rewrite (new_raw_alive _ _ _ _ _ Ho Hl Hr p). reflexivity.
  - intros s g0 Hd. destruct (denotes_has w y b s g0 Hd Eb) as [-> Hg0].
    destruct Hmoved as (m & g' & Hg' & Nm & Lm & M1 & M2).
    assert (Eg : forall i, in_bounds (a_shape b) i -> g0 i = g i).
    { intros i Hi. pose proof (Hg0 i Hi) as A. pose proof (Hg i Hi) as B. unfold holds in A, B. congruence. }
    exists m, (fun i => if in_dec (list_eq_dec Z.eq_dec) i m then g' i else g0 i).
    split; [|split; [exact Nm|split; [exact Lm|split]]].
    + exists b. cbn [w_arr w_heap]. split; auto. split; auto. intros i Hi.
      destruct (in_dec (list_eq_dec Z.eq_dec) i m) as [I|I]; [apply Hg'; auto|].
      rewrite (Eg i Hi), <- (M2 i I). apply Hg'; auto.
    + intros i Hi. destruct (M1 i Hi) as [B1 B2]. split; auto.
      destruct (in_dec (list_eq_dec Z.eq_dec) i m); [|contradiction]. rewrite B2, (Eg i B1). auto.
    + intros i Hi. destruct (in_dec (list_eq_dec Z.eq_dec) i m); [contradiction|auto].
Qed.

Lemma new_move_elems w o y b al s g k l : reachable c w -> legal_op c w o -> w_arr w y = Some b ->
  (o = NewMove y /\ c_pocma c = false /\ al = c_default c) \/ o = NewMoveAlloc y al ->
  a_busy b = true \/ a_al b <> al -> denotes w y s g ->
  enumerates (in_bounds s) l -> (k < length l)%nat ->
  exists w', xstep c w o (elems k) = Ok (Threw w') /\ leaks_moved c w w' y k.
Proof.
  intros Hw Ho Eb Eo Hal Hd Hl Hk. apply (reachable_inv c Hf) in Hw. pose proof (inv_valid c w y b Hw Eb) as Hb.
  destruct (denotes_has w y b s g Hd Eb) as [-> Hg].
  assert (Hcp : may_copy c w y) by (destruct Eo as [[-> _] | ->]; exact Ho).
  destruct Hcp as [b1 [Eb1 Hcp]]. rewrite Eb in Eb1. inv Eb1.
  destruct (move_elements_half (w_next w) y (w_heap w) al b1 g k l) as [h1 [a1 [h' [E [Hh Hlo]]]]]; auto; [apply Hw|].
  assert (Hneq : alloc_eq (w_next w) (blank al (c_shape0 c)) y b1 = false).
  { unfold alloc_eq. cbn [blank a_busy orb a_al]. pose proof (inv_lt c w y b1 Hw Eb) as Hlt.
    destruct Hal as [-> | Hal]; [apply Nat.eqb_neq; lia|].
    destruct (a_busy b1); apply Nat.eqb_neq; [lia|congruence]. }
  exists (mkW h' (w_arr w) (S (w_next w))). split; [|eapply half_move_leaks; eauto].
  destruct Eo as [[-> [Ep Ed]] | ->]; cbn [xstep]; unfold do_new_move_x; rewrite (get_ok w y b1 Eb); cbn [bind];
    unfold add2_x, ctor_move_x, ctor_move_alloc_x.
  - subst al. rewrite Ep, Hneq. cbn [orb]. rewrite E. unfold xbind. reflexivity.
  - rewrite Hneq, E. unfold xbind. reflexivity.
Qed.
Lemma assign_move_elems w o x y a b s g k l : reachable c w -> legal_op c w o -> x <> y ->
  w_arr w x = Some a -> w_arr w y = Some b ->
  o = AssignMove x y \/
  (o = MoveAssign x y /\ c_pocma c = false /\ (a_busy a = true \/ a_busy b = true \/ a_al a <> a_al b)) ->
  denotes w y s g -> enumerates (in_bounds s) l -> (k < length l)%nat ->
  exists w', xstep c w o (elems k) = Ok (Threw w') /\ step c w' (Delete x) = UB /\ step c w' (Clear x) = UB.
Proof.
  intros Hw Ho Hxy Ea Eb Eo Hd Hl Hk. apply (reachable_inv c Hf) in Hw.
  pose proof (inv_valid c w x a Hw Ea) as Ha. pose proof (inv_valid c w y b Hw Eb) as Hb.
  pose proof (inv_apart c w x y a b Hw Hxy Ea Eb) as Hap.
  destruct (denotes_has w y b s g Hd Eb) as [-> Hg].
  assert (Hcp : may_copy c w y) by (destruct Eo as [-> | [-> _]]; apply Ho).
  destruct Hcp as [b1 [Eb1 Hcp]]. rewrite Eb in Eb1. inv Eb1.
  destruct (assign_move_half x y (w_heap w) a b1 g k l) as [h1 [a1 [h' [E [Hh _]]]]]; auto; [apply Hw|].
  exists (mkW h' (put (w_arr w) x (Some a1)) (w_next w)). split.
  - destruct Eo as [-> | [-> [Ep Hal]]]; cbn [xstep]; unfold do_move_assign_x; rewrite (get_ok w x a Ea), (get_ok w y b1 Eb); cbn [bind].
    + unfold change_x. rewrite E. unfold xbind. reflexivity.
    + unfold move_assign_op_x. rewrite Ep.
      assert (Ebase : ptr_eqb (a_base a) (a_base b1) = false).
      { destruct (ptr_eqb (a_base a) (a_base b1)) eqn:Q; auto. exfalso.
        destruct (bases_equal _ _ _ _ _ _ Ha Hb Hap Q) as [M1 M2].
        destruct l as [|i r]; [simpl in Hk; lia|].
        destruct (repr_elem _ _ _ _ _ i Hb) as [_ [N _]]; [apply Hl; left; auto|]. apply N, no_memory_blk; auto. }
      assert (Hneq : alloc_eq x a y b1 = false).
      { unfold alloc_eq. destruct Hal as [-> | [-> | Hal]]; cbn [orb]; [apply Nat.eqb_neq; auto| |].
        - rewrite orb_true_r. apply Nat.eqb_neq; auto.
        - destruct (a_busy a || a_busy b1); apply Nat.eqb_neq; auto. }
      rewrite Ebase, Hneq. cbn [orb]. rewrite E. unfold xbind. reflexivity.
  - cbn [step]. unfold do_delete, clear, get, change. cbn [w_arr w_heap].
    rewrite put_same. cbn [bind]. rewrite (half_move_deallocate _ _ _ _ _ _ _ _ Hh). auto.
Qed.

(** ** Statements that construct elements more than once *)

Lemma each_full {A} (one : heap V -> A -> outcome (heap V)) l : forall h h' k, (length l <= k)%nat ->
  foldM one l h = Ok h' -> construct_each one l h (elems k) = Ok (Done h' (elems (k - length l))).
Proof.
  induction l as [|p r IH]; intros h h' k Hk E; simpl in *.
  - inv E. rewrite Nat.sub_0_r. reflexivity.
  - destruct k as [|k]; [lia|]. simpl. destruct (one h p) as [h1| |]; cbn [bind] in *; try discriminate.
    apply IH; auto. lia.
Qed.

(** Array [x] has an element that was not constructed. *)
Definition unfinished w x : Prop := exists a h0 i, w_arr w x = Some a /\ repr c raw_cells x h0 a /\
  in_bounds (a_shape a) i /\ peek (w_heap w) (elem (a_base a) (a_shape a) i) = Some Raw.
Lemma unfinished_stuck w x : unfinished w x -> stuck c w x.
Proof.
  intros (a & h0 & i & Ea & Hr & Hi & Hp).
  assert (E : deallocate c x (w_heap w) a = UB).
  { unfold deallocate. destruct (is_null (a_base a)) eqn:Q.
    - exfalso. destruct (repr_base _ _ _ _ _ Hr) as [C|C]; [congruence|]. apply (C i Hi).
    - unfold destroy. rewrite (repr_assert _ _ _ _ _ Hr). cbn [bind].
      destruct (values_spec (c_ndebug c) (a_shape a) (a_base a) (repr_extents _ _ _ _ _ Hr) (repr_base _ _ _ _ _ Hr))
        as [l [Hl ->]]. cbn [bind].
      rewrite (destroy_raw_ub _ _ (elem (a_base a) (a_shape a) i)); auto.
      + apply NoDup_map_elem; auto. eapply repr_injective; eauto.
      + apply in_map. apply Hl. auto. }
  unfold stuck. cbn [step]. unfold do_delete, clear, get, change. rewrite Ea. cbn [bind]. rewrite E. auto.
Qed.

Lemma half_move_raw x y h a b g k h' : half_move x y h a b g k h' ->
  exists i, in_bounds (a_shape a) i /\ peek h' (elem (a_base a) (a_shape a) i) = Some Raw.
Proof.
  intros (l1 & l2 & Hr & Hb & Hg & Hap & Hs & Hl & Hk & Hne & ->).
  destruct l2 as [|i r]; [congruence|].
  assert (Hi : in_bounds (a_shape a) i) by (apply Hl, in_or_app; right; left; auto).
  destruct (moves_distinct x y h a b g _ _ Hr Hb Hap Hs Hl) as [Hp [Hnd Hdis]].
  exists i. split; auto.
  rewrite peek_upds_out; [eapply raw_peek; eauto|]. intros C.
  apply (Permutation_in _ Hp), in_app_or in C. destruct C as [C|C]; apply in_map_iff in C; destruct C as [j [E Hj]].
  - assert (j = i).
    { apply (repr_injective _ _ _ _ _ Hr); [apply Hl, in_or_app; auto|auto|]. eapply elem_inj; eauto. }
    subst j. destruct Hl as [N _]. apply NoDup_remove_2 in N. apply N. apply in_or_app. auto.
  - symmetry in E. apply Hdis in E; auto. apply Hs, Hl, in_or_app. auto.
Qed.

Lemma move_construct_cases x y h a b g k : heap_ok h -> repr c raw_cells x h a -> valid c y h b -> has h b g ->
  apart a b -> a_shape a = resolve (a_shape b) -> copyable c b ->
  (exists h' k', move_construct_x c h a b (elems k) = Ok (Done h' (elems k'))) \/
  (exists h', move_construct_x c h a b (elems k) = Ok (Threw h') /\ half_move x y h a b g k h').
Proof.
  intros Hh Ha Hb Hg Hap Es Hcp.
  destruct (values_copy_spec (c_ndebug c) (a_shape b) (a_base b) (a_shape a) (a_base a)) as [l [Hl Ev]].
  { rewrite Es, resolve_length; auto. }
  { eapply repr_extents; eauto. }
  { eapply pair_base; eauto. }
  destruct (Nat.lt_ge_cases k (length l)) as [Hk|Hk].
  - right. eapply move_construct_half; eauto.
  - left. destruct (move_construct_spec c x y h a b g Hh Ha Hb Hg Hap Es Hcp) as [h' [E _]].
    unfold move_construct_x, move_construct in *.
    destruct (assert_ _ _) in *; cbn [bind] in *; try discriminate.
    destruct (assert_ _ _) in *; cbn [bind] in *; try discriminate.
    rewrite Ev in *. cbn [bind] in *. eexists h', _. apply each_full; [rewrite map_length; exact Hk|exact E].
Qed.

(** What is left after an element of [x] was not constructed in [x = std::move(y)]: the other arrays
    can be destroyed, and [x] still cannot. *)
Definition stuck_at w w' x : Prop := unfinished w' x /\
  forall z a, z <> x -> w_arr w z = Some a ->
    exists w2, do_delete c w' z = Ok w2 /\ unfinished w2 x.

Lemma move_assign_cases w x y a b k : Inv c w -> x <> y -> w_arr w x = Some a -> w_arr w y = Some b -> copyable c b ->
  (exists w' k', do_move_assign_x c w x y (elems k) = Ok (Done w' (elems k'))) \/
  (exists w', do_move_assign_x c w x y (elems k) = Ok (Threw w') /\ stuck_at w w' x).
Proof.
  intros Hw Hxy Ea Eb Hcp.
  pose proof (inv_valid c w x a Hw Ea) as Ha. pose proof (inv_valid c w y b Hw Eb) as Hb.
  pose proof (inv_apart c w x y a b Hw Hxy Ea Eb) as Hap. destruct (inv_has c w y b Hw Eb) as [g Hg].
  destruct (move_assign_world c Hf w x y a b Hw Hxy Ea Eb Hcp) as [w0 [E0 _]].
  unfold do_move_assign in E0. unfold do_move_assign_x.
  rewrite (get_ok w x a Ea), (get_ok w y b Eb) in *. cbn [bind] in *.
  destruct (move_assign_op c x (w_heap w) a y b) as [[[h0 a0] b0]| |] eqn:Em; try discriminate E0.
  unfold move_assign_op_x.
  destruct (ptr_eqb (a_base a) (a_base b) || c_pocma c || alloc_eq x a y b) eqn:Q.
  { left. rewrite Em. unfold nothrow, xbind. cbn [bind]. eauto. }
  unfold assign_move_x. destruct (ptr_eqb (a_base a) (a_base b)) eqn:Qb; [discriminate Q|].
  rewrite refit_elems.
  destruct (assign_storage c x y (w_heap w) a b Hf (proj1 Hw) Ha Hb) as [h1 [a1 [E1 [Hr [Hl [Es Eal]]]]]].
  unfold nothrow. rewrite E1. unfold xbind. cbn [bind].
  destruct (frame_local c _ y _ h1 _ _ b (proj1 Hw) Hl Hb) as [Hb1 [Hh1 [Hk1 _]]].
  { intros [I|[]]. rewrite <- I. apply Hap. auto. }
  assert (Hap1 : apart a1 b) by (intros I; rewrite I; apply Hk1; left; auto).
  destruct (move_construct_cases x y h1 a1 b g k) as [[h' [k' E2]]|[h' [E2 Hhalf]]]; auto; [apply Hl| |]; rewrite E2; cbn [bind].
  { left. eauto. }
  right. eexists. split; [reflexivity|].
  destruct (half_move_raw _ _ _ _ _ _ _ _ Hhalf) as [i [Hi Hraw]].
  destruct (half_move_facts _ _ _ _ _ _ _ _ (proj1 Hl) Hhalf) as [Hl2 [Hn [Hvb _]]].
  split.
  - exists a1, h1, i. cbn [w_arr w_heap]. split; [apply put_same|]. auto.
  - intros z az Hz Ez.
    assert (Hvz : valid c z h' az /\ blk az <> blk a1).
    { pose proof (inv_valid c w z az Hw Ez) as Hvz. pose proof (inv_apart c w z x az a Hw Hz Ez Ea) as Hzx.
      destruct (frame_local c _ z _ h1 _ _ az (proj1 Hw) Hl Hvz) as [Hz1 [_ [Hz2 _]]].
      { intros [I|[]]. apply Hzx. auto. }
      assert (Hne : blk az <> blk a1).
      { intros I. apply Hn. rewrite <- I. apply Hz2. left. auto. }
      split; auto. destruct (Nat.eq_dec z y) as [->|Hzy]; [rewrite Eb in Ez; inv Ez; auto|].
      pose proof (inv_apart c w z y az b Hw Hzy Ez Eb) as Hzb.
      destruct (frame_local c _ z h1 h' _ _ az (proj1 Hl) Hl2 Hz1) as [Hz3 _]; auto.
      intros [I|[I|[]]]; [congruence|]. apply Hzb. auto. }
    destruct Hvz as [Hvz Hne].
    destruct (deallocate_spec c z h' az Hf (proj1 Hl2) Hvz) as [h3 [a3 [E3 [_ [Hm [Hl3 _]]]]]].
    unfold do_delete, get. cbn [fst snd w_arr w_heap w_next].
    rewrite put_other by auto. rewrite Ez. cbn [bind].
    rewrite E3. cbn [bind].
    eexists. split; [reflexivity|]. exists a1, h1, i. cbn [w_arr w_heap].
    rewrite put_other by auto. split; [apply put_same|]. split; auto. split; auto.
    rewrite <- Hraw. destruct (elem_block _ _ _ _ _ i Hr Hi) as [B1 _].
    unfold peek. replace (h_blk h3 (fst (elem (a_base a1) (a_shape a1) i))) with (h_blk h' (fst (elem (a_base a1) (a_shape a1) i))); auto.
    symmetry. destruct Hl3 as [_ [_ [A3 _]]]. apply A3; rewrite B1; intros [I|[]]; [|congruence].
    apply Hn. rewrite <- I. apply no_memory_blk; auto.
Qed.
Lemma stuck_then w w' x z a : stuck_at w w' x -> z <> x -> w_arr w z = Some a ->
  exists w2, do_delete c w' z = Ok w2 /\ stuck c w2 x.
Proof. intros [_ H] Hz Ea. destruct (H z a Hz Ea) as [w2 [E U]]. exists w2. split; auto using unfinished_stuck. Qed.

Lemma new_move_cases w y b k : Inv c w -> w_arr w y = Some b -> copyable c b ->
  (exists w' k', do_new_move_x c w y (elems k) = Ok (Done w' (elems k'))) \/
  (exists w', do_new_move_x c w y (elems k) = Ok (Threw w') /\ leaks_moved c w w' y k).
Proof.
  intros Hw Eb Hcp. pose proof (inv_valid c w y b Hw Eb) as Hb. destruct (inv_has c w y b Hw Eb) as [g Hg].
  destruct (new_move_world c Hf w y b Hw Eb Hcp) as [w0 [E0 _]].
  unfold do_new_move in E0. unfold do_new_move_x. rewrite (get_ok w y b Eb) in *. cbn [bind] in *.
  destruct (ctor_move c (w_next w) (w_heap w) y b) as [[[h0 a0] b0]| |] eqn:Em; try discriminate E0.
  unfold add2_x, ctor_move_x.
  destruct (c_pocma c || alloc_eq (w_next w) (blank (if c_pocma c then a_al b else c_default c) (c_shape0 c)) y b) eqn:Q.
  { left. rewrite Em. unfold nothrow, xbind. cbn [bind]. eauto. }
  destruct (c_pocma c); [discriminate Q|].
  unfold move_elements_x. rewrite allocate_elems.
  destruct (allocate_spec c (w_next w) (w_heap w) (with_shape (blank (c_default c) (c_shape0 c)) (a_shape b)))
    as [h1 [a1 [E1 [Hr [Hl [Es Ea]]]]]]; auto; [apply Hw|apply Hb|].
  change (blk (with_shape (blank (c_default c) (c_shape0 c)) (a_shape b))) with 0%nat in Hl.
  unfold nothrow. rewrite E1. unfold xbind. cbn [bind].
  destruct (frame_local c _ y _ h1 _ _ b (proj1 Hw) Hl Hb) as [Hb1 [Hh1 [Hk1 _]]]; [intros [I|[]]; auto|].
  destruct (move_construct_cases (w_next w) y h1 a1 b g k) as [[h' [k' E2]]|[h' [E2 Hhalf]]]; auto; [apply Hl| | |].
  { intros I. rewrite I. apply Hk1. left; auto. }
  - rewrite E2. cbn [bind]. left. eauto.
  - rewrite E2. cbn [bind]. right. eexists. split; [reflexivity|]. eapply half_move_leaks; eauto.
Qed.

Lemma new_cases w s al k : Inv c w -> shape_arg c s ->
  (exists w' k', do_new_x c w s al (elems k) = Ok (Done w' (elems k'))) \/
  (exists w', do_new_x c w s al (elems k) = Ok (Threw w') /\ leaks c w w' k).
Proof.
  intros Hw Hs.
  destruct (new_world c w s al Hw Hs) as [w0 [E0 _]]. unfold do_new, add in E0.
  destruct (ctor_shape c (w_next w) (w_heap w) al s) as [[h0 a0]| |] eqn:Em; try discriminate E0.
  unfold ctor_shape in Em.
  destruct (allocate_spec c (w_next w) (w_heap w) (blank al s) (proj1 Hw) eq_refl eq_refl Hs) as [h1 [a [E [Hr [Hl [Es Ea]]]]]].
  rewrite E in Em. cbn [bind] in Em. unfold construct_default, construct in Em.
  destruct (assert_ (c_ndebug c) (negb (is_null (a_base a)) || empty (a_shape a))) eqn:Q1; cbn [bind] in Em; try discriminate.
  destruct (values_spec (c_ndebug c) (a_shape a) (a_base a) (repr_extents _ _ _ _ _ Hr) (repr_base _ _ _ _ _ Hr)) as [l [Hl1 Ev]].
  rewrite Ev in Em. cbn [bind] in Em.
  destruct (Nat.lt_ge_cases k (length l)) as [Hk|Hk].
  - right. unfold do_new_x, add_x.
    assert (H1 : enumerates (in_bounds s) l).
    { destruct Hl1 as [N I]. split; auto. intros i. rewrite I, Es. apply resolve_in_bounds. }
    destruct (ctor_shape_half c (w_next w) (w_heap w) al s k l (proj1 Hw) Hs H1 Hk) as [h2 [a2 [h' [E2 [Hh Hlo]]]]].
    rewrite E2. unfold xbind. cbn [bind]. eexists. split; [reflexivity|]. eapply half_leaks; eauto.
  - left. unfold do_new_x, add_x, ctor_shape_x. rewrite allocate_elems, E. unfold nothrow, xbind. cbn [bind].
    unfold construct_x. rewrite Q1, Ev. cbn [bind].
    destruct (foldM _ _ h1) as [h2| |] eqn:Ef in Em; cbn [bind] in Em; try discriminate.
    rewrite (each_full _ _ h1 h2 k); [|rewrite map_length; exact Hk|exact Ef]. cbn [bind]. eauto.
Qed.

Lemma swap_elems w x y k : reachable c w -> legal_op c w (Swap x y) -> x <> y ->
  (exists w' f, xstep c w (Swap x y) (elems k) = Ok (Done w' f)) \/
  (exists w', xstep c w (Swap x y) (elems k) = Ok (Threw w') /\
    (leaks_moved c w w' y k \/ stuck c w' x \/ stuck c w' y)).
Proof.
  intros Hw [[a [Ea Ca]] [b [Eb Cb]]] Hxy. apply (reachable_inv c Hf) in Hw.
  cbn [xstep]. unfold do_swap_x.
  destruct (c_pocs c) eqn:Ep.
  { left. destruct (swap_world c Hf w x y a b Hw Ea Eb Ca Cb) as [w' [E _]]. rewrite E. unfold nothrow. cbn [bind]. eauto. }
  set (n := w_next w). pose proof (inv_lt c w x a Hw Ea) as Lx. pose proof (inv_lt c w y b Hw Eb) as Ly. fold n in Lx, Ly.
  destruct (new_move_world c Hf w y b Hw Eb Cb) as [w1 [E1 [I1 [U1 [N1 [M1 [t [b1 [Et [Eb1 _]]]]]]]]]].
  fold n in Et, U1, N1, M1. destruct (inv_denotes c w y b Hw Eb) as [fb Db].
  assert (Ht : refines (a_shape t) (a_shape b)).
  { destruct (M1 _ _ Db) as [s' [R D]]. destruct (denotes_has _ _ _ _ _ D Et) as [-> _]. auto. }
  pose proof (refines_copyable c b t (inv_shape c w y b Hw Eb) Ht Cb) as Ct.
  destruct (new_move_cases w y b k Hw Eb Cb) as [[w1' [k1 X1]]|[w1' [X1 L1]]]; rewrite X1; unfold xbind; cbn [bind]; [|right; eauto].
  assert (w1' = w1).
  { pose proof (proj1 (do_new_move_follows c w y (elems k)) _ _ X1) as G. congruence. }
  subst w1'.
  destruct (U1 x) as [Ux _]; [simpl; intuition lia|]. rewrite Ea in Ux.
  destruct (move_assign_world c Hf w1 y x b1 a) as [w2 [E2 [I2 [U2 [N2 [M2 [b2 [a2 [Eb2 [Ea2 _]]]]]]]]]]; auto.
  destruct (move_assign_cases w1 y x b1 a k1) as [[w2' [k2 X2]]|[w2' [X2 S2]]]; auto; rewrite X2; cbn [bind].
  2:{ destruct (stuck_then w1 w2' y n t S2) as [w4 [-> S4]]; auto; [lia|]. cbn [bind]. right. eauto. }
  assert (w2' = w2).
  { pose proof (proj1 (do_move_assign_follows c w1 y x (elems k1)) _ _ X2) as G. congruence. }
  subst w2'.
  destruct (U2 n) as [Un _]; [simpl; intuition lia|]. rewrite Et in Un.
  destruct (move_assign_world c Hf w2 x n a2 t) as [w3 [E3 [I3 [U3 [N3 [M3 [a3 [t3 [Ea3 [Et3 _]]]]]]]]]]; auto; [lia|].
  destruct (move_assign_cases w2 x n a2 t k2) as [[w3' [k3 X3]]|[w3' [X3 S3]]]; auto; [lia| |]; rewrite X3; cbn [bind].
  2:{ destruct (stuck_then w2 w3' x n t S3) as [w4 [-> S4]]; auto; [lia|]. cbn [bind]. right. eauto. }
  assert (w3' = w3).
  { pose proof (proj1 (do_move_assign_follows c w2 x n (elems k2)) _ _ X3) as G. congruence. }
  subst w3'. destruct (delete_world c Hf w3 n t3 I3 Et3) as [w4 [-> _]]. cbn [bind]. left. eauto.
Qed.

Lemma reshape_all_elems w x s k : reachable c w -> legal_op c w (Reshape x s) ->
  (exists w' f, xstep c w (Reshape x s) (elems k) = Ok (Done w' f)) \/
  (exists w', xstep c w (Reshape x s) (elems k) = Ok (Threw w') /\ (leaks c w w' k \/ stuck c w' x)).
Proof.
  intros Hw [Hs [a [Ea Hm]]]. apply (reachable_inv c Hf) in Hw.
  cbn [xstep]. unfold do_reshape_x. rewrite (get_ok w x a Ea). cbn [bind].
  destruct (shape_eqb (a_shape a) (resolve s)) eqn:E; [left; eauto|].
  set (n := w_next w). pose proof (inv_lt c w x a Hw Ea) as Lx. fold n in Lx.
  assert (Hk : known_strides (resolve s)) by apply Hs.
  assert (Hrr : resolve (resolve s) = resolve s) by (apply resolve_known; auto).
  assert (Hs2 : shape_arg c (resolve s)).
  { destruct Hs as [H1 H2]. split; [rewrite resolve_length; auto|]. rewrite Hrr. auto. }
  destruct (new_world c w (resolve s) (c_default c) Hw Hs2) as [w1 [E1 [I1 [U1 [N1 [D1 [b [Eb Eal]]]]]]]].
  fold n in U1, N1, D1, Eb. rewrite Hrr in D1.
  destruct (new_cases w (resolve s) (c_default c) k Hw Hs2) as [[w1' [k1 X1]]|[w1' [X1 L1]]]; rewrite X1; unfold xbind; cbn [bind]; [|right; eauto].
  assert (w1' = w1).
  { pose proof (proj1 (do_new_follows c w (resolve s) (c_default c) (elems k)) _ _ X1) as G. congruence. }
  subst w1'. rewrite (get_ok w1 n b Eb). cbn [bind].
  destruct (denotes_has _ _ _ _ _ D1 Eb) as [Es Hb]. destruct (U1 x) as [Y1 Y2]; [simpl; intuition lia|].
  rewrite Ea in Y1.
  assert (Hap : apart a b) by (apply (inv_apart c w1 x n); auto; lia).
  assert (Hm' : Forall2 meets (a_shape b) (a_shape a)) by (rewrite <- Es; apply meets_resolve; auto).
  destruct (inv_has c w1 x a I1 Y1) as [f0 Hf0].
  destruct (move_common_spec c x n (w_heap w1) a b f0 (fun _ => c_dv c) (proj1 I1)
     (inv_valid c w1 x a I1 Y1) (inv_valid c w1 n b I1 Eb) Hf0 Hb Hap Hm') as [h2 [g0 [E2 [V1 [V2 [_ [_ [_ L2]]]]]]]].
  rewrite Es, E2. cbn [bind].
  destruct (inv_two c w1 x n a b h2) as [I2 U2]; auto; [lia|].
  set (w2 := mkW h2 (w_arr w1) (w_next w1)) in *.
  assert (Cb : copyable c b) by (right; rewrite <- Es; auto).
  destruct (move_assign_world c Hf w2 x n a b) as [w3 [E3 [I3 [U3 [N3 [M3 [a3 [b3 [Ea3 [Eb3 _]]]]]]]]]]; auto; [lia|].
  destruct (move_assign_cases w2 x n a b k1) as [[w3' [k3 X3]]|[w3' [X3 S3]]]; auto; [lia| |]; rewrite X3; cbn [bind].
  2:{ destruct (stuck_then w2 w3' x n b S3) as [w4 [-> S4]]; auto; [lia|]. cbn [bind]. right. eauto. }
  assert (w3' = w3).
  { pose proof (proj1 (do_move_assign_follows c w2 x n (elems k1)) _ _ X3) as G. congruence. }
  subst w3'. destruct (delete_world c Hf w3 n b3 I3 Eb3) as [w4 [-> _]]. cbn [bind]. left. eauto.
Qed.

End Moves.
