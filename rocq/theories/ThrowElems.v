(** What happens when constructing an element throws. *)
From Coq Require Import ZArith List Bool Lia Arith.
From Verif Require Import Base Interval Shape Traverse Memory Ref Container Throw Spec SpecMem SpecContainer
  SpecThrow Tac ShapeFacts ResolveFacts MemFacts RefFacts SliceFacts ContainerFacts ContainerWorld ContainerProps.
Import ListNotations.
Open Scope Z_scope.

Section Elems.
Context {V : Type}.
Variable c : config V.
Implicit Types (h : heap V) (w : world V) (o : op V).

(** Allocating does not fail *)
Lemma alloc_get_elems x h a n k : alloc_get_x c x h a n (elems k) =
  (let '(h', b, p) := alloc_get c x h a n in Some (h', b, p, elems k)).
Proof. unfold alloc_get_x, alloc_get. destruct (negb (a_busy a) && _); reflexivity. Qed.
Lemma allocate_elems x h a k : allocate_x c x h a (elems k) = nothrow (allocate c x h a) (elems k).
Proof.
  unfold allocate_x, allocate, nothrow. destruct (assert_ _ _); cbn [bind]; auto.
  destruct (0 <? flat_extent (resolve (a_shape a))); [|reflexivity].
  rewrite alloc_get_elems. destruct (alloc_get c x h a _) as [[h' b] p]. reflexivity.
Qed.
Lemma refit_elems same x h a s k : refit_x c same x h a s (elems k) =
  nothrow (if same then h' <- destroy c h a ;; Ok (h', a)
           else ' (h', a') <- deallocate c x h a ;; allocate c x h' (with_shape a' s)) (elems k).
Proof.
  unfold refit_x, nothrow. destruct same.
  - destruct (destroy c h a); reflexivity.
  - destruct (deallocate c x h a) as [[h' a']| |]; cbn [bind]; auto. apply allocate_elems.
Qed.

Lemma each_half {A} (one : heap V -> A -> outcome (heap V)) l : forall h h' k, (k < length l)%nat ->
  foldM one (firstn k l) h = Ok h' -> construct_each one l h (elems k) = Ok (Threw h').
Proof.
  induction l as [|p r IH]; intros h h' k Hk E; simpl in Hk; [lia|].
  destruct k as [|k]; simpl in *; [congruence|].
  destruct (one h p) as [h1| |]; cbn [bind] in *; try discriminate. apply IH; auto. lia.
Qed.

(** The first [k] elements of [a] are constructed, with the values [g]; the others are not. *)
Definition half x h a k h' : Prop := exists l1 l2 g,
  repr c raw_cells x h a /\ enumerates (in_bounds (a_shape a)) (l1 ++ l2) /\ length l1 = k /\ l2 <> [] /\
  h' = upds h (map (fun i => (elem (a_base a) (a_shape a) i, Live (g i))) l1).

Lemma firstn_half {A} (l l0 : list A) P k : enumerates P l0 -> enumerates P l -> (k < length l0)%nat ->
  enumerates P (firstn k l ++ skipn k l) /\ length (firstn k l) = k /\ skipn k l <> [] /\ (k < length l)%nat.
Proof.
  intros H0 H Hk. rewrite (enumerates_length _ _ _ H0 H) in Hk. rewrite firstn_skipn. split; auto.
  split; [apply firstn_length_le; lia|]. split; auto. intros E.
  pose proof (skipn_length k l) as L. rewrite E in L. simpl in L. lia.
Qed.
Lemma firstn_In {A} k (l : list A) a : In a (firstn k l) -> In a l.
Proof. intros H. rewrite <- (firstn_skipn k l). apply in_or_app. auto. Qed.
Lemma NoDup_firstn {A} k (l : list A) : NoDup l -> NoDup (firstn k l).
Proof.
  intros H. rewrite <- (firstn_skipn k l) in H. revert H. generalize (firstn k l) (skipn k l).
  induction l0 as [|a r IH]; intros l1 H; constructor; simpl in H; inv H; [|eauto].
  intros I. apply H2. apply in_or_app. auto.
Qed.

Lemma construct_half x h a v k l0 : repr c raw_cells x h a -> enumerates (in_bounds (a_shape a)) l0 -> (k < length l0)%nat ->
  exists h', construct_x c h a (fun _ => Ok v) (elems k) = Ok (Threw h') /\ half x h a k h'.
Proof.
  intros H H0 Hk. unfold construct_x. rewrite (repr_assert _ _ _ _ _ H). cbn [bind].
  destruct (values_spec (c_ndebug c) (a_shape a) (a_base a) (repr_extents _ _ _ _ _ H) (repr_base _ _ _ _ _ H))
    as [l [Hl ->]]. cbn [bind].
  destruct (firstn_half l l0 _ k H0 Hl Hk) as [E1 [E2 [E3 E4]]].
  assert (Hnd : NoDup (map (elem (a_base a) (a_shape a)) l)).
  { apply NoDup_map_elem; auto. eapply repr_injective; eauto. }
  eexists. split.
  - apply each_half; [rewrite map_length; auto|]. rewrite firstn_map, foldM_map.
    rewrite (fold_construct_list (elem (a_base a) (a_shape a)) _ (fun _ => v)).
    + reflexivity.
    + rewrite <- firstn_map. apply NoDup_firstn; auto.
    + intros i Hi. eapply raw_peek; eauto. apply Hl. eapply firstn_In; eauto.
    + intros h' i Hi _. reflexivity.
  - exists (firstn k l), (skipn k l), (fun _ => v). split; auto.
Qed.

Lemma copy_construct_half x y h a b f k l0 : repr c raw_cells x h a -> valid c y h b -> has h b f ->
  apart a b -> a_shape a = resolve (a_shape b) -> copyable c b ->
  enumerates (in_bounds (a_shape a)) l0 -> (k < length l0)%nat ->
  exists h', copy_construct_x c h a b (elems k) = Ok (Threw h') /\ half x h a k h'.
Proof.
  intros Ha Hb Hf Hap Es Hcp H0 Hk. unfold copy_construct_x. rewrite (repr_assert _ _ _ _ _ Ha). cbn [bind].
  rewrite assert_same by auto. cbn [bind].
  destruct (values_copy_spec (c_ndebug c) (a_shape b) (a_base b) (a_shape a) (a_base a)) as [l [Hl ->]].
  { rewrite Es, resolve_length; auto. }
  { eapply repr_extents; eauto. }
  { eapply pair_base; eauto. }
  cbn [bind].
  destruct (firstn_half l l0 _ k H0 Hl Hk) as [E1 [E2 [E3 E4]]].
  assert (Hnd : NoDup (map (elem (a_base a) (a_shape a)) l)).
  { apply NoDup_map_elem; auto. eapply repr_injective; eauto. }
  assert (Hib : forall i, In i l -> in_bounds (a_shape b) i).
  { intros i Hi. apply Hl in Hi. rewrite Es in Hi. apply resolve_in_bounds; auto. }
  eexists. split.
  - apply each_half; [rewrite map_length; auto|]. rewrite firstn_map, foldM_map.
    rewrite (fold_construct_list (elem (a_base a) (a_shape a)) _ f).
    + reflexivity.
    + rewrite <- firstn_map. apply NoDup_firstn; auto.
    + intros i Hi. eapply raw_peek; eauto. apply Hl. eapply firstn_In; eauto.
    + intros h' i Hi Hout. apply firstn_In in Hi. cbn [fst snd]. unfold load. rewrite Hout.
      * pose proof (Hf i (Hib i Hi)) as Hv. unfold holds in Hv. rewrite Hv. reflexivity.
      * intros C. apply in_map_iff in C. destruct C as [j [Ej Hj]]. apply firstn_In in Hj.
        destruct (elem_block _ _ _ _ _ _ Hb (Hib i Hi)) as [B1 B2].
        destruct (elem_block _ _ _ _ _ j Ha) as [B3 B4]; [apply Hl; auto|].
        apply B4, Hap. congruence.
  - exists (firstn k l), (skipn k l), f. split; auto.
Qed.

(** ** The half-constructed array *)

Lemma half_facts x h a k h' : heap_ok h -> half x h a k h' ->
  local h [blk a] h' [blk a] /\ blk a <> 0%nat /\
  exists objs b, NoDup objs /\ length objs = k /\ h_blk h' (blk a) = Some b /\
    b_owner b = (if a_busy a then Inline x else Base (a_al a)) /\ (a_busy a = true -> 0 < b_size b <= c_cap c) /\
    (forall p, In p objs -> fst p = blk a) /\
    forall p, alive h' p <-> alive h p \/ In p objs.
Proof.
  intros Hh (l1 & l2 & g & Hr & Hl & Hk & Hne & ->).
  assert (Hib : forall i, In i l1 -> in_bounds (a_shape a) i).
  { intros i Hi. apply Hl. apply in_or_app; auto. }
  set (ws := map (fun i => (elem (a_base a) (a_shape a) i, Live (g i))) l1).
  assert (Ef : map fst ws = map (elem (a_base a) (a_shape a)) l1) by (unfold ws; rewrite map_map; auto).
  assert (Hnd : NoDup (map fst ws)).
  { rewrite Ef. pose proof (NoDup_map_elem (a_base a) (a_shape a) _ (repr_injective _ _ _ _ _ Hr) Hl) as N.
    rewrite map_app in N. revert N. generalize (map (elem (a_base a) (a_shape a)) l1).
    induction l as [|p r IH]; intros N; constructor; simpl in N; inv N; auto.
    intros I. apply H1. apply in_or_app; auto. }
  assert (Hw : exists i, in_bounds (a_shape a) i).
  { destruct l2 as [|i r]; [congruence|]. exists i. apply Hl. apply in_or_app. right. left; auto. }
  destruct Hw as [i0 Hi0]. destruct (repr_elem _ _ _ _ _ _ Hr Hi0) as [b [Hb [Eb [Hin _]]]].
  assert (Hblk : forall p, In p (map fst ws) -> fst p = blk a).
  { intros p Hp. rewrite Ef in Hp. apply in_map_iff in Hp. destruct Hp as [i [<- Hi]].
    apply (elem_block _ _ _ _ _ _ Hr (Hib i Hi)). }
  split; [|split; auto].
  - apply upds_local; auto. intros p Hp. left. symmetry. apply Hblk; auto.
  - destruct (upds_block h ws (blk a) b Eb) as [b' [Eb' [Es Eo]]].
    exists (map fst ws), b'. split; auto. split; [unfold ws; rewrite map_map, map_length; auto|].
    split; auto. rewrite Es, Eo. unfold in_block in Hin. split; [tauto|]. split; [intros Z; split; [tauto|]; apply Hin; auto|]. split; auto.
    intros p. unfold alive, holds. destruct (in_dec ptr_dec p (map fst ws)) as [I|I].
    + split; [auto|]. intros _. pose proof I as I0. rewrite Ef in I. apply in_map_iff in I. destruct I as [i [<- Hi]].
      exists (g i). apply peek_upds_in; auto.
      * unfold ws. apply in_map_iff. exists i. auto.
      * rewrite (raw_peek _ _ _ _ _ Hr (Hib i Hi)). congruence.
    + rewrite peek_upds_out by auto. tauto.
Qed.

Lemma destroy_raw_ub l : forall h p, NoDup l -> In p l -> peek h p = Some Raw -> foldM destroy_at l h = UB.
Proof.
  induction l as [|q r IH]; intros h p Hnd Hin Hp; [destruct Hin|]. inv Hnd. simpl.
  destruct Hin as [->|Hin].
  - unfold destroy_at. rewrite Hp. reflexivity.
  - unfold destroy_at at 1. destruct (peek h q) as [[|v]|] eqn:Eq; cbn [bind]; auto.
    apply (IH _ p); auto. rewrite peek_upd_other; auto. intros ->. auto.
Qed.
Lemma half_destroy x h a k h' : half x h a k h' -> destroy c h' a = UB.
Proof.
  intros (l1 & l2 & g & Hr & Hl & Hk & Hne & ->). unfold destroy. rewrite (repr_assert _ _ _ _ _ Hr). cbn [bind].
  destruct (values_spec (c_ndebug c) (a_shape a) (a_base a) (repr_extents _ _ _ _ _ Hr) (repr_base _ _ _ _ _ Hr))
    as [l [Hl' ->]]. cbn [bind].
  destruct l2 as [|i r]; [congruence|].
  assert (Hi : in_bounds (a_shape a) i) by (apply Hl, in_or_app; right; left; auto).
  apply (destroy_raw_ub _ _ (elem (a_base a) (a_shape a) i)).
  - apply NoDup_map_elem; auto. eapply repr_injective; eauto.
  - apply in_map. apply Hl'. auto.
  - rewrite peek_upds_out; [eapply raw_peek; eauto|]. rewrite map_map. cbn [fst]. intros C.
    apply in_map_iff in C. destruct C as [j [E Hj]].
    assert (j = i).
    { apply (repr_injective _ _ _ _ _ Hr); [apply Hl, in_or_app; auto|auto|]. eapply elem_inj; eauto. }
    subst j. destruct Hl as [N _]. apply NoDup_remove_2 in N. apply N. apply in_or_app. auto.
Qed.
Lemma half_deallocate x h a k h' : half x h a k h' -> deallocate c x h' a = UB.
Proof.
  intros H. unfold deallocate. destruct (is_null (a_base a)) eqn:E.
  - exfalso. destruct H as (l1 & l2 & g & Hr & Hl & Hk & Hne & _).
    destruct (repr_base _ _ _ _ _ Hr) as [C|C]; [congruence|].
    destruct l2 as [|i r]; [congruence|]. apply (C i). apply Hl, in_or_app. right; left; auto.
  - rewrite (half_destroy _ _ _ _ _ H). auto.
Qed.

(** ** The member functions *)

Lemma new_raw_alive x h h1 a : heap_ok h -> local h [0%nat] h1 [blk a] -> repr c raw_cells x h1 a ->
  forall p, alive h1 p <-> alive h p.
Proof.
  intros Hh Hl Hr p. pose proof Hh as [_ [_ Hfr]]. destruct Hl as [Hh1 [Hn [A1 [B1 C1]]]].
  destruct (Nat.eq_dec (fst p) 0%nat) as [Z|Z].
  { split; intros H; apply alive_block in H; tauto. }
  destruct (Nat.eq_dec (fst p) (blk a)) as [B|B].
  - split; intros [v Hv]; exfalso; unfold holds, peek in Hv; rewrite B in Hv, Z.
    + destruct (repr_block _ _ _ _ _ Hr) as [[N _]|[N _]]; [congruence|].
      destruct Hr as [_ [[Hm _]|[_ [k [b [Hb [Hin Hc]]]]]]]; [apply no_memory_blk in Hm; congruence|].
      destruct Hin as [Hk [Ebuf _]]. unfold blk in Hv, N. rewrite Ebuf in Hv, N. cbn [fst] in Hv, N.
      destruct k as [|k]; [congruence|]. rewrite Hb in Hv.
      destruct ((0 <=? snd p) && (snd p <? b_size b)) eqn:R; [|discriminate]. rewrite Hc in Hv by lia. discriminate.
    + destruct (C1 (blk a)) as [[I|[]]|[I|I]]; [left; auto|congruence| |congruence].
      rewrite Hfr in Hv by auto. destruct (blk a); discriminate.
  - unfold alive, holds.
    assert (E : h_blk h1 (fst p) = h_blk h (fst p)).
    { apply A1; simpl; intuition congruence. }
    unfold peek. rewrite E. reflexivity.
Qed.

Lemma ctor_shape_half x h al s k l0 : heap_ok h -> shape_arg c s -> enumerates (in_bounds s) l0 -> (k < length l0)%nat ->
  exists h1 a h', ctor_shape_x c x h al s (elems k) = Ok (Threw h') /\ half x h1 a k h' /\ local h [0%nat] h1 [blk a].
Proof.
  intros Hh Hs H0 Hk. unfold ctor_shape_x. rewrite allocate_elems.
  destruct (allocate_spec c x h (blank al s) Hh eq_refl eq_refl Hs) as [h1 [a [E [Hr [Hl [Es Ea]]]]]].
  rewrite E. unfold nothrow, xbind. cbn [bind].
  assert (H1 : enumerates (in_bounds (a_shape a)) l0).
  { rewrite Es. destruct H0 as [N I]. split; auto. intros i. rewrite I. symmetry. apply resolve_in_bounds. }
  destruct (construct_half x h1 a (c_dv c) k l0 Hr H1 Hk) as [h2 [E2 Hhalf]].
  rewrite E2. cbn [bind]. exists h1, a, h2. auto.
Qed.
(** An array without elements is constructed *)
Lemma ctor_default_elems x h al k : fair c -> ctor_shape_x c x h al (c_shape0 c) (elems k) = nothrow (ctor_shape c x h al (c_shape0 c)) (elems k).
Proof.
  intros Hf. unfold ctor_shape_x, ctor_shape. rewrite allocate_elems.
  destruct (allocate c x h (blank al (c_shape0 c))) as [[h1 a]| |] eqn:E; cbn [bind nothrow xbind]; auto.
  unfold xbind. cbn [bind].
  assert (Es : a_shape a = resolve (c_shape0 c)).
  { unfold allocate in E. destruct (assert_ _ _); cbn [bind] in E; try discriminate.
    destruct (0 <? _); [destruct (alloc_get _ _ _ _ _) as [[? ?] ?]|]; inv E; reflexivity. }
  assert (Hn : no_index (a_shape a)).
  { rewrite Es. apply resolve_no_index, Hf. }
  unfold construct_x, construct_default, construct. destruct (assert_ _ _); cbn [bind]; auto.
  destruct (values (c_ndebug c) (a_shape a) (a_base a)) as [l| |] eqn:Ev; cbn [bind]; auto.
  assert (l = []).
  { destruct (values_spec (c_ndebug c) (a_shape a) (a_base a)) as [l' [Hl E']].
    - rewrite Es. destruct Hf as [[_ H] _]. apply H.
    - right; auto.
    - rewrite Ev in E'. inv E'. destruct l' as [|i r]; auto. exfalso. apply (Hn i), Hl. left; auto. }
  subst l. reflexivity.
Qed.

Lemma assign_value_half x h a s v k l0 : heap_ok h -> valid c x h a -> shape_arg c s ->
  enumerates (in_bounds s) l0 -> (k < length l0)%nat ->
  exists h1 a1 h', assign_value_x c x h a s (fun _ => Ok v) (elems k) = Ok (Threw (h', a1)) /\ half x h1 a1 k h' /\
    local h [blk a] h1 [blk a1].
Proof.
  intros Hh Ha Hs H0 Hk. unfold assign_value_x. rewrite refit_elems.
  assert (G : forall h1 a1, repr c raw_cells x h1 a1 -> a_shape a1 = resolve s -> local h [blk a] h1 [blk a1] ->
    exists h2 a2 h', xbind (construct_x c h1 a1 (fun _ => Ok v) (elems k)) (fun h2 f2 => Ok (Done (h2, a1) f2)) (fun h2 => Ok (Threw (h2, a1)))
      = Ok (Threw (h', a2)) /\ half x h2 a2 k h' /\ local h [blk a] h2 [blk a2]).
  { intros h1 a1 Hr Es Hl.
    assert (H1 : enumerates (in_bounds (a_shape a1)) l0).
    { rewrite Es. destruct H0 as [N I]. split; auto. intros i. rewrite I. symmetry. apply resolve_in_bounds. }
    destruct (construct_half x h1 a1 v k l0 Hr H1 Hk) as [h2 [E2 Hhalf]].
    rewrite E2. unfold xbind. cbn [bind]. exists h1, a1, h2. auto. }
  destruct (shape_eqb (a_shape a) (resolve s)) eqn:E.
  - apply shape_eqb_eq in E.
    destruct (destroy_spec c x h a Hh Ha) as [h1 [E1 [Hr Hl]]]. unfold nothrow. rewrite E1. unfold xbind at 1. cbn [bind].
    apply G; auto.
  - destruct (refit_spec c x h a (resolve s) Hh Ha) as [h1 [a1 [E1 [Hr [Hl [Es Eal]]]]]]; [apply shape_arg_resolve; auto|].
    unfold nothrow. rewrite E1. unfold xbind at 1. cbn [bind]. apply G; auto. rewrite Es. apply proper_resolve2, Hs.
Qed.
Lemma assign_copy_half x y h a b f k l0 : fair c -> heap_ok h -> valid c x h a -> valid c y h b -> has h b f ->
  apart a b -> copyable c b -> enumerates (in_bounds (a_shape b)) l0 -> (k < length l0)%nat ->
  exists h1 a1 h', assign_copy_x c x h a b (elems k) = Ok (Threw (h', a1)) /\ half x h1 a1 k h' /\
    local h [blk a] h1 [blk a1].
Proof.
  intros Hf Hh Ha Hb Hhas Hap Hcp H0 Hk. unfold assign_copy_x. destruct (ptr_eqb (a_base a) (a_base b)) eqn:E.
  - exfalso. destruct (bases_equal _ _ _ _ _ _ Ha Hb Hap E) as [M1 M2].
    destruct l0 as [|i r]; [simpl in Hk; lia|].
    destruct (repr_elem _ _ _ _ _ i Hb) as [_ [N _]]; [apply H0; left; auto|]. apply N, no_memory_blk; auto.
  - rewrite refit_elems.
    destruct (assign_storage c x y h a b Hf Hh Ha Hb) as [h1 [a1 [E1 [Hr [Hl [Es Eal]]]]]].
    unfold nothrow. rewrite E1. unfold xbind at 1. cbn [bind].
    destruct (frame_local c _ y h h1 _ _ b Hh Hl Hb) as [Hb1 [Hh1 [Hk1 _]]].
    { intros [I|[]]. rewrite <- I. apply Hap. auto. }
    assert (H1 : enumerates (in_bounds (a_shape a1)) l0).
    { rewrite Es. destruct H0 as [N I]. split; auto. intros i. rewrite I. symmetry. apply resolve_in_bounds. }
    destruct (copy_construct_half x y h1 a1 b f k l0) as [h2 [E2 Hhalf]]; auto.
    { intros I. rewrite I. apply Hk1. left; auto. }
    rewrite E2. unfold xbind. cbn [bind]. exists h1, a1, h2. auto.
Qed.
Lemma copy_assign_half x y h a b f k l0 : fair c -> heap_ok h -> valid c x h a -> valid c y h b -> has h b f ->
  apart a b -> copyable c b -> enumerates (in_bounds (a_shape b)) l0 -> (k < length l0)%nat ->
  exists h1 a1 h', copy_assign_op_x c x h a y b (elems k) = Ok (Threw (h', a1)) /\ half x h1 a1 k h' /\
    local h [blk a] h1 [blk a1].
Proof.
  intros Hf Hh Ha Hb Hhas Hap Hcp H0 Hk. unfold copy_assign_op_x.
  pose proof (assign_copy_half x y h a b f k l0 Hf Hh Ha Hb Hhas Hap Hcp H0 Hk) as G.
  destruct (ptr_eqb (a_base a) (a_base b)) eqn:E.
  - exfalso. destruct (bases_equal _ _ _ _ _ _ Ha Hb Hap E) as [M1 M2].
    destruct l0 as [|i r]; [simpl in Hk; lia|].
    destruct (repr_elem _ _ _ _ _ i Hb) as [_ [N _]]; [apply H0; left; auto|]. apply N, no_memory_blk; auto.
  - destruct (c_pocca c) eqn:Ep; cbn [bind]; auto.
    assert (Hbz : forall z b0, valid c z h b0 -> a_busy b0 = false).
    { intros z b0 Hv. apply (not_busy c z h); auto. destruct Hf as [_ [_ [_ [Hc|[Hc _]]]]]; [auto|congruence]. }
    unfold alloc_eq. rewrite (Hbz x a Ha), (Hbz y b Hb). cbn [orb].
    destruct (Nat.eqb_spec (a_al a) (a_al b)) as [Eal|Eal]; cbn [negb bind].
    + replace (set_al a (a_al b)) with a by (rewrite <- Eal; destruct a; auto). auto.
    + destruct (deallocate_spec c x h a Hf Hh Ha) as [h1 [a1 [-> [Hv [Hm [Hl [Eal1 _]]]]]]]. cbn [bind].
      destruct (frame_local c _ y h h1 _ _ b Hh Hl Hb) as [Hb1 [Hh1 [Hk1 _]]].
      { intros [I|[]]. rewrite <- I. apply Hap. auto. }
      destruct (assign_copy_half x y h1 (set_al a1 (a_al b)) b f k l0) as [h2 [a2 [h' [E2 [V2 L2]]]]]; auto.
      * apply Hl.
      * destruct Hv as [Hs [[M R]|[Hp [j [bb [_ [Hin _]]]]]]].
        -- split; auto.
        -- exfalso. destruct Hin as [Hj [Eb _]]. destruct Hm as [Hm _]. rewrite Hm in Eb. inv Eb. congruence.
      * intros _. destruct Hm as [Hm _]. unfold blk. cbn [set_al a_buf]. rewrite Hm. auto.
      * exists h2, a2, h'. split; auto. split; auto. eapply local_trans; [exact Hh|exact Hl|exact L2].
Qed.

(** ** Programs *)

Hypothesis Hf : fair c.

Lemma half_leaks w h1 a h' k : Inv c w -> local (w_heap w) [0%nat] h1 [blk a] -> half (w_next w) h1 a k h' ->
  leaks c w (mkW h' (w_arr w) (S (w_next w))) k.
Proof.
  intros Hw Hl Hh. pose proof Hw as [Ho [Hv [_ _]]].
  assert (Hr : repr c raw_cells (w_next w) h1 a) by (destruct Hh as (? & ? & ? & H & _); exact H).
  destruct (half_facts _ _ _ _ _ (proj1 Hl) Hh) as [Hl2 [Hn [objs [b [N [L [Eb [Eo [Ec [Hin Hal]]]]]]]]]].
  assert (Hl3 : local (w_heap w) [0%nat] h' [blk a]) by (eapply local_trans; eauto).
  assert (Hfresh : h_blk (w_heap w) (blk a) = None).
  { destruct Hl as [_ [_ [_ [_ C1]]]]. destruct Ho as [_ [_ Hfr]].
    destruct (C1 (blk a)) as [[I|[]]|[I|I]]; [left; auto|congruence|apply Hfr; auto|congruence]. }
  split.
  - intros z _. cbn [w_arr]. split; auto. intros s f [a0 [Ea [Es Hff]]]. exists a0. cbn [w_arr w_heap]. split; auto. split; auto.
    subst s. destruct (Hv z a0 Ea) as [_ Hva].
    destruct (frame_local c _ z _ h' _ _ a0 Ho Hl3 Hva) as [_ [F _]]; [intros [I|[]]; auto|]. apply F. exact Hff.
  - exists (blk a), b, objs. cbn [w_heap w_arr]. split; auto. split; auto. split.
    { intros Hc. rewrite Eo. destruct (a_busy a); eauto. specialize (Ec eq_refl). lia. }
    split; [|split; [|split; [|split]]]; auto.
    + intros z a0 Ea E. destruct (Hv z a0 Ea) as [_ Hva].
      destruct (repr_block _ _ _ _ _ Hva) as [[I _]|[_ I]]; unfold blk in *; congruence.
    + intros p. rewrite Hal. rewrite (new_raw_alive _ _ _ _ Ho Hl Hr p). reflexivity.
Qed.

Lemma new_elems w s al k l : reachable c w -> shape_arg c s -> enumerates (in_bounds s) l -> (k < length l)%nat ->
  exists w', xstep c w (New s al) (elems k) = Ok (Threw w') /\ leaks c w w' k.
Proof.
  intros Hw Hs Hl Hk. apply (reachable_inv c Hf) in Hw.
  destruct (ctor_shape_half (w_next w) (w_heap w) al s k l (proj1 Hw) Hs Hl Hk) as [h1 [a [h' [E [Hh Hlo]]]]].
  cbn [xstep]. unfold do_new_x, add_x. rewrite E. unfold xbind. cbn [bind].
  eexists. split; [reflexivity|]. eapply half_leaks; eauto.
Qed.
Lemma make_copy_elems w o y s al k l : reachable c w -> legal_op c w o -> o = MakeCopy y s al \/ o = MakeMove y s al ->
  enumerates (in_bounds s) l -> (k < length l)%nat ->
  exists w', xstep c w o (elems k) = Ok (Threw w') /\ leaks c w w' k.
Proof.
  intros Hw Ho Eo Hl Hk. apply (reachable_inv c Hf) in Hw.
  assert (Hs : shape_arg c s) by (destruct Eo as [-> | ->]; apply Ho).
  assert (Hb : exists b, w_arr w y = Some b) by (destruct Eo as [-> | ->]; destruct Ho as [_ [b [Eb _]]]; eauto).
  destruct Hb as [b Eb].
  destruct (ctor_shape_half (w_next w) (w_heap w) al s k l (proj1 Hw) Hs Hl Hk) as [h1 [a [h' [E [Hh Hlo]]]]].
  exists (mkW h' (w_arr w) (S (w_next w))). split; [|eapply half_leaks; eauto].
  destruct Eo as [-> | ->]; cbn [xstep]; rewrite (get_ok w y b Eb); cbn [bind];
    unfold add_x, make_copy_x, make_move_x; rewrite E; unfold xbind; reflexivity.
Qed.
Lemma reshape_elems w x s k l : reachable c w -> legal_op c w (Reshape x s) ->
  (exists a, w_arr w x = Some a /\ a_shape a <> resolve s) -> enumerates (in_bounds s) l -> (k < length l)%nat ->
  exists w', xstep c w (Reshape x s) (elems k) = Ok (Threw w') /\ leaks c w w' k.
Proof.
  intros Hw [Hs _] [a [Ea Hne]] Hl Hk. apply (reachable_inv c Hf) in Hw.
  assert (Hl' : enumerates (in_bounds (resolve s)) l).
  { destruct Hl as [N I]. split; auto. intros i. rewrite I. symmetry. apply resolve_in_bounds. }
  destruct (ctor_shape_half (w_next w) (w_heap w) (c_default c) (resolve s) k l (proj1 Hw) (shape_arg_resolve _ _ Hs) Hl' Hk)
    as [h1 [a1 [h' [E [Hh Hlo]]]]].
  exists (mkW h' (w_arr w) (S (w_next w))). split; [|eapply half_leaks; eauto].
  cbn [xstep]. unfold do_reshape_x. rewrite (get_ok w x a Ea). cbn [bind].
  destruct (shape_eqb (a_shape a) (resolve s)) eqn:Eq; [apply shape_eqb_eq in Eq; congruence|].
  unfold do_new_x, add_x. rewrite E. unfold xbind. reflexivity.
Qed.
Lemma new_copy_elems w y s g k l : reachable c w -> may_copy c w y -> denotes w y s g ->
  enumerates (in_bounds s) l -> (k < length l)%nat ->
  exists w', xstep c w (NewCopy y) (elems k) = Ok (Threw w') /\ leaks c w w' k.
Proof.
  intros Hw [b [Eb Hcp]] Hd Hl Hk. apply (reachable_inv c Hf) in Hw. pose proof (inv_valid c w y b Hw Eb) as Hb.
  destruct (denotes_has w y b s g Hd Eb) as [-> Hg].
  destruct (assign_copy_half (w_next w) y (w_heap w) (blank (c_select c (a_al b)) (c_shape0 c)) b g k l)
    as [h1 [a1 [h' [E [Hh Hlo]]]]]; auto; [apply Hw|apply blank_default; auto|intros _; reflexivity|].
  exists (mkW h' (w_arr w) (S (w_next w))). split; [|eapply half_leaks; eauto].
  cbn [xstep]. rewrite (get_ok w y b Eb). cbn [bind]. unfold add_x, ctor_copy_x. rewrite E. unfold xbind. reflexivity.
Qed.
(** The delegating constructors *)
Lemma new_value_elems w s v al k l : reachable c w -> shape_arg c s -> enumerates (in_bounds s) l -> (k < length l)%nat ->
  xstep c w (NewValue s v al) (elems k) = UB.
Proof.
  intros Hw Hs Hl Hk. apply (reachable_inv c Hf) in Hw. cbn [xstep]. unfold add_x, ctor_value_x.
  rewrite ctor_default_elems by auto.
  destruct (ctor_shape_spec c (w_next w) (w_heap w) al (c_shape0 c) (proj1 Hw) (proj1 Hf)) as [h1 [a [E [Hv [_ [Hlo _]]]]]].
  rewrite E. unfold nothrow, xbind. cbn [bind].
  destruct (assign_value_half (w_next w) h1 a s v k l (proj1 Hlo) Hv Hs Hl Hk) as [h2 [a1 [h' [E2 [Hh _]]]]].
  rewrite E2. cbn [bind fst snd]. rewrite (half_deallocate _ _ _ _ _ Hh). reflexivity.
Qed.
Lemma new_copy_alloc_elems w y al s g k l : reachable c w -> may_copy c w y -> denotes w y s g ->
  enumerates (in_bounds s) l -> (k < length l)%nat ->
  xstep c w (NewCopyAlloc y al) (elems k) = UB.
Proof.
  intros Hw [b [Eb Hcp]] Hd Hl Hk. apply (reachable_inv c Hf) in Hw. pose proof (inv_valid c w y b Hw Eb) as Hb.
  destruct (denotes_has w y b s g Hd Eb) as [-> Hg].
  cbn [xstep]. rewrite (get_ok w y b Eb). cbn [bind]. unfold add_x, ctor_copy_alloc_x.
  rewrite ctor_default_elems by auto.
  destruct (ctor_shape_spec c (w_next w) (w_heap w) al (c_shape0 c) (proj1 Hw) (proj1 Hf)) as [h1 [a [E [Hv [_ [Hlo _]]]]]].
  rewrite E. unfold nothrow, xbind. cbn [bind].
  destruct (frame_local c _ y _ h1 _ _ b (proj1 Hw) Hlo Hb) as [Hb1 [Hh1 [Hk1 _]]]; [intros [I|[]]; auto|].
  destruct (assign_copy_half (w_next w) y h1 a b g k l) as [h2 [a1 [h' [E2 [Hh _]]]]]; auto; [apply Hlo| |].
  { intros I. rewrite I. apply Hk1. left; auto. }
  rewrite E2. cbn [bind fst snd]. rewrite (half_deallocate _ _ _ _ _ Hh). reflexivity.
Qed.
(** Assignment: what is left is destroyed with undefined behaviour *)
Lemma assign_elems w o x k l s : reachable c w -> legal_op c w o ->
  (exists v, o = AssignValue x s v) \/
  (exists y g, (o = AssignCopy x y \/ o = CopyAssign x y) /\ x <> y /\ denotes w y s g) ->
  enumerates (in_bounds s) l -> (k < length l)%nat ->
  exists w', xstep c w o (elems k) = Ok (Threw w') /\ step c w' (Delete x) = UB /\ step c w' (Clear x) = UB.
Proof.
  intros Hw Ho Eo Hl Hk. apply (reachable_inv c Hf) in Hw.
  assert (G : forall a, w_arr w x = Some a -> forall r h1 a1 h', r = Ok (Threw (h', a1)) -> half x h1 a1 k h' ->
    exists w', change_x w x r = Ok (Threw w') /\ step c w' (Delete x) = UB /\ step c w' (Clear x) = UB).
  { intros a Ea r h1 a1 h' -> Hh. unfold change_x, xbind. cbn [bind fst snd].
    eexists. split; [reflexivity|]. cbn [step]. unfold do_delete, clear, get, change. cbn [w_arr w_heap].
    rewrite put_same. cbn [bind]. rewrite (half_deallocate _ _ _ _ _ Hh). auto. }
  destruct Eo as [[v ->]|[y [g [Eo [Hxy Hd]]]]].
  - destruct Ho as [[a Ea] Hs].
    destruct (assign_value_half x (w_heap w) a s v k l (proj1 Hw) (inv_valid c w x a Hw Ea) Hs Hl Hk) as [h1 [a1 [h' [E [Hh _]]]]].
    cbn [xstep]. rewrite (get_ok w x a Ea). cbn [bind]. eapply G; eauto.
  - assert (Ho' : exists_arr w x /\ may_copy c w y) by (destruct Eo as [-> | ->]; exact Ho).
    destruct Ho' as [[a Ea] [b [Eb Hcp]]].
    destruct (denotes_has w y b s g Hd Eb) as [-> Hg].
    pose proof (inv_valid c w x a Hw Ea) as Ha. pose proof (inv_valid c w y b Hw Eb) as Hb.
    pose proof (inv_apart c w x y a b Hw Hxy Ea Eb) as Hap.
    destruct Eo as [-> | ->]; cbn [xstep]; rewrite (get_ok w x a Ea), (get_ok w y b Eb); cbn [bind].
    + destruct (assign_copy_half x y (w_heap w) a b g k l) as [h1 [a1 [h' [E [Hh _]]]]]; auto; [apply Hw|]. eapply G; eauto.
    + destruct (copy_assign_half x y (w_heap w) a b g k l) as [h1 [a1 [h' [E [Hh _]]]]]; auto; [apply Hw|]. eapply G; eauto.
Qed.

End Elems.
