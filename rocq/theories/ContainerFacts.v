(** Facts about the container. *)
From Verif Require Import Tac Interval Shape Traverse Memory Ref Container Spec SpecMem SpecContainer
  ShapeFacts IntervalFacts ResolveFacts TraverseFacts MemFacts RefFacts SliceFacts.
Import ListNotations.
Open Scope Z_scope.

(** ** Heaps *)

Section Heap.
Context {V : Type}.
Implicit Types h : heap V.

Definition heap_ok h : Prop :=
  (1 <= h_next h)%nat /\ h_blk h 0%nat = None /\ (forall k, (h_next h <= k)%nat -> h_blk h k = None).

(** From [h] to [h'] only blocks in [K] and new blocks matter; of those, the ones in [K']
    remain. *)
Definition local h (K : list nat) h' (K' : list nat) : Prop :=
  heap_ok h' /\ (h_next h <= h_next h')%nat /\
  (forall k, ~ In k K' -> ~ In k K -> h_blk h' k = h_blk h k) /\
  (forall k, ~ In k K' -> In k K -> h_blk h' k = None) /\
  (forall k, In k K' -> In k K \/ (h_next h <= k)%nat \/ k = 0%nat).

Lemma local_refl h K : heap_ok h -> local h K h K.
Proof. intros H. split; auto. split; auto. split; auto. split; [tauto|auto]. Qed.
Lemma local_trans h K h1 K1 h2 K2 : heap_ok h -> local h K h1 K1 -> local h1 K1 h2 K2 -> local h K h2 K2.
Proof.
  intros H0 [O1 [N1 [A1 [B1 C1]]]] [O2 [N2 [A2 [B2 C2]]]]. split; auto. split; [lia|].
  split; [|split].
  - intros k Hk2 Hk. destruct (in_dec Nat.eq_dec k K1) as [I|I].
    + rewrite B2 by auto. destruct (C1 k I) as [?|[G| ->]]; [tauto| |]; symmetry.
      * destruct H0 as [_ [_ H0]]. apply H0; auto.
      * destruct H0 as [_ [H0 _]]. exact H0.
    + rewrite A2, A1 by auto. auto.
  - intros k Hk2 Hk. destruct (in_dec Nat.eq_dec k K1) as [I|I].
    + apply B2; auto.
    + rewrite A2, B1 by auto. auto.
  - intros k Hk. destruct (C2 k Hk) as [I|[G|G]].
    + apply C1; auto.
    + right; left; lia.
    + auto.
Qed.
Lemma local_frame h K h' K' j : local h K h' K' -> local h (j ++ K) h' (j ++ K').
Proof.
  intros [O1 [N1 [A1 [B1 C1]]]]. split; auto. split; auto. split; [|split].
  - intros k H1 H2. rewrite in_app_iff in *. apply A1; tauto.
  - intros k H1 H2. rewrite in_app_iff in *. apply B1; tauto.
  - intros k H1. rewrite in_app_iff in *. destruct H1 as [H1|H1]; auto. destruct (C1 k H1) as [?|?]; auto.
Qed.
Lemma local_perm h K h' K' L L' : (forall k, In k K <-> In k L) -> (forall k, In k K' <-> In k L') ->
  local h K h' K' -> local h L h' L'.
Proof.
  intros HK HK' [O1 [N1 [A1 [B1 C1]]]]. split; auto. split; auto. split; [|split].
  - intros k H1 H2. rewrite <- HK in *. rewrite <- HK' in *. auto.
  - intros k H1 H2. rewrite <- HK in *. rewrite <- HK' in *. auto.
  - intros k H1. rewrite <- HK in *. rewrite <- HK' in *. auto.
Qed.

Lemma upd_ok h p c : heap_ok h -> heap_ok (upd h p c).
Proof.
  intros [H1 [H2 H3]]. split; [exact H1|]. split; cbn [upd h_blk h_next].
  - rewrite H2. destruct (Nat.eqb _ _); auto.
  - intros k Hk. rewrite (H3 k Hk). destruct (Nat.eqb _ _); auto.
Qed.
Lemma upds_ok ws : forall h, heap_ok h -> heap_ok (upds h ws).
Proof. induction ws as [|[p c] r IH]; intros h H; simpl; auto. apply IH, upd_ok, H. Qed.
Lemma upds_blk_other ws : forall h k, ~ In k (map (fun w => fst (fst w)) ws) -> h_blk (upds h ws) k = h_blk h k.
Proof.
  induction ws as [|[p c] r IH]; intros h k H; simpl in *; auto. rewrite IH by tauto.
  cbn [upd h_blk]. destruct (Nat.eqb_spec k (fst p)) as [E|E]; auto. subst k. tauto.
Qed.
Lemma upds_local h ws K : heap_ok h -> (forall p, In p (map fst ws) -> In (fst p) K) ->
  local h K (upds h ws) K.
Proof.
  intros H HK. split; [apply upds_ok; auto|]. split; [rewrite upds_next; auto|]. split; [|split].
  - intros k _ Hk. apply upds_blk_other. intros C. apply in_map_iff in C. destruct C as [w [E C]].
    apply Hk. rewrite <- E. apply HK. apply in_map_iff. exists w; auto.
  - tauto.
  - auto.
Qed.
Lemma upds_block h ws k b : h_blk h k = Some b ->
  exists b', h_blk (upds h ws) k = Some b' /\ b_size b' = b_size b /\ b_owner b' = b_owner b.
Proof.
  intros H. pose proof (upds_meta ws h k) as M. rewrite H in M. destruct (h_blk (upds h ws) k) as [b'|]; [|discriminate].
  simpl in M. inv M. exists b'. auto.
Qed.
Lemma peek_cell h k b z : k <> 0%nat -> h_blk h k = Some b -> 0 <= z < b_size b ->
  peek h (k, z) = Some (b_cell b z).
Proof.
  intros Hk Hb Hz. unfold peek; cbn [fst snd]. destruct k; [congruence|]. rewrite Hb.
  replace ((0 <=? z) && (z <? b_size b)) with true; auto. lia.
Qed.
Lemma peek_same_block h h' k z : h_blk h' k = h_blk h k -> peek h' (k, z) = peek h (k, z).
Proof. intros H. unfold peek; cbn [fst snd]. rewrite H. auto. Qed.
End Heap.

(** ** Shapes of arrays *)

Definition same_range (d d' : dim) : Prop := dmin d' = dmin d /\ dext d' = dext d.
Lemma resolve_ranges s : Forall2 same_range s (resolve s).
Proof.
  unfold resolve.
  cut (forall todo pre p, Forall2 same_range p pre -> Forall2 same_range (p ++ todo) (resolve_from pre todo)).
  { intros H. apply (H s [] []). constructor. }
  induction todo as [|d r IH]; intros pre p H; simpl; [rewrite app_nil_r; auto|].
  replace (p ++ d :: r) with ((p ++ [d]) ++ r) by (rewrite <- app_assoc; auto).
  apply IH, Forall2_snoc; auto. destruct (is_unresolved _); split; auto.
Qed.
Lemma resolve_length s : length (resolve s) = length s.
Proof. symmetry. apply (Forall2_len _ _ _ (resolve_ranges s)). Qed.
Lemma ranges_in_bounds s s' : Forall2 same_range s s' -> forall i, in_bounds s' i <-> in_bounds s i.
Proof.
  induction 1 as [|d d' s s' [Hm He] _ IH]; intros i; unfold in_bounds in *.
  - reflexivity.
  - split; intros G; inv G; constructor; try apply IH; auto; unfold in_dim in *; rewrite Hm, He in *; auto.
Qed.
Lemma resolve_in_bounds s i : in_bounds (resolve s) i <-> in_bounds s i.
Proof. apply ranges_in_bounds, resolve_ranges. Qed.
Lemma ranges_extents n s s' : Forall2 same_range s s' -> (extents_ge n s' <-> extents_ge n s).
Proof.
  induction 1 as [|d d' s s' [Hm He] _ IH]; unfold extents_ge in *; [reflexivity|].
  rewrite !Forall_cons_iff, He, IH. reflexivity.
Qed.
Lemma resolve_extents n s : extents_ge n (resolve s) <-> extents_ge n s.
Proof. apply ranges_extents, resolve_ranges. Qed.
Lemma resolve_no_index s : no_index s -> no_index (resolve s).
Proof. intros H i Hi. exact (H i (proj1 (resolve_in_bounds s i) Hi)). Qed.
Lemma proper_resolve s : proper_layout s -> resolve s = s.
Proof. intros [_ [H _]]. apply resolve_known, H. Qed.
Lemma proper_resolve2 s : proper_layout (resolve s) -> resolve (resolve s) = resolve s.
Proof. apply proper_resolve. Qed.

Lemma in_bounds_ge1 s i : in_bounds s i -> extents_ge 1 s.
Proof. induction 1; constructor; auto. unfold in_dim in *. lia. Qed.
Lemma elem_in_buffer s i : in_bounds s i -> 0 <= offset s i - flat_min s < flat_extent s.
Proof.
  intros H. pose proof (in_bounds_ge1 _ _ H) as G. destruct (flat_extent_nonempty _ G) as [E _].
  pose proof (offset_range _ _ H). lia.
Qed.
Lemma no_extent_no_index s : flat_extent s <= 0 -> no_index s.
Proof. intros H i Hi. pose proof (elem_in_buffer _ _ Hi). lia. Qed.

(** ** The representation of an array *)

Section Repr.
Context {V : Type}.
Variable c : config V.
Implicit Types h : heap V.

Definition blk (a : arr) : nat := fst (a_buf a).
Definition no_memory (a : arr) : Prop := a_buf a = null /\ a_base a = null /\ a_busy a = false.
Definition in_block (x : nat) (a : arr) (k : nat) (b : block V) : Prop :=
  k <> 0%nat /\ a_buf a = (k, 0) /\ a_base a = (k, - flat_min (a_shape a)) /\
  b_size b = a_bufsize a /\ a_bufsize a = flat_extent (a_shape a) /\ 0 < b_size b /\
  b_owner b = (if a_busy a then Inline x else Base (a_al a)) /\ (a_busy a = true <-> b_size b <= c_cap c).
(** Cells of the block: all raw, or alive exactly where the elements are *)
Definition raw_cells (s : list dim) (b : block V) : Prop := forall z, 0 <= z < b_size b -> b_cell b z = Raw.
Definition live_cells (s : list dim) (b : block V) : Prop := forall z, 0 <= z < b_size b ->
  ((exists v, b_cell b z = Live v) <-> exists i, in_bounds s i /\ z = offset s i - flat_min s).
Definition repr (cells : list dim -> block V -> Prop) (x : nat) h (a : arr) : Prop :=
  shape_arg c (a_shape a) /\
  ((no_memory a /\ no_index (a_shape a) /\ extents_ge 0 (a_shape a)) \/
   (proper_layout (a_shape a) /\
    exists k b, h_blk h k = Some b /\ in_block x a k b /\ cells (a_shape a) b)).
Definition valid := repr live_cells.
Definition has h (a : arr) (f : list Z -> V) : Prop :=
  forall i, in_bounds (a_shape a) i -> holds h (elem (a_base a) (a_shape a) i) (f i).

Lemma repr_block cells x h a : repr cells x h a ->
  (blk a = 0%nat /\ no_memory a) \/ (blk a <> 0%nat /\ h_blk h (blk a) <> None).
Proof.
  intros [_ [[H _]|[_ [k [b [Hb [Hin _]]]]]]].
  - left. split; auto. destruct H as [H _]. unfold blk. rewrite H. auto.
  - right. destruct Hin as [Hk [E _]]. unfold blk. rewrite E. cbn [fst]. split; congruence.
Qed.
Lemma repr_frame cells x h h' a : h_blk h' (blk a) = h_blk h (blk a) -> repr cells x h a -> repr cells x h' a.
Proof.
  intros E [Hs H]. split; auto. destruct H as [H|[Hp [k [b [Hb [Hin Hc]]]]]]; auto. right. split; auto.
  exists k, b. split; auto. destruct Hin as [Hk [Eb R]]. unfold blk in E. rewrite Eb in E. cbn [fst] in E. congruence.
Qed.
Lemma has_frame cells x h h' a f : h_blk h' (blk a) = h_blk h (blk a) -> repr cells x h a -> has h a f -> has h' a f.
Proof.
  intros E [Hs H] Hh i Hi. specialize (Hh i Hi). destruct H as [[_ [H _]]|[Hp [k [b [Hb [Hin Hc]]]]]].
  - destruct (H i Hi).
  - destruct Hin as [Hk [Eb [Eba R]]]. unfold blk in E. rewrite Eb in E. cbn [fst] in E.
    unfold holds, elem in *. rewrite Eba in *. cbn [fst] in *. rewrite <- Hh. apply peek_same_block; auto.
Qed.
Lemma repr_base cells x h a : repr cells x h a -> is_null (a_base a) = false \/ no_index (a_shape a).
Proof.
  intros [Hs [[_ [H _]]|[Hp [k [b [Hb [Hin Hc]]]]]]]; auto. left. apply is_null_block.
  destruct Hin as [Hk [Eb [Eba R]]]. rewrite Eba. auto.
Qed.
Lemma repr_extents cells x h a : repr cells x h a -> extents_ge 0 (a_shape a).
Proof. intros [Hs [[_ [_ H]]|[Hp _]]]; auto. apply Hp. Qed.
Lemma repr_assert cells x h a : repr cells x h a -> assert_ (c_ndebug c) (negb (is_null (a_base a)) || empty (a_shape a)) = Ok tt.
Proof.
  intros H. unfold assert_. destruct (repr_base _ _ _ _ H) as [E|E]; [rewrite E; auto|].
  rewrite (proj2 (empty_iff _ (repr_extents _ _ _ _ H)) E), orb_true_r. auto.
Qed.
Lemma repr_injective cells x h a : repr cells x h a -> injective_layout (a_shape a).
Proof.
  intros [Hs [[_ [H _]]|[Hp _]]]; [|apply Hp]. intros i j Hi. destruct (H i Hi).
Qed.
(** Addresses of elements *)
Lemma repr_elem cells x h a i : repr cells x h a -> in_bounds (a_shape a) i ->
  exists b, blk a <> 0%nat /\ h_blk h (blk a) = Some b /\ in_block x a (blk a) b /\ cells (a_shape a) b /\
    elem (a_base a) (a_shape a) i = (blk a, offset (a_shape a) i - flat_min (a_shape a)) /\
    0 <= offset (a_shape a) i - flat_min (a_shape a) < b_size b.
Proof.
  intros [Hs [[_ [H _]]|[Hp [k [b [Hb [Hin Hc]]]]]]] Hi; [destruct (H i Hi)|].
  assert (Ek : blk a = k) by (unfold blk; destruct Hin as [_ [E _]]; rewrite E; auto). rewrite Ek.
  exists b. pose proof (elem_in_buffer _ _ Hi). unfold in_block in Hin. unfold elem.
  destruct Hin as [Hk [Eb [Eba [Esz [Efe R]]]]]. rewrite Eba. cbn [fst snd].
  split; [auto|]. split; [auto|]. split; [unfold in_block; tauto|]. split; auto. split; [f_equal; lia|lia].
Qed.
Lemma raw_peek x h a i : repr raw_cells x h a -> in_bounds (a_shape a) i ->
  peek h (elem (a_base a) (a_shape a) i) = Some Raw.
Proof.
  intros H Hi. destruct (repr_elem _ _ _ _ _ H Hi) as [b [Hk [Hb [_ [Hc [E R]]]]]]. rewrite E.
  rewrite (peek_cell h _ b) by auto. rewrite Hc; auto.
Qed.
Lemma live_alive x h a i : valid x h a -> in_bounds (a_shape a) i -> alive h (elem (a_base a) (a_shape a) i).
Proof.
  intros H Hi. destruct (repr_elem _ _ _ _ _ H Hi) as [b [Hk [Hb [_ [Hc [E R]]]]]]. rewrite E.
  unfold alive, holds. rewrite (peek_cell h _ b) by auto.
  destruct (proj2 (Hc _ R)) as [v Hv]; [exists i; auto|]. exists v. rewrite Hv. auto.
Qed.

(** Changing cells *)
Lemma repr_upds (P Q : list dim -> block V -> Prop) x h a ws :
  (forall k b b', h_blk h k = Some b -> h_blk (upds h ws) k = Some b' -> in_block x a k b ->
     proper_layout (a_shape a) -> b_size b' = b_size b -> P (a_shape a) b -> Q (a_shape a) b') ->
  repr P x h a -> repr Q x (upds h ws) a.
Proof.
  intros HPQ [Hs [H|[Hp [k [b [Hb [Hin Hc]]]]]]]; (split; [auto|]); auto. right. split; auto.
  destruct (upds_block h ws k b Hb) as [b' [Hb' [Es Eo]]]. exists k, b'. split; auto. split.
  - unfold in_block in *. rewrite Es, Eo. auto.
  - apply (HPQ k b b'); auto.
Qed.
Lemma elem_back x a k b i z : in_block x a k b -> elem (a_base a) (a_shape a) i = (k, z) <->
  z = offset (a_shape a) i - flat_min (a_shape a).
Proof.
  intros [Hk [Eb [Eba R]]]. unfold elem. rewrite Eba. cbn [fst snd]. split; intros E; [inv E; lia|].
  subst. f_equal. lia.
Qed.

Lemma constructed x h a f l : heap_ok h -> repr raw_cells x h a -> enumerates (in_bounds (a_shape a)) l ->
  let h' := upds h (map (fun i => (elem (a_base a) (a_shape a) i, Live (f i))) l) in
  valid x h' a /\ has h' a f /\ local h [blk a] h' [blk a].
Proof.
  intros Hh H Hl h'.
  assert (Hnd : NoDup (map fst (map (fun i => (elem (a_base a) (a_shape a) i, Live (f i))) l))).
  { rewrite map_map. cbn [fst]. apply NoDup_map_elem; auto. eapply repr_injective; eauto. }
  assert (Hhas : has h' a f).
  { intros i Hi. unfold holds, h'. apply peek_upds_in; auto.
    - apply in_map_iff. exists i. split; auto. apply Hl; auto.
    - rewrite (raw_peek _ _ _ _ H Hi). congruence. }
  split; [|split]; auto.
  - unfold valid, h'. eapply repr_upds; [|exact H]. intros k b b' Hb Hb' Hin Hp Es Hraw z Hz.
    pose proof Hin as Hin'. destruct Hin' as [Hk _].
    assert (E : peek h' (k, z) = Some (b_cell b' z)) by (apply peek_cell; auto; lia).
    split.
    + intros [v Hv].
      destruct (in_dec ptr_dec (k, z) (map fst (map (fun i => (elem (a_base a) (a_shape a) i, Live (f i))) l))) as [I|I].
      * rewrite map_map in I. cbn [fst] in I. apply in_map_iff in I. destruct I as [i [Ei Hi]]. exists i.
        split; [apply Hl; auto|]. apply (elem_back _ _ _ _ _ _ Hin); auto.
      * unfold h' in E. rewrite peek_upds_out in E by auto. rewrite (peek_cell h k b) in E by (auto; lia).
        rewrite Hraw in E by lia. congruence.
    + intros [i [Hi Ez]]. exists (f i). specialize (Hhas i Hi). unfold holds in Hhas.
      rewrite (proj2 (elem_back _ _ _ _ i z Hin) Ez), E in Hhas. inv Hhas. auto.
  - apply upds_local; auto. intros p Hp. rewrite map_map in Hp. cbn [fst] in Hp. apply in_map_iff in Hp.
    destruct Hp as [i [<- Hi]]. left.
    destruct (repr_elem _ _ _ _ i H) as [b [_ [_ [_ [_ [E _]]]]]]; [apply Hl; auto|]. rewrite E. auto.
Qed.

(** ** construct, destroy *)

Lemma fold_construct_list {A} (addr : A -> ptr) (step : heap V -> A -> outcome (heap V)) (f : A -> V) l : forall h,
  NoDup (map addr l) -> (forall i, In i l -> peek h (addr i) = Some Raw) ->
  (forall h' i, In i l -> (forall q, ~ In q (map addr l) -> peek h' q = peek h q) -> step h' i = construct_at h' (addr i) (f i)) ->
  foldM step l h = Ok (upds h (map (fun i => (addr i, Live (f i))) l)).
Proof.
  intros h Hnd Hraw Hs. rewrite <- (flat_map_sing (fun i => (addr i, Live (f i))) l).
  assert (Hf : map fst (flat_map (fun a => [(addr a, Live (f a))]) l) = map addr l)
    by (rewrite flat_map_sing, map_map; auto).
  apply foldM_upds; [rewrite Hf; auto|].
  intros h' i Hi Hout Hin _. rewrite Hf in Hout. rewrite Hs by auto. unfold construct_at.
  rewrite (Hin (addr i)) by (left; auto). rewrite Hraw by auto. auto.
Qed.

Lemma foldM_map {A B S} (g : A -> B) (f : S -> B -> outcome S) l : forall s,
  foldM f (map g l) s = foldM (fun s a => f s (g a)) l s.
Proof. induction l as [|a r IH]; intros s; simpl; auto. destruct (f s (g a)); simpl; auto. Qed.

Lemma construct_spec x h a v : heap_ok h -> repr raw_cells x h a ->
  exists h', construct c h a (fun _ => Ok v) = Ok h' /\ valid x h' a /\ has h' a (fun _ => v) /\
    local h [blk a] h' [blk a].
Proof.
  intros Hh H. unfold construct. rewrite (repr_assert _ _ _ _ H). cbn [bind].
  destruct (values_spec (c_ndebug c) (a_shape a) (a_base a) (repr_extents _ _ _ _ H) (repr_base _ _ _ _ H))
    as [l [Hl ->]]. cbn [bind]. rewrite foldM_map.
  rewrite (fold_construct_list (elem (a_base a) (a_shape a)) _ (fun _ => v)).
  - eexists. split; [reflexivity|]. apply constructed; auto.
  - apply NoDup_map_elem; auto. eapply repr_injective; eauto.
  - intros i Hi. eapply raw_peek; eauto. apply Hl; auto.
  - intros h' i Hi _. reflexivity.
Qed.

Lemma destroy_spec x h a : heap_ok h -> valid x h a ->
  exists h', destroy c h a = Ok h' /\ repr raw_cells x h' a /\ local h [blk a] h' [blk a].
Proof.
  intros Hh H. unfold destroy. rewrite (repr_assert _ _ _ _ H). cbn [bind].
  destruct (values_spec (c_ndebug c) (a_shape a) (a_base a) (repr_extents _ _ _ _ H) (repr_base _ _ _ _ H))
    as [l [Hl ->]]. cbn [bind]. rewrite foldM_map.
  set (w := fun i => (elem (a_base a) (a_shape a) i, @Raw V)).
  assert (Hf : map fst (flat_map (fun a => [w a]) l) = map (elem (a_base a) (a_shape a)) l)
    by (rewrite flat_map_sing, map_map; auto).
  assert (Hnd : NoDup (map (elem (a_base a) (a_shape a)) l)).
  { apply NoDup_map_elem; auto. eapply repr_injective; eauto. }
  rewrite (foldM_upds _ (fun i => [w i])).
  - eexists. split; [reflexivity|]. split.
    + eapply repr_upds; [|exact H]. intros k b b' Hb Hb' Hin Hp Es Hlive z Hz.
      pose proof Hin as Hin'. destruct Hin' as [Hk _].
      match goal with |- b_cell b' z = _ => assert (E : peek (upds h (flat_map (fun i => [w i]) l)) (k, z) = Some (b_cell b' z)) by (apply peek_cell; auto; lia) end.
      destruct (in_dec ptr_dec (k, z) (map fst (flat_map (fun i => [w i]) l))) as [I|I].
      * rewrite (peek_upds_const _ Raw) in E; auto; [congruence| |].
        -- intros p c' Hpc. rewrite flat_map_sing in Hpc. apply in_map_iff in Hpc. destruct Hpc as [i [Ei _]]. inv Ei. auto.
        -- rewrite (peek_cell h k b); auto; [congruence|lia].
      * rewrite peek_upds_out in E by auto. rewrite (peek_cell h k b) in E by (auto; lia).
        destruct (b_cell b z) eqn:Ez; [congruence|]. exfalso. apply I.
        destruct (proj1 (Hlive z ltac:(lia))) as [i [Hi Eo]]; [eauto|].
        rewrite Hf. apply in_map_iff. exists i. split; [|apply Hl; auto]. apply (elem_back _ _ _ _ _ _ Hin); auto.
    + apply upds_local; auto. intros p Hp. change (In p (map fst (flat_map (fun a => [w a]) l))) in Hp.
      rewrite Hf in Hp. apply in_map_iff in Hp.
      destruct Hp as [i [<- Hi]]. left.
      destruct (repr_elem _ _ _ _ i H) as [b [_ [_ [_ [_ [E _]]]]]]; [apply Hl; auto|]. rewrite E. auto.
  - rewrite Hf. auto.
  - intros h' i Hi Hout Hin _. unfold destroy_at. rewrite (Hin (elem (a_base a) (a_shape a) i)) by (left; auto).
    destruct (live_alive _ _ _ i H) as [v Hv]; [apply Hl; auto|]. rewrite Hv. auto.
Qed.

(** After writes to elements only, with every element alive at the end *)
Lemma live_after (cells : list dim -> block V -> Prop) x h a ws :
  (forall b, cells (a_shape a) b -> forall z, 0 <= z < b_size b -> (exists v, b_cell b z = Live v) ->
     exists i, in_bounds (a_shape a) i /\ z = offset (a_shape a) i - flat_min (a_shape a)) ->
  repr cells x h a ->
  (forall i, in_bounds (a_shape a) i -> alive (upds h ws) (elem (a_base a) (a_shape a) i)) ->
  (forall p, In p (map fst ws) -> fst p = blk a -> is_elem (a_base a) (a_shape a) p) ->
  valid x (upds h ws) a.
Proof.
  intros Hc H Ha Hw. unfold valid. eapply repr_upds; [|exact H]. intros k b b' Hb Hb' Hin Hp Es Hcells z Hz.
  pose proof Hin as Hin'. destruct Hin' as [Hk [Ebuf _]].
  assert (Ek : blk a = k) by (unfold blk; rewrite Ebuf; auto).
  assert (E : peek (upds h ws) (k, z) = Some (b_cell b' z)) by (apply peek_cell; auto; lia).
  split.
  - intros [v Hv]. destruct (in_dec ptr_dec (k, z) (map fst ws)) as [I|I].
    + destruct (Hw _ I) as [i [Hi Ei]]; [auto|]. exists i. split; auto.
      apply (elem_back _ _ _ _ i z Hin). auto.
    + rewrite peek_upds_out in E by auto. rewrite (peek_cell h k b) in E by (auto; lia).
      apply (Hc b); auto; [lia|]. exists v. congruence.
  - intros [i [Hi Ez]]. destruct (Ha i Hi) as [v Hv]. exists v. unfold holds in Hv.
    rewrite (proj2 (elem_back _ _ _ _ i z Hin) Ez), E in Hv. inv Hv. auto.
Qed.
Lemma raw_not_live (s : list dim) b : raw_cells s b -> forall z, 0 <= z < b_size b ->
  (exists v, b_cell b z = Live v) -> exists i, in_bounds s i /\ z = offset s i - flat_min s.
Proof. intros H z Hz [v Hv]. rewrite H in Hv by auto. discriminate. Qed.
Lemma live_live (s : list dim) b : live_cells s b -> forall z, 0 <= z < b_size b ->
  (exists v, b_cell b z = Live v) -> exists i, in_bounds s i /\ z = offset s i - flat_min s.
Proof. intros H z Hz Hv. apply H; auto. Qed.

Lemma valid_has x h a : valid x h a -> exists f, has h a f.
Proof.
  intros H. exists (fun i => match peek h (elem (a_base a) (a_shape a) i) with Some (Live v) => v | _ => c_dv c end).
  intros i Hi. apply value_of. eapply live_alive; eauto.
Qed.

(** ** allocate, deallocate *)

Lemma shape_arg_resolve s : shape_arg c s -> shape_arg c (resolve s).
Proof. intros [H1 H2]. split; [rewrite resolve_length; auto|]. rewrite proper_resolve2; auto. Qed.

Lemma allocate_spec x h a : heap_ok h -> a_buf a = null -> a_busy a = false -> shape_arg c (a_shape a) ->
  exists h' a', allocate c x h a = Ok (h', a') /\ repr raw_cells x h' a' /\ local h [blk a] h' [blk a'] /\
    a_shape a' = resolve (a_shape a) /\ a_al a' = a_al a.
Proof.
  intros Hh Hb Hbusy Hs. unfold allocate. rewrite Hb. cbn [is_null ptr_eqb null fst snd Nat.eqb Z.eqb andb assert_ bind].
  pose proof Hs as [Hlen [He [Hkn [Hinj Htidy]]]].
  set (s := resolve (a_shape a)) in *.
  assert (Hs' : shape_arg c s) by (apply shape_arg_resolve; auto).
  assert (Hblk : blk a = 0%nat) by (unfold blk; rewrite Hb; auto). rewrite Hblk.
  destruct (Z.ltb_spec 0 (flat_extent s)) as [L|L].
  - assert (E : alloc_get c x h a (flat_extent s) =
      (fst (alloc_block h (if flat_extent s <=? c_cap c then Inline x else Base (a_al a)) (flat_extent s)),
       flat_extent s <=? c_cap c, (h_next h, 0))).
    { unfold alloc_get. rewrite Hbusy. cbn [negb andb]. destruct (flat_extent s <=? c_cap c); reflexivity. }
    rewrite E. clear E.
    set (o := if flat_extent s <=? c_cap c then Inline x else Base (a_al a)).
    set (bz := flat_extent s <=? c_cap c).
    unfold set_base, with_shape; cbn [a_buf a_al a_busy a_bufsize a_base a_shape].
    eexists _, _. split; [reflexivity|]. cbn [a_shape a_al].
    assert (Hn : h_next h <> 0%nat) by (destruct Hh; lia).
    split; [|split; [|split; reflexivity]].
    + split; [exact Hs'|]. right. cbn [a_shape]. split; [split; auto|].
      exists (h_next h), (mkB o (flat_extent s) (fun _ => Raw)). split; [|split].
      * cbn [alloc_block fst h_blk]. rewrite Nat.eqb_refl. auto.
      * unfold in_block. cbn [a_buf a_base a_shape a_bufsize a_busy a_al b_size b_owner ptr_off fst snd].
        repeat split; auto; unfold o, bz; destruct (flat_extent s <=? c_cap c) eqn:Ec; auto; try discriminate; intros; lia.
      * intros z _. reflexivity.
    + unfold blk. cbn [a_buf fst]. split; [|split; [|split; [|split]]].
      * destruct Hh as [H1 [H2 H3]]. split; [|split]; cbn [alloc_block fst h_next h_blk]; [lia| |].
        -- destruct (Nat.eqb_spec 0 (h_next h)); [congruence|auto].
        -- intros k Hk. destruct (Nat.eqb_spec k (h_next h)); [lia|]. apply H3. lia.
      * cbn [alloc_block fst h_next]. lia.
      * intros k Hk _. cbn [alloc_block fst h_blk]. destruct (Nat.eqb_spec k (h_next h)) as [Ek|Ek]; auto.
        exfalso. apply Hk. left; auto.
      * intros k Hk [<-|[]]. cbn [alloc_block fst h_blk]. destruct (Nat.eqb_spec 0 (h_next h)); [congruence|]. destruct Hh as [_ [Hh0 _]]. exact Hh0.
      * intros k [<-|[]]. right; left; auto.
  - unfold set_base, with_shape; cbn [a_buf a_al a_busy a_bufsize a_base a_shape]. rewrite Hb, Hbusy.
    eexists _, _. split; [reflexivity|]. cbn [a_shape a_al].
    assert (Em : flat_min s = 0) by lia.
    split; [|split; [|split; reflexivity]].
    + split; [exact Hs'|]. left. cbn [a_shape]. split; [|split; auto].
      * unfold no_memory. cbn [a_buf a_base a_busy]. rewrite Em. auto.
      * apply no_extent_no_index. auto.
    + unfold blk. cbn [a_buf fst null]. apply local_refl; auto.
Qed.

Lemma deallocate_raw x h a : heap_ok h -> valid x h a ->
  exists h' a', deallocate c x h a = Ok (h', a') /\ no_memory a' /\
    local h [blk a] h' [blk a'] /\ a_al a' = a_al a /\ (a' = a \/ a_shape a' = c_shape0 c).
Proof.
  intros Hh H. unfold deallocate. pose proof H as [Hs0 [[Hm R]|[_ [k0 [b0 [_ [Hin0 _]]]]]]].
  - pose proof Hm as [_ [Hm2 _]]. rewrite Hm2. cbn [is_null ptr_eqb null fst snd Nat.eqb Z.eqb andb].
    exists h, a. split; auto. split; auto. split; [apply local_refl; auto|]. auto.
  - assert (En : is_null (a_base a) = false).
    { apply is_null_block. destruct Hin0 as [Hk [_ [Eba _]]]. rewrite Eba. auto. }
    rewrite En. clear k0 b0 Hin0 Hs0.
    destruct (destroy_spec x h a Hh H) as [h1 [-> [Hraw Hl1]]]; cbn [bind].
    unfold set_base, with_shape; cbn [a_buf a_al a_busy a_bufsize a_base a_shape].
    destruct Hraw as [Hs [[[_ [Hm _]] _]|[Hp [k [b [Hb [Hin Hc]]]]]]];
      [exfalso; rewrite Hm in *; discriminate|].
    destruct Hin as [Hk [Ebuf [Eba [Esz [Efe [Hpos [Eow Hcap]]]]]]].
    assert (Hnl : no_live b = true).
    { unfold no_live. apply forallb_forall. intros z Hz. apply zseq_In in Hz. rewrite Hc by lia. auto. }
    assert (Hal : alloc_put c x h1 (mkA (a_al a) (a_busy a) (a_buf a) (a_bufsize a) null (c_shape0 c)) (a_buf a) (a_bufsize a) =
                  Ok (mkH (h_next h1) (fun j => if (j =? k)%nat then None else h_blk h1 j), false)).
    { unfold alloc_put, inline_block. rewrite Ebuf. cbn [fst snd a_busy a_al]. rewrite Hb, Eow.
      unfold free_block. cbn [fst snd]. rewrite Hb. destruct k as [|k]; [congruence|].
      destruct (a_busy a) eqn:Ebz; cbn [owner_eqb Z.eqb andb].
      - rewrite Nat.eqb_refl. cbn [andb assert_ bind]. rewrite Eow. cbn [owner_eqb]. rewrite Z.eqb_refl, Nat.eqb_refl, Hnl. reflexivity.
      - rewrite Eow. cbn [owner_eqb]. rewrite (proj2 (Z.eqb_eq (b_size b) (a_bufsize a)) Esz), Nat.eqb_refl, Hnl. reflexivity. }
    rewrite Hal. unfold set_buf, set_busy; cbn [bind a_al a_busy a_buf a_bufsize a_base a_shape].
    eexists _, _. split; [reflexivity|]. unfold no_memory, blk. cbn [a_al a_busy a_buf a_bufsize a_base a_shape fst null].
    assert (Ek : blk a = k) by (unfold blk; rewrite Ebuf; auto).
    split; [auto|split; [|split; auto]].
    rewrite Ebuf. cbn [fst]. rewrite Ek in Hl1. destruct Hl1 as [[O1 [O2 O3]] [N1 [A1 [B1 C1]]]].
      split; [|split; [|split; [|split]]]; cbn [h_next h_blk]; auto.
      * split; [|split]; cbn [h_next h_blk]; auto.
        -- rewrite O2. destruct (Nat.eqb _ _); auto.
        -- intros j Hj. rewrite O3 by auto. destruct (Nat.eqb _ _); auto.
      * intros j Hj1 Hj2. destruct (Nat.eqb_spec j k) as [E|E]; [exfalso; apply Hj2; left; auto|].
        apply A1; auto.
      * intros j Hj1 [<-|[]]. rewrite Nat.eqb_refl. auto.
      * intros j [<-|[]]. auto.
Qed.

Lemma deallocate_spec x h a : fair c -> heap_ok h -> valid x h a ->
  exists h' a', deallocate c x h a = Ok (h', a') /\ valid x h' a' /\ no_memory a' /\
    local h [blk a] h' [blk a'] /\ a_al a' = a_al a /\ (a' = a \/ a_shape a' = c_shape0 c).
Proof.
  intros Hf Hh H. destruct (deallocate_raw x h a Hh H) as (h' & a' & E & Hm & Hl & Ea & Hs).
  exists h', a'. split; auto. split; [|auto]. destruct Hf as [F1 [F2 [F3 _]]].
  destruct Hs as [-> | Hs].
  - destruct H as [H1 [[_ H2]|[H2 [k [b [_ [[Hk [Eb _]] _]]]]]]].
    + split; auto.
    + exfalso. destruct Hm as [Hm _]. rewrite Hm in Eb. inv Eb. congruence.
  - split; [rewrite Hs; exact F1|]. left. rewrite Hs. auto.
Qed.

(** ** copy_construct, move_construct *)

Definition apart (a b : arr) : Prop := blk a = blk b -> blk a = 0%nat.
Definition copyable (b : arr) : Prop := c_ndebug c = true \/ known_strides (a_shape b).

Lemma assert_same a b : a_shape a = resolve (a_shape b) -> copyable b ->
  assert_ (c_ndebug c) (shape_eqb (a_shape a) (a_shape b)) = Ok tt.
Proof.
  intros E [Hn|Hk]; unfold assert_.
  - rewrite Hn. destruct (shape_eqb _ _); auto.
  - rewrite resolve_known in E by exact Hk. rewrite (proj2 (shape_eqb_eq _ _) E). auto.
Qed.
Lemma pair_base cells cells' x y h a b : repr cells x h a -> repr cells' y h b -> a_shape a = resolve (a_shape b) ->
  (is_null (a_base b) = false /\ is_null (a_base a) = false) \/ no_index (a_shape a).
Proof.
  intros Ha Hb E. destruct (repr_base _ _ _ _ Ha) as [H1|H1]; auto.
  destruct (repr_base _ _ _ _ Hb) as [H2|H2]; auto. right. rewrite E. apply resolve_no_index; auto.
Qed.
Lemma elem_block cells x h a i : repr cells x h a -> in_bounds (a_shape a) i ->
  fst (elem (a_base a) (a_shape a) i) = blk a /\ blk a <> 0%nat.
Proof.
  intros H Hi. destruct (repr_elem _ _ _ _ _ H Hi) as [bb [Hk [_ [_ [_ [E _]]]]]]. rewrite E. auto.
Qed.

Lemma copy_construct_spec x y h a b f : heap_ok h -> repr raw_cells x h a -> valid y h b -> has h b f ->
  apart a b -> a_shape a = resolve (a_shape b) -> copyable b ->
  exists h', copy_construct c h a b = Ok h' /\ valid x h' a /\ has h' a f /\ local h [blk a] h' [blk a].
Proof.
  intros Hh Ha Hb Hf Hap Es Hcp. unfold copy_construct. rewrite (repr_assert _ _ _ _ Ha). cbn [bind].
  rewrite assert_same by auto. cbn [bind].
  destruct (values_copy_spec (c_ndebug c) (a_shape b) (a_base b) (a_shape a) (a_base a)) as [l [Hl ->]].
  { rewrite Es, resolve_length; auto. }
  { eapply repr_extents; eauto. }
  { eapply pair_base; eauto. }
  cbn [bind]. rewrite foldM_map.
  assert (Hib : forall i, In i l -> in_bounds (a_shape b) i).
  { intros i Hi. apply Hl in Hi. rewrite Es in Hi. apply resolve_in_bounds; auto. }
  rewrite (fold_construct_list (elem (a_base a) (a_shape a)) _ f).
  - eexists. split; [reflexivity|]. apply constructed; auto.
  - apply NoDup_map_elem; auto. eapply repr_injective; eauto.
  - intros i Hi. eapply raw_peek; eauto. apply Hl; auto.
  - intros h' i Hi Hout. cbn [fst snd]. unfold load. rewrite Hout.
    + pose proof (Hf i (Hib i Hi)) as Hv. unfold holds in Hv. rewrite Hv. reflexivity.
    + intros C. apply in_map_iff in C. destruct C as [j [Ej Hj]].
      destruct (elem_block _ _ _ _ _ Hb (Hib i Hi)) as [E1 E2].
      destruct (elem_block _ _ _ _ j Ha) as [E3 E4]; [apply Hl; auto|].
      apply E4, Hap. congruence.
Qed.

Lemma interleave_perm {A B} (p q : A -> B) l :
  Permutation (flat_map (fun i => [p i; q i]) l) (map p l ++ map q l).
Proof.
  induction l as [|a r IH]; simpl; auto. constructor. apply Permutation_cons_app. auto.
Qed.

Lemma move_construct_spec x y h a b f : heap_ok h -> repr raw_cells x h a -> valid y h b -> has h b f ->
  apart a b -> a_shape a = resolve (a_shape b) -> copyable b ->
  exists h', move_construct c h a b = Ok h' /\ valid x h' a /\ has h' a f /\
    valid y h' b /\ has h' b (fun i => c_mv c (f i)) /\ local h [blk a; blk b] h' [blk a; blk b].
Proof.
  intros Hh Ha Hb Hf Hap Es Hcp. unfold move_construct. rewrite (repr_assert _ _ _ _ Ha). cbn [bind].
  rewrite assert_same by auto. cbn [bind].
  destruct (values_copy_spec (c_ndebug c) (a_shape b) (a_base b) (a_shape a) (a_base a)) as [l [Hl ->]].
  { rewrite Es, resolve_length; auto. }
  { eapply repr_extents; eauto. }
  { eapply pair_base; eauto. }
  cbn [bind]. rewrite foldM_map. cbn [fst snd].
  assert (Hia : forall i, In i l <-> in_bounds (a_shape a) i) by apply Hl.
  assert (Hib : forall i, In i l <-> in_bounds (a_shape b) i).
  { intros i. rewrite Hia, Es. apply resolve_in_bounds. }
  set (w := fun i => [(elem (a_base a) (a_shape a) i, Live (f i)); (elem (a_base b) (a_shape b) i, Live (c_mv c (f i)))]).
  assert (Hp : Permutation (map fst (flat_map w l)) (map (elem (a_base a) (a_shape a)) l ++ map (elem (a_base b) (a_shape b)) l)).
  { rewrite map_flat_map. unfold w. cbn [map fst]. apply interleave_perm. }
  assert (Hdis : forall i j, In i l -> In j l -> elem (a_base a) (a_shape a) i <> elem (a_base b) (a_shape b) j).
  { intros i j Hi Hj E. destruct (elem_block _ _ _ _ i Ha) as [E1 E2]; [apply Hia; auto|].
    destruct (elem_block _ _ _ _ j Hb) as [E3 E4]; [apply Hib; auto|]. apply E2, Hap. congruence. }
  assert (Hnd : NoDup (map fst (flat_map w l))).
  { eapply Permutation_NoDup; [apply Permutation_sym; exact Hp|]. apply NoDup_app.
    - apply NoDup_map_elem; auto. eapply repr_injective; eauto.
    - apply NoDup_map_elem; [eapply repr_injective; eauto|]. split; [apply Hl|exact Hib].
    - intros p H1 H2. apply in_map_iff in H1, H2. destruct H1 as [i [<- Hi]], H2 as [j [E Hj]].
      apply (Hdis i j); auto. }
  rewrite (foldM_upds _ w); auto.
  - eexists. split; [reflexivity|].
    assert (HA : has (upds h (flat_map w l)) a f).
    { intros i Hi. apply peek_upds_in; auto.
      - apply in_flat_map. exists i. split; [apply Hia; auto|left; auto].
      - rewrite (raw_peek _ _ _ _ Ha Hi). congruence. }
    assert (HB : has (upds h (flat_map w l)) b (fun i => c_mv c (f i))).
    { intros i Hi. apply peek_upds_in; auto.
      - apply in_flat_map. exists i. split; [apply Hib; auto|right; left; auto].
      - pose proof (Hf i Hi) as G. unfold holds in G. congruence. }
    assert (Hws : forall p, In p (map fst (flat_map w l)) ->
       (exists i, in_bounds (a_shape a) i /\ p = elem (a_base a) (a_shape a) i) \/
       (exists i, in_bounds (a_shape b) i /\ p = elem (a_base b) (a_shape b) i)).
    { intros p I. apply (Permutation_in _ Hp), in_app_or in I. destruct I as [I|I]; apply in_map_iff in I;
        destruct I as [i [<- Hi]]; [left|right]; exists i; split; auto; [apply Hia|apply Hib]; auto. }
    split; [|split; [exact HA|split; [|split; [exact HB|]]]].
    + apply (live_after raw_cells); auto; [apply raw_not_live| |].
      * intros i Hi. exists (f i). apply HA; auto.
      * intros p I Ep. destruct (Hws p I) as [H1|[i [Hi ->]]]; auto. exfalso.
        destruct (elem_block _ _ _ _ i Hb Hi) as [E3 E4]. unfold apart in Hap. rewrite <- Ep, E3 in Hap. auto.
    + apply (live_after live_cells); auto; [apply live_live| |].
      * intros i Hi. eexists. apply HB; auto.
      * intros p I Ep. destruct (Hws p I) as [[i [Hi ->]]|H1]; auto. exfalso.
        destruct (elem_block _ _ _ _ i Ha Hi) as [E3 E4]. unfold apart in Hap. rewrite <- Ep, E3 in Hap. auto.
    + apply upds_local; auto. intros p I. destruct (Hws p I) as [[i [Hi ->]]|[i [Hi ->]]].
      * left. destruct (elem_block _ _ _ _ i Ha Hi); auto.
      * right. left. destruct (elem_block _ _ _ _ i Hb Hi); auto.
  - intros h' i Hi Hout Hin _. unfold load.
    assert (P1 : peek h' (elem (a_base b) (a_shape b) i) = Some (Live (f i))).
    { rewrite Hin by (right; left; auto). apply Hf, Hib; auto. }
    assert (P2 : peek h' (elem (a_base a) (a_shape a) i) = Some Raw).
    { rewrite Hin by (left; auto). eapply raw_peek; eauto. apply Hia; auto. }
    rewrite P1. cbn [bind]. unfold construct_at. rewrite P2. cbn [bind]. unfold store.
    rewrite peek_upd_other by (apply Hdis; auto). rewrite P1. reflexivity.
Qed.

(** ** Constructors and assignments *)

Lemma frame_local cells x h h' K K' a : heap_ok h -> local h K h' K' -> repr cells x h a ->
  (In (blk a) K -> blk a = 0%nat) ->
  repr cells x h' a /\ (forall f, has h a f -> has h' a f) /\ (In (blk a) K' -> blk a = 0%nat) /\
  h_blk h' (blk a) = h_blk h (blk a).
Proof.
  intros Hh [O1 [N1 [A1 [B1 C1]]]] H Hk.
  assert (HK' : In (blk a) K' -> blk a = 0%nat).
  { intros I. destruct (C1 _ I) as [G|[G|G]]; auto.
    destruct (repr_block _ _ _ _ H) as [[G2 _]|[_ G2]]; auto. destruct Hh as [_ [_ Hh]]. rewrite Hh in G2 by auto. congruence. }
  assert (E : h_blk h' (blk a) = h_blk h (blk a)).
  { destruct (Nat.eq_dec (blk a) 0) as [Z|Z].
    - rewrite Z. destruct Hh as [_ [-> _]]. destruct O1 as [_ [-> _]]. auto.
    - apply A1; tauto. }
  split; [eapply repr_frame; eauto|]. split; [|auto]. intros f Hf. eapply has_frame; eauto.
Qed.

Lemma no_memory_blk a : no_memory a -> blk a = 0%nat.
Proof. intros [H _]. unfold blk. rewrite H. auto. Qed.
Lemma no_memory_null a : no_memory a -> is_null (a_base a) = true.
Proof. intros [_ [H _]]. rewrite H. auto. Qed.
Lemma valid_memory x h a : valid x h a ->
  (no_memory a /\ no_index (a_shape a) /\ extents_ge 0 (a_shape a) /\ blk a = 0%nat /\ is_null (a_base a) = true) \/
  (proper_layout (a_shape a) /\ blk a <> 0%nat /\ is_null (a_base a) = false /\ fst (a_base a) = blk a).
Proof.
  intros [Hs [[Hm [Hn He]]|[Hp [k [b [Hb [Hin Hc]]]]]]]; [left|right].
  - split; auto. split; auto. split; auto. split; [apply no_memory_blk; auto|]. apply no_memory_null; auto.
  - destruct Hin as [Hk [Ebuf [Eba _]]]. unfold blk. rewrite Ebuf, Eba. cbn [fst]. repeat split; try apply Hp; auto.
    apply is_null_block. auto.
Qed.
Lemma bases_equal x y h a b : valid x h a -> valid y h b -> apart a b ->
  ptr_eqb (a_base a) (a_base b) = true -> no_memory a /\ no_memory b.
Proof.
  intros Ha Hb Hap E. apply ptr_eqb_eq in E.
  destruct (valid_memory _ _ _ Ha) as [[H1 [_ [_ [_ H2]]]]|[_ [H1 [H2 H3]]]];
    destruct (valid_memory _ _ _ Hb) as [[G1 [_ [_ [_ G2]]]]|[_ [G1 [G2 G3]]]]; try congruence; auto.
  exfalso. apply H1, Hap. congruence.
Qed.
Lemma blank_valid x h al s : shape_arg c s -> no_index s -> extents_ge 0 s -> valid x h (blank al s).
Proof. intros H1 H2 H3. split; auto. left. split; auto. unfold no_memory, blank; auto. Qed.
Lemma blank_default x h al : fair c -> valid x h (blank al (c_shape0 c)).
Proof. intros [H1 [H2 [H3 _]]]. apply blank_valid; auto. Qed.
Lemma no_memory_has x h a f : valid x h a -> no_memory a -> has h a f.
Proof.
  intros H Hm i Hi. exfalso. destruct (repr_elem _ _ _ _ _ H Hi) as [_ [G _]]. apply G. apply no_memory_blk; auto.
Qed.
Lemma no_memory_valid x h a s : no_memory a -> shape_arg c s -> no_index s -> extents_ge 0 s -> valid x h (with_shape a s).
Proof. intros Hm H1 H2 H3. split; auto. Qed.

Lemma ctor_shape_spec x h al s : heap_ok h -> shape_arg c s ->
  exists h' a', ctor_shape c x h al s = Ok (h', a') /\ valid x h' a' /\ has h' a' (fun _ => c_dv c) /\
    local h [0%nat] h' [blk a'] /\ a_shape a' = resolve s /\ a_al a' = al.
Proof.
  intros Hh Hs. unfold ctor_shape.
  destruct (allocate_spec x h (blank al s) Hh eq_refl eq_refl Hs) as [h1 [a [-> [Hr [Hl [Es Ea]]]]]]. cbn [bind].
  destruct (construct_spec x h1 a (c_dv c)) as [h2 [E [Hv [Hhas Hl2]]]]; auto; [apply Hl|].
  unfold construct_default. rewrite E. cbn [bind]. exists h2, a. split; auto. split; auto. split; auto.
  split; auto. eapply local_trans; eauto.
Qed.

(** deallocate, then allocate for another shape *)
Lemma refit_spec x h a s : heap_ok h -> valid x h a -> shape_arg c s ->
  exists h1 a1, (' (h', a') <- deallocate c x h a ;; allocate c x h' (with_shape a' s)) = Ok (h1, a1) /\
    repr raw_cells x h1 a1 /\ local h [blk a] h1 [blk a1] /\ a_shape a1 = resolve s /\ a_al a1 = a_al a.
Proof.
  intros Hh Ha Hs.
  destruct (deallocate_raw x h a Hh Ha) as [h1 [a1 [-> [Hm [Hl [Eal _]]]]]]. cbn [bind].
  destruct (allocate_spec x h1 (with_shape a1 s)) as [h2 [a2 [-> [Hr [Hl2 [Es Ea]]]]]]; auto; [apply Hl|apply Hm|apply Hm|].
  change (a_al (with_shape a1 s)) with (a_al a1) in Ea.
  exists h2, a2. split; auto. split; auto. split; [|split; auto; congruence].
  eapply local_trans; [exact Hh|exact Hl|exact Hl2].
Qed.

Lemma assign_value_spec x h a s v : heap_ok h -> valid x h a -> shape_arg c s ->
  exists h' a', assign_value c x h a s (fun _ => Ok v) = Ok (h', a') /\ valid x h' a' /\ has h' a' (fun _ => v) /\
    local h [blk a] h' [blk a'] /\ a_shape a' = resolve s /\ a_al a' = a_al a.
Proof.
  intros Hh Ha Hs. unfold assign_value. destruct (shape_eqb (a_shape a) (resolve s)) eqn:E.
  - apply shape_eqb_eq in E.
    destruct (destroy_spec x h a Hh Ha) as [h1 [-> [Hr Hl]]]. cbn [bind].
    destruct (construct_spec x h1 a v) as [h2 [-> [Hv [Hhas Hl2]]]]; auto; [apply Hl|]. cbn [bind].
    exists h2, a. split; auto. split; auto. split; auto. split; auto. eapply local_trans; eauto.
  - destruct (refit_spec x h a (resolve s) Hh Ha) as [h1 [a1 [E1 [Hr [Hl [Es Eal]]]]]]; [apply shape_arg_resolve; auto|].
    rewrite E1. cbn [bind].
    destruct (construct_spec x h1 a1 v) as [h2 [-> [Hv [Hhas Hl2]]]]; auto; [apply Hl|]. cbn [bind].
    exists h2, a1. split; auto. split; auto. split; auto. split; [eapply local_trans; eauto|].
    split; auto. rewrite Es. apply proper_resolve2, Hs.
Qed.

Definition shape_from (a b : arr) : Prop := a_shape a = a_shape b \/ a_shape a = resolve (a_shape b).
Lemma shape_from_known a b : shape_from a b -> known_strides (a_shape b) -> a_shape a = a_shape b.
Proof. intros [H|H] Hk; auto. rewrite resolve_known in H; auto. Qed.
Lemma copyable_memory x h b : valid x h b -> ~ no_memory b -> known_strides (a_shape b).
Proof. intros [_ [[H _]|[Hp _]]] Hn; [tauto|apply Hp]. Qed.

(** The storage part of assign(const array&) and assign(array&&) *)
Lemma assign_storage x y h a b : fair c -> heap_ok h -> valid x h a -> valid y h b ->
  exists h1 a1, (if negb (is_null (a_base a)) && shape_eqb (a_shape a) (a_shape b)
                 then h' <- destroy c h a ;; Ok (h', a)
                 else ' (h', a') <- deallocate c x h a ;; allocate c x h' (with_shape a' (a_shape b))) = Ok (h1, a1) /\
    repr raw_cells x h1 a1 /\ local h [blk a] h1 [blk a1] /\ a_shape a1 = resolve (a_shape b) /\ a_al a1 = a_al a.
Proof.
  intros Hf Hh Ha Hb. destruct (negb (is_null (a_base a)) && shape_eqb (a_shape a) (a_shape b)) eqn:E.
  - apply andb_true_iff in E. destruct E as [En E]. apply shape_eqb_eq in E.
    destruct (destroy_spec x h a Hh Ha) as [h1 [-> [Hr Hl]]]. cbn [bind].
    exists h1, a. split; auto. split; auto. split; auto. split; auto.
    rewrite <- E. symmetry. apply proper_resolve.
    destruct (valid_memory _ _ _ Ha) as [[_ [_ [_ [_ C]]]]|[Hp _]]; auto. rewrite C in En. discriminate.
  - apply refit_spec; auto. apply Hb.
Qed.

Lemma assign_copy_spec x y h a b f : fair c -> heap_ok h -> valid x h a -> valid y h b -> has h b f ->
  apart a b -> copyable b ->
  exists h' a', assign_copy c x h a b = Ok (h', a') /\ valid x h' a' /\ has h' a' f /\
    local h [blk a] h' [blk a'] /\ a_al a' = a_al a /\ shape_from a' b.
Proof.
  intros Hf Hh Ha Hb Hhas Hap Hcp. unfold assign_copy. destruct (ptr_eqb (a_base a) (a_base b)) eqn:E.
  - destruct (bases_equal _ _ _ _ _ Ha Hb Hap E) as [M1 M2].
    rewrite (no_memory_null _ M1). cbn [negb].
    pose proof Hb as [Hs [[_ [Hn He]]|[_ [k [bb [_ [[Hk [Eb _]] _]]]]]]].
    2: { destruct M2 as [M2 _]. rewrite M2 in Eb. inv Eb. congruence. }
    change (a_shape (with_shape a (a_shape b))) with (a_shape b).
    rewrite (proj2 (empty_iff _ He) Hn). cbn [assert_ bind].
    exists h, (with_shape a (a_shape b)). split; auto.
    assert (Hv : valid x h (with_shape a (a_shape b))) by (apply no_memory_valid; auto).
    split; auto. split; [apply (no_memory_has x); auto|]. split; [apply local_refl; auto|]. split; auto. left; auto.
  - destruct (assign_storage x y h a b Hf Hh Ha Hb) as [h1 [a1 [E1 [Hr [Hl [Es Eal]]]]]].
    rewrite E1. cbn [bind].
    destruct (frame_local _ y h h1 _ _ b Hh Hl Hb) as [Hb1 [Hh1 [Hk1 _]]].
    { intros [I|[]]. rewrite <- I. apply Hap. auto. }
    destruct (copy_construct_spec x y h1 a1 b f) as [h2 [-> [Hv [Hhas2 Hl2]]]]; auto; [apply Hl| |].
    { intros I. rewrite I. apply Hk1. left; auto. }
    cbn [bind]. exists h2, a1. split; auto. split; auto. split; auto.
    split; [eapply local_trans; eauto|]. split; auto. right; auto.
Qed.

Lemma assign_move_spec x y h a b f : fair c -> heap_ok h -> valid x h a -> valid y h b -> has h b f ->
  apart a b -> copyable b ->
  exists h' a', assign_move c x h a b = Ok (h', a') /\ valid x h' a' /\ has h' a' f /\
    valid y h' b /\ has h' b (fun i => c_mv c (f i)) /\ apart a' b /\
    local h [blk a; blk b] h' [blk a'; blk b] /\ a_al a' = a_al a /\ shape_from a' b.
Proof.
  intros Hf Hh Ha Hb Hhas Hap Hcp. unfold assign_move. destruct (ptr_eqb (a_base a) (a_base b)) eqn:E.
  - destruct (bases_equal _ _ _ _ _ Ha Hb Hap E) as [M1 M2].
    rewrite (no_memory_null _ M1). cbn [negb].
    pose proof Hb as [Hs [[_ [Hn He]]|[_ [k [bb [_ [[Hk [Eb _]] _]]]]]]].
    2: { destruct M2 as [M2 _]. rewrite M2 in Eb. inv Eb. congruence. }
    change (a_shape (with_shape a (a_shape b))) with (a_shape b).
    rewrite (proj2 (empty_iff _ He) Hn). cbn [assert_ bind].
    exists h, (with_shape a (a_shape b)). split; auto.
    assert (Hv : valid x h (with_shape a (a_shape b))) by (apply no_memory_valid; auto).
    split; auto. split; [apply (no_memory_has x); auto|]. split; auto. split; [apply (no_memory_has y); auto|].
    split; [intros _; apply (no_memory_blk _ M1)|]. split; [apply local_refl; auto|]. split; auto. left; auto.
  - destruct (assign_storage x y h a b Hf Hh Ha Hb) as [h1 [a1 [E1 [Hr [Hl [Es Eal]]]]]].
    rewrite E1. cbn [bind].
    destruct (frame_local _ y h h1 _ _ b Hh Hl Hb) as [Hb1 [Hh1 [Hk1 _]]].
    { intros [I|[]]. rewrite <- I. apply Hap. auto. }
    assert (Hap1 : apart a1 b) by (intros I; rewrite I; apply Hk1; left; auto).
    destruct (move_construct_spec x y h1 a1 b f) as [h2 [-> [Hv [Hhas2 [Hvb [Hhasb Hl2]]]]]]; auto; [apply Hl|].
    cbn [bind]. exists h2, a1. split; auto. split; auto. split; auto. split; auto. split; auto. split; auto.
    split; [|split; auto; right; auto].
    eapply local_trans; [exact Hh| |exact Hl2].
    apply (local_perm h ([blk b] ++ [blk a]) h1 ([blk b] ++ [blk a1])).
    1,2: intros k; simpl; tauto.
    apply local_frame; auto.
Qed.

Lemma with_shape_self a : with_shape a (a_shape a) = a.
Proof. destruct a; auto. Qed.
Lemma valid_empty_assert x h a : valid x h a -> is_null (a_base a) = true ->
  assert_ (c_ndebug c) (empty (a_shape a)) = Ok tt.
Proof.
  intros H E. destruct (valid_memory _ _ _ H) as [[_ [Hn [He _]]]|[_ [_ [C _]]]]; [|congruence].
  rewrite (proj2 (empty_iff _ He) Hn). auto.
Qed.
(** Self assignment *)
Lemma self_shape_assert a : assert_ (c_ndebug c) (shape_eqb (a_shape a) (a_shape a)) = Ok tt.
Proof. rewrite (proj2 (shape_eqb_eq _ _) eq_refl). auto. Qed.
Lemma copy_assign_self x h a : valid x h a -> copy_assign_op c x h a x a = Ok (h, a).
Proof.
  intros H. unfold copy_assign_op. rewrite ptr_eqb_refl. destruct (is_null (a_base a)) eqn:E; cbn [negb].
  - rewrite with_shape_self, (valid_empty_assert _ _ _ H E). auto.
  - rewrite self_shape_assert. auto.
Qed.
Lemma assign_copy_self x h a : valid x h a -> assign_copy c x h a a = Ok (h, a).
Proof.
  intros H. unfold assign_copy. rewrite ptr_eqb_refl. destruct (is_null (a_base a)) eqn:E; cbn [negb].
  - rewrite with_shape_self, (valid_empty_assert _ _ _ H E). auto.
  - rewrite self_shape_assert. auto.
Qed.
Lemma assign_move_self x h a : valid x h a -> assign_move c x h a a = Ok (h, a).
Proof.
  intros H. unfold assign_move. rewrite ptr_eqb_refl. destruct (is_null (a_base a)) eqn:E; cbn [negb].
  - rewrite with_shape_self, (valid_empty_assert _ _ _ H E). auto.
  - rewrite self_shape_assert. auto.
Qed.
Lemma move_assign_self x h a : valid x h a -> move_assign_op c x h a x a = Ok (h, a, a).
Proof.
  intros H. unfold move_assign_op. rewrite ptr_eqb_refl. destruct (is_null (a_base a)) eqn:E; cbn [negb].
  - rewrite with_shape_self, (valid_empty_assert _ _ _ H E). auto.
  - rewrite self_shape_assert. auto.
Qed.

Lemma ctor_copy_spec x y h b f : fair c -> heap_ok h -> valid y h b -> has h b f -> copyable b ->
  exists h' a', ctor_copy c x h b = Ok (h', a') /\ valid x h' a' /\ has h' a' f /\
    local h [0%nat] h' [blk a'] /\ a_al a' = c_select c (a_al b) /\ shape_from a' b.
Proof.
  intros Hf Hh Hb Hhas Hcp. unfold ctor_copy.
  destruct (assign_copy_spec x y h (blank (c_select c (a_al b)) (c_shape0 c)) b f) as [h' [a' H]]; auto.
  - apply blank_default; auto.
  - intros _. auto.
  - exists h', a'. auto.
Qed.
Lemma ctor_copy_alloc_spec x y h b f al : fair c -> heap_ok h -> valid y h b -> has h b f -> copyable b ->
  exists h' a', ctor_copy_alloc c x h b al = Ok (h', a') /\ valid x h' a' /\ has h' a' f /\
    local h [0%nat] h' [blk a'] /\ a_al a' = al /\ shape_from a' b.
Proof.
  intros Hf Hh Hb Hhas Hcp. unfold ctor_copy_alloc.
  destruct (ctor_shape_spec x h al (c_shape0 c) Hh) as [h1 [a1 [-> [Hv [_ [Hl [_ Eal]]]]]]]; [apply Hf|]. cbn [bind].
  destruct (frame_local _ y h h1 _ _ b Hh Hl Hb) as [Hb1 [Hh1 [Hk1 _]]]; [intros [I|[]]; auto|].
  destruct (assign_copy_spec x y h1 a1 b f) as [h' [a' [E [H1 [H2 [H3 [H4 H5]]]]]]]; auto.
  - apply Hl.
  - intros I. rewrite I. apply Hk1. left; auto.
  - exists h', a'. split; auto. split; auto. split; auto. split; [eapply local_trans; eauto|]. split; auto. congruence.
Qed.
Lemma ctor_value_spec x h al s v : shape_arg c (c_shape0 c) -> heap_ok h -> shape_arg c s ->
  exists h' a', ctor_value c x h al s v = Ok (h', a') /\ valid x h' a' /\ has h' a' (fun _ => v) /\
    local h [0%nat] h' [blk a'] /\ a_shape a' = resolve s /\ a_al a' = al.
Proof.
  intros Hf Hh Hs. unfold ctor_value.
  destruct (ctor_shape_spec x h al (c_shape0 c) Hh) as [h1 [a1 [-> [Hv [_ [Hl [_ Eal]]]]]]]; [exact Hf|]. cbn [bind].
  destruct (assign_value_spec x h1 a1 s v) as [h2 [a2 [-> [H1 [H2 [H3 [H4 H5]]]]]]]; auto; [apply Hl|].
  exists h2, a2. split; auto. split; auto. split; auto. split; [eapply local_trans; eauto|]. split; congruence.
Qed.
Lemma clear_spec x h a : fair c -> heap_ok h -> valid x h a ->
  exists h' a', clear c x h a = Ok (h', a') /\ valid x h' a' /\ local h [blk a] h' [blk a'] /\
    a_shape a' = resolve (c_shape0 c) /\ a_al a' = a_al a.
Proof.
  intros Hf Hh Ha. unfold clear.
  destruct (deallocate_spec x h a Hf Hh Ha) as [h1 [a1 [-> [Hv [Hm [Hl [Eal _]]]]]]]. cbn [bind].
  destruct (allocate_spec x h1 (with_shape a1 (c_shape0 c))) as [h2 [a2 [-> [Hr [Hl2 [Es Ea]]]]]];
    [apply Hl|apply Hm|apply Hm|apply Hf|]. cbn [bind].
  change (a_al (with_shape a1 (c_shape0 c))) with (a_al a1) in Ea.
  destruct (construct_spec x h2 a2 (c_dv c)) as [h3 [E [Hv3 [_ Hl3]]]]; auto; [apply Hl2|].
  unfold construct_default. rewrite E. cbn [bind]. exists h3, a2. split; auto. split; auto.
  split; [|split; auto; congruence].
  eapply local_trans; [exact Hh|exact Hl|]. eapply local_trans; [apply Hl|exact Hl2|exact Hl3].
Qed.

(** ** Taking over memory *)

Definition takes (al : nat) (b : arr) : arr := mkA al false (a_buf b) (a_bufsize b) (a_base b) (a_shape b).
Lemma takes_valid x y h al b : valid y h b -> a_busy b = false -> (al = a_al b \/ no_memory b) -> valid x h (takes al b).
Proof.
  intros [Hs H] Hbz Hal. split; auto. destruct H as [[[Hm1 [Hm2 _]] R]|[Hp [k [bb [Hbb [Hin Hc]]]]]].
  - left. split; auto. unfold no_memory, takes; auto.
  - right. split; auto. exists k, bb. split; auto. split; auto. unfold in_block in *. cbn [takes a_buf a_base a_shape a_bufsize a_busy a_al].
    rewrite Hbz in Hin. destruct Hal as [->|[Hm _]].
    + tauto.
    + exfalso. destruct Hin as [Hk [Eb _]]. rewrite Hm in Eb. inv Eb. congruence.
Qed.
Lemma takes_has h al b f : has h b f -> has h (takes al b) f.
Proof. auto. Qed.
Lemma not_busy x h a : valid x h a -> c_cap c < 0 -> a_busy a = false.
Proof.
  intros [_ [[[_ [_ H]] _]|[_ [k [b [_ [Hin _]]]]]]] Hc; auto.
  destruct (a_busy a) eqn:E; auto. unfold in_block in Hin. rewrite E in Hin.
  destruct Hin as [_ [_ [_ [_ [_ [Hpos [_ Hcap]]]]]]]. pose proof (proj1 Hcap eq_refl). lia.
Qed.
Lemma swap_takes a b : a_busy a = false -> a_busy b = false ->
  swap_except_allocator a b = (takes (a_al a) b, takes (a_al b) a).
Proof. unfold swap_except_allocator, takes. intros -> ->. auto. Qed.
Lemma apart_sym a b : apart a b -> apart b a.
Proof. unfold apart. intros H E. rewrite E. apply H; auto. Qed.

(** What move construction and move assignment do to target and source *)
Definition moved (x y : nat) h (K : list nat) (b : arr) f h' a' b' : Prop :=
  valid x h' a' /\ has h' a' f /\ valid y h' b' /\ apart a' b' /\ local h K h' [blk a'; blk b'] /\ shape_from a' b.

Lemma ctor_move_alloc_spec x y h b f al : fair c -> heap_ok h -> x <> y -> valid y h b -> has h b f -> copyable b ->
  exists h' a' b', ctor_move_alloc c x h y b al = Ok (h', a', b') /\ moved x y h [0%nat; blk b] b f h' a' b' /\
   (if negb (a_busy b) && (al =? a_al b)%nat
    then h' = h /\ no_memory b' /\ a_shape b' = c_shape0 c /\ a_shape a' = a_shape b /\ a_base a' = a_base b
    else b' = b /\ has h' b (fun i => c_mv c (f i))).
Proof.
  intros Hf Hh Hxy Hb Hhas Hcp. unfold ctor_move_alloc, alloc_eq. cbn [blank a_busy orb a_al].
  assert (Hbl : valid y h (blank (a_al b) (c_shape0 c))) by (apply blank_default; auto).
  destruct (a_busy b) eqn:Ebz.
  - rewrite (proj2 (Nat.eqb_neq x y) Hxy). cbn [negb andb].
    destruct (allocate_spec x h (with_shape (blank al (c_shape0 c)) (a_shape b))) as [h1 [a1 [-> [Hr [Hl [Es Ea]]]]]]; auto; [apply Hb|].
    cbn [bind]. change (blk (with_shape (blank al (c_shape0 c)) (a_shape b))) with 0%nat in Hl.
    destruct (frame_local _ y h h1 _ _ b Hh Hl Hb) as [Hb1 [Hh1 [Hk1 _]]]; [intros [I|[]]; auto|].
    assert (Hap1 : apart a1 b) by (intros I; rewrite I; apply Hk1; left; auto).
    destruct (move_construct_spec x y h1 a1 b f) as [h2 [-> [Hv [Hhas2 [Hvb [Hhasb Hl2]]]]]]; auto; [apply Hl|].
    cbn [bind]. exists h2, a1, b. split; auto. split; [|auto]. split; auto. split; auto. split; auto. split; auto.
    split; [|right; auto]. eapply local_trans; [exact Hh| |exact Hl2].
    apply (local_perm h ([blk b] ++ [0%nat]) h1 ([blk b] ++ [blk a1])); [intros k; simpl; tauto|intros k; simpl; tauto|].
    apply local_frame; auto.
  - cbn [negb andb]. destruct (Nat.eqb_spec al (a_al b)) as [Eal|Eal].
    + rewrite swap_takes by auto.
      eexists _, _, _. split; [reflexivity|].
      assert (Hap : apart (takes al b) (takes (a_al b) (blank al (c_shape0 c)))).
      { intros E. rewrite E. auto. }
      split.
      * split; [apply (takes_valid x y); auto|]. split; [apply takes_has; auto|].
        split; [apply (takes_valid y y); [apply blank_default; auto | auto | right; unfold no_memory, blank; auto]|].
        split; auto. split; [|left; auto]. apply (local_perm h [0%nat; blk b] h [0%nat; blk b]); [tauto| |apply local_refl; auto].
        intros k. unfold blk, takes, blank. simpl. tauto.
      * split; auto. split; [unfold no_memory, takes, blank; auto|]. auto.
    + destruct (allocate_spec x h (with_shape (blank al (c_shape0 c)) (a_shape b))) as [h1 [a1 [-> [Hr [Hl [Es Ea]]]]]]; auto; [apply Hb|].
      cbn [bind]. change (blk (with_shape (blank al (c_shape0 c)) (a_shape b))) with 0%nat in Hl.
      destruct (frame_local _ y h h1 _ _ b Hh Hl Hb) as [Hb1 [Hh1 [Hk1 _]]]; [intros [I|[]]; auto|].
      assert (Hap1 : apart a1 b) by (intros I; rewrite I; apply Hk1; left; auto).
      destruct (move_construct_spec x y h1 a1 b f) as [h2 [-> [Hv [Hhas2 [Hvb [Hhasb Hl2]]]]]]; auto; [apply Hl|].
      cbn [bind]. exists h2, a1, b. split; auto. split; [|auto]. split; auto. split; auto. split; auto. split; auto.
      split; [|right; auto]. eapply local_trans; [exact Hh| |exact Hl2].
      apply (local_perm h ([blk b] ++ [0%nat]) h1 ([blk b] ++ [blk a1])); [intros k; simpl; tauto|intros k; simpl; tauto|].
      apply local_frame; auto.
Qed.

Lemma ctor_move_spec x y h b f : fair c -> heap_ok h -> x <> y -> valid y h b -> has h b f -> copyable b ->
  exists h' a' b', ctor_move c x h y b = Ok (h', a', b') /\ moved x y h [0%nat; blk b] b f h' a' b' /\
   (if c_pocma c || (negb (a_busy b) && (c_default c =? a_al b)%nat)
    then h' = h /\ no_memory b' /\ a_shape b' = c_shape0 c /\ a_shape a' = a_shape b /\ a_base a' = a_base b
    else b' = b /\ has h' b (fun i => c_mv c (f i))).
Proof.
  intros Hf Hh Hxy Hb Hhas Hcp. unfold ctor_move. destruct (c_pocma c) eqn:Ep; cbn [orb].
  - assert (Hbz : a_busy b = false).
    { apply (not_busy y h); auto. destruct Hf as [_ [_ [_ [Hc|[_ [Hc _]]]]]]; [auto|congruence]. }
    destruct (ctor_move_alloc_spec x y h b f (a_al b) Hf Hh Hxy Hb Hhas Hcp) as [h' [a' [b' [E [Hm Hx]]]]].
    unfold ctor_move_alloc, alloc_eq in E. cbn [blank a_busy orb a_al] in E. rewrite Hbz, Nat.eqb_refl in E.
    rewrite E. exists h', a', b'. rewrite Hbz, Nat.eqb_refl in Hx. auto.
  - apply (ctor_move_alloc_spec x y h b f (c_default c)); auto.
Qed.

(** ** Assignment operators *)

Lemma copy_assign_spec x y h a b f : fair c -> heap_ok h -> valid x h a -> valid y h b -> has h b f ->
  apart a b -> copyable b ->
  exists h' a', copy_assign_op c x h a y b = Ok (h', a') /\ valid x h' a' /\ has h' a' f /\
    local h [blk a] h' [blk a'] /\ shape_from a' b /\
    a_al a' = (if c_pocca c then if ptr_eqb (a_base a) (a_base b) then a_al a else a_al b else a_al a).
Proof.
  intros Hf Hh Ha Hb Hhas Hap Hcp. unfold copy_assign_op.
  destruct (assign_copy_spec x y h a b f Hf Hh Ha Hb Hhas Hap Hcp) as [h0 [a0 [E0 [V0 [H0 [L0 [Al0 S0]]]]]]].
  destruct (ptr_eqb (a_base a) (a_base b)) eqn:E.
  - unfold assign_copy in E0. rewrite E in E0. rewrite E0. exists h0, a0. repeat (split; auto). destruct (c_pocca c); auto.
  - destruct (c_pocca c) eqn:Ep; cbn [bind]; [|exists h0, a0; repeat (split; auto)].
    assert (Hbz : forall z b0, valid z h b0 -> a_busy b0 = false).
    { intros z b0 Hv. apply (not_busy z h); auto. destruct Hf as [_ [_ [_ [Hc|[Hc _]]]]]; [auto|congruence]. }
    unfold alloc_eq. rewrite (Hbz x a Ha), (Hbz y b Hb). cbn [orb].
    destruct (Nat.eqb_spec (a_al a) (a_al b)) as [Eal|Eal]; cbn [negb bind].
    + replace (set_al a (a_al b)) with a by (rewrite <- Eal; destruct a; auto).
      exists h0, a0. repeat (split; auto). congruence.
    + destruct (deallocate_spec x h a Hf Hh Ha) as [h1 [a1 [-> [Hv [Hm [Hl [Eal1 _]]]]]]]. cbn [bind].
      destruct (frame_local _ y h h1 _ _ b Hh Hl Hb) as [Hb1 [Hh1 [Hk1 _]]].
      { intros [I|[]]. rewrite <- I. apply Hap. auto. }
      destruct (assign_copy_spec x y h1 (set_al a1 (a_al b)) b f) as [h2 [a2 [E2 [V2 [H2 [L2 [Al2 S2]]]]]]]; auto.
      * apply Hl.
      * destruct Hv as [Hs [[M R]|[Hp [k [bb [_ [Hin _]]]]]]].
        -- split; auto.
        -- exfalso. destruct Hin as [Hk [Eb _]]. destruct Hm as [Hm _]. rewrite Hm in Eb. inv Eb. congruence.
      * intros _. destruct Hm as [Hm _]. unfold blk. cbn [set_al a_buf]. rewrite Hm. auto.
      * exists h2, a2. split; auto. split; auto. split; auto. split; [|auto].
        eapply local_trans; [exact Hh|exact Hl|exact L2].
Qed.

Lemma takes_apart al al' a b : apart a b -> apart (takes al b) (takes al' a).
Proof. intros H E. cbn [takes blk a_buf] in *. unfold blk, takes in *. cbn [a_buf] in *. rewrite E. apply H. auto. Qed.
Lemma blk_takes al b : blk (takes al b) = blk b.
Proof. auto. Qed.

Lemma move_assign_spec x y h a b f : fair c -> heap_ok h -> x <> y -> valid x h a -> valid y h b -> has h b f ->
  apart a b -> copyable b ->
  exists h' a' b', move_assign_op c x h a y b = Ok (h', a', b') /\ moved x y h [blk a; blk b] b f h' a' b' /\
   (if c_pocma c || negb (a_busy a || a_busy b) && (a_al a =? a_al b)%nat
    then h' = h /\ a_shape a' = a_shape b /\ a_base a' = a_base b /\ a_shape b' = a_shape a /\ a_base b' = a_base a
    else (b' = b /\ has h' b (fun i => c_mv c (f i))) \/ (no_memory b /\ no_memory b')).
Proof.
  intros Hf Hh Hxy Ha Hb Hhas Hap Hcp. unfold move_assign_op. destruct (ptr_eqb (a_base a) (a_base b)) eqn:E.
  - destruct (bases_equal _ _ _ _ _ Ha Hb Hap E) as [M1 M2].
    rewrite (no_memory_null _ M1). cbn [negb].
    assert (Hs : forall z d, valid z h d -> no_memory d -> shape_arg c (a_shape d) /\ no_index (a_shape d) /\ extents_ge 0 (a_shape d)).
    { intros z d [Hs [[_ R]|[_ [k [bb [_ [[Hk [Eb _]] _]]]]]]] [Hm _]; [auto|]. rewrite Hm in Eb. inv Eb. congruence. }
    destruct (Hs x a Ha M1) as [A1 [A2 A3]]. destruct (Hs y b Hb M2) as [B1 [B2 B3]].
    change (a_shape (with_shape a (a_shape b))) with (a_shape b).
    rewrite (proj2 (empty_iff _ B3) B2). cbn [assert_ bind].
    eexists _, _, _. split; [reflexivity|].
    assert (Hv : valid x h (with_shape a (a_shape b))) by (apply no_memory_valid; auto).
    assert (Hv2 : valid y h (with_shape b (a_shape a))) by (apply no_memory_valid; auto).
    split.
    + split; auto. split; [apply (no_memory_has x); auto|]. split; auto.
      split; [intros _; apply (no_memory_blk _ M1)|]. split; [|left; auto]. apply local_refl; auto.
    + apply ptr_eqb_eq in E. destruct (_ || _); [|right; split; [exact M2|exact M2]]. repeat split; auto.
  - destruct (c_pocma c) eqn:Ep; cbn [orb].
    + assert (Hbz : forall z b0, valid z h b0 -> a_busy b0 = false).
      { intros z b0 Hv. apply (not_busy z h); auto. destruct Hf as [_ [_ [_ [Hc|[_ [Hc _]]]]]]; [auto|congruence]. }
      unfold swap_allocators.
      rewrite swap_takes by (cbn [set_al a_busy]; eauto). cbn [set_al a_al].
      change (takes (a_al b) (set_al b (a_al a))) with (takes (a_al b) b).
      change (takes (a_al a) (set_al a (a_al b))) with (takes (a_al a) a).
      eexists _, _, _. split; [reflexivity|]. split.
      * split; [apply (takes_valid x y); eauto|]. split; [exact Hhas|].
        split; [apply (takes_valid y x); eauto|].
        split; [apply (takes_apart _ _ a b); auto|]. split; [|left; auto].
        apply (local_perm h [blk a; blk b] h [blk a; blk b]); [tauto| |apply local_refl; auto].
        intros k. simpl. unfold blk. simpl. tauto.
      * repeat split; auto.
    + unfold alloc_eq. destruct (a_busy a || a_busy b) eqn:Ebz; cbn [negb andb].
      * rewrite (proj2 (Nat.eqb_neq x y) Hxy).
        destruct (assign_move_spec x y h a b f Hf Hh Ha Hb Hhas Hap Hcp) as [h1 [a1 [-> [V1 [H1 [V2 [H2 [Ap [L [_ Sf]]]]]]]]]].
        cbn [bind]. exists h1, a1, b. split; auto. split; [|auto]. unfold moved. repeat (split; auto).
      * apply orb_false_iff in Ebz. destruct Ebz as [Ba Bb].
        destruct (Nat.eqb_spec (a_al a) (a_al b)) as [Eal|Eal].
        -- rewrite swap_takes by auto. eexists _, _, _. split; [reflexivity|]. split.
           ++ split; [apply (takes_valid x y); auto|]. split; [exact Hhas|].
              split; [apply (takes_valid y x); auto|].
              split; [apply (takes_apart _ _ a b); auto|]. split; [|left; auto].
              apply (local_perm h [blk a; blk b] h [blk a; blk b]); [tauto| |apply local_refl; auto].
              intros k. simpl. unfold blk. simpl. tauto.
           ++ repeat split; auto.
        -- destruct (assign_move_spec x y h a b f Hf Hh Ha Hb Hhas Hap Hcp) as [h1 [a1 [-> [V1 [H1 [V2 [H2 [Ap [L [_ Sf]]]]]]]]]].
           cbn [bind]. exists h1, a1, b. split; auto. split; [|auto]. unfold moved. repeat (split; auto).
Qed.

(** ** Copying and moving elements between arrays *)

Definition idx_dec : forall i j : list Z, {i = j} + {i <> j} := list_eq_dec Z.eq_dec.
Definition patch (l : list (list Z)) (f g : list Z -> V) (i : list Z) : V := if in_dec idx_dec i l then f i else g i.

Lemma elems_differ x y h a b i j : valid x h a -> valid y h b -> apart a b ->
  in_bounds (a_shape a) i -> in_bounds (a_shape b) j ->
  elem (a_base a) (a_shape a) i <> elem (a_base b) (a_shape b) j.
Proof.
  intros Ha Hb Hap Hi Hj E. destruct (elem_block _ _ _ _ _ Ha Hi) as [E1 E2].
  destruct (elem_block _ _ _ _ _ Hb Hj) as [E3 E4]. apply E2, Hap. congruence.
Qed.
Lemma elem_unique x h a i j : valid x h a -> in_bounds (a_shape a) i -> in_bounds (a_shape a) j ->
  elem (a_base a) (a_shape a) i = elem (a_base a) (a_shape a) j -> i = j.
Proof.
  intros Ha Hi Hj E. apply (repr_injective _ _ _ _ Ha); auto. apply (elem_inj (a_base a)); auto.
Qed.

Lemma copy_elems_spec x y h a b f g l : heap_ok h -> valid x h a -> valid y h b -> has h a g -> has h b f ->
  apart a b -> NoDup l -> (forall i, In i l -> in_bounds (a_shape a) i /\ in_bounds (a_shape b) i) ->
  exists h', foldM copy_assign (map (fun i => (elem (a_base b) (a_shape b) i, elem (a_base a) (a_shape a) i)) l) h = Ok h' /\
    valid x h' a /\ has h' a (patch l f g) /\ local h [blk a] h' [blk a].
Proof.
  intros Hh Ha Hb Hg Hf Hap Hnd Hl. rewrite foldM_map.
  set (w := fun i => [(elem (a_base a) (a_shape a) i, Live (f i))]).
  assert (Hfm : map fst (flat_map w l) = map (elem (a_base a) (a_shape a)) l).
  { rewrite map_flat_map. unfold w. cbn [map fst]. rewrite flat_map_sing. auto. }
  assert (HndW : NoDup (map fst (flat_map w l))).
  { rewrite Hfm. apply NoDup_map_inj; auto. intros i j Hi Hj E. apply (elem_unique x h a); auto; apply Hl; auto. }
  rewrite (foldM_upds _ w); auto.
  - eexists. split; [reflexivity|].
    assert (HA : has (upds h (flat_map w l)) a (patch l f g)).
    { intros i Hi. unfold patch. destruct (in_dec idx_dec i l) as [I|I].
      - apply peek_upds_in; auto.
        + apply in_flat_map. exists i. split; auto. left; auto.
        + pose proof (Hg i Hi) as G. unfold holds in G. congruence.
      - unfold holds. rewrite peek_upds_out; [apply Hg; auto|]. rewrite Hfm. intros C. apply in_map_iff in C.
        destruct C as [j [E Hj]]. apply I. replace i with j; auto. apply (elem_unique x h a); auto. apply Hl; auto. }
    assert (Hws : forall p, In p (map fst (flat_map w l)) -> is_elem (a_base a) (a_shape a) p).
    { intros p I. rewrite Hfm in I. apply in_map_iff in I. destruct I as [i [<- Hi]]. exists i. split; auto. apply Hl; auto. }
    split; [|split; auto].
    + apply (live_after live_cells); auto; [apply live_live|]. intros i Hi. eexists. apply HA; auto.
    + apply upds_local; auto. intros p I. destruct (Hws p I) as [i [Hi ->]]. left.
      destruct (elem_block _ _ _ _ _ Ha Hi); auto.
  - intros h' i Hi Hout Hin _. unfold copy_assign. cbn [fst snd]. destruct (Hl i Hi) as [L1 L2]. unfold load.
    rewrite Hout.
    + rewrite (Hf i L2). cbn [bind]. rewrite store_ok; [reflexivity|]. exists (g i). unfold holds.
      rewrite Hin by (left; auto). apply Hg; auto.
    + rewrite Hfm. intros C. apply in_map_iff in C. destruct C as [j [E Hj]].
      apply (elems_differ x y h a b j i); auto. apply Hl; auto.
Qed.

Lemma move_elems_spec x y h a b f g l : heap_ok h -> valid x h a -> valid y h b -> has h a g -> has h b f ->
  apart a b -> NoDup l -> (forall i, In i l -> in_bounds (a_shape a) i /\ in_bounds (a_shape b) i) ->
  exists h', foldM (move_assign (c_mv c)) (map (fun i => (elem (a_base b) (a_shape b) i, elem (a_base a) (a_shape a) i)) l) h = Ok h' /\
    valid x h' a /\ has h' a (patch l f g) /\ valid y h' b /\ has h' b (patch l (fun i => c_mv c (f i)) f) /\
    local h [blk a; blk b] h' [blk a; blk b].
Proof.
  intros Hh Ha Hb Hg Hf Hap Hnd Hl. rewrite foldM_map.
  set (w := fun i => [(elem (a_base a) (a_shape a) i, Live (f i)); (elem (a_base b) (a_shape b) i, Live (c_mv c (f i)))]).
  assert (Hp : Permutation (map fst (flat_map w l)) (map (elem (a_base a) (a_shape a)) l ++ map (elem (a_base b) (a_shape b)) l)).
  { rewrite map_flat_map. unfold w. cbn [map fst]. apply interleave_perm. }
  assert (HndW : NoDup (map fst (flat_map w l))).
  { eapply Permutation_NoDup; [apply Permutation_sym; exact Hp|]. apply NoDup_app.
    - apply NoDup_map_inj; auto. intros i j Hi Hj E. apply (elem_unique x h a); auto; apply Hl; auto.
    - apply NoDup_map_inj; auto. intros i j Hi Hj E. apply (elem_unique y h b); auto; apply Hl; auto.
    - intros p H1 H2. apply in_map_iff in H1, H2. destruct H1 as [i [<- Hi]], H2 as [j [E Hj]].
      apply (elems_differ x y h a b i j); auto; apply Hl; auto. }
  assert (Hws : forall p, In p (map fst (flat_map w l)) ->
     (exists i, In i l /\ p = elem (a_base a) (a_shape a) i) \/ (exists i, In i l /\ p = elem (a_base b) (a_shape b) i)).
  { intros p I. apply (Permutation_in _ Hp), in_app_or in I. destruct I as [I|I]; apply in_map_iff in I;
      destruct I as [i [<- Hi]]; [left|right]; exists i; split; auto. }
  rewrite (foldM_upds _ w); auto.
  - eexists. split; [reflexivity|].
    assert (HA : has (upds h (flat_map w l)) a (patch l f g)).
    { intros i Hi. unfold patch. destruct (in_dec idx_dec i l) as [I|I].
      - apply peek_upds_in; auto.
        + apply in_flat_map. exists i. split; auto. left; auto.
        + pose proof (Hg i Hi) as G. unfold holds in G. congruence.
      - unfold holds. rewrite peek_upds_out; [apply Hg; auto|]. intros C.
        destruct (Hws _ C) as [[j [Hj E]]|[j [Hj E]]].
        + apply I. replace i with j; auto. apply (elem_unique x h a); auto. apply Hl; auto.
        + apply (elems_differ x y h a b i j); auto. apply Hl; auto. }
    assert (HB : has (upds h (flat_map w l)) b (patch l (fun i => c_mv c (f i)) f)).
    { intros i Hi. unfold patch. destruct (in_dec idx_dec i l) as [I|I].
      - apply peek_upds_in; auto.
        + apply in_flat_map. exists i. split; auto. right; left; auto.
        + pose proof (Hf i Hi) as G. unfold holds in G. congruence.
      - unfold holds. rewrite peek_upds_out; [apply Hf; auto|]. intros C.
        destruct (Hws _ C) as [[j [Hj E]]|[j [Hj E]]].
        + apply (elems_differ x y h a b j i); auto. apply Hl; auto.
        + apply I. replace i with j; auto. apply (elem_unique y h b); auto. apply Hl; auto. }
    split; [|split; [exact HA|split; [|split; [exact HB|]]]].
    + apply (live_after live_cells); auto; [apply live_live| |].
      * intros i Hi. eexists. apply HA; auto.
      * intros p I Ep. destruct (Hws p I) as [[i [Hi ->]]|[i [Hi ->]]].
        -- exists i. split; auto. apply Hl; auto.
        -- exfalso. destruct (elem_block _ _ _ _ i Hb) as [E3 E4]; [apply Hl; auto|]. unfold apart in Hap. rewrite <- Ep, E3 in Hap. auto.
    + apply (live_after live_cells); auto; [apply live_live| |].
      * intros i Hi. eexists. apply HB; auto.
      * intros p I Ep. destruct (Hws p I) as [[i [Hi ->]]|[i [Hi ->]]].
        -- exfalso. destruct (elem_block _ _ _ _ i Ha) as [E3 E4]; [apply Hl; auto|]. unfold apart in Hap. rewrite <- Ep, E3 in Hap. auto.
        -- exists i. split; auto. apply Hl; auto.
    + apply upds_local; auto. intros p I. destruct (Hws p I) as [[i [Hi ->]]|[i [Hi ->]]].
      * left. destruct (elem_block _ _ _ _ i Ha); auto. apply Hl; auto.
      * right. left. destruct (elem_block _ _ _ _ i Hb); auto. apply Hl; auto.
  - intros h' i Hi Hout Hin _. unfold move_assign. cbn [fst snd]. destruct (Hl i Hi) as [L1 L2]. unfold load.
    assert (P1 : peek h' (elem (a_base b) (a_shape b) i) = Some (Live (f i))).
    { rewrite Hin by (right; left; auto). apply Hf; auto. }
    rewrite P1. cbn [bind]. rewrite store_ok.
    + cbn [bind]. rewrite store_ok; [reflexivity|]. exists (f i). unfold holds. rewrite peek_upd_other; auto.
      apply (elems_differ x y h a b i i); auto.
    + exists (g i). unfold holds. rewrite Hin by (left; auto). apply Hg; auto.
Qed.

Lemma copy_aref_spec x y h a b f g : heap_ok h -> valid x h a -> valid y h b -> has h a g -> has h b f ->
  apart a b -> within (a_shape a) (a_shape b) ->
  exists h', copy (c_ndebug c) h (aref_of b) (aref_of a) = Ok h' /\
    valid x h' a /\ has h' a f /\ local h [blk a] h' [blk a].
Proof.
  intros Hh Ha Hb Hg Hf Hap Hw. unfold copy. cbn [aref_of r_shape r_base].
  pose proof (repr_extents _ _ _ _ Ha) as He.
  destruct (empty (a_shape a)) eqn:E.
  - exists h. split; auto. split; auto. split; [|apply local_refl; auto].
    intros i Hi. destruct (empty_no_index _ He E i Hi).
  - assert (Hlen : length (a_shape b) = length (a_shape a)).
    { destruct Ha as [[H1 _] _], Hb as [[H2 _] _]. congruence. }
    rewrite (proj2 (in_range_corners _ _ Hlen (not_empty_ge1 _ He E)) Hw). cbn [assert_ bind].
    destruct (values_copy_spec (c_ndebug c) (a_shape b) (a_base b) (a_shape a) (a_base a) Hlen He) as [l [Hl ->]].
    { destruct (repr_base _ _ _ _ Ha) as [H1|H1]; auto. destruct (repr_base _ _ _ _ Hb) as [H2|H2]; auto.
      right. intros i Hi. exact (H2 i (Hw i Hi)). }
    cbn [bind]. destruct (copy_elems_spec x y h a b f g l) as [h' [-> [V1 [H1 L]]]]; auto; [apply Hl| |].
    { intros i Hi. apply Hl in Hi. auto. }
    exists h'. split; auto. split; auto. split; auto. intros i Hi. specialize (H1 i Hi). unfold patch in H1.
    destruct (in_dec idx_dec i l) as [I|I]; auto. exfalso. apply I, Hl; auto.
Qed.
Lemma move_aref_spec x y h a b f g : heap_ok h -> valid x h a -> valid y h b -> has h a g -> has h b f ->
  apart a b -> within (a_shape a) (a_shape b) ->
  exists h' f', move (c_ndebug c) (c_mv c) h (aref_of b) (aref_of a) = Ok h' /\
    valid x h' a /\ has h' a f /\ valid y h' b /\ has h' b f' /\
    (forall i, ~ in_bounds (a_shape a) i -> f' i = f i) /\ (forall i, in_bounds (a_shape a) i -> f' i = c_mv c (f i)) /\
    local h [blk a; blk b] h' [blk a; blk b].
Proof.
  intros Hh Ha Hb Hg Hf Hap Hw. unfold move. cbn [aref_of r_shape r_base].
  pose proof (repr_extents _ _ _ _ Ha) as He.
  destruct (empty (a_shape a)) eqn:E.
  - exists h, f. split; auto. split; auto.
    assert (N : forall i, ~ in_bounds (a_shape a) i) by (apply empty_no_index; auto).
    split; [intros i Hi; destruct (N i Hi)|]. split; auto. split; auto. split; auto. split; [|apply local_refl; auto].
    intros i Hi. destruct (N i Hi).
  - assert (Hlen : length (a_shape b) = length (a_shape a)).
    { destruct Ha as [[H1 _] _], Hb as [[H2 _] _]. congruence. }
    rewrite (proj2 (in_range_corners _ _ Hlen (not_empty_ge1 _ He E)) Hw). cbn [assert_ bind].
    destruct (values_copy_spec (c_ndebug c) (a_shape b) (a_base b) (a_shape a) (a_base a) Hlen He) as [l [Hl ->]].
    { destruct (repr_base _ _ _ _ Ha) as [H1|H1]; auto. destruct (repr_base _ _ _ _ Hb) as [H2|H2]; auto.
      right. intros i Hi. exact (H2 i (Hw i Hi)). }
    cbn [bind]. destruct (move_elems_spec x y h a b f g l) as [h' [-> [V1 [H1 [V2 [H2 L]]]]]]; auto; [apply Hl| |].
    { intros i Hi. apply Hl in Hi. auto. }
    exists h', (patch l (fun i => c_mv c (f i)) f). split; auto. split; auto. split.
    { intros i Hi. specialize (H1 i Hi). unfold patch in H1.
      destruct (in_dec idx_dec i l) as [I|I]; auto. exfalso. apply I, Hl; auto. }
    split; auto. split; auto. unfold patch. split; [|split; auto]; intros i Hi.
    + destruct (in_dec idx_dec i l) as [I|I]; auto. exfalso. apply Hi, Hl; auto.
    + destruct (in_dec idx_dec i l) as [I|I]; auto. exfalso. apply I, Hl; auto.
Qed.

Lemma make_copy_spec x y h b f s al : heap_ok h -> valid y h b -> has h b f -> shape_arg c s ->
  within (resolve s) (a_shape b) ->
  exists h' a', make_copy c x h (aref_of b) s al = Ok (h', a') /\ valid x h' a' /\ has h' a' f /\
    local h [0%nat] h' [blk a'] /\ a_shape a' = resolve s /\ a_al a' = al.
Proof.
  intros Hh Hb Hf Hs Hw. unfold make_copy.
  destruct (ctor_shape_spec x h al s Hh Hs) as [h1 [a1 [-> [Hv [Hd [Hl [Es Eal]]]]]]]. cbn [bind].
  destruct (frame_local _ y h h1 _ _ b Hh Hl Hb) as [Hb1 [Hh1 [Hk1 _]]]; [intros [I|[]]; auto|].
  destruct (copy_aref_spec x y h1 a1 b f (fun _ => c_dv c)) as [h2 [-> [V2 [H2 L2]]]]; auto.
  - apply Hl.
  - intros I. rewrite I. apply Hk1. left; auto.
  - rewrite Es. auto.
  - cbn [bind]. exists h2, a1. split; auto. split; auto. split; auto. split; [eapply local_trans; eauto|]. auto.
Qed.
Lemma make_move_spec x y h b f s al : heap_ok h -> valid y h b -> has h b f -> shape_arg c s ->
  within (resolve s) (a_shape b) ->
  exists h' a' f', make_move c x h (aref_of b) s al = Ok (h', a') /\ valid x h' a' /\ has h' a' f /\
    valid y h' b /\ has h' b f' /\ (forall i, ~ in_bounds s i -> f' i = f i) /\
    (forall i, in_bounds s i -> f' i = c_mv c (f i)) /\ apart a' b /\
    local h [0%nat; blk b] h' [blk a'; blk b] /\ a_shape a' = resolve s /\ a_al a' = al.
Proof.
  intros Hh Hb Hf Hs Hw. unfold make_move.
  destruct (ctor_shape_spec x h al s Hh Hs) as [h1 [a1 [-> [Hv [Hd [Hl [Es Eal]]]]]]]. cbn [bind].
  destruct (frame_local _ y h h1 _ _ b Hh Hl Hb) as [Hb1 [Hh1 [Hk1 _]]]; [intros [I|[]]; auto|].
  assert (Hap : apart a1 b) by (intros I; rewrite I; apply Hk1; left; auto).
  destruct (move_aref_spec x y h1 a1 b f (fun _ => c_dv c)) as [h2 [f' [-> [V2 [H2 [V3 [H3 [F1 [F2 L2]]]]]]]]]; auto.
  - apply Hl.
  - rewrite Es. auto.
  - cbn [bind]. exists h2, a1, f'. rewrite Es in F1, F2. split; auto. split; auto. split; auto. split; auto. split; auto.
    split; [intros i Hi; apply F1; rewrite resolve_in_bounds; auto|].
    split; [intros i Hi; apply F2; rewrite resolve_in_bounds; auto|]. split; auto. split; [|auto].
    eapply local_trans; [exact Hh| |exact L2].
    apply (local_perm h ([blk b] ++ [0%nat]) h1 ([blk b] ++ [blk a1])); [intros k; simpl; tauto|intros k; simpl; tauto|].
    apply local_frame; auto.
Qed.

(** The part of reshape that moves elements *)
Lemma map2_length {A B C} (f : A -> B -> C) l : forall r, length l = length r -> length (map2 f l r) = length l.
Proof. induction l as [|a l IH]; intros [|b r] H; simpl in *; auto; try discriminate. Qed.
Lemma clamp_in_bounds s : forall s' i, length s = length s' ->
  (in_bounds (clamp_dims s s') i <-> in_bounds s i /\ in_bounds s' i).
Proof.
  induction s as [|d s IH]; intros [|d' s'] i Hl; simpl in Hl; try discriminate; unfold in_bounds, clamp_dims in *; cbn [map2].
  - split; [intros H; inv H; split; constructor|intros [H _]; auto].
  - assert (Hd : forall z, in_dim (clamp_dim d d') z <-> in_dim d z /\ in_dim d' z).
    { intros z. unfold in_dim, clamp_dim. cbn [dmin dext]. unfold cmax, cmin, dmax, imax, d_interval. cbn [imin iext].
      ifs; lia. }
    split.
    + intros H. inv H. apply Hd in H2. apply IH in H4; [|lia]. split; constructor; tauto.
    + intros [H G]. inv H. inv G. constructor; [apply Hd; auto|]. apply IH; auto.
Qed.
Lemma clamp_offset s : forall s' i, length s = length s' -> length i = length s ->
  offset s (mins (clamp_dims s s')) + offset (clamp_dims s s') i = offset s i.
Proof.
  induction s as [|d s IH]; intros [|d' s'] i Hl Hi; simpl in Hl; try discriminate; auto.
  destruct i as [|z i]; [discriminate|]. unfold clamp_dims, mins in *. cbn [map2 map offset].
  rewrite <- (IH s' i) by (simpl in *; lia). unfold clamp_dim at 1 3 4. cbn [dmin dstr]. lia.
Qed.
Lemma clamp_extents s : forall s', Forall2 meets s s' -> extents_ge 0 (clamp_dims s s').
Proof.
  induction 1 as [|d d' s s' Hm _ IH]; [constructor|]. unfold clamp_dims. cbn [map2]. constructor; auto.
  unfold meets in Hm. unfold clamp_dim. cbn [dext]. unfold cmax, cmin, dmax, imax, d_interval. cbn [imin iext]. ifs; lia.
Qed.
Lemma meets_resolve s s' : Forall2 meets s s' -> Forall2 meets (resolve s) s'.
Proof.
  intros H. pose proof (resolve_ranges s) as R. revert s' H. induction R as [|d e s r [E1 E2] _ IH]; intros s' H; inv H; constructor.
  - unfold meets in *. rewrite E1, E2. auto.
  - apply IH; auto.
Qed.

Lemma move_common_spec x y h a b f g : heap_ok h -> valid x h a -> valid y h b -> has h a f -> has h b g ->
  apart a b -> Forall2 meets (a_shape b) (a_shape a) ->
  exists h' g', move_common c h a b (a_shape b) = Ok h' /\ valid x h' a /\ valid y h' b /\ has h' b g' /\
    (forall i, in_bounds (a_shape a) i -> in_bounds (a_shape b) i -> g' i = f i) /\
    (forall i, ~ in_bounds (a_shape a) i -> g' i = g i) /\
    local h [blk a; blk b] h' [blk a; blk b].
Proof.
  intros Hh Ha Hb Hf Hg Hap Hm. unfold move_common.
  assert (Hlen : length (a_shape b) = length (a_shape a)).
  { destruct Ha as [[H1 _] _], Hb as [[H2 _] _]. congruence. }
  set (I := clamp_dims (a_shape b) (a_shape a)). set (ib := pointer_add (a_base b) (flat_offset (a_shape b) (mins I))).
  assert (HI : forall i, in_bounds I i <-> in_bounds (a_shape b) i /\ in_bounds (a_shape a) i)
    by (intros i; apply clamp_in_bounds; auto).
  assert (He : extents_ge 0 I) by (apply clamp_extents; auto).
  assert (HlI : length I = length (a_shape b)).
  { apply map2_length. auto. }
  assert (Hel : forall i, in_bounds I i -> elem ib I i = elem (a_base b) (a_shape b) i).
  { intros i Hi. pose proof (proj1 (HI i) Hi) as [Hib _].
    destruct (repr_base _ _ _ _ Hb) as [Hn|Hn]; [|destruct (Hn i Hib)].
    unfold ib, pointer_add, elem. rewrite Hn. cbn [ptr_off fst snd]. f_equal. rewrite flat_offset_spec.
    unfold I. rewrite <- (clamp_offset (a_shape b) (a_shape a) i Hlen).
    - lia.
    - symmetry. apply (Forall2_len _ _ _ Hib). }
  destruct (values_copy_spec (c_ndebug c) (a_shape a) (a_base a) I ib) as [l [Hl ->]]; [congruence|auto| |].
  { destruct (repr_base _ _ _ _ Ha) as [H1|H1]; [|right; intros i Hi; apply HI in Hi; destruct Hi as [_ Hi]; exact (H1 i Hi)].
    destruct (valid_memory _ _ _ Hb) as [[_ [H2 _]]|[_ [H2 [H3 H4]]]]; [right; intros i Hi; apply HI in Hi; destruct Hi as [Hi _]; exact (H2 i Hi)|].
    left. split; auto. unfold ib, pointer_add. rewrite H3. apply is_null_block. cbn [ptr_off fst]. congruence. }
  cbn [bind].
  rewrite (map_ext_in _ (fun i => (elem (a_base a) (a_shape a) i, elem (a_base b) (a_shape b) i))).
  2: { intros i Hi. rewrite Hel by (apply Hl; auto). auto. }
  destruct (move_elems_spec y x h b a f g l) as [h' [-> [V1 [H1 [V2 [H2 L]]]]]]; auto; [apply apart_sym; auto|apply Hl| |].
  { intros i Hi. apply HI. apply Hl; auto. }
  exists h', (patch l f g). split; auto. split; auto. split; auto. split; auto. unfold patch. split; [|split].
  - intros i Hi Hj. destruct (in_dec idx_dec i l) as [J|J]; auto. exfalso. apply J, Hl, HI; auto.
  - intros i Hi. destruct (in_dec idx_dec i l) as [J|J]; auto. exfalso. apply Hi. apply HI. apply Hl; auto.
  - apply (local_perm h [blk b; blk a] h' [blk b; blk a]); auto; intros k; simpl; tauto.
Qed.

Lemma store_spec x h a i v f : heap_ok h -> valid x h a -> has h a f -> in_bounds (a_shape a) i ->
  exists h', store h (elem (a_base a) (a_shape a) i) v = Ok h' /\ valid x h' a /\
    has h' a (fun j => if idx_dec j i then v else f j) /\ local h [blk a] h' [blk a].
Proof.
  intros Hh Ha Hf Hi. rewrite store_ok by (exists (f i); apply Hf; auto).
  set (ws := [(elem (a_base a) (a_shape a) i, Live v)]).
  change (upd h (elem (a_base a) (a_shape a) i) (Live v)) with (upds h ws).
  assert (HA : has (upds h ws) a (fun j => if idx_dec j i then v else f j)).
  { intros j Hj. destruct (idx_dec j i) as [->|N].
    - apply peek_upds_in.
      + constructor; [intros []|constructor].
      + left; auto.
      + pose proof (Hf i Hi) as G. unfold holds in G. congruence.
    - unfold holds. rewrite peek_upds_out; [apply Hf; auto|]. intros [E|[]]. apply N.
      symmetry. apply (elem_unique x h a); auto. }
  assert (Hws : forall p, In p (map fst ws) -> is_elem (a_base a) (a_shape a) p).
  { intros p [<-|[]]. exists i. auto. }
  eexists. split; [reflexivity|]. split; [|split; [exact HA|]].
  - apply (live_after live_cells); auto; [apply live_live|]. intros j Hj. eexists. apply HA; auto.
  - apply upds_local; auto. intros p I. destruct (Hws p I) as [j [Hj ->]]. left.
    destruct (elem_block _ _ _ _ _ Ha Hj); auto.
Qed.

End Repr.
