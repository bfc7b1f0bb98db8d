(** Facts about arrays of a trivial type. *)
From Coq Require Import ZArith List Bool Lia Arith.
From Verif Require Import Base Interval Shape Traverse Memory Ref Container Program Trivial Spec SpecMem SpecContainer
  SpecProgram SpecTrivial Tac ShapeFacts ResolveFacts TraverseFacts MemFacts RefFacts SliceFacts ContainerFacts.
Import ListNotations.
Open Scope Z_scope.

Section Folds.
Context {V : Type}.
Implicit Types h : heap V.

Definition cells_kept h h' : Prop := forall p, peek h' p = None <-> peek h p = None.
Lemma kept_upd h h' p (v : cell V) : cells_kept (upd h p v) h' <-> cells_kept h h'.
Proof. unfold cells_kept. split; intros H q; rewrite (H q), peek_upd_none; reflexivity. Qed.

(** A loop of which every step writes one cell *)
Lemma fold_writes {A} (step : heap V -> A -> outcome (heap V)) (addr : A -> ptr) l : forall h,
  (forall h' i, In i l -> cells_kept h h' -> exists v, step h' i = Ok (upd h' (addr i) v)) ->
  exists ws, foldM step l h = Ok (upds h ws) /\ map fst ws = map addr l.
Proof.
  induction l as [|i l IH]; intros h H; cbn [foldM].
  - exists []. auto.
  - destruct (H h i (or_introl eq_refl)) as [v E]; [intros p; reflexivity|]. rewrite E. cbn [bind].
    destruct (IH (upd h (addr i) v)) as [ws [E1 E2]].
    { intros h' j Hj Hk. apply H; [right; auto|]. apply (kept_upd h h' (addr i) v). auto. }
    exists ((addr i, v) :: ws). cbn [upds map fst]. rewrite E2. auto.
Qed.
Lemma fold_values {A} (step : heap V -> A -> outcome (heap V)) (addr : A -> ptr) (f : A -> cell V) l : forall h,
  (forall h' i, In i l -> cells_kept h h' -> (forall q, ~ In q (map addr l) -> peek h' q = peek h q) ->
     step h' i = Ok (upd h' (addr i) (f i))) ->
  foldM step l h = Ok (upds h (map (fun i => (addr i, f i)) l)).
Proof.
  induction l as [|i l IH]; intros h H; cbn [foldM map upds]; auto.
  rewrite (H h i (or_introl eq_refl)); [|intros p; reflexivity|auto]. cbn [bind]. apply IH.
  intros h' j Hj Hk Ho. apply H; [right; auto| |].
  - apply (kept_upd h h' (addr i) (f i)). auto.
  - intros q Hq. cbn [map In] in Hq. rewrite Ho by tauto. apply peek_upd_other. intros E. apply Hq. auto.
Qed.
Lemma peek_upds_agree (ws : list (ptr * cell V)) v q : forall h, (forall c', In (q, c') ws -> c' = v) ->
  In q (map fst ws) -> peek h q <> None -> peek (upds h ws) q = Some v.
Proof.
  induction ws as [|[p c'] r IH]; intros h Hc Hin Hq; simpl in *; [tauto|].
  destruct (in_dec ptr_dec q (map fst r)) as [Hr|Hr].
  - apply IH; auto. rewrite peek_upd_none; auto.
  - destruct Hin as [->|Hin]; [|tauto]. rewrite peek_upds_out by auto.
    rewrite peek_upd_same by auto. rewrite (Hc c'); auto.
Qed.
Lemma t_store_ok h p v : peek h p <> None -> t_store h p v = Ok (upd h p v).
Proof. unfold t_store. destruct (peek h p); congruence. Qed.
Lemma t_load_ok h p v : peek h p = Some v -> t_load h p = Ok v.
Proof. unfold t_load. intros ->. auto. Qed.
End Folds.

Section Facts.
Context {V : Type}.
Variable skip : bool.
Variable c : config V.
Implicit Types h : heap V.

Definition t_block (x : nat) (a : arr) (k : nat) (b : block V) : Prop :=
  k <> 0%nat /\ a_buf a = (k, 0) /\ fst (a_base a) = k /\ b_size b = a_bufsize a /\ 0 < b_size b /\
  b_owner b = (if a_busy a then Inline x else Base (a_al a)) /\ (a_busy a = true <-> b_size b <= c_cap c) /\
  (forall i, in_bounds (a_shape a) i -> 0 <= snd (a_base a) + offset (a_shape a) i < b_size b) /\
  (c_ndebug c = false -> 0 <= snd (a_base a) + flat_min (a_shape a) /\ snd (a_base a) + flat_max (a_shape a) < b_size b).
Definition tvalid (x : nat) h (a : arr) : Prop :=
  plain_arg c (a_shape a) /\
  ((no_memory a /\ no_index (a_shape a) /\ extents_ge 0 (a_shape a) /\
    (c_ndebug c = false -> flat_max (a_shape a) < flat_min (a_shape a))) \/
   (plain_layout (a_shape a) /\ exists k b, h_blk h k = Some b /\ t_block x a k b)).
Definition t_has h (a : arr) (f : list Z -> cell V) : Prop :=
  forall i, in_bounds (a_shape a) i -> peek h (elem (a_base a) (a_shape a) i) = Some (f i).

Lemma t_blk x a k b : t_block x a k b -> blk a = k.
Proof. intros [_ [E _]]. unfold blk. rewrite E. auto. Qed.
Lemma tvalid_block x h a : tvalid x h a ->
  (blk a = 0%nat /\ no_memory a) \/ (blk a <> 0%nat /\ h_blk h (blk a) <> None).
Proof.
  intros [_ [[H _]|[_ [k [b [Hb Hin]]]]]].
  - left. split; auto. apply no_memory_blk; auto.
  - right. rewrite (t_blk _ _ _ _ Hin). destruct Hin as [Hk _]. split; congruence.
Qed.
Lemma tvalid_frame x h h' a : h_blk h' (blk a) = h_blk h (blk a) -> tvalid x h a -> tvalid x h' a.
Proof.
  intros E [Hs H]. split; auto. destruct H as [H|[Hp [k [b [Hb Hin]]]]]; auto. right. split; auto.
  exists k, b. rewrite (t_blk _ _ _ _ Hin) in E. split; auto. congruence.
Qed.
Lemma tvalid_memory x h a : tvalid x h a ->
  (no_memory a /\ no_index (a_shape a) /\ extents_ge 0 (a_shape a) /\ blk a = 0%nat /\ is_null (a_base a) = true) \/
  (plain_layout (a_shape a) /\ blk a <> 0%nat /\ is_null (a_base a) = false /\ fst (a_base a) = blk a).
Proof.
  intros [Hs [[Hm [Hn [He _]]]|[Hp [k [b [Hb Hin]]]]]]; [left|right].
  - split; auto. split; auto. split; auto. split; [apply no_memory_blk; auto|]. apply no_memory_null; auto.
  - rewrite (t_blk _ _ _ _ Hin). destruct Hin as [Hk [_ [Eb _]]]. split; auto. split; auto. split; auto.
    apply is_null_block. congruence.
Qed.
Lemma tvalid_base x h a : tvalid x h a -> is_null (a_base a) = false \/ no_index (a_shape a).
Proof. intros H. destruct (tvalid_memory _ _ _ H) as [H1|H1]; tauto. Qed.
Lemma tvalid_extents x h a : tvalid x h a -> extents_ge 0 (a_shape a).
Proof. intros H. destruct (tvalid_memory _ _ _ H) as [H1|[H1 _]]; [tauto|]. apply H1. Qed.
Lemma tvalid_length x h a : tvalid x h a -> length (a_shape a) = length (c_shape0 c).
Proof. intros [[H _] _]. auto. Qed.
Lemma tvalid_assert x h a : tvalid x h a -> assert_ (c_ndebug c) (negb (is_null (a_base a)) || empty (a_shape a)) = Ok tt.
Proof.
  intros H. unfold assert_. destruct (tvalid_base _ _ _ H) as [E|E]; [rewrite E; auto|].
  rewrite (proj2 (empty_iff _ (tvalid_extents _ _ _ H)) E), orb_true_r. auto.
Qed.
Lemma t_elem_block x h a i : tvalid x h a -> in_bounds (a_shape a) i ->
  fst (elem (a_base a) (a_shape a) i) = blk a /\ blk a <> 0%nat /\ peek h (elem (a_base a) (a_shape a) i) <> None.
Proof.
  intros [_ [[_ [H _]]|[_ [k [b [Hb Hin]]]]]] Hi; [destruct (H i Hi)|].
  rewrite (t_blk _ _ _ _ Hin). destruct Hin as [Hk [_ [Eb [_ [_ [_ [_ [Hr _]]]]]]]].
  unfold elem. cbn [fst]. split; auto. split; auto. rewrite Eb, (peek_cell h k b); auto. congruence.
Qed.
Lemma tvalid_peek x h a i : tvalid x h a -> in_bounds (a_shape a) i -> peek h (elem (a_base a) (a_shape a) i) <> None.
Proof. intros H Hi. apply (t_elem_block x h a i H Hi). Qed.
Lemma t_has_frame x h h' a f : h_blk h' (blk a) = h_blk h (blk a) -> tvalid x h a -> t_has h a f -> t_has h' a f.
Proof.
  intros E H Hh i Hi. specialize (Hh i Hi). destruct (t_elem_block _ _ _ _ H Hi) as [E1 _].
  unfold elem in *. cbn [fst] in E1. rewrite E1 in *. rewrite <- Hh. apply peek_same_block; auto.
Qed.
Lemma tvalid_has x h a : tvalid x h a -> exists f, t_has h a f.
Proof.
  intros H. exists (fun i => match peek h (elem (a_base a) (a_shape a) i) with Some v => v | None => Raw end).
  intros i Hi. pose proof (tvalid_peek _ _ _ _ H Hi). destruct (peek h _); congruence.
Qed.
Lemma tvalid_upds x h a ws : tvalid x h a -> tvalid x (upds h ws) a.
Proof.
  intros [Hs [H|[Hp [k [b [Hb Hin]]]]]]; (split; [auto|]); auto. right. split; auto.
  destruct (upds_block h ws k b Hb) as [b' [Hb' [Es Eo]]]. exists k, b'. split; auto.
  unfold t_block in *. rewrite Es, Eo. auto.
Qed.
Lemma t_frame_local x h h' K K' a : heap_ok h -> local h K h' K' -> tvalid x h a ->
  (In (blk a) K -> blk a = 0%nat) ->
  tvalid x h' a /\ (forall f, t_has h a f -> t_has h' a f) /\ (In (blk a) K' -> blk a = 0%nat) /\
  h_blk h' (blk a) = h_blk h (blk a).
Proof.
  intros Hh [O1 [N1 [A1 [B1 C1]]]] H Hk.
  assert (HK' : In (blk a) K' -> blk a = 0%nat).
  { intros I. destruct (C1 _ I) as [G|[G|G]]; auto.
    destruct (tvalid_block _ _ _ H) as [[G2 _]|[_ G2]]; auto. destruct Hh as [_ [_ Hh]]. rewrite Hh in G2 by auto. congruence. }
  assert (E : h_blk h' (blk a) = h_blk h (blk a)).
  { destruct (Nat.eq_dec (blk a) 0) as [Z|Z].
    - rewrite Z. destruct Hh as [_ [-> _]]. destruct O1 as [_ [-> _]]. auto.
    - apply A1; tauto. }
  split; [eapply tvalid_frame; eauto|]. split; [|auto]. intros f Hf. eapply t_has_frame; eauto.
Qed.

(** Writes to elements of one array *)
Lemma t_written x h a ws : heap_ok h -> tvalid x h a ->
  (forall p, In p (map fst ws) -> is_elem (a_base a) (a_shape a) p) ->
  tvalid x (upds h ws) a /\ local h [blk a] (upds h ws) [blk a].
Proof.
  intros Hh H Hw. split; [apply tvalid_upds; auto|]. apply upds_local; auto.
  intros p Hp. destruct (Hw p Hp) as [i [Hi ->]]. left. symmetry. apply (t_elem_block x h a i H Hi).
Qed.
Lemma t_writes_loop {A} x h a (step : heap V -> A -> outcome (heap V)) (addr : A -> ptr) l : heap_ok h -> tvalid x h a ->
  (forall i, In i l -> is_elem (a_base a) (a_shape a) (addr i)) ->
  (forall h' i, In i l -> cells_kept h h' -> exists v, step h' i = Ok (upd h' (addr i) v)) ->
  exists h', foldM step l h = Ok h' /\ tvalid x h' a /\ local h [blk a] h' [blk a].
Proof.
  intros Hh H Hl Hs. destruct (fold_writes step addr l h Hs) as [ws [E Ews]]. exists (upds h ws). split; auto.
  apply t_written; auto. intros p. rewrite Ews. intros Hp. apply in_map_iff in Hp. destruct Hp as [i [<- Hi]]. auto.
Qed.
(** Elements at the same place get the same value *)
Definition agree (a : arr) (f : list Z -> cell V) : Prop := forall i j,
  in_bounds (a_shape a) i -> in_bounds (a_shape a) j ->
  elem (a_base a) (a_shape a) i = elem (a_base a) (a_shape a) j -> f i = f j.
Lemma t_values_loop x h a (step : heap V -> list Z -> outcome (heap V)) f l : heap_ok h -> tvalid x h a ->
  enumerates (in_bounds (a_shape a)) l -> agree a f ->
  (forall h' i, In i l -> cells_kept h h' -> (forall q, fst q <> blk a -> peek h' q = peek h q) ->
     step h' i = Ok (upd h' (elem (a_base a) (a_shape a) i) (f i))) ->
  exists h', foldM step l h = Ok h' /\ tvalid x h' a /\ t_has h' a f /\ local h [blk a] h' [blk a].
Proof.
  intros Hh H Hl Hag Hs.
  rewrite (fold_values step (elem (a_base a) (a_shape a)) f l h).
  - eexists. split; [reflexivity|].
    set (ws := map (fun i => (elem (a_base a) (a_shape a) i, f i)) l).
    assert (Hws : map fst ws = map (elem (a_base a) (a_shape a)) l) by (unfold ws; rewrite map_map; auto).
    destruct (t_written x h a ws) as [H1 H2]; auto.
    + intros p. rewrite Hws. intros Hp. apply in_map_iff in Hp. destruct Hp as [i [<- Hi]]. exists i. split; auto. apply Hl; auto.
    + split; auto. split; auto. intros i Hi. apply peek_upds_agree.
      * intros c' Hc. unfold ws in Hc. apply in_map_iff in Hc. destruct Hc as [j [Ej Hj]].
        pose proof (f_equal fst Ej) as E1. pose proof (f_equal snd Ej) as E2. cbn [fst snd] in E1, E2. subst c'.
        apply Hag; auto. apply Hl; auto.
      * rewrite Hws. apply in_map. apply Hl; auto.
      * eapply tvalid_peek; eauto.
  - intros h' i Hi Hk Ho. apply Hs; auto. intros q Hq. apply Ho. intros C. apply in_map_iff in C.
    destruct C as [j [<- Hj]]. apply Hq. apply (t_elem_block x h a j H). apply Hl; auto.
Qed.
(** A loop over some elements, the places of which differ *)
Lemma t_some_loop x h a (step : heap V -> list Z -> outcome (heap V)) f l : heap_ok h -> tvalid x h a ->
  (forall i, In i l -> in_bounds (a_shape a) i) -> injective_layout (a_shape a) ->
  (forall h' i, In i l -> cells_kept h h' -> (forall q, fst q <> blk a -> peek h' q = peek h q) ->
     step h' i = Ok (upd h' (elem (a_base a) (a_shape a) i) (f i))) ->
  exists h', foldM step l h = Ok h' /\ tvalid x h' a /\ local h [blk a] h' [blk a] /\
    (forall i, In i l -> peek h' (elem (a_base a) (a_shape a) i) = Some (f i)) /\
    (forall i, in_bounds (a_shape a) i -> ~ In i l ->
       peek h' (elem (a_base a) (a_shape a) i) = peek h (elem (a_base a) (a_shape a) i)).
Proof.
  intros Hh H Hl Hinj Hs.
  rewrite (fold_values step (elem (a_base a) (a_shape a)) f l h).
  - eexists. split; [reflexivity|].
    set (ws := map (fun i => (elem (a_base a) (a_shape a) i, f i)) l).
    assert (Hws : map fst ws = map (elem (a_base a) (a_shape a)) l) by (unfold ws; rewrite map_map; auto).
    assert (Hi : forall i j, in_bounds (a_shape a) i -> in_bounds (a_shape a) j ->
       elem (a_base a) (a_shape a) i = elem (a_base a) (a_shape a) j -> i = j).
    { intros i j Hi Hj E. apply Hinj; auto. apply (elem_inj (a_base a)); auto. }
    destruct (t_written x h a ws) as [H1 H2]; auto.
    + intros p. rewrite Hws. intros Hp. apply in_map_iff in Hp. destruct Hp as [i [<- Hp]]. exists i. split; auto.
    + split; auto. split; auto. split.
      * intros i Il. apply peek_upds_agree.
        -- intros c' Hc. unfold ws in Hc. apply in_map_iff in Hc. destruct Hc as [j [Ej Hj]].
           pose proof (f_equal fst Ej) as E1. pose proof (f_equal snd Ej) as E2. cbn [fst snd] in E1, E2. subst c'.
           f_equal. apply Hi; auto.
        -- rewrite Hws. apply in_map; auto.
        -- eapply tvalid_peek; eauto.
      * intros i Ii Il. apply peek_upds_out. rewrite Hws. intros C. apply in_map_iff in C. destruct C as [j [Ej Hj]].
        apply Il. replace i with j; auto.
  - intros h' i Hi Hk Ho. apply Hs; auto. intros q Hq. apply Ho. intros C. apply in_map_iff in C.
    destruct C as [j [<- Hj]]. apply Hq. apply (t_elem_block x h a j H). auto.
Qed.
Lemma agree_const a v : agree a (fun _ => v).
Proof. intros i j _ _ _. auto. Qed.
Lemma agree_has h a f : t_has h a f -> agree a f.
Proof. intros H i j Hi Hj E. pose proof (H i Hi) as H1. rewrite E, (H j Hj) in H1. congruence. Qed.

(** ** construct, destroy *)

Lemma t_construct_spec x h a init v : heap_ok h -> tvalid x h a ->
  (forall h', (forall q, fst q <> blk a -> peek h' q = peek h q) -> (exists i, in_bounds (a_shape a) i) -> init h' = Ok v) ->
  exists h', t_construct c h a init = Ok h' /\ tvalid x h' a /\ t_has h' a (fun _ => v) /\ local h [blk a] h' [blk a].
Proof.
  intros Hh H Hi. unfold t_construct. rewrite (tvalid_assert _ _ _ H). cbn [bind].
  destruct (values_spec (c_ndebug c) (a_shape a) (a_base a) (tvalid_extents _ _ _ H) (tvalid_base _ _ _ H))
    as [l [Hl ->]]. cbn [bind]. rewrite foldM_map. apply t_values_loop; auto.
  - apply agree_const.
  - intros h' i Il Hk Ho. rewrite (Hi h') by (auto; exists i; apply Hl; auto). cbn [bind]. apply t_store_ok. rewrite (Hk _).
    eapply tvalid_peek; eauto. apply Hl; auto.
Qed.
Lemma fold_nothing {A B} (l : list A) (t : B) : foldM (fun t _ => Ok t) l t = Ok t.
Proof. induction l; cbn [foldM bind]; auto. Qed.
Lemma t_construct_default_spec x h a : heap_ok h -> tvalid x h a ->
  exists h', t_construct_default skip c h a = Ok h' /\ tvalid x h' a /\ local h [blk a] h' [blk a] /\
    (skip = false -> t_has h' a (fun _ => Live (c_dv c))).
Proof.
  intros Hh H. unfold t_construct_default. destruct skip.
  - rewrite (tvalid_assert _ _ _ H). cbn [bind].
    destruct (values_spec (c_ndebug c) (a_shape a) (a_base a) (tvalid_extents _ _ _ H) (tvalid_base _ _ _ H))
      as [l [Hl ->]]. cbn [bind]. rewrite fold_nothing. exists h. split; auto. split; auto. split; [apply local_refl; auto|discriminate].
  - destruct (t_construct_spec x h a (fun _ => Ok (Live (c_dv c))) (Live (c_dv c)) Hh H) as [h' [E [V1 [H1 L]]]]; auto.
    exists h'. auto.
Qed.
Lemma t_destroy_spec x h a : heap_ok h -> tvalid x h a ->
  exists h', t_destroy c h a = Ok h' /\ tvalid x h' a /\ local h [blk a] h' [blk a].
Proof.
  intros Hh H. unfold t_destroy. rewrite (tvalid_assert _ _ _ H). cbn [bind].
  destruct (values_spec (c_ndebug c) (a_shape a) (a_base a) (tvalid_extents _ _ _ H) (tvalid_base _ _ _ H))
    as [l [Hl ->]]. cbn [bind]. rewrite foldM_map.
  apply (t_writes_loop x h a _ (elem (a_base a) (a_shape a))); auto.
  - intros i Hi. exists i. split; auto. apply Hl; auto.
  - intros h' i Hi Hk. exists Raw. unfold t_destroy_at.
    pose proof (tvalid_peek _ _ _ _ H (proj1 (proj2 Hl i) Hi)) as Hp. rewrite <- (Hk _) in Hp. destruct (peek h' _); congruence.
Qed.

(** ** allocate, deallocate *)

Lemma plain_arg_resolve s : plain_arg c s -> plain_arg c (resolve s).
Proof. intros [H1 H2]. split; [rewrite resolve_length; auto|]. rewrite (resolve_known (resolve s)); auto. apply H2. Qed.
Lemma plain_arg_known s : length s = length (c_shape0 c) -> plain_layout s -> plain_arg c s.
Proof. intros H1 H2. split; auto. rewrite resolve_known; auto. apply H2. Qed.

Lemma t_allocate_spec x h a : heap_ok h -> a_buf a = null -> a_busy a = false -> plain_arg c (a_shape a) ->
  exists h' a', allocate c x h a = Ok (h', a') /\ tvalid x h' a' /\ local h [blk a] h' [blk a'] /\
    a_shape a' = resolve (a_shape a) /\ a_al a' = a_al a /\
    (flat_extent (resolve (a_shape a)) <= 0 -> no_memory a').
Proof.
  intros Hh Hb Hbusy Hs. unfold allocate. rewrite Hb. cbn [is_null ptr_eqb null fst snd Nat.eqb Z.eqb andb assert_ bind].
  pose proof Hs as [Hlen [He [Hkn Htidy]]].
  set (s := resolve (a_shape a)) in *.
  assert (Hs' : plain_arg c s) by (apply plain_arg_resolve; auto).
  assert (Hblk : blk a = 0%nat) by (unfold blk; rewrite Hb; auto). rewrite Hblk.
  destruct (Z.ltb_spec 0 (flat_extent s)) as [L|L].
  - assert (E : alloc_get c x h a (flat_extent s) =
      (fst (alloc_block h (if flat_extent s <=? c_cap c then Inline x else Base (a_al a)) (flat_extent s)),
       flat_extent s <=? c_cap c, (h_next h, 0))).
    { unfold alloc_get. rewrite Hbusy. cbn [negb andb]. destruct (flat_extent s <=? c_cap c); reflexivity. }
    rewrite E. clear E.
    set (o := if flat_extent s <=? c_cap c then Inline x else Base (a_al a)).
    set (bz := flat_extent s <=? c_cap c).
    unfold set_base, with_shape; cbn [a_buf a_al a_busy a_bufsize a_base a_shape].
    eexists _, _. split; [reflexivity|]. cbn [a_shape a_al].
    assert (Hn : h_next h <> 0%nat) by (destruct Hh; lia).
    split; [|split; [|split; [reflexivity|split; [reflexivity|lia]]]].
    + split; [exact Hs'|]. right. cbn [a_shape]. split; [split; auto|].
      exists (h_next h), (mkB o (flat_extent s) (fun _ => Raw)). split.
      * cbn [alloc_block fst h_blk]. rewrite Nat.eqb_refl. auto.
      * unfold t_block. cbn [a_buf a_base a_shape a_bufsize a_busy a_al b_size b_owner ptr_off fst snd].
        split; auto. split; auto. split; auto. split; auto. split; auto. split; [unfold o, bz; destruct (_ <=? _); auto|].
        split; [unfold bz; rewrite Z.leb_le; reflexivity|]. split.
        -- intros i Hi. pose proof (elem_in_buffer _ _ Hi). lia.
        -- intros _. unfold flat_extent in *. ifs; lia.
    + unfold blk. cbn [a_buf fst]. split; [|split; [|split; [|split]]].
      * destruct Hh as [H1 [H2 H3]]. split; [|split]; cbn [alloc_block fst h_next h_blk]; [lia| |].
        -- destruct (Nat.eqb_spec 0 (h_next h)); [congruence|auto].
        -- intros k Hk. destruct (Nat.eqb_spec k (h_next h)); [lia|]. apply H3. lia.
      * cbn [alloc_block fst h_next]. lia.
      * intros k Hk _. cbn [alloc_block fst h_blk]. destruct (Nat.eqb_spec k (h_next h)) as [Ek|Ek]; auto.
        exfalso. apply Hk. left; auto.
      * intros k Hk [<-|[]]. cbn [alloc_block fst h_blk]. destruct (Nat.eqb_spec 0 (h_next h)); [congruence|]. destruct Hh as [_ [Hh0 _]]. exact Hh0.
      * intros k [<-|[]]. right; left; auto.
  - unfold set_base, with_shape; cbn [a_buf a_al a_busy a_bufsize a_base a_shape]. rewrite Hb, Hbusy.
    eexists _, _. split; [reflexivity|]. cbn [a_shape a_al].
    assert (Em : flat_min s = 0) by lia.
    assert (Hm : no_memory (mkA (a_al a) false null (flat_extent s) (ptr_off null (- flat_min s)) s)).
    { unfold no_memory. cbn [a_buf a_base a_busy]. rewrite Em. auto. }
    split; [|split; [|split; [reflexivity|split; [reflexivity|auto]]]].
    + split; [exact Hs'|]. left. cbn [a_shape]. split; auto. split; [apply no_extent_no_index; auto|]. split; auto.
      intros _. unfold flat_extent in L. ifs; lia.
    + unfold blk. cbn [a_buf fst null]. apply local_refl; auto.
Qed.

Hypothesis Hf : plain_fair c.
Lemma fair_span : flat_max (c_shape0 c) < flat_min (c_shape0 c).
Proof. destruct Hf as [_ [_ [H _]]]. unfold flat_extent in H. ifs; lia. Qed.
Lemma t_no_memory x h a : no_memory a -> a_shape a = c_shape0 c -> tvalid x h a.
Proof.
  intros H E. split; rewrite E; [apply Hf|]. left. split; auto. pose proof Hf as [_ [H1 [H2 _]]].
  split; [apply no_extent_no_index; auto|]. split; auto. intros _. apply fair_span.
Qed.
Lemma t_blank x h al : tvalid x h (blank al (c_shape0 c)).
Proof. apply t_no_memory; auto. unfold no_memory, blank; auto. Qed.

Lemma t_deallocate_spec x h a : heap_ok h -> tvalid x h a ->
  exists h' a', t_deallocate c x h a = Ok (h', a') /\ tvalid x h' a' /\ no_memory a' /\
    local h [blk a] h' [blk a'] /\ a_al a' = a_al a.
Proof.
  intros Hh H. unfold t_deallocate. destruct (tvalid_memory _ _ _ H) as [[Hm [_ [_ [_ En]]]]|[_ [Hk0 [En _]]]]; rewrite En.
  - exists h, a. split; auto. split; auto. split; auto. split; [apply local_refl; auto|]. auto.
  - destruct (t_destroy_spec x h a Hh H) as [h1 [-> [H1 Hl1]]]; cbn [bind].
    unfold set_base, with_shape; cbn [a_buf a_al a_busy a_bufsize a_base a_shape].
    destruct H1 as [Hs [[Hm _]|[Hp [k [b [Hb Hin]]]]]]; [destruct (Hk0 (no_memory_blk _ Hm))|].
    pose proof (t_blk _ _ _ _ Hin) as Ek.
    destruct Hin as [Hk [Ebuf [Eba [Esz [Hpos [Eow [Hcap _]]]]]]].
    assert (Hal : t_alloc_put c x h1 (mkA (a_al a) (a_busy a) (a_buf a) (a_bufsize a) null (c_shape0 c)) (a_buf a) (a_bufsize a) =
                  Ok (mkH (h_next h1) (fun j => if (j =? k)%nat then None else h_blk h1 j), false)).
    { unfold t_alloc_put, inline_block. rewrite Ebuf. cbn [fst snd a_busy a_al]. rewrite Hb, Eow.
      unfold t_free_block. cbn [fst snd]. rewrite Hb. destruct k as [|k]; [congruence|].
      destruct (a_busy a) eqn:Ebz; cbn [owner_eqb Z.eqb andb].
      - rewrite Nat.eqb_refl. cbn [andb assert_ bind]. rewrite Eow. cbn [owner_eqb]. rewrite Z.eqb_refl, Nat.eqb_refl. reflexivity.
      - rewrite Eow. cbn [owner_eqb]. rewrite (proj2 (Z.eqb_eq (b_size b) (a_bufsize a)) Esz), Nat.eqb_refl. reflexivity. }
    rewrite Hal. unfold set_buf, set_busy; cbn [bind a_al a_busy a_buf a_bufsize a_base a_shape].
    eexists _, _. split; [reflexivity|].
    split; [apply t_no_memory; unfold no_memory; auto|].
    unfold no_memory, blk. cbn [a_al a_busy a_buf a_bufsize a_base a_shape fst null].
    split; [auto|split; [|auto]].
    rewrite Ebuf. cbn [fst]. rewrite Ek in Hl1. destruct Hl1 as [[O1 [O2 O3]] [N1 [A1 [B1 C1]]]].
      split; [|split; [|split; [|split]]]; cbn [h_next h_blk]; auto.
      * split; [|split]; cbn [h_next h_blk]; auto.
        -- rewrite O2. destruct (Nat.eqb _ _); auto.
        -- intros j Hj. rewrite O3 by auto. destruct (Nat.eqb _ _); auto.
      * intros j Hj1 Hj2. destruct (Nat.eqb_spec j k) as [E|E]; [exfalso; apply Hj2; left; auto|].
        apply A1; auto.
      * intros j Hj1 [<-|[]]. rewrite Nat.eqb_refl. auto.
      * intros j [<-|[]]. auto.
Qed.

(** ** copy_construct, move_construct *)

Lemma t_pair_base x y h h' a b : tvalid x h a -> tvalid y h' b -> within (a_shape a) (a_shape b) ->
  (is_null (a_base b) = false /\ is_null (a_base a) = false) \/ no_index (a_shape a).
Proof.
  intros Ha Hb E. destruct (tvalid_base _ _ _ Ha) as [H1|H1]; auto.
  destruct (tvalid_base _ _ _ Hb) as [H2|H2]; auto. right. intros i Hi. exact (H2 i (E i Hi)).
Qed.
(** Elements of two arrays with the same layout share places alike *)
Lemma agree_resolved x y h a b f : tvalid x h a -> tvalid y h b -> t_has h b f -> a_shape a = resolve (a_shape b) -> agree a f.
Proof.
  intros Ha Hb Hh E i j Hi Hj Ee.
  assert (Hi' : in_bounds (a_shape b) i) by (apply resolve_in_bounds; rewrite <- E; auto).
  destruct (tvalid_memory _ _ _ Hb) as [[_ [N _]]|[[_ [Hk _]] _]]; [destruct (N i Hi')|].
  rewrite resolve_known in E by exact Hk. rewrite E in *. apply (agree_has h b f Hh); auto.
  unfold elem in *. inv Ee. f_equal. lia.
Qed.
Lemma t_copy_construct_spec x y h a b f : heap_ok h -> tvalid x h a -> tvalid y h b -> t_has h b f ->
  apart a b -> a_shape a = resolve (a_shape b) -> copyable c b ->
  exists h', t_copy_construct c h a b = Ok h' /\ tvalid x h' a /\ t_has h' a f /\ local h [blk a] h' [blk a].
Proof.
  intros Hh Ha Hb Hhas Hap Es Hcp. unfold t_copy_construct. rewrite (tvalid_assert _ _ _ Ha). cbn [bind].
  rewrite assert_same by auto. cbn [bind].
  assert (Hw : within (a_shape a) (a_shape b)) by (intros i Hi; apply resolve_in_bounds; rewrite <- Es; auto).
  destruct (values_copy_spec (c_ndebug c) (a_shape b) (a_base b) (a_shape a) (a_base a)) as [l [Hl ->]].
  { rewrite Es, resolve_length; auto. }
  { eapply tvalid_extents; eauto. }
  { eapply t_pair_base; eauto. }
  cbn [bind]. rewrite foldM_map. cbn [fst snd]. apply t_values_loop; auto.
  - eapply agree_resolved; eauto.
  - intros h' i Hi Hk Ho. apply Hl in Hi. rewrite (t_load_ok h' _ (f i)).
    + cbn [bind]. apply t_store_ok. rewrite (Hk _). eapply tvalid_peek; eauto.
    + rewrite Ho; [apply Hhas; auto|]. destruct (t_elem_block _ _ _ _ Hb (Hw i Hi)) as [-> [N _]].
      intros E. apply N. rewrite E. apply Hap; auto.
Qed.
Lemma t_move_construct_eq h a b : t_move_construct c h a b = t_copy_construct c h a b.
Proof. reflexivity. Qed.

(** ** Constructors and assignments *)

Lemma t_ctor_shape_spec x h al s : heap_ok h -> plain_arg c s ->
  exists h' a', t_ctor_shape skip c x h al s = Ok (h', a') /\ tvalid x h' a' /\ local h [0%nat] h' [blk a'] /\
    a_shape a' = resolve s /\ a_al a' = al /\ (flat_extent (resolve s) <= 0 -> no_memory a') /\
    (skip = false -> t_has h' a' (fun _ => Live (c_dv c))).
Proof.
  intros Hh Hs. unfold t_ctor_shape.
  destruct (t_allocate_spec x h (blank al s) Hh eq_refl eq_refl Hs) as [h1 [a [-> [Hr [Hl [Es [Ea En]]]]]]]. cbn [bind].
  destruct (t_construct_default_spec x h1 a) as [h2 [-> [Hv [Hl2 Hd]]]]; auto; [apply Hl|].
  cbn [bind]. exists h2, a. split; auto. split; auto. split; [eapply local_trans; eauto|]. auto.
Qed.
Lemma t_refit_spec x h a s : heap_ok h -> tvalid x h a -> plain_arg c s ->
  exists h1 a1, (' (h', a') <- t_deallocate c x h a ;; allocate c x h' (with_shape a' s)) = Ok (h1, a1) /\
    tvalid x h1 a1 /\ local h [blk a] h1 [blk a1] /\ a_shape a1 = resolve s /\ a_al a1 = a_al a.
Proof.
  intros Hh Ha Hs.
  destruct (t_deallocate_spec x h a Hh Ha) as [h1 [a1 [-> [_ [Hm [Hl Eal]]]]]]. cbn [bind].
  destruct (t_allocate_spec x h1 (with_shape a1 s)) as [h2 [a2 [-> [Hr [Hl2 [Es [Ea _]]]]]]]; auto; [apply Hl|apply Hm|apply Hm|].
  change (a_al (with_shape a1 s)) with (a_al a1) in Ea.
  exists h2, a2. split; auto. split; auto. split; [|split; auto; congruence].
  eapply local_trans; [exact Hh|exact Hl|exact Hl2].
Qed.
(** Places outside of the array that exist are as before *)
Definition kept_outside (k : nat) h h' : Prop := forall q, fst q <> k -> peek h q <> None -> peek h' q = peek h q.
Lemma local_outside h k h' k' : heap_ok h -> local h [k] h' [k'] ->
  forall q, fst q <> k -> peek h q <> None -> fst q <> k' /\ peek h' q = peek h q.
Proof.
  intros Hh [_ [_ [A [_ C]]]] q Hq Hn.
  assert (Hb : fst q <> 0%nat /\ h_blk h (fst q) <> None).
  { unfold peek in Hn. destruct (fst q); [tauto|]. split; [congruence|]. destruct (h_blk h (S n)); congruence. }
  assert (N : fst q <> k').
  { intros E. destruct (C k' (or_introl eq_refl)) as [[<-|[]]|[G|G]]; [congruence| |].
    - destruct Hh as [_ [_ Hh]]. apply Hb. rewrite E. apply Hh. auto.
    - destruct Hb as [Hb _]. congruence. }
  split; auto. destruct q as [j z]. cbn [fst] in *. apply peek_same_block. apply A; cbn [In]; intuition.
Qed.
Lemma t_assign_value_spec x h a s init v : heap_ok h -> tvalid x h a -> plain_arg c s ->
  (forall h', kept_outside (blk a) h h' -> (exists i, in_bounds s i) -> init h' = Ok v) ->
  exists h' a', t_assign_value c x h a s init = Ok (h', a') /\ tvalid x h' a' /\ t_has h' a' (fun _ => v) /\
    local h [blk a] h' [blk a'] /\ a_shape a' = resolve s /\ a_al a' = a_al a.
Proof.
  intros Hh Ha Hs Hi. unfold t_assign_value.
  assert (Hst : exists h1 a1, (if shape_eqb (a_shape a) (resolve s) then h' <- t_destroy c h a ;; Ok (h', a)
     else ' (h', a') <- t_deallocate c x h a ;; allocate c x h' (with_shape a' (resolve s))) = Ok (h1, a1) /\
     tvalid x h1 a1 /\ local h [blk a] h1 [blk a1] /\ a_shape a1 = resolve s /\ a_al a1 = a_al a).
  { destruct (shape_eqb (a_shape a) (resolve s)) eqn:E.
    - apply shape_eqb_eq in E. destruct (t_destroy_spec x h a Hh Ha) as [h1 [-> [V1 L1]]]. cbn [bind].
      exists h1, a. auto.
    - destruct (t_refit_spec x h a (resolve s) Hh Ha) as [h1 [a1 H1]]; [apply plain_arg_resolve; auto|].
      exists h1, a1. rewrite (resolve_known (resolve s)) in H1 by apply Hs. auto. }
  destruct Hst as [h1 [a1 [-> [V1 [L1 [E1 A1]]]]]]. cbn [bind].
  destruct (t_construct_spec x h1 a1 init v) as [h2 [-> [V2 [H2 L2]]]]; auto; [apply L1| |].
  - intros h' Ho [i Hi']. apply (Hi h'); [|exists i; apply resolve_in_bounds; rewrite <- E1; auto].
    intros q Hq Hn. destruct (local_outside h _ h1 _ Hh L1 q Hq Hn) as [N1 N2]. rewrite Ho; auto.
  - cbn [bind]. exists h2, a1. split; auto. split; auto. split; auto. split; auto. eapply local_trans; eauto.
Qed.

Lemma t_bases_equal x y h a b : tvalid x h a -> tvalid y h b -> apart a b ->
  ptr_eqb (a_base a) (a_base b) = true -> no_memory a /\ no_memory b.
Proof.
  intros Ha Hb Hap E. apply ptr_eqb_eq in E.
  destruct (tvalid_memory _ _ _ Ha) as [[H1 [_ [_ [_ H2]]]]|[_ [H1 [H2 H3]]]];
  destruct (tvalid_memory _ _ _ Hb) as [[G1 [_ [_ [_ G2]]]]|[_ [G1 [G2 G3]]]]; auto; try congruence.
  exfalso. apply H1, Hap. congruence.
Qed.
Lemma t_no_memory_has x h a f : tvalid x h a -> no_memory a -> t_has h a f.
Proof. intros H Hm i Hi. exfalso. destruct (t_elem_block _ _ _ _ H Hi) as [_ [N _]]. apply N, no_memory_blk; auto. Qed.
Lemma t_no_memory_shape x y h a b : tvalid x h a -> no_memory a -> tvalid y h b -> no_memory b -> tvalid x h (with_shape a (a_shape b)).
Proof.
  intros _ Ha Hb Mb. split; [apply Hb|]. left. split; [exact Ha|]. cbn [with_shape a_shape].
  destruct Hb as [_ [[_ H]|[_ [k [bb [_ Hin]]]]]]; auto. exfalso. pose proof (t_blk _ _ _ _ Hin) as E.
  rewrite (no_memory_blk _ Mb) in E. destruct Hin as [Hk _]. congruence.
Qed.
Lemma t_null_assert x h a : tvalid x h a -> is_null (a_base a) = true -> assert_ (c_ndebug c) (empty (a_shape a)) = Ok tt.
Proof.
  intros H E. destruct (tvalid_memory _ _ _ H) as [[_ [Hn [He _]]]|[_ [_ [C _]]]]; [|congruence].
  rewrite (proj2 (empty_iff _ He) Hn). auto.
Qed.
Lemma t_assign_copy_spec x y h a b f : heap_ok h -> tvalid x h a -> tvalid y h b -> t_has h b f ->
  apart a b -> copyable c b ->
  exists h' a', t_assign_copy c x h a b = Ok (h', a') /\ tvalid x h' a' /\ t_has h' a' f /\
    local h [blk a] h' [blk a'] /\ a_al a' = a_al a /\ shape_from a' b.
Proof.
  intros Hh Ha Hb Hhas Hap Hcp. unfold t_assign_copy. destruct (ptr_eqb (a_base a) (a_base b)) eqn:E.
  - destruct (t_bases_equal _ _ _ _ _ Ha Hb Hap E) as [M1 M2].
    rewrite (no_memory_null _ M1). cbn [negb]. pose proof (t_no_memory_shape x y h a b Ha M1 Hb M2) as V1.
    cbv zeta. rewrite (t_null_assert x h (with_shape a (a_shape b))); auto; [|apply (no_memory_null _ M1)].
    cbn [bind]. exists h, (with_shape a (a_shape b)). split; auto. split; auto.
    split; [apply (t_no_memory_has x); auto|]. split; [apply local_refl; auto|]. split; auto. left; auto.
  - assert (Hst : exists h1 a1, (if negb (is_null (a_base a)) && shape_eqb (a_shape a) (a_shape b)
        then h' <- t_destroy c h a ;; Ok (h', a)
        else ' (h', a') <- t_deallocate c x h a ;; allocate c x h' (with_shape a' (a_shape b))) = Ok (h1, a1) /\
        tvalid x h1 a1 /\ local h [blk a] h1 [blk a1] /\ a_shape a1 = resolve (a_shape b) /\ a_al a1 = a_al a).
    { destruct (negb (is_null (a_base a)) && shape_eqb (a_shape a) (a_shape b)) eqn:E2.
      - apply andb_true_iff in E2. destruct E2 as [En E2]. apply shape_eqb_eq in E2.
        destruct (t_destroy_spec x h a Hh Ha) as [h1 [-> [V1 L1]]]. cbn [bind]. exists h1, a.
        split; auto. split; auto. split; auto. split; auto. rewrite <- E2. symmetry. apply resolve_known.
        destruct (tvalid_memory _ _ _ Ha) as [[_ [_ [_ [_ C]]]]|[Hp _]]; [rewrite C in En; discriminate|apply Hp].
      - apply t_refit_spec; auto. apply Hb. }
    destruct Hst as [h1 [a1 [-> [V1 [L1 [E1 A1]]]]]]. cbn [bind].
    destruct (t_frame_local y h h1 _ _ b Hh L1 Hb) as [Hb1 [Hh1 [Hk1 _]]].
    { intros [I|[]]. unfold apart in Hap. rewrite <- I. auto. }
    destruct (t_copy_construct_spec x y h1 a1 b f) as [h2 [-> [V2 [H2 L2]]]]; auto; [apply L1| |].
    { intros I. rewrite I. apply Hk1. left; auto. }
    cbn [bind]. exists h2, a1. split; auto. split; auto. split; auto.
    split; [eapply local_trans; eauto|]. split; auto. right; auto.
Qed.
Lemma t_assign_move_eq x h a b : t_assign_move c x h a b = t_assign_copy c x h a b.
Proof. reflexivity. Qed.

(** Self assignment *)
Lemma t_assign_copy_self x h a : tvalid x h a -> t_assign_copy c x h a a = Ok (h, a).
Proof.
  intros H. unfold t_assign_copy. rewrite ptr_eqb_refl. destruct (is_null (a_base a)) eqn:E; cbn [negb].
  - rewrite with_shape_self, (t_null_assert _ _ _ H E). auto.
  - rewrite self_shape_assert. auto.
Qed.
Lemma t_copy_assign_self x h a : tvalid x h a -> t_copy_assign_op c x h a x a = Ok (h, a).
Proof.
  intros H. unfold t_copy_assign_op. rewrite ptr_eqb_refl. destruct (is_null (a_base a)) eqn:E; cbn [negb].
  - rewrite with_shape_self, (t_null_assert _ _ _ H E). auto.
  - rewrite self_shape_assert. auto.
Qed.
Lemma t_move_assign_self x h a : tvalid x h a -> t_move_assign_op c x h a x a = Ok (h, a, a).
Proof.
  intros H. unfold t_move_assign_op. rewrite ptr_eqb_refl. destruct (is_null (a_base a)) eqn:E; cbn [negb].
  - rewrite with_shape_self, (t_null_assert _ _ _ H E). auto.
  - rewrite self_shape_assert. auto.
Qed.

Lemma t_ctor_copy_spec x y h b f : heap_ok h -> tvalid y h b -> t_has h b f -> copyable c b ->
  exists h' a', t_ctor_copy c x h b = Ok (h', a') /\ tvalid x h' a' /\ t_has h' a' f /\
    local h [0%nat] h' [blk a'] /\ a_al a' = c_select c (a_al b) /\ shape_from a' b.
Proof.
  intros Hh Hb Hhas Hcp. unfold t_ctor_copy.
  apply (t_assign_copy_spec x y h (blank (c_select c (a_al b)) (c_shape0 c)) b f); auto.
  - apply t_blank; auto.
  - intros _. auto.
Qed.
Lemma t_ctor_copy_alloc_spec x y h b f al : heap_ok h -> tvalid y h b -> t_has h b f -> copyable c b ->
  exists h' a', t_ctor_copy_alloc skip c x h b al = Ok (h', a') /\ tvalid x h' a' /\ t_has h' a' f /\
    local h [0%nat] h' [blk a'] /\ a_al a' = al /\ shape_from a' b.
Proof.
  intros Hh Hb Hhas Hcp. unfold t_ctor_copy_alloc.
  destruct (t_ctor_shape_spec x h al (c_shape0 c) Hh) as [h1 [a1 [-> [Hv [Hl [_ [Eal _]]]]]]]; [apply Hf|]. cbn [bind].
  destruct (t_frame_local y h h1 _ _ b Hh Hl Hb) as [Hb1 [Hh1 [Hk1 _]]]; [intros [I|[]]; auto|].
  destruct (t_assign_copy_spec x y h1 a1 b f) as [h' [a' [E [H1 [H2 [H3 [H4 H5]]]]]]]; auto.
  - apply Hl.
  - intros I. rewrite I. apply Hk1. left; auto.
  - exists h', a'. split; auto. split; auto. split; auto. split; [eapply local_trans; eauto|]. split; auto. congruence.
Qed.
Lemma t_ctor_value_spec x h al s v : heap_ok h -> plain_arg c s ->
  exists h' a', t_ctor_value skip c x h al s v = Ok (h', a') /\ tvalid x h' a' /\ t_has h' a' (fun _ => Live v) /\
    local h [0%nat] h' [blk a'] /\ a_shape a' = resolve s /\ a_al a' = al.
Proof.
  intros Hh Hs. unfold t_ctor_value.
  destruct (t_ctor_shape_spec x h al (c_shape0 c) Hh) as [h1 [a1 [-> [Hv [Hl [_ [Eal _]]]]]]]; [apply Hf|]. cbn [bind].
  destruct (t_assign_value_spec x h1 a1 s (fun _ => Ok (Live v)) (Live v)) as [h2 [a2 [-> [H1 [H2 [H3 [H4 H5]]]]]]]; auto; [apply Hl|].
  exists h2, a2. split; auto. split; auto. split; auto. split; [eapply local_trans; eauto|]. split; congruence.
Qed.
Lemma t_clear_spec x h a : heap_ok h -> tvalid x h a ->
  exists h' a', t_clear skip c x h a = Ok (h', a') /\ tvalid x h' a' /\ local h [blk a] h' [blk a'] /\
    a_shape a' = resolve (c_shape0 c) /\ a_al a' = a_al a /\ no_memory a'.
Proof.
  intros Hh Ha. unfold t_clear.
  destruct (t_deallocate_spec x h a Hh Ha) as [h0 [a0 [-> [_ [Hm [Hl Eal]]]]]]. cbn [bind].
  destruct (t_allocate_spec x h0 (with_shape a0 (c_shape0 c))) as [h1 [a1 [-> [V1 [Hl2 [E1 [Ea N1]]]]]]]; auto; [apply Hl|apply Hm|apply Hm|apply Hf|].
  change (a_al (with_shape a0 (c_shape0 c))) with (a_al a0) in Ea. cbn [bind].
  assert (L1 : local h [blk a] h1 [blk a1]) by (eapply local_trans; [exact Hh|exact Hl|exact Hl2]).
  assert (A1 : a_al a1 = a_al a) by congruence.
  destruct (t_construct_default_spec x h1 a1) as [h2 [-> [V2 [L2 _]]]]; auto; [apply L1|].
  cbn [bind]. exists h2, a1. split; auto. split; auto. split; [eapply local_trans; eauto|]. split; auto. split; auto.
  apply N1. apply Hf.
Qed.

(** ** Taking over memory *)

Lemma t_takes_valid x y h al b : tvalid y h b -> a_busy b = false -> (al = a_al b \/ no_memory b) -> tvalid x h (takes al b).
Proof.
  intros [Hs H] Hbz Hal. split; auto. destruct H as [[[Hm1 [Hm2 _]] R]|[Hp [k [bb [Hbb Hin]]]]].
  - left. split; auto. unfold no_memory, takes; auto.
  - right. split; auto. exists k, bb. split; auto. unfold t_block in *. cbn [takes a_buf a_base a_shape a_bufsize a_busy a_al].
    rewrite Hbz in Hin. destruct Hal as [->|Hm]; auto. exfalso. pose proof (no_memory_blk _ Hm) as E. unfold blk in E.
    destruct Hin as [Hk [Eb _]]. rewrite Eb in E. cbn [fst] in E. congruence.
Qed.
Lemma t_not_busy x h a : tvalid x h a -> c_cap c < 0 -> a_busy a = false.
Proof.
  intros [_ [[[_ [_ H]] _]|[_ [k [b [_ Hin]]]]]] Hc; auto.
  destruct (a_busy a) eqn:E; auto. unfold t_block in Hin. rewrite E in Hin.
  destruct Hin as [_ [_ [_ [_ [Hpos [_ [Hcap _]]]]]]]. pose proof (proj1 Hcap eq_refl). lia.
Qed.
Lemma fair_pocma : c_pocma c = true -> c_cap c < 0.
Proof. intros E. destruct Hf as [_ [_ [_ [_ [H|[_ [H _]]]]]]]; auto. congruence. Qed.
Lemma fair_pocca : c_pocca c = true -> c_cap c < 0.
Proof. intros E. destruct Hf as [_ [_ [_ [_ [H|[H _]]]]]]; auto. congruence. Qed.
Lemma fair_pocs : c_pocs c = true -> c_cap c < 0.
Proof. intros E. destruct Hf as [_ [_ [_ [_ [H|[_ [_ H]]]]]]]; auto. congruence. Qed.

Definition t_moved (x y : nat) h (K : list nat) (b : arr) f h' a' b' : Prop :=
  tvalid x h' a' /\ t_has h' a' f /\ tvalid y h' b' /\ apart a' b' /\ local h K h' [blk a'; blk b'] /\ shape_from a' b.

Lemma swapped x y h a b f : heap_ok h -> tvalid x h a -> tvalid y h b -> t_has h b f -> apart a b -> forall al al',
  a_busy a = false -> a_busy b = false -> (al = a_al b \/ no_memory b) -> (al' = a_al a \/ no_memory a) ->
  t_moved x y h [blk a; blk b] b f h (takes al b) (takes al' a).
Proof.
  intros Hh Ha Hb Hhas Hap al al' B1 B2 A1 A2. split; [apply (t_takes_valid x y); auto|]. split; [exact Hhas|].
  split; [apply (t_takes_valid y x); auto|]. split; [apply takes_apart; auto|]. split; [|left; auto].
  apply (local_perm h [blk a; blk b] h [blk a; blk b]); [tauto| |apply local_refl; auto].
  intros k. simpl. unfold blk. simpl. tauto.
Qed.
Lemma local_keep h h' k k' j : local h [k] h' [k'] -> local h [k; j] h' [k'; j].
Proof.
  intros H. apply (local_perm h ([j] ++ [k]) h' ([j] ++ [k'])); [intros n; simpl; tauto|intros n; simpl; tauto|].
  apply local_frame; auto.
Qed.
Lemma t_refit_move x y h al b f : heap_ok h -> tvalid y h b -> t_has h b f -> copyable c b ->
  exists h' a', (' (h1, a1) <- allocate c x h (with_shape (blank al (c_shape0 c)) (a_shape b)) ;;
     h2 <- t_move_construct c h1 a1 b ;; Ok (h2, a1, b)) = Ok (h', a', b) /\
     t_moved x y h [0%nat; blk b] b f h' a' b /\ a_al a' = al.
Proof.
  intros Hh Hb Hhas Hcp.
  destruct (t_allocate_spec x h (with_shape (blank al (c_shape0 c)) (a_shape b)) Hh eq_refl eq_refl) as [h1 [a1 [-> [V1 [L1 [E1 [A1 _]]]]]]].
  { apply Hb. }
  cbn [bind]. change (blk (with_shape (blank al (c_shape0 c)) (a_shape b))) with 0%nat in L1.
  destruct (t_frame_local y h h1 _ _ b Hh L1 Hb) as [Hb1 [Hh1 [Hk1 _]]]; [intros [I|[]]; auto|].
  assert (Hap : apart a1 b) by (intros I; rewrite I; apply Hk1; left; auto).
  rewrite t_move_construct_eq.
  destruct (t_copy_construct_spec x y h1 a1 b f) as [h2 [-> [V2 [H2 L2]]]]; auto; [apply L1|].
  cbn [bind]. exists h2, a1. split; auto. split; [|exact A1].
  destruct (t_frame_local y h1 h2 _ _ b (proj1 L1) L2 Hb1) as [Hb2 _].
  { intros [I|[]]. unfold apart in Hap. rewrite <- I. auto. }
  split; auto. split; auto. split; auto. split; auto. split; [|right; auto].
  apply local_keep. eapply local_trans; eauto.
Qed.
Lemma t_ctor_move_alloc_spec x y h b f al : heap_ok h -> x <> y -> tvalid y h b -> t_has h b f -> copyable c b ->
  exists h' a' b', t_ctor_move_alloc c x h y b al = Ok (h', a', b') /\ t_moved x y h [0%nat; blk b] b f h' a' b' /\
    a_al a' = al /\ a_al b' = a_al b.
Proof.
  intros Hh Hxy Hb Hhas Hcp. unfold t_ctor_move_alloc, alloc_eq. cbn [blank a_busy orb a_al].
  destruct (a_busy b) eqn:Ebz.
  - rewrite (proj2 (Nat.eqb_neq x y) Hxy). destruct (t_refit_move x y h al b f) as [h' [a' [E [M A]]]]; auto. exists h', a', b. auto.
  - destruct (Nat.eqb_spec al (a_al b)) as [Eal|Eal].
    + pose proof (swap_takes (blank al (c_shape0 c)) b eq_refl Ebz) as E. rewrite E.
      eexists _, _, _. split; [reflexivity|]. split; auto.
      apply (swapped x y h (blank al (c_shape0 c)) b f); auto; [apply t_blank|intros _; auto].
    + destruct (t_refit_move x y h al b f) as [h' [a' [E [M A]]]]; auto. exists h', a', b. auto.
Qed.
Lemma t_ctor_move_spec x y h b f : heap_ok h -> x <> y -> tvalid y h b -> t_has h b f -> copyable c b ->
  exists h' a' b', t_ctor_move c x h y b = Ok (h', a', b') /\ t_moved x y h [0%nat; blk b] b f h' a' b'.
Proof.
  intros Hh Hxy Hb Hhas Hcp. unfold t_ctor_move. destruct (c_pocma c) eqn:Ep; cbn [orb].
  - pose proof (t_not_busy y h b Hb (fair_pocma Ep)) as Ebz.
    pose proof (swap_takes (blank (a_al b) (c_shape0 c)) b eq_refl Ebz) as E. rewrite E.
    eexists _, _, _. split; [reflexivity|].
    apply (swapped x y h (blank (a_al b) (c_shape0 c)) b f); auto; [apply t_blank|intros _; auto].
  - destruct (t_ctor_move_alloc_spec x y h b f (c_default c)) as [h' [a' [b' [E [M _]]]]]; auto.
    exists h', a', b'. auto.
Qed.
Lemma t_set_al x h a al : tvalid x h a -> no_memory a -> tvalid x h (set_al a al).
Proof.
  intros [Hs H] Hm. split; auto. destruct H as [[_ R]|[_ [k [b [_ Hin]]]]]; [left; auto|].
  exfalso. pose proof (t_blk _ _ _ _ Hin) as E. rewrite (no_memory_blk _ Hm) in E. destruct Hin as [Hk _]. congruence.
Qed.
Lemma t_copy_assign_spec x y h a b f : heap_ok h -> tvalid x h a -> tvalid y h b -> t_has h b f ->
  apart a b -> copyable c b ->
  exists h' a', t_copy_assign_op c x h a y b = Ok (h', a') /\ tvalid x h' a' /\ t_has h' a' f /\
    local h [blk a] h' [blk a'] /\ shape_from a' b.
Proof.
  intros Hh Ha Hb Hhas Hap Hcp. unfold t_copy_assign_op.
  destruct (t_assign_copy_spec x y h a b f Hh Ha Hb Hhas Hap Hcp) as [h0 [a0 [E0 [V0 [H0 [L0 [Al0 S0]]]]]]].
  destruct (ptr_eqb (a_base a) (a_base b)) eqn:E.
  - unfold t_assign_copy in E0. rewrite E in E0. rewrite E0. exists h0, a0. auto.
  - destruct (c_pocca c) eqn:Ep; cbn [bind]; [|exists h0, a0; auto].
    pose proof (t_not_busy x h a Ha (fair_pocca Ep)) as Bx. pose proof (t_not_busy y h b Hb (fair_pocca Ep)) as By.
    unfold alloc_eq. rewrite Bx, By. cbn [orb]. destruct (Nat.eqb_spec (a_al a) (a_al b)) as [Eal|Eal]; cbn [negb bind].
    + replace (set_al a (a_al b)) with a by (rewrite <- Eal; destruct a; reflexivity). exists h0, a0. auto.
    + destruct (t_deallocate_spec x h a Hh Ha) as [h1 [a1 [-> [V1 [M1 [L1 A1]]]]]]. cbn [bind].
      destruct (t_frame_local y h h1 _ _ b Hh L1 Hb) as [Hb1 [Hh1 [Hk1 _]]].
      { intros [I|[]]. unfold apart in Hap. rewrite <- I. auto. }
      destruct (t_assign_copy_spec x y h1 (set_al a1 (a_al b)) b f) as [h2 [a2 [-> [V2 [H2 [L2 [_ S2]]]]]]]; auto.
      * apply L1.
      * apply t_set_al; auto.
      * intros _. apply (no_memory_blk _ M1).
      * exists h2, a2. split; auto. split; auto. split; auto. split; auto. eapply local_trans; eauto.
Qed.
Lemma t_move_assign_spec x y h a b f : heap_ok h -> x <> y -> tvalid x h a -> tvalid y h b -> t_has h b f ->
  apart a b -> copyable c b ->
  exists h' a' b', t_move_assign_op c x h a y b = Ok (h', a', b') /\ t_moved x y h [blk a; blk b] b f h' a' b'.
Proof.
  intros Hh Hxy Ha Hb Hhas Hap Hcp. unfold t_move_assign_op. destruct (ptr_eqb (a_base a) (a_base b)) eqn:E.
  - destruct (t_bases_equal _ _ _ _ _ Ha Hb Hap E) as [M1 M2]. rewrite (no_memory_null _ M1). cbn [negb]. cbv zeta.
    pose proof (t_no_memory_shape x y h a b Ha M1 Hb M2) as V1. pose proof (t_no_memory_shape y x h b a Hb M2 Ha M1) as V2.
    rewrite (t_null_assert x h (with_shape a (a_shape b))); auto; [|apply (no_memory_null _ M1)].
    cbn [bind]. eexists _, _, _. split; [reflexivity|]. split; auto. split; [apply (t_no_memory_has x); auto|]. split; auto.
    split; [intros _; apply (no_memory_blk _ M1)|]. split; [|left; auto]. apply local_refl; auto.
  - assert (Hmv : exists h' a' b', (' (h1, a1) <- t_assign_move c x h a b ;; Ok (h1, a1, b)) = Ok (h', a', b') /\
      t_moved x y h [blk a; blk b] b f h' a' b').
    { rewrite t_assign_move_eq.
      destruct (t_assign_copy_spec x y h a b f Hh Ha Hb Hhas Hap Hcp) as [h1 [a1 [-> [V1 [H1 [L1 [_ S1]]]]]]]. cbn [bind].
      destruct (t_frame_local y h h1 _ _ b Hh L1 Hb) as [Hb1 [_ [Hk1 _]]].
      { intros [I|[]]. unfold apart in Hap. rewrite <- I. auto. }
      exists h1, a1, b. split; auto. split; auto. split; auto. split; auto.
      split; [intros I; rewrite I; apply Hk1; left; auto|]. split; auto. apply local_keep; auto. }
    destruct (c_pocma c) eqn:Ep.
    + pose proof (t_not_busy x h a Ha (fair_pocma Ep)) as Bx. pose proof (t_not_busy y h b Hb (fair_pocma Ep)) as By.
      unfold swap_allocators. rewrite swap_takes by auto. eexists _, _, _. split; [reflexivity|].
      apply (swapped x y h a b f); auto.
    + unfold alloc_eq. destruct (a_busy a || a_busy b) eqn:Ebz.
      * rewrite (proj2 (Nat.eqb_neq x y) Hxy). exact Hmv.
      * apply orb_false_iff in Ebz. destruct Ebz as [Ba Bb].
        destruct (Nat.eqb_spec (a_al a) (a_al b)) as [Eal|Eal]; [|exact Hmv].
        rewrite swap_takes by auto. eexists _, _, _. split; [reflexivity|]. apply (swapped x y h a b f); auto.
Qed.

(** ** Algorithms *)

Lemma t_fill_spec x h a v : heap_ok h -> tvalid x h a ->
  exists h', t_fill (c_ndebug c) h (aref_of a) v = Ok h' /\ tvalid x h' a /\ t_has h' a (fun _ => v) /\ local h [blk a] h' [blk a].
Proof.
  intros Hh H. unfold t_fill. cbn [aref_of r_shape r_base].
  destruct (values_spec (c_ndebug c) (a_shape a) (a_base a) (tvalid_extents _ _ _ H) (tvalid_base _ _ _ H))
    as [l [Hl ->]]. cbn [bind]. rewrite foldM_map. apply t_values_loop; auto; [apply agree_const|].
  intros h' i Hi Hk _. apply t_store_ok. rewrite (Hk _). eapply tvalid_peek; eauto. apply Hl; auto.
Qed.
(** Assigning elements of [b] to elements of [a], which may be the same array *)
Lemma t_pairs_spec x y h a b l : heap_ok h -> tvalid x h a -> tvalid y h b ->
  (forall i, In i l -> in_bounds (a_shape a) i /\ in_bounds (a_shape b) i) ->
  exists h', foldM t_copy_assign (map (fun i => (elem (a_base b) (a_shape b) i, elem (a_base a) (a_shape a) i)) l) h = Ok h' /\
    tvalid x h' a /\ local h [blk a] h' [blk a].
Proof.
  intros Hh Ha Hb Hl. rewrite foldM_map. apply (t_writes_loop x h a _ (elem (a_base a) (a_shape a))); auto.
  - intros i Hi. exists i. split; auto. apply Hl; auto.
  - intros h' i Hi Hk. unfold t_copy_assign, t_load. cbn [fst snd].
    pose proof (tvalid_peek _ _ _ _ Hb (proj2 (Hl i Hi))) as P1. rewrite <- (Hk _) in P1.
    destruct (peek h' (elem (a_base b) (a_shape b) i)) as [v|]; [|congruence]. cbn [bind]. exists v. apply t_store_ok.
    rewrite (Hk _). eapply tvalid_peek; eauto. apply Hl; auto.
Qed.
Lemma t_pairs_values x y h a b f l : heap_ok h -> tvalid x h a -> tvalid y h b -> t_has h b f -> apart a b ->
  enumerates (in_bounds (a_shape a)) l -> within (a_shape a) (a_shape b) -> agree a f ->
  exists h', foldM t_copy_assign (map (fun i => (elem (a_base b) (a_shape b) i, elem (a_base a) (a_shape a) i)) l) h = Ok h' /\
    tvalid x h' a /\ t_has h' a f /\ local h [blk a] h' [blk a].
Proof.
  intros Hh Ha Hb Hhas Hap Hl Hw Hag. rewrite foldM_map. apply t_values_loop; auto.
  intros h' i Hi Hk Ho. apply Hl in Hi. unfold t_copy_assign. cbn [fst snd]. rewrite (t_load_ok h' _ (f i)).
  - cbn [bind]. apply t_store_ok. rewrite (Hk _). eapply tvalid_peek; eauto.
  - rewrite Ho; [apply Hhas; auto|]. destruct (t_elem_block _ _ _ _ Hb (Hw i Hi)) as [-> [N _]].
    intros E. apply N. rewrite E. apply Hap; auto.
Qed.
Lemma t_copy_spec x y h a b : heap_ok h -> tvalid x h a -> tvalid y h b -> within (a_shape a) (a_shape b) ->
  exists h', t_copy (c_ndebug c) h (aref_of b) (aref_of a) = Ok h' /\ tvalid x h' a /\ local h [blk a] h' [blk a] /\
    forall f, apart a b -> t_has h b f -> agree a f -> t_has h' a f.
Proof.
  intros Hh Ha Hb Hw. unfold t_copy. cbn [aref_of r_shape r_base].
  pose proof (tvalid_extents _ _ _ Ha) as He.
  destruct (empty (a_shape a)) eqn:E.
  - exists h. split; auto. split; auto. split; [apply local_refl; auto|].
    intros f _ _ _ i Hi. destruct (empty_no_index _ He E i Hi).
  - assert (Hlen : length (a_shape b) = length (a_shape a)).
    { rewrite (tvalid_length _ _ _ Ha), (tvalid_length _ _ _ Hb). auto. }
    rewrite (proj2 (in_range_corners _ _ Hlen (not_empty_ge1 _ He E)) Hw). cbn [assert_ bind].
    destruct (values_copy_spec (c_ndebug c) (a_shape b) (a_base b) (a_shape a) (a_base a) Hlen He) as [l [Hl ->]].
    { eapply t_pair_base; eauto. }
    cbn [bind]. destruct (t_pairs_spec x y h a b l) as [h' [E1 [V1 L1]]]; auto.
    { intros i Hi. apply Hl in Hi. auto. }
    exists h'. split; auto. split; auto. split; auto. intros f Hap Hhas Hag.
    destruct (t_pairs_values x y h a b f l) as [h2 [E2 [_ [H2 _]]]]; auto. rewrite E1 in E2. inv E2. auto.
Qed.
Lemma t_move_eq nd h r1 r2 : t_move nd h r1 r2 = t_copy (V := V) nd h r1 r2.
Proof. reflexivity. Qed.
Lemma t_assign_each_spec x h a (g : nat -> V) l : heap_ok h -> tvalid x h a ->
  (forall p, In p l -> is_elem (a_base a) (a_shape a) p) ->
  forall n, exists r, foldM (fun st p => h' <- t_store (fst st) p (Live (g (snd st))) ;; Ok (h', S (snd st))) l (h, n) = Ok r /\
    tvalid x (fst r) a /\ local h [blk a] (fst r) [blk a].
Proof.
  intros Hh Ha Hl n.
  cut (exists r ws, foldM (fun st p => h' <- t_store (fst st) p (Live (g (snd st))) ;; Ok (h', S (snd st))) l (h, n) = Ok r /\
     fst r = upds h ws /\ map fst ws = l).
  { intros [r [ws [E [E1 E2]]]]. exists r. split; auto. rewrite E1. apply t_written; auto. rewrite E2. auto. }
  assert (Hp : forall p, In p l -> peek h p <> None).
  { intros p I. destruct (Hl p I) as [i [Hi ->]]. eapply tvalid_peek; eauto. }
  clear Hh Ha Hl. revert h n Hp. induction l as [|p l IH]; intros h n Hp; cbn [foldM].
  - exists (h, n), []. auto.
  - cbn [fst snd]. rewrite t_store_ok by (apply Hp; left; auto). cbn [bind fst snd].
    destruct (IH (upd h p (Live (g n))) (S n)) as [r [ws [E [E1 E2]]]].
    { intros q Hq. rewrite peek_upd_none. apply Hp. right; auto. }
    exists r, ((p, Live (g n)) :: ws). split; auto. split; auto. cbn [map fst]. rewrite E2. auto.
Qed.
Lemma t_generate_spec x h a g : heap_ok h -> tvalid x h a ->
  exists r, t_generate (c_ndebug c) h (aref_of a) g = Ok r /\ tvalid x (fst r) a /\ local h [blk a] (fst r) [blk a].
Proof.
  intros Hh H. unfold t_generate, t_assign_each. cbn [aref_of r_shape r_base].
  destruct (values_spec (c_ndebug c) (a_shape a) (a_base a) (tvalid_extents _ _ _ H) (tvalid_base _ _ _ H))
    as [l [Hl ->]]. cbn [bind]. apply t_assign_each_spec; auto.
  intros p Hp. apply in_map_iff in Hp. destruct Hp as [i [<- Hi]]. exists i. split; auto. apply Hl; auto.
Qed.
(** The last write to a place stays *)
Lemma t_assign_each_values (g : nat -> V) l : forall h k, (forall p, In p l -> peek h p <> None) ->
  exists h' k', foldM (fun st p => h' <- t_store (fst st) p (Live (g (snd st))) ;; Ok (h', S (snd st))) l (h, k) = Ok (h', k') /\
    (forall q, ~ In q l -> peek h' q = peek h q) /\
    forall n p, nth_error l n = Some p -> (forall m, (n < m)%nat -> nth_error l m <> Some p) -> peek h' p = Some (Live (g (k + n)%nat)).
Proof.
  induction l as [|p l IH]; intros h k H; cbn [foldM].
  - exists h, k. split; auto. split; auto. intros [|n] p E; discriminate.
  - cbn [fst snd]. rewrite t_store_ok by (apply H; left; auto). cbn [bind].
    destruct (IH (upd h p (Live (g k))) (S k)) as [h' [k' [E [H1 H2]]]].
    { intros q Hq. rewrite peek_upd_none. apply H. right; auto. }
    exists h', k'. split; auto. split.
    + intros q Hq. rewrite H1 by (intros C; apply Hq; right; auto). apply peek_upd_other. intros ->. apply Hq. left; auto.
    + intros [|n] q Eq Hm.
      * cbn in Eq. inv Eq. rewrite H1; [rewrite peek_upd_same; [rewrite Nat.add_0_r; auto|apply H; left; auto]|].
        intros C. apply In_nth_error in C. destruct C as [m C]. apply (Hm (S m)); [lia|exact C].
      * cbn in Eq. rewrite (H2 n q Eq); [replace (S k + n)%nat with (k + S n)%nat by lia; auto|]. intros m Lm C. apply (Hm (S m)); [lia|exact C].
Qed.
Lemma t_generate_values x h a g : heap_ok h -> tvalid x h a ->
  exists r l, t_generate (c_ndebug c) h (aref_of a) g = Ok r /\ enumerates (in_bounds (a_shape a)) l /\
    forall n i, nth_error l n = Some i ->
      (forall m j, (n < m)%nat -> nth_error l m = Some j -> offset (a_shape a) j <> offset (a_shape a) i) ->
      peek (fst r) (elem (a_base a) (a_shape a) i) = Some (Live (g n)).
Proof.
  intros Hh H. unfold t_generate, t_assign_each. cbn [aref_of r_shape r_base].
  destruct (values_spec (c_ndebug c) (a_shape a) (a_base a) (tvalid_extents _ _ _ H) (tvalid_base _ _ _ H))
    as [l [Hl ->]]. cbn [bind].
  destruct (t_assign_each_values g (map (elem (a_base a) (a_shape a)) l) h 0) as [h' [k' [E [_ H2]]]].
  { intros p Hp. apply in_map_iff in Hp. destruct Hp as [i [<- Hi]]. eapply tvalid_peek; eauto. apply Hl; auto. }
  exists (h', k'), l. split; auto. split; auto. intros n i Ei Hm. cbn [fst].
  apply (H2 n); [apply map_nth_error; auto|]. intros m Lm C. rewrite nth_error_map in C.
  destruct (nth_error l m) as [j|] eqn:Ej; [|discriminate]. cbn in C. injection C as C. apply (Hm m j Lm Ej).
  unfold elem in *. lia.
Qed.
Lemma t_transform_spec x h a (fn : index -> V) : heap_ok h -> tvalid x h a ->
  exists h', t_transform_index h (aref_of a) fn = Ok h' /\ tvalid x h' a /\ local h [blk a] h' [blk a] /\
    (agree a (fun i => Live (fn i)) -> t_has h' a (fun i => Live (fn i))).
Proof.
  intros Hh H. unfold t_transform_index. cbn [aref_of r_shape].
  destruct (for_each_index_visits (a_shape a) (tvalid_extents _ _ _ H)) as [l [-> [Hl _]]]. cbn [bind].
  assert (Er : forall i, In i l -> ref_ptr (aref_of a) i = elem (a_base a) (a_shape a) i).
  { intros i Hi. apply elem_ref. }
  destruct (t_writes_loop x h a (fun h i => t_store h (ref_ptr (aref_of a) i) (Live (fn i))) (elem (a_base a) (a_shape a)) l)
    as [h' [E [V1 L1]]]; auto.
  - intros i Hi. exists i. split; auto. apply Hl; auto.
  - intros h' i Hi Hk. exists (Live (fn i)). rewrite Er by auto. apply t_store_ok. rewrite (Hk _). eapply tvalid_peek; eauto. apply Hl; auto.
  - exists h'. split; auto. split; auto. split; auto. intros Hag.
    destruct (t_values_loop x h a (fun h i => t_store h (ref_ptr (aref_of a) i) (Live (fn i))) (fun i => Live (fn i)) l) as [h2 [E2 [_ [H2 _]]]]; auto.
    + intros h2 i Hi Hk _. rewrite Er by auto. apply t_store_ok. rewrite (Hk _). eapply tvalid_peek; eauto. apply Hl; auto.
    + assert (EE : Ok h' = Ok h2) by (rewrite <- E; exact E2). inv EE. auto.
Qed.
Lemma t_make_copy_spec x y h b s al : heap_ok h -> tvalid y h b -> plain_arg c s -> within (resolve s) (a_shape b) ->
  exists h' a', t_make_copy skip c x h (aref_of b) s al = Ok (h', a') /\ tvalid x h' a' /\ local h [0%nat] h' [blk a'] /\
    a_shape a' = resolve s /\ a_al a' = al /\ forall f, t_has h b f -> agree a' f -> t_has h' a' f.
Proof.
  intros Hh Hb Hs Hw. unfold t_make_copy.
  destruct (t_ctor_shape_spec x h al s Hh Hs) as [h1 [a1 [-> [Hv [Hl [Es [Eal _]]]]]]]. cbn [bind].
  destruct (t_frame_local y h h1 _ _ b Hh Hl Hb) as [Hb1 [Hh1 [Hk1 _]]]; [intros [I|[]]; auto|].
  assert (Hap : apart a1 b) by (intros I; rewrite I; apply Hk1; left; auto).
  destruct (t_copy_spec x y h1 a1 b) as [h2 [-> [V2 [L2 H2]]]]; auto; [apply Hl|rewrite Es; auto|].
  cbn [bind]. exists h2, a1. split; auto. split; auto. split; [eapply local_trans; eauto|]. split; auto.
Qed.
Lemma t_make_move_eq x h r s al : t_make_move skip c x h r s al = t_make_copy skip c x h r s al.
Proof. reflexivity. Qed.
Lemma t_move_common_spec x y h a b : heap_ok h -> tvalid x h a -> tvalid y h b -> Forall2 meets (a_shape b) (a_shape a) ->
  exists h', t_move_common c h a b (a_shape b) = Ok h' /\ tvalid y h' b /\ local h [blk b] h' [blk b] /\
    (apart a b -> injective_layout (a_shape b) -> forall f g, t_has h a f -> t_has h b g -> exists g', t_has h' b g' /\
      (forall i, in_bounds (a_shape a) i -> in_bounds (a_shape b) i -> g' i = f i) /\
      (forall i, ~ in_bounds (a_shape a) i -> in_bounds (a_shape b) i -> g' i = g i)).
Proof.
  intros Hh Ha Hb Hm. unfold t_move_common.
  assert (Hlen : length (a_shape b) = length (a_shape a)).
  { rewrite (tvalid_length _ _ _ Ha), (tvalid_length _ _ _ Hb). auto. }
  set (I := clamp_dims (a_shape b) (a_shape a)). set (ib := pointer_add (a_base b) (flat_offset (a_shape b) (mins I))).
  assert (HI : forall i, in_bounds I i <-> in_bounds (a_shape b) i /\ in_bounds (a_shape a) i)
    by (intros i; apply clamp_in_bounds; auto).
  assert (He : extents_ge 0 I) by (apply clamp_extents; auto).
  assert (HlI : length I = length (a_shape b)) by (apply map2_length; auto).
  assert (Hel : forall i, in_bounds I i -> elem ib I i = elem (a_base b) (a_shape b) i).
  { intros i Hi. pose proof (proj1 (HI i) Hi) as [Hib _].
    destruct (tvalid_base _ _ _ Hb) as [Hn|Hn]; [|destruct (Hn i Hib)].
    unfold ib, pointer_add, elem. rewrite Hn. cbn [ptr_off fst snd]. f_equal. rewrite flat_offset_spec.
    unfold I. rewrite <- (clamp_offset (a_shape b) (a_shape a) i Hlen).
    - lia.
    - symmetry. apply (Forall2_len _ _ _ Hib). }
  destruct (values_copy_spec (c_ndebug c) (a_shape a) (a_base a) I ib) as [l [Hl ->]]; [congruence|auto| |].
  { destruct (tvalid_base _ _ _ Ha) as [H1|H1]; [|right; intros i Hi; apply HI in Hi; destruct Hi as [_ Hi]; exact (H1 i Hi)].
    destruct (tvalid_memory _ _ _ Hb) as [[_ [H2 _]]|[_ [H2 [H3 H4]]]]; [right; intros i Hi; apply HI in Hi; destruct Hi as [Hi _]; exact (H2 i Hi)|].
    left. split; auto. unfold ib, pointer_add. rewrite H3. apply is_null_block. cbn [ptr_off fst]. congruence. }
  cbn [bind].
  rewrite (map_ext_in _ (fun i => (elem (a_base a) (a_shape a) i, elem (a_base b) (a_shape b) i))).
  2: { intros i Hi. rewrite Hel by (apply Hl; auto). auto. }
  change (@t_move_assign V) with (@t_copy_assign V).
  destruct (t_pairs_spec y x h b a l) as [h' [E [V1 L1]]]; auto; [intros i Hi; apply HI; apply Hl; auto|].
  exists h'. split; auto. split; auto. split; auto. intros Hap Hinj f g Hff Hgg.
  rewrite foldM_map in E.
  destruct (t_some_loop y h b (fun s i => t_copy_assign s (elem (a_base a) (a_shape a) i, elem (a_base b) (a_shape b) i)) f l)
    as [h2 [E2 [_ [_ [G1 G2]]]]]; auto.
  - intros i Hi. apply HI, Hl; auto.
  - intros h2 i Hi Hk Ho. apply Hl, HI in Hi. destruct Hi as [Ib Ia]. unfold t_copy_assign. cbn [fst snd]. rewrite (t_load_ok h2 _ (f i)).
    + cbn [bind]. apply t_store_ok. rewrite (Hk _). eapply tvalid_peek; eauto.
    + rewrite Ho; [apply Hff; auto|]. destruct (t_elem_block _ _ _ _ Ha Ia) as [-> [N _]]. intros Eq. apply N, Hap; auto.
  - assert (EE : Ok h' = Ok h2) by (rewrite <- E; exact E2). inv EE.
    exists (fun i => if in_dec idx_dec i l then f i else g i). split; [|split].
    + intros i Hi. destruct (in_dec idx_dec i l) as [J|J]; [apply G1; auto|]. rewrite G2; auto.
    + intros i H1 H2. destruct (in_dec idx_dec i l) as [J|J]; auto. exfalso. apply J, Hl, HI; auto.
    + intros i H1 H2. destruct (in_dec idx_dec i l) as [J|J]; auto. exfalso. apply H1. apply HI. apply Hl; auto.
Qed.

(** ** set_shape, move_reinterpret_shape *)

Lemma subset_span s t off : is_subset_of s t (- off) = true <-> in_span s t off.
Proof. unfold is_subset_of, in_span. rewrite andb_true_iff, Z.geb_le, Z.leb_le. lia. Qed.
Lemma peek_inside h k z : peek h (k, z) <> None -> exists b, h_blk h k = Some b /\ 0 <= z < b_size b.
Proof.
  unfold peek. cbn [fst snd]. destruct k; [congruence|]. destruct (h_blk h (S k)) as [b|]; [|congruence].
  destruct ((0 <=? z) && (z <? b_size b)) eqn:E; [|congruence]. intros _. exists b. split; auto. lia.
Qed.
Definition in_place h (a : arr) (s : list dim) (off : Z) : Prop :=
  (c_ndebug c = true /\ fits_memory h a s off) \/ (c_ndebug c = false /\ in_span s (a_shape a) off).
Lemma t_reshaped x h a s off : tvalid x h a -> length s = length (c_shape0 c) -> plain_layout s -> in_place h a s off ->
  tvalid x h (set_base (with_shape a s) (pointer_add (a_base a) off)).
Proof.
  intros H Hlen Hp Hin. split; [apply plain_arg_known; auto|].
  destruct H as [_ [[Hm [Hn [He Hd]]]|[Hp0 [k [b [Hb Ht]]]]]]; unfold set_base, with_shape.
  - left. cbn [a_shape]. pose proof (no_memory_null _ Hm) as En. unfold pointer_add. rewrite En.
    split; [destruct Hm as [? [? ?]]; unfold no_memory; cbn [a_buf a_base a_busy]; auto|].
    destruct Hin as [[Hr Hfit]|[Hr [S1 S2]]].
    + split; [|split; [apply Hp|congruence]]. intros i Hi. destruct (Hfit i Hi) as [E P]. apply P.
      destruct Hm as [Hm _]. rewrite Hm in E. cbn [null fst] in E. unfold peek. rewrite E. auto.
    + specialize (Hd Hr). assert (D : flat_max s < flat_min s) by lia.
      split; [|split; [apply Hp|auto]]. apply no_extent_no_index. unfold flat_extent. ifs; lia.
  - right. split; auto. exists k, b. split; auto. destruct Ht as [Hk [Eb [Eba [Esz [Hpos [Eow [Hcap [Hr Hd]]]]]]]].
    assert (En : is_null (a_base a) = false) by (apply is_null_block; congruence).
    unfold t_block, pointer_add. cbn [a_al a_busy a_buf a_bufsize a_base a_shape]. rewrite En. cbn [ptr_off fst snd].
    split; auto. split; auto. split; auto. split; auto. split; auto. split; auto. split; auto.
    destruct Hin as [[Hrel Hfit]|[Hdeb [S1 S2]]].
    + split; [|congruence]. intros i Hi. destruct (Hfit i Hi) as [E P]. unfold elem in P. cbn [ptr_off fst snd] in P.
      rewrite Eba in P. destruct (peek_inside _ _ _ P) as [b' [Hb' R]]. rewrite Hb in Hb'. inv Hb'. auto.
    + specialize (Hd Hdeb). split; [|intros _; lia]. intros i Hi. pose proof (offset_range _ _ Hi). lia.
Qed.
Lemma t_set_shape_spec x h a s off : tvalid x h a -> length s = length (c_shape0 c) -> plain_layout s ->
  c_ndebug c = false \/ fits_memory h a s off ->
  (exists a', arr_set_shape c a s off = Ok a' /\ a' = set_base (with_shape a s) (pointer_add (a_base a) off) /\ tvalid x h a') \/
  (c_ndebug c = false /\ arr_set_shape c a s off = AssertFail /\ ~ in_span s (a_shape a) off).
Proof.
  intros H Hlen Hp Hl. unfold arr_set_shape. rewrite (proj2 (is_resolved_iff s)) by apply Hp. cbn [assert_ bind].
  destruct (is_subset_of s (a_shape a) (- off)) eqn:E.
  - left. cbn [assert_ bind]. eexists. split; [reflexivity|]. split; auto. apply t_reshaped; auto.
    destruct (c_ndebug c) eqn:En; [left|right]; (split; auto).
    + destruct Hl; [congruence|auto].
    + apply subset_span; auto.
  - unfold assert_. destruct (c_ndebug c) eqn:En; cbn [bind].
    + left. eexists. split; [reflexivity|]. split; auto. apply t_reshaped; auto. left. destruct Hl; [congruence|auto].
    + right. split; auto. split; auto. intros C. apply subset_span in C. congruence.
Qed.
Lemma t_move_shape_spec x y h b s off : heap_ok h -> tvalid y h b -> length s = length (c_shape0 c) -> plain_layout s ->
  (a_base b = null -> off = 0) -> in_place h b s off ->
  c_pocma c = true \/ (a_busy b = false /\ a_al b = c_default c) ->
  (exists h' a' b', t_move_reinterpret_shape skip c x h y b (c_shape0 c) s off = Ok (h', a', b') /\
     tvalid x h' a' /\ tvalid y h' b' /\ local h [0%nat] h' [0%nat] /\ no_memory b' /\ a_shape b' = c_shape0 c /\
     a_buf a' = a_buf b /\ a_shape a' = s /\ a_base a' = ptr_off (a_base b) off) \/
  (c_ndebug c = false /\ t_move_reinterpret_shape skip c x h y b (c_shape0 c) s off = AssertFail /\
     is_subset_of s (a_shape b) off = false).
Proof.
  intros Hh Hb Hlen Hp Hnull Hin Hal. unfold t_move_reinterpret_shape.
  assert (Hok : exists h' a' b', (' (h1, r) <- t_ctor_shape skip c x h (c_default c) (c_shape0 c) ;;
    ' (r1, b1) <- (if c_pocma c then Ok (swap_allocators r b)
                 else _ <- assert_ (c_ndebug c) (alloc_eq x r y b) ;; Ok (r, b)) ;;
    let '(r2, b2) := swap_except_allocator r1 b1 in
    let r3 := with_shape r2 s in
    let b3 := with_shape b2 (c_shape0 c) in
    Ok (h1, set_base r3 (ptr_off (a_base r3) off), b3)) = Ok (h', a', b') /\
     tvalid x h' a' /\ tvalid y h' b' /\ local h [0%nat] h' [0%nat] /\ no_memory b' /\ a_shape b' = c_shape0 c /\
     a_buf a' = a_buf b /\ a_shape a' = s /\ a_base a' = ptr_off (a_base b) off).
  { destruct (t_ctor_shape_spec x h (c_default c) (c_shape0 c) Hh) as [h1 [r [-> [Vr [Lr [Sr [Ar [Mr _]]]]]]]]; [apply Hf|].
    specialize (Mr (proj1 (proj2 (proj2 (proj2 Hf))))). rewrite (no_memory_blk _ Mr) in Lr. cbn [bind].
    assert (Bb : a_busy b = false).
    { destruct Hal as [Ep|[Hal _]]; auto. apply (t_not_busy y h); auto. apply fair_pocma; auto. }
    assert (Br : a_busy r = false) by apply Mr.
    destruct (t_frame_local y h h1 _ _ b Hh Lr Hb) as [Hb1 [_ [_ Eblk]]]; [intros [I|[]]; auto|].
    assert (Hin1 : in_place h1 b s off).
    { destruct Hin as [[H1 H2]|H1]; [left|right; auto]. split; auto. intros i Hi. destruct (H2 i Hi) as [E1 E2].
      split; auto. remember (elem (ptr_off (a_base b) off) s i) as q. destruct q as [k z]. cbn [fst] in E1. rewrite E1 in *.
      rewrite (peek_same_block h h1); auto. }
    assert (Hgo : forall al al', al = a_al b \/ no_memory b ->
      exists h' a' b', Ok (h1, set_base (with_shape (takes al b) s) (ptr_off (a_base (with_shape (takes al b) s)) off),
         with_shape (takes al' r) (c_shape0 c)) = Ok (h', a', b') /\
       tvalid x h' a' /\ tvalid y h' b' /\ local h [0%nat] h' [0%nat] /\ no_memory b' /\ a_shape b' = c_shape0 c /\
       a_buf a' = a_buf b /\ a_shape a' = s /\ a_base a' = ptr_off (a_base b) off).
    { intros al al' Hal'. eexists _, _, _. split; [reflexivity|].
      assert (Mb : no_memory (with_shape (takes al' r) (c_shape0 c))).
      { destruct Mr as [M1 [M2 M3]]. unfold no_memory, takes, with_shape. cbn [a_buf a_base a_busy]. auto. }
      split; [|split; [|split; [|split; [|split; [|split; [|split]]]]]]; auto.
      - pose proof (t_reshaped x h1 (takes al b) s off) as T.
        replace (ptr_off (a_base (with_shape (takes al b) s)) off) with (pointer_add (a_base (takes al b)) off).
        + apply T; auto. apply (t_takes_valid x y); auto.
        + unfold pointer_add, with_shape, takes. cbn [a_base].
          destruct (is_null (a_base b)) eqn:En; auto. unfold is_null in En. apply ptr_eqb_eq in En. rewrite (Hnull En), En. auto.
      - apply t_no_memory; auto. }
    destruct (c_pocma c) eqn:Ep.
    - cbn [bind]. unfold swap_allocators. rewrite swap_takes by auto. apply (Hgo (a_al b) (a_al r)). auto.
    - destruct Hal as [Hal|[_ Hal]]; [congruence|]. unfold alloc_eq. rewrite Br, Bb, Ar, Hal, Nat.eqb_refl. cbn [orb assert_ bind].
      rewrite swap_takes by auto. apply (Hgo (a_al r) (a_al b)). left. congruence. }
  destruct (is_subset_of s (a_shape b) off) eqn:E; cbn [assert_ bind]; [left; exact Hok|].
  destruct (c_ndebug c) eqn:En; [left|right; auto].
  change (assert_ true false) with (Ok tt). cbn [bind]. exact Hok.
Qed.
End Facts.
