(** Facts about array_refs and the algorithms on them. *)
From Verif Require Import Tac Interval Shape Traverse Memory Ref Spec SpecMem ShapeFacts IntervalFacts
  ResolveFacts TraverseFacts MemFacts.
Import ListNotations.
Open Scope Z_scope.

(** ** Traversals with null bases *)

Lemma fuse2_from_ext rest : forall cur, 0 <= dext (snd cur) -> ext_nonneg2 rest ->
  ext_nonneg2 (fuse2_from cur rest).
Proof.
  induction rest as [|d r IH]; intros cur Hc Hr; simpl; [repeat constructor; auto|].
  inv Hr. destruct (can_fuse2 cur d).
  - apply IH; auto. simpl. nia.
  - constructor; [auto | apply IH; auto].
Qed.
Lemma optimize_copy_ext src dst : length src = length dst -> extents_ge 0 dst ->
  extents_ge 0 (snd (optimize_copy_shapes src dst)).
Proof.
  intros Hl Hd. unfold optimize_copy_shapes.
  assert (G : extents_ge 0 (snd (dynamic_optimize_copy_shapes src dst))).
  { unfold dynamic_optimize_copy_shapes. cbn [snd]. unfold extents_ge. apply Forall_map.
    unfold pad2. apply Forall_app. split.
    - assert (H : ext_nonneg2 (bubble_sort copy_ltb (combine src dst))).
      { unfold ext_nonneg2. eapply Permutation_Forall; [apply bubble_sort_perm|].
        rewrite <- (Forall_map snd (fun d => 0 <= dext d)). rewrite combine_snd; auto. }
      destruct (bubble_sort copy_ltb (combine src dst)); simpl; [constructor|]. inv H.
      apply fuse2_from_ext; auto.
    - apply Forall_forall. intros x Hx. apply repeat_spec in Hx. subst. simpl. lia. }
  destruct src as [|a [|b r]], dst as [|c [|d r']]; auto.
Qed.
Lemma optimize_ext s : extents_ge 0 s -> extents_ge 0 (optimize_shape s).
Proof. intros H. pose proof (optimize_copy_ext s s eq_refl H) as G. rewrite optimize_dup in G. exact G. Qed.

Lemma box_nil_iff s : extents_ge 0 s -> (box s = [] <-> empty s = true).
Proof.
  intros H. rewrite empty_iff by auto. split; intros G.
  - intros i Hi. apply box_In in Hi. rewrite G in Hi. destruct Hi.
  - destruct (box s) eqn:E; auto. exfalso. apply (G l). apply box_In. rewrite E. left; auto.
Qed.

Lemma optimize_copy_lengths src dst : length src = length dst ->
  length (fst (optimize_copy_shapes src dst)) = length (snd (optimize_copy_shapes src dst)).
Proof.
  intros H. unfold optimize_copy_shapes, dynamic_optimize_copy_shapes.
  destruct src as [|a [|b r]], dst as [|c [|d r']]; simpl in *; try lia; try discriminate;
    rewrite ?map_length; auto.
Qed.

Lemma optimize_copy_empty src dst : length src = length dst -> extents_ge 0 dst ->
  empty (snd (optimize_copy_shapes src dst)) = empty dst.
Proof.
  intros Hl Hd.
  pose proof (for_each_value_copy_perm src 0 dst 0 Hl Hd) as P.
  unfold for_each_value_copy in P.
  pose proof (optimize_copy_ext src dst Hl Hd) as He. pose proof (optimize_copy_lengths src dst Hl) as HL.
  destruct (optimize_copy_shapes src dst) as [os od]. cbn [fst snd] in *.
  rewrite fev_in_order2_spec in P by auto.
  apply Permutation_length in P. rewrite !map_length in P.
  apply eq_true_iff_eq. rewrite <- !box_nil_iff by auto.
  destruct (box od), (box dst); simpl in P; try lia; split; congruence.
Qed.
Lemma optimize_empty s : extents_ge 0 s -> empty (optimize_shape s) = empty s.
Proof. intros H. pose proof (optimize_copy_empty s s eq_refl H) as G. rewrite optimize_dup in G. exact G. Qed.

Lemma enumerates_nil {A} (P : A -> Prop) : (forall x, ~ P x) -> enumerates P [].
Proof. intros H. split; [constructor|]. intros x; split; [intros []|]. apply H. Qed.

Lemma values_spec nd s base : extents_ge 0 s -> is_null base = false \/ (forall i, ~ in_bounds s i) ->
  exists l, enumerates (in_bounds s) l /\ values nd s base = Ok (map (elem base s) l).
Proof.
  intros Hs Hb. unfold values, values_in_order. destruct (is_null base) eqn:E.
  - destruct Hb as [Hb|Hb]; [discriminate|]. exists []. split; [apply enumerates_nil; auto|].
    rewrite optimize_empty by auto. rewrite (proj2 (empty_iff s Hs) Hb). reflexivity.
  - destruct (for_each_value_visits s (snd base) Hs) as [l [Hl Hf]]. exists l. split; auto.
    unfold for_each_value in Hf. rewrite Hf, map_map. f_equal. apply map_ext. intros i.
    unfold to_ptr, elem. simpl. rewrite flat_offset_spec. auto.
Qed.
Lemma values_copy_spec nd ssrc src sdst dst : length ssrc = length sdst -> extents_ge 0 sdst ->
  (is_null src = false /\ is_null dst = false) \/ (forall i, ~ in_bounds sdst i) ->
  exists l, enumerates (in_bounds sdst) l /\
    values_copy nd ssrc src sdst dst = Ok (map (fun i => (elem src ssrc i, elem dst sdst i)) l).
Proof.
  intros Hl Hs Hb. unfold values_copy.
  pose proof (optimize_copy_empty ssrc sdst Hl Hs) as He.
  destruct (copy_traversal_pairs ssrc sdst (snd src) (snd dst) Hl Hs) as [l [Hen Hf]].
  unfold for_each_value_copy in Hf.
  destruct (optimize_copy_shapes ssrc sdst) as [os od]. cbn [fst snd] in *.
  unfold values_in_order2. destruct (is_null src || is_null dst) eqn:E.
  - destruct Hb as [[H1 H2]|Hb]; [rewrite H1, H2 in E; discriminate|].
    exists []. split; [apply enumerates_nil; auto|].
    rewrite He. rewrite (proj2 (empty_iff sdst Hs) Hb). reflexivity.
  - exists l. split; auto. rewrite Hf, map_map. f_equal. apply map_ext. intros i.
    unfold to_ptr2, elem. simpl. rewrite !flat_offset_spec. auto.
Qed.

(** Readable views have a base that is not null, or are empty *)
Lemma alive_base {V} (h : heap V) base s dom : extents_ge 0 dom ->
  (forall i, in_bounds dom i -> alive h (elem base s i)) ->
  is_null base = false \/ (forall i, ~ in_bounds dom i).
Proof.
  intros Hd Ha. destruct (empty dom) eqn:E.
  - right. apply empty_iff; auto.
  - left. apply is_null_block. destruct (box dom) as [|i r] eqn:B.
    + apply box_nil_iff in B; auto. congruence.
    + assert (Hi : in_bounds dom i) by (apply box_In; rewrite B; left; auto).
      apply (alive_block h (elem base s i)). auto.
Qed.

Lemma elem_inj base s i j : elem base s i = elem base s j -> offset s i = offset s j.
Proof. unfold elem. intros H. inv H. lia. Qed.
Lemma elem_ref r i : ref_ptr r i = elem (r_base r) (r_shape r) i.
Proof. unfold ref_ptr, ptr_off, elem. rewrite flat_offset_spec. auto. Qed.

Lemma NoDup_map_elem base s l : injective_layout s -> enumerates (in_bounds s) l -> NoDup (map (elem base s) l).
Proof.
  intros Hi [Hnd Hin]. apply NoDup_map_inj; auto.
  intros a b Ha Hb E. apply Hi; [apply Hin; auto | apply Hin; auto | apply (elem_inj base); auto].
Qed.

(** ** fill, generate, transform_index *)

Section Algos.
Context {V : Type}.
Implicit Types h : heap V.

Lemma fold_store_const l v : forall h, (forall p, In p l -> alive h p) ->
  foldM (fun h p => store h p v) l h = Ok (upds h (map (fun p => (p, Live v)) l)).
Proof.
  induction l as [|p r IH]; intros h Ha; simpl; auto.
  rewrite (store_ok h p v) by (apply Ha; left; auto). simpl. apply IH.
  intros q Hq. destruct (ptr_dec p q) as [->|N].
  - exists v. unfold holds. apply peek_upd_same. destruct (Ha q) as [w Hw]; [left; auto|]. unfold holds in Hw. congruence.
  - destruct (Ha q) as [w Hw]; [right; auto|]. exists w. unfold holds. rewrite peek_upd_other by auto. auto.
Qed.

Lemma fill_spec nd h dst v : extents_ge 0 (r_shape dst) ->
  (forall i, in_bounds (r_shape dst) i -> alive h (elem (r_base dst) (r_shape dst) i)) ->
  exists h', fill nd h dst v = Ok h' /\
    (forall i, in_bounds (r_shape dst) i -> holds h' (elem (r_base dst) (r_shape dst) i) v) /\
    only_changes (is_elem (r_base dst) (r_shape dst)) h h'.
Proof.
  intros Hs Ha. unfold fill.
  destruct (values_spec nd (r_shape dst) (r_base dst) Hs (alive_base h _ _ _ Hs Ha)) as [l [Hl ->]].
  cbn [bind].
  assert (Hal : forall p, In p (map (elem (r_base dst) (r_shape dst)) l) -> alive h p).
  { intros p Hp. apply in_map_iff in Hp. destruct Hp as [i [<- Hi]]. apply Ha. apply Hl. auto. }
  rewrite fold_store_const by auto. eexists. split; [reflexivity|]. split.
  - intros i Hi. unfold holds. apply peek_upds_const with (c := Live v).
    + intros p c' Hp. apply in_map_iff in Hp. destruct Hp as [? [E _]]. inv E. auto.
    + rewrite map_map. cbn [fst]. rewrite map_id. apply in_map. apply Hl; auto.
    + destruct (Ha i Hi) as [w Hw]. unfold holds in Hw. congruence.
  - apply upds_only_changes. intros p Hp. rewrite map_map in Hp. cbn [fst] in Hp. rewrite map_id in Hp.
    apply in_map_iff in Hp. destruct Hp as [i [<- Hi]]. exists i. split; auto. apply Hl; auto.
Qed.

(** Writes [val x] to [addr x] for all [x] of the list *)
Lemma fold_store_list {A} (addr : A -> ptr) (val : A -> V) l : forall h,
  NoDup (map addr l) -> (forall x, In x l -> alive h (addr x)) ->
  foldM (fun h x => store h (addr x) (val x)) l h = Ok (upds h (map (fun x => (addr x, Live (val x))) l)).
Proof.
  intros h Hnd Ha. rewrite <- (flat_map_sing (fun x => (addr x, Live (val x))) l).
  apply foldM_upds.
  - rewrite flat_map_sing, map_map. auto.
  - intros h' x Hx _ Hw _. simpl. apply store_ok. destruct (Ha x Hx) as [w Hw']. exists w.
    unfold holds. rewrite Hw; [auto|left; auto].
Qed.
Lemma upds_list_spec {A} (addr : A -> ptr) (val : A -> V) l h x :
  NoDup (map addr l) -> In x l -> alive h (addr x) ->
  holds (upds h (map (fun x => (addr x, Live (val x))) l)) (addr x) (val x).
Proof.
  intros Hnd Hx [w Hw]. unfold holds. apply peek_upds_in.
  - rewrite map_map. auto.
  - apply in_map_iff. exists x; auto.
  - unfold holds in Hw. congruence.
Qed.
Lemma upds_list_only {A} (addr : A -> ptr) (val : A -> V) l h (P : ptr -> Prop) :
  (forall x, In x l -> P (addr x)) ->
  only_changes P h (upds h (map (fun x => (addr x, Live (val x))) l)).
Proof.
  intros H. apply upds_only_changes. intros p Hp. rewrite map_map in Hp. cbn [fst] in Hp.
  apply in_map_iff in Hp. destruct Hp as [x [<- Hx]]. auto.
Qed.

Lemma transform_index_spec h dst (fn : index -> V) : extents_ge 0 (r_shape dst) ->
  injective_layout (r_shape dst) ->
  (forall i, in_bounds (r_shape dst) i -> alive h (elem (r_base dst) (r_shape dst) i)) ->
  exists h', transform_index h dst fn = Ok h' /\
    (forall i, in_bounds (r_shape dst) i -> holds h' (elem (r_base dst) (r_shape dst) i) (fn i)) /\
    only_changes (is_elem (r_base dst) (r_shape dst)) h h'.
Proof.
  intros Hs Hi Ha. unfold transform_index.
  destruct (for_each_index_visits (r_shape dst) Hs) as [l [-> [Hl _]]]. cbn [bind].
  assert (Hnd : NoDup (map (ref_ptr dst) l)).
  { erewrite map_ext; [apply (NoDup_map_elem (r_base dst)); eauto|]. intros. apply elem_ref. }
  rewrite fold_store_list; auto.
  - eexists. split; [reflexivity|]. split.
    + intros i Hin. rewrite <- elem_ref. apply upds_list_spec; auto; [apply Hl; auto | rewrite elem_ref; auto].
    + apply upds_list_only. intros x Hx. exists x. split; [apply Hl; auto | apply elem_ref].
  - intros x Hx. rewrite elem_ref. apply Ha. apply Hl; auto.
Qed.

Lemma assign_each_fold (g : nat -> V) l : forall h n,
  foldM (fun st p => h' <- store (fst st) p (g (snd st)) ;; Ok (h', S (snd st))) l (h, n) =
  bind (foldM (fun h (x : ptr * nat) => store h (fst x) (g (snd x))) (combine l (seq n (length l))) h)
       (fun h' => Ok (h', (n + length l)%nat)).
Proof.
  induction l as [|p r IH]; intros h n; simpl; [rewrite Nat.add_0_r; auto|].
  destruct (store h p (g n)) as [h1| |]; simpl; auto. rewrite IH.
  replace (n + S (length r))%nat with (S n + length r)%nat by lia. auto.
Qed.
Lemma nth_error_combine_seq {A} (l : list A) k x : nth_error l k = Some x ->
  In (x, k) (combine l (seq 0 (length l))).
Proof.
  assert (G : forall n, nth_error l k = Some x -> In (x, (n + k)%nat) (combine l (seq n (length l)))).
  { revert k. induction l as [|a r IH]; intros k n H; [destruct k; discriminate|].
    destruct k; simpl in *.
    - inv H. left. rewrite Nat.add_0_r. auto.
    - right. replace (n + S k)%nat with (S n + k)%nat by lia. auto. }
  intros H. apply (G 0%nat H).
Qed.

Lemma generate_spec nd h dst (g : nat -> V) : extents_ge 0 (r_shape dst) ->
  injective_layout (r_shape dst) ->
  (forall i, in_bounds (r_shape dst) i -> alive h (elem (r_base dst) (r_shape dst) i)) ->
  exists h' l, generate nd h dst g = Ok (h', length l) /\ enumerates (in_bounds (r_shape dst)) l /\
    (forall k i, nth_error l k = Some i -> holds h' (elem (r_base dst) (r_shape dst) i) (g k)) /\
    only_changes (is_elem (r_base dst) (r_shape dst)) h h'.
Proof.
  intros Hs Hi Ha. unfold generate.
  destruct (values_spec nd (r_shape dst) (r_base dst) Hs (alive_base h _ _ _ Hs Ha)) as [l [Hl ->]].
  cbn [bind]. unfold assign_each. rewrite assign_each_fold.
  set (ps := map (elem (r_base dst) (r_shape dst)) l).
  assert (Hfst : map fst (combine ps (seq 0 (length ps))) = ps).
  { apply combine_fst. rewrite seq_length. auto. }
  assert (Hnd : NoDup (map fst (combine ps (seq 0 (length ps))))).
  { rewrite Hfst. apply NoDup_map_elem; auto. }
  assert (Hal : forall x, In x (combine ps (seq 0 (length ps))) -> alive h (fst x)).
  { intros x Hx. apply (in_map fst) in Hx. rewrite Hfst in Hx. apply in_map_iff in Hx.
    destruct Hx as [i [E Hx]]. rewrite <- E. apply Ha. apply Hl; auto. }
  rewrite (fold_store_list fst (fun x => g (snd x))) by auto. cbn [bind].
  match goal with |- context [Ok (?h0, _)] => exists h0, l end. split; [|split; [|split]]; auto.
  - f_equal. f_equal. unfold ps. rewrite map_length. reflexivity.
  - intros k i Hk.
    assert (Hk' : nth_error ps k = Some (elem (r_base dst) (r_shape dst) i)).
    { unfold ps. erewrite map_nth_error; eauto. }
    apply nth_error_combine_seq in Hk'.
    apply (upds_list_spec fst (fun x => g (snd x)) _ h _ Hnd Hk' (Hal _ Hk')).
  - apply upds_list_only. intros x Hx. apply (in_map fst) in Hx. rewrite Hfst in Hx.
    apply in_map_iff in Hx. destruct Hx as [i [E Hx]]. exists i. split; auto. apply Hl; auto.
Qed.

(** ** copy and move *)

Definition src_val h (ab : ptr * ptr) (v : V) : Prop := holds h (fst ab) v.

Lemma value_of h p : alive h p -> forall d : V, holds h p (match peek h p with Some (Live v) => v | _ => d end).
Proof. intros [v H] d. unfold holds in *. rewrite H. auto. Qed.

Lemma fold_copy_assign (d : V) l h : NoDup (map snd l) ->
  (forall ab, In ab l -> alive h (fst ab) /\ alive h (snd ab)) ->
  (forall ab cd, In ab l -> In cd l -> fst ab <> snd cd) ->
  foldM copy_assign l h =
  Ok (upds h (map (fun ab => (snd ab, match peek h (fst ab) with Some c => c | None => Live d end)) l)).
Proof.
  intros Hnd Ha Hdis.
  set (w := fun ab : ptr * ptr => (snd ab, match peek h (fst ab) with Some c => c | None => Live d end)).
  rewrite <- (flat_map_sing w l).
  assert (Hf : map fst (flat_map (fun a => [w a]) l) = map snd l) by (rewrite flat_map_sing, map_map; auto).
  apply foldM_upds.
  - rewrite Hf. auto.
  - intros h' ab Hab Hout Hin _. unfold copy_assign.
    destruct (Ha ab Hab) as [[v Hv] [v' Hv']].
    assert (E : peek h' (fst ab) = peek h (fst ab)).
    { apply Hout. rewrite Hf. intros C. apply in_map_iff in C. destruct C as [cd [E C]].
      apply (Hdis ab cd); auto. }
    unfold load. rewrite E. rewrite Hv. cbn [bind].
    rewrite store_ok.
    + cbn [upds]. unfold w. rewrite Hv. auto.
    + exists v'. unfold holds. rewrite Hin; [exact Hv'|left; auto].
Qed.

Lemma in_range_corners src dst : length src = length dst -> extents_ge 1 dst ->
  (index_in_range src (mins dst) && index_in_range src (maxs dst) = true <-> within dst src).
Proof.
  intros Hl Hd. unfold mins, maxs. rewrite andb_true_iff, !index_in_range_iff by (rewrite map_length; auto).
  unfold within. split.
  - intros [H1 H2]. revert dst Hl Hd H1 H2. induction src as [|a r IH]; intros [|b r'] Hl Hd H1 H2 i Hi; simpl in *; try discriminate.
    + inv Hi. constructor.
    + inv H1. inv H2. inv Hd. inv Hi. constructor.
      * unfold in_dim, dmax, imax in *. unfold d_interval in *; simpl in *. lia.
      * apply (IH r'); auto.
  - intros H. split.
    + apply H. apply mins_in_bounds; auto.
    + apply H. clear -Hd. induction dst as [|d r IH]; simpl; [constructor|]. inv Hd. constructor; [|apply IH; auto].
      unfold in_dim, dmax, imax, d_interval; simpl. lia.
Qed.
Lemma not_empty_ge1 s : extents_ge 0 s -> empty s = false -> extents_ge 1 s.
Proof.
  intros Hs He. destruct (box s) as [|i r] eqn:B.
  - apply box_nil_iff in B; auto. congruence.
  - apply (in_bounds_ext_pos s i). apply box_In. rewrite B. left; auto.
Qed.
Lemma empty_no_index s : extents_ge 0 s -> empty s = true -> forall i, ~ in_bounds s i.
Proof. intros Hs. apply empty_iff. auto. Qed.

Definition separate (b1 : ptr) (s1 : shape) (b2 : ptr) (s2 : shape) (dom : shape) : Prop :=
  forall i j, in_bounds dom i -> in_bounds dom j -> elem b1 s1 i <> elem b2 s2 j.

Lemma copy_spec nd h src dst : length (r_shape src) = length (r_shape dst) ->
  extents_ge 0 (r_shape dst) -> within (r_shape dst) (r_shape src) -> injective_layout (r_shape dst) ->
  (forall i, in_bounds (r_shape dst) i -> alive h (elem (r_base src) (r_shape src) i)) ->
  (forall i, in_bounds (r_shape dst) i -> alive h (elem (r_base dst) (r_shape dst) i)) ->
  (forall i j, in_bounds (r_shape dst) i -> in_bounds (r_shape dst) j ->
     elem (r_base src) (r_shape src) i <> elem (r_base dst) (r_shape dst) j) ->
  exists h', copy nd h src dst = Ok h' /\
    (forall i, in_bounds (r_shape dst) i ->
       peek h' (elem (r_base dst) (r_shape dst) i) = peek h (elem (r_base src) (r_shape src) i)) /\
    only_changes (is_elem (r_base dst) (r_shape dst)) h h'.
Proof.
  intros Hl Hd Hw Hi Has Had Hsep. unfold copy. destruct (empty (r_shape dst)) eqn:E.
  - exists h. split; auto. split; [|apply only_changes_refl].
    intros i Hin. destruct (empty_no_index _ Hd E i Hin).
  - rewrite (proj2 (in_range_corners _ _ Hl (not_empty_ge1 _ Hd E)) Hw). cbn [assert_ bind].
    destruct (values_copy_spec nd (r_shape src) (r_base src) (r_shape dst) (r_base dst) Hl Hd) as [l [Hen ->]].
    { destruct (alive_base h (r_base src) (r_shape src) _ Hd Has) as [H1|H1]; [|right; auto].
      destruct (alive_base h (r_base dst) (r_shape dst) _ Hd Had) as [H2|H2]; [|right; auto]. left; auto. }
    cbn [bind].
    assert (Hne : exists i, in_bounds (r_shape dst) i).
    { exists (map dmin (r_shape dst)). apply mins_in_bounds. apply not_empty_ge1; auto. }
    destruct Hne as [i0 Hi0]. destruct (Has i0 Hi0) as [d _].
    set (ps := map (fun i => (elem (r_base src) (r_shape src) i, elem (r_base dst) (r_shape dst) i)) l).
    assert (Hnd : NoDup (map snd ps)).
    { unfold ps. rewrite map_map. cbn [snd]. apply NoDup_map_elem; auto. }
    assert (HIn : forall ab, In ab ps -> exists i, in_bounds (r_shape dst) i /\
       ab = (elem (r_base src) (r_shape src) i, elem (r_base dst) (r_shape dst) i)).
    { intros ab Hab. apply in_map_iff in Hab. destruct Hab as [i [<- Hin]]. exists i. split; auto. apply Hen; auto. }
    rewrite (fold_copy_assign d); auto.
    + eexists. split; [reflexivity|]. split.
      * intros i Hin. destruct (Has i Hin) as [v Hv]. rewrite Hv. apply peek_upds_in.
        -- rewrite map_map. cbn [fst]. auto.
        -- apply in_map_iff. exists (elem (r_base src) (r_shape src) i, elem (r_base dst) (r_shape dst) i).
           cbn [fst snd]. rewrite Hv. split; auto. unfold ps. apply in_map_iff. exists i. split; auto. apply Hen; auto.
        -- destruct (Had i Hin) as [w Hw']. unfold holds in Hw'. congruence.
      * apply upds_only_changes. intros p Hp. rewrite map_map in Hp. cbn [fst] in Hp. apply in_map_iff in Hp.
        destruct Hp as [ab [<- Hab]]. destruct (HIn ab Hab) as [i [Hin ->]]. exists i; auto.
    + intros ab Hab. destruct (HIn ab Hab) as [i [Hin ->]]. split; cbn [fst snd]; auto.
    + intros ab cd Hab Hcd. destruct (HIn ab Hab) as [i [Hin ->]], (HIn cd Hcd) as [j [Hjn ->]]. cbn [fst snd]. auto.
Qed.

Lemma copy_rejects h src dst : length (r_shape src) = length (r_shape dst) -> extents_ge 1 (r_shape dst) ->
  ~ within (r_shape dst) (r_shape src) -> copy false h src dst = AssertFail.
Proof.
  intros Hl Hd Hw. unfold copy.
  assert (E : empty (r_shape dst) = false).
  { destruct (empty (r_shape dst)) eqn:E; auto. exfalso.
    apply (empty_no_index _ (ge1_ge0 _ Hd) E (map dmin (r_shape dst))). apply mins_in_bounds; auto. }
  rewrite E. destruct (index_in_range _ _ && index_in_range _ _) eqn:R; auto.
  exfalso. apply Hw. apply in_range_corners; auto.
Qed.

Lemma fold_move_assign (d : V) mv l h : NoDup (map fst l ++ map snd l) ->
  (forall ab, In ab l -> alive h (fst ab) /\ alive h (snd ab)) ->
  foldM (move_assign mv) l h =
  Ok (upds h (flat_map (fun ab => [(snd ab, match peek h (fst ab) with Some c => c | None => Live d end);
                                   (fst ab, match peek h (fst ab) with Some (Live v) => Live (mv v) | _ => Raw end)]) l)).
Proof.
  intros Hnd Ha.
  set (w := fun ab : ptr * ptr => _).
  assert (Hf : Permutation (map fst (flat_map w l)) (map fst l ++ map snd l)).
  { rewrite map_flat_map. unfold w. cbn [map fst]. clear. induction l as [|a r IH]; simpl; auto.
    apply perm_trans with (fst a :: snd a :: flat_map (fun a0 => [snd a0; fst a0]) r); [apply perm_swap|].
    constructor. apply Permutation_cons_app. auto. }
  apply foldM_upds.
  - eapply Permutation_NoDup; [apply Permutation_sym; eauto|auto].
  - intros h' ab Hab _ Hin _. unfold move_assign.
    destruct (Ha ab Hab) as [[v Hv] [v' Hv']].
    unfold load. rewrite (Hin (fst ab)) by (unfold w; simpl; auto). rewrite Hv. cbn [bind].
    rewrite store_ok by (exists v'; unfold holds; rewrite Hin; [exact Hv' | unfold w; simpl; auto]).
    cbn [bind].
    assert (N : snd ab <> fst ab).
    { intros E. clear -Hnd Hab E. induction l as [|x r IH]; [destruct Hab|]. simpl in Hnd.
      apply NoDup_cons_iff in Hnd. destruct Hnd as [H1 H2].
      destruct Hab as [->|Hab].
      - apply H1. apply in_or_app. right. left. auto.
      - apply IH; auto. apply NoDup_remove_1 in H2. auto. }
    rewrite store_ok by (exists v; unfold holds; rewrite peek_upd_other by auto; rewrite Hin; [exact Hv | unfold w; simpl; auto]).
    unfold w. cbn [upds]. rewrite Hv. auto.
Qed.

Lemma move_spec nd mv h src dst : length (r_shape src) = length (r_shape dst) ->
  extents_ge 0 (r_shape dst) -> within (r_shape dst) (r_shape src) ->
  injective_layout (r_shape dst) -> injective_layout (r_shape src) ->
  (forall i, in_bounds (r_shape dst) i -> alive h (elem (r_base src) (r_shape src) i)) ->
  (forall i, in_bounds (r_shape dst) i -> alive h (elem (r_base dst) (r_shape dst) i)) ->
  (forall i j, in_bounds (r_shape dst) i -> in_bounds (r_shape dst) j ->
     elem (r_base src) (r_shape src) i <> elem (r_base dst) (r_shape dst) j) ->
  exists h', move nd mv h src dst = Ok h' /\
    (forall i v, in_bounds (r_shape dst) i -> holds h (elem (r_base src) (r_shape src) i) v ->
       holds h' (elem (r_base dst) (r_shape dst) i) v /\
       holds h' (elem (r_base src) (r_shape src) i) (mv v)) /\
    only_changes (fun p => is_elem (r_base dst) (r_shape dst) p \/
                           exists i, in_bounds (r_shape dst) i /\ p = elem (r_base src) (r_shape src) i) h h'.
Proof.
  intros Hl Hd Hw Hi Hi' Has Had Hsep. unfold move. destruct (empty (r_shape dst)) eqn:E.
  - exists h. split; auto. split; [|apply only_changes_refl].
    intros i v Hin. destruct (empty_no_index _ Hd E i Hin).
  - rewrite (proj2 (in_range_corners _ _ Hl (not_empty_ge1 _ Hd E)) Hw). cbn [assert_ bind].
    destruct (values_copy_spec nd (r_shape src) (r_base src) (r_shape dst) (r_base dst) Hl Hd) as [l [Hen ->]].
    { destruct (alive_base h (r_base src) (r_shape src) _ Hd Has) as [H1|H1]; [|right; auto].
      destruct (alive_base h (r_base dst) (r_shape dst) _ Hd Had) as [H2|H2]; [|right; auto]. left; auto. }
    cbn [bind].
    assert (Hne : exists i, in_bounds (r_shape dst) i).
    { exists (map dmin (r_shape dst)). apply mins_in_bounds. apply not_empty_ge1; auto. }
    destruct Hne as [i0 Hi0]. destruct (Has i0 Hi0) as [d _].
    set (ps := map (fun i => (elem (r_base src) (r_shape src) i, elem (r_base dst) (r_shape dst) i)) l).
    assert (Hnd : NoDup (map fst ps ++ map snd ps)).
    { unfold ps. rewrite !map_map. cbn [fst snd]. apply NoDup_app.
      - apply NoDup_map_inj; [|apply Hen]. intros a b Ha Hb Eq. apply Hi'.
        + apply Hw, Hen; auto.
        + apply Hw, Hen; auto.
        + apply (elem_inj (r_base src)); auto.
      - apply NoDup_map_elem; auto.
      - intros p H1 H2. apply in_map_iff in H1, H2. destruct H1 as [a [<- Ha]], H2 as [b [Eq Hb]].
        apply (Hsep a b); [apply Hen; auto | apply Hen; auto | auto]. }
    assert (HIn : forall ab, In ab ps -> exists i, in_bounds (r_shape dst) i /\
       ab = (elem (r_base src) (r_shape src) i, elem (r_base dst) (r_shape dst) i)).
    { intros ab Hab. apply in_map_iff in Hab. destruct Hab as [i [<- Hin]]. exists i. split; auto. apply Hen; auto. }
    rewrite (fold_move_assign d); auto.
    + match goal with |- context [flat_map ?w ps] => set (ws := flat_map w ps) end.
      assert (Hf : Permutation (map fst ws) (map fst ps ++ map snd ps)).
      { unfold ws. rewrite map_flat_map. cbn [map fst]. clear. induction ps as [|a r IH]; simpl; auto.
        apply perm_trans with (fst a :: snd a :: flat_map (fun a0 => [snd a0; fst a0]) r); [apply perm_swap|].
        constructor. apply Permutation_cons_app. auto. }
      assert (HndW : NoDup (map fst ws)) by (eapply Permutation_NoDup; [apply Permutation_sym; eauto|auto]).
      eexists. split; [reflexivity|]. split.
      * intros i v Hin Hv.
        assert (Hps : In (elem (r_base src) (r_shape src) i, elem (r_base dst) (r_shape dst) i) ps).
        { unfold ps. apply in_map_iff. exists i. split; auto. apply Hen; auto. }
        split; apply peek_upds_in; auto.
        -- unfold ws. apply in_flat_map. eexists. split; [exact Hps|]. cbn [fst snd]. rewrite Hv. left; auto.
        -- destruct (Had i Hin) as [w Hw']. unfold holds in Hw'. congruence.
        -- unfold ws. apply in_flat_map. eexists. split; [exact Hps|]. cbn [fst snd]. rewrite Hv. right; left; auto.
        -- unfold holds in Hv. congruence.
      * apply upds_only_changes. intros p Hp. apply (Permutation_in _ Hf) in Hp. apply in_app_or in Hp.
        destruct Hp as [Hp|Hp]; apply in_map_iff in Hp; destruct Hp as [ab [<- Hab]];
          destruct (HIn ab Hab) as [i [Hin ->]]; [right|left]; exists i; auto.
    + intros ab Hab. destruct (HIn ab Hab) as [i [Hin ->]]. split; cbn [fst snd]; auto.
Qed.

(** ** equality *)

Lemma list_eqb_eq a : forall b, list_eqb a b = true <-> a = b.
Proof.
  induction a as [|x a IH]; intros [|y b]; simpl; split; intros H; try discriminate; auto.
  - apply andb_true_iff in H. destruct H as [H1 H2]. apply IH in H2. subst. f_equal. lia.
  - inv H. rewrite Z.eqb_refl. apply IH. auto.
Qed.
Lemma dim_eqb_eq a b : dim_eqb a b = true <-> a = b.
Proof.
  unfold dim_eqb. destruct a as [m e s], b as [m' e' s']; simpl. rewrite !andb_true_iff, !Z.eqb_eq.
  split; [intros [[? ?] ?]; subst; auto | intros H; inv H; auto].
Qed.
Lemma shape_eqb_eq a : forall b, shape_eqb a b = true <-> a = b.
Proof.
  induction a as [|x a IH]; intros [|y b]; simpl; split; intros H; try discriminate; auto.
  - apply andb_true_iff in H. destruct H as [H1 H2]. apply IH in H2. apply dim_eqb_eq in H1. subst. auto.
  - inv H. rewrite (proj2 (dim_eqb_eq y y) eq_refl). apply IH. auto.
Qed.

Lemma compare_each_spec (eqb : V -> V -> bool) h l :
  (forall ab, In ab l -> alive h (fst ab) /\ alive h (snd ab)) ->
  exists b, compare_each eqb h l = Ok b /\
    (b = true <-> forall ab x y, In ab l -> holds h (fst ab) x -> holds h (snd ab) y -> eqb x y = true).
Proof.
  intros Ha. unfold compare_each.
  assert (G : forall l r, (forall ab, In ab l -> alive h (fst ab) /\ alive h (snd ab)) ->
     exists b, foldM (fun (result : bool) ab => a <- load h (fst ab) ;; b <- load h (snd ab) ;;
                          Ok (if eqb a b then result else false)) l r = Ok b /\
     (b = true <-> r = true /\ forall ab x y, In ab l -> holds h (fst ab) x -> holds h (snd ab) y -> eqb x y = true)).
  { clear l Ha. induction l as [|ab l IH]; intros r Ha.
    - exists r. split; auto. split; [intros H; split; auto; intros ? ? ? []|intros [H _]; auto].
    - simpl. destruct (Ha ab) as [[x Hx] [y Hy]]; [left; auto|].
      rewrite (proj2 (load_holds h _ x) Hx), (proj2 (load_holds h _ y) Hy). cbn [bind].
      destruct (IH (if eqb x y then r else false)) as [b [Hb Hbi]]; [intros; apply Ha; right; auto|].
      exists b. split; auto. rewrite Hbi. split.
      + intros [H1 H2]. destruct (eqb x y) eqn:E; [|discriminate]. split; auto.
        intros ab' x' y' [->|Hin] Hx' Hy'.
        * unfold holds in *. rewrite Hx in Hx'. rewrite Hy in Hy'. inv Hx'. inv Hy'. auto.
        * eapply H2; eauto.
      + intros [H1 H2]. rewrite (H2 ab x y (or_introl eq_refl) Hx Hy). split; auto.
        intros ab' x' y' Hin. apply H2. right; auto. }
  destruct (G l true Ha) as [b [Hb Hbi]]. exists b. split; auto. rewrite Hbi. intuition.
Qed.

Definition same_values h (eqb : V -> V -> bool) (a b : aref) : Prop :=
  forall i x y, in_bounds (r_shape b) i -> holds h (elem (r_base a) (r_shape a) i) x ->
    holds h (elem (r_base b) (r_shape b) i) y -> eqb x y = true.

Lemma compare_refs nd eqb h a b : length (r_shape a) = length (r_shape b) -> extents_ge 0 (r_shape b) ->
  (forall i, in_bounds (r_shape b) i -> alive h (elem (r_base a) (r_shape a) i)) ->
  (forall i, in_bounds (r_shape b) i -> alive h (elem (r_base b) (r_shape b) i)) ->
  exists r, bind (values_copy nd (r_shape a) (r_base a) (r_shape b) (r_base b)) (compare_each eqb h) = Ok r /\
    (r = true <-> same_values h eqb a b).
Proof.
  intros Hl Hd Ha Hb.
  destruct (values_copy_spec nd (r_shape a) (r_base a) (r_shape b) (r_base b) Hl Hd) as [l [Hen ->]].
  { destruct (alive_base h (r_base a) (r_shape a) _ Hd Ha) as [H1|H1]; [|right; auto].
    destruct (alive_base h (r_base b) (r_shape b) _ Hd Hb) as [H2|H2]; [|right; auto]. left; auto. }
  cbn [bind].
  destruct (compare_each_spec eqb h (map (fun i => (elem (r_base a) (r_shape a) i, elem (r_base b) (r_shape b) i)) l)) as [r [Hr Hri]].
  { intros ab Hab. apply in_map_iff in Hab. destruct Hab as [i [<- Hi]]. apply Hen in Hi. split; cbn [fst snd]; auto. }
  exists r. split; auto. rewrite Hri. unfold same_values. split.
  - intros H i x y Hi Hx Hy. apply (H (elem (r_base a) (r_shape a) i, elem (r_base b) (r_shape b) i)); auto.
    apply in_map_iff. exists i. split; auto. apply Hen; auto.
  - intros H ab x y Hab Hx Hy. apply in_map_iff in Hab. destruct Hab as [i [<- Hi]]. apply Hen in Hi.
    eapply H; eauto.
Qed.

Lemma equal_spec nd eqb h a b : length (r_shape a) = length (r_shape b) ->
  extents_ge 0 (r_shape a) -> extents_ge 0 (r_shape b) ->
  (forall i, in_bounds (r_shape a) i -> alive h (elem (r_base a) (r_shape a) i)) ->
  (forall i, in_bounds (r_shape b) i -> alive h (elem (r_base b) (r_shape b) i)) ->
  exists r, equal nd eqb h a b = Ok r /\
    (r = true <-> map dmin (r_shape a) = map dmin (r_shape b) /\ map dext (r_shape a) = map dext (r_shape b) /\
       forall i x y, in_bounds (r_shape a) i -> holds h (elem (r_base a) (r_shape a) i) x ->
         holds h (elem (r_base b) (r_shape b) i) y -> eqb x y = true).
Proof.
  intros Hl Hda Hdb Ha Hb. unfold equal.
  destruct (list_eqb (mins (r_shape a)) (mins (r_shape b))) eqn:E1; cbn [negb orb].
  2:{ exists false. split; auto. split; [discriminate|]. intros [H _]. unfold mins in E1.
      rewrite (proj2 (list_eqb_eq _ _) H) in E1. discriminate. }
  destruct (list_eqb (extents (r_shape a)) (extents (r_shape b))) eqn:E2; cbn [negb orb].
  2:{ exists false. split; auto. split; [discriminate|]. intros [_ [H _]]. unfold extents in E2.
      rewrite (proj2 (list_eqb_eq _ _) H) in E2. discriminate. }
  apply list_eqb_eq in E1, E2. unfold mins, extents in *.
  assert (Hib : forall i, in_bounds (r_shape a) i <-> in_bounds (r_shape b) i).
  { clear -E1 E2. generalize dependent (r_shape b). generalize (r_shape a).
    induction s as [|d s IH]; intros [|d' s'] E1 E2 i; simpl in *; try discriminate; [reflexivity|].
    inv E1. inv E2. split; intros H; inv H; constructor; unfold in_dim in *; try lia; eapply (IH s'); eauto. }
  destruct (compare_refs nd eqb h a b Hl Hdb) as [r [Hr Hri]]; auto.
  { intros i Hi. apply Ha. apply Hib; auto. }
  exists r. split; auto. rewrite Hri. unfold same_values. split.
  - intros H. split; auto. split; auto. intros i x y Hi. apply H. apply Hib; auto.
  - intros [_ [_ H]] i x y Hi. apply H. apply Hib; auto.
Qed.

Lemma ref_eq_spec nd eqb h a b : length (r_shape a) = length (r_shape b) ->
  extents_ge 0 (r_shape a) -> extents_ge 0 (r_shape b) ->
  (forall i, in_bounds (r_shape a) i -> alive h (elem (r_base a) (r_shape a) i)) ->
  (forall i, in_bounds (r_shape b) i -> alive h (elem (r_base b) (r_shape b) i)) ->
  exists r, ref_eq nd eqb h a b = Ok r /\ ref_neq nd eqb h a b = Ok (negb r) /\
    (r = true <-> r_shape a = r_shape b /\
       forall i x y, in_bounds (r_shape a) i -> holds h (elem (r_base a) (r_shape a) i) x ->
         holds h (elem (r_base b) (r_shape b) i) y -> eqb x y = true).
Proof.
  intros Hl Hda Hdb Ha Hb. unfold ref_eq, ref_neq.
  destruct (shape_eqb (r_shape a) (r_shape b)) eqn:E; cbn [negb].
  2:{ exists false. split; auto. split; auto. split; [discriminate|]. intros [H _].
      rewrite (proj2 (shape_eqb_eq _ _) H) in E. discriminate. }
  apply shape_eqb_eq in E.
  destruct (compare_refs nd eqb h a b Hl Hdb) as [r [Hr Hri]]; auto.
  { intros i Hi. apply Ha. rewrite E. auto. }
  exists r. unfold bind in Hr. destruct (values_copy nd (r_shape a) (r_base a) (r_shape b) (r_base b)); try discriminate.
  cbn [bind]. rewrite Hr. cbn [bind]. rewrite negb_involutive. split; auto. split; auto.
  rewrite Hri. unfold same_values. rewrite E. intuition.
Qed.
End Algos.
