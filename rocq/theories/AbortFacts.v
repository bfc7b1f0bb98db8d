(** Proofs about algorithms that an exception stops (C66). *)
From Coq Require Import Sorted Permutation.
From Verif Require Import Tac Interval Shape Traverse Memory Ref Container Program Ein Abort Spec SpecMem SpecContainer SpecProgram
  SpecAlias SpecEin SpecAbort ShapeFacts ResolveFacts TraverseFacts MemFacts RefFacts SliceFacts AliasFacts EinFacts.
Import ListNotations.
Open Scope Z_scope.

(** ** Loops *)

Section Loops.
Context {S A : Type}.
Variables (one last : S -> A -> outcome S).

Lemma each_t_all l : forall k s, (length l <= k)%nat -> each_t one last l k s = (s' <- foldM one l s ;; Ok (Returned s')).
Proof.
  induction l as [|a l IH]; intros k s Hk; simpl in *; [destruct k; reflexivity|].
  destruct k as [|k]; [lia|]. destruct (one s a) as [s'| |]; cbn [bind]; auto. apply IH. lia.
Qed.
Lemma each_t_stop l1 a l2 : forall s, each_t one last (l1 ++ a :: l2) (length l1) s =
  (s1 <- foldM one l1 s ;; s2 <- last s1 a ;; Ok (Raised s2)).
Proof.
  induction l1 as [|b l1 IH]; intros s; cbn [app length each_t foldM bind]; auto.
  destruct (one s b) as [s'| |]; cbn [bind]; auto.
Qed.
End Loops.
Lemma cut {A : Type} (l : list A) k : (k < length l)%nat -> exists l1 a l2, l = l1 ++ a :: l2 /\ length l1 = k.
Proof.
  intros Hk. destruct (skipn k l) as [|a l2] eqn:E.
  - apply (f_equal (@length A)) in E. rewrite skipn_length in E. simpl in E. lia.
  - exists (firstn k l), a, l2. split; [rewrite <- E; symmetry; apply firstn_skipn|]. apply firstn_length_le. lia.
Qed.
Lemma each_t_map {S A B : Type} (one last : S -> B -> outcome S) (g : A -> B) l : forall k s,
  each_t one last (map g l) k s = each_t (fun s a => one s (g a)) (fun s a => last s (g a)) l k s.
Proof.
  induction l as [|a l IH]; intros [|k] s; cbn [map each_t]; auto. destruct (one s (g a)); cbn [bind]; auto.
Qed.

(** ** Callbacks that write different cells *)

Section Cells.
Context {V A : Type}.
Implicit Types (h : heap V).
(** The cells a callback writes *)
Variable fp : A -> list ptr.

Definition cells (l : list A) (p : ptr) : Prop := exists a, In a l /\ In p (fp a).
Lemma cells_app l l' p : cells (l ++ l') p <-> cells l p \/ cells l' p.
Proof.
  unfold cells. split.
  - intros [a [I H]]. apply in_app_or in I. destruct I; [left|right]; eauto.
  - intros [[a [I H]]|[a [I H]]]; exists a; rewrite in_app_iff; auto.
Qed.
Lemma cells_one a p : cells [a] p <-> In p (fp a).
Proof. unfold cells. split; [intros [b [[<-|[]] H]]; auto|]. intros H. exists a. simpl; auto. Qed.

(** [one] gives the cells of [a] the values [val a] *)
Definition writes (h : heap V) (step : heap V -> A -> outcome (heap V)) (all : list A) (val : A -> ptr -> V -> Prop) : Prop :=
  forall h1 a, In a all -> only_changes (cells all) h h1 -> (forall p, In p (fp a) -> peek h1 p = peek h p) ->
    exists h2, step h1 a = Ok h2 /\ (forall p, In p (fp a) -> exists v, holds h2 p v /\ val a p v) /\
      only_changes (fun p => In p (fp a)) h1 h2.

Lemma fold_writes h one all val : NoDup (flat_map fp all) -> writes h one all val ->
  forall l rest, all = l ++ rest -> exists h1, foldM one l h = Ok h1 /\
    (forall a p, In a l -> In p (fp a) -> exists v, holds h1 p v /\ val a p v) /\
    only_changes (cells l) h h1.
Proof.
  intros Hd Hw l. induction l as [|a l IH] using rev_ind; intros rest E.
  - exists h. split; auto. split; [intros a p []|]. apply only_changes_refl.
  - destruct (IH (a :: rest)) as [h1 [E1 [V1 O1]]]; [rewrite E, <- app_assoc; auto|].
    assert (Hsep : forall p, In p (fp a) -> ~ cells l p).
    { intros p Hp [b [Ib Hb]]. rewrite E in Hd. rewrite <- app_assoc, flat_map_app in Hd. cbn [app flat_map] in Hd.
      assert (I1 : In p (flat_map fp l)) by (apply in_flat_map; eauto).
      destruct (in_split _ _ I1) as [u [w Eu]]. rewrite Eu in Hd.
      assert (P : NoDup (p :: (u ++ w ++ fp a ++ flat_map fp rest))).
      { eapply Permutation_NoDup; [|exact Hd]. rewrite <- app_assoc. cbn [app]. symmetry. apply Permutation_middle. }
      inv P. apply H1. rewrite !in_app_iff. auto. }
    destruct (Hw h1 a) as [h2 [E2 [V2 O2]]].
    + rewrite E, !in_app_iff. simpl. auto.
    + eapply only_changes_more; [|exact O1]. intros p Hp. rewrite E, !cells_app. auto.
    + intros p Hp. apply O1. auto.
    + exists h2. split; [rewrite foldM_app, E1; cbn [bind foldM]; rewrite E2; auto|]. split.
      * intros b p Ib Hp. apply in_app_or in Ib. destruct Ib as [Ib|[<-|[]]]; [|apply V2; auto].
        destruct (V1 b p Ib Hp) as [v [Hv Q]]. exists v. split; auto. unfold holds. rewrite (proj1 O2); auto.
        intros Hpa. apply (Hsep p Hpa). exists b; auto.
      * apply (only_changes_trans _ _ h1); (eapply only_changes_more; [|eassumption]); intros p Hp; rewrite cells_app, cells_one; auto.
Qed.

Lemma each_writes h one last l val left k : NoDup (flat_map fp l) -> writes h one l val -> writes h last l left ->
  exists r, each_t one last l k h = Ok r /\
    match r with
    | Returned h' => (length l <= k)%nat /\ (forall a p, In a l -> In p (fp a) -> exists v, holds h' p v /\ val a p v) /\
        only_changes (cells l) h h'
    | Raised h' => exists l1 a l2, l = l1 ++ a :: l2 /\ length l1 = k /\
        (forall a p, In a l1 -> In p (fp a) -> exists v, holds h' p v /\ val a p v) /\
        (forall p, In p (fp a) -> exists v, holds h' p v /\ left a p v) /\
        only_changes (cells (l1 ++ [a])) h h'
    end.
Proof.
  intros Hd H1 H2. destruct (le_lt_dec (length l) k) as [Hk|Hk].
  - destruct (fold_writes h one l val Hd H1 l []) as [h1 [E [V1 O1]]]; [rewrite app_nil_r; auto|].
    exists (Returned h1). rewrite each_t_all, E by auto. cbn [bind]. auto.
  - destruct (cut l k Hk) as [l1 [a [l2 [E El]]]].
    destruct (fold_writes h one l val Hd H1 l1 (a :: l2) E) as [h1 [E1 [V1 O1]]].
    assert (Hsep : forall b p, In b l1 -> In p (fp b) -> ~ In p (fp a)).
    { intros b p Ib Hp Ha. rewrite E in Hd. rewrite flat_map_app in Hd. cbn [flat_map] in Hd.
      assert (I1 : In p (flat_map fp l1)) by (apply in_flat_map; eauto).
      destruct (in_split _ _ I1) as [u [w Eu]]. rewrite Eu in Hd.
      assert (P : NoDup (p :: (u ++ w ++ fp a ++ flat_map fp l2))).
      { eapply Permutation_NoDup; [|exact Hd]. rewrite <- app_assoc. cbn [app]. symmetry. apply Permutation_middle. }
      inv P. apply H3. rewrite !in_app_iff. auto. }
    destruct (H2 h1 a) as [h2 [E2 [V2 O2]]].
    + rewrite E, in_app_iff. simpl. auto.
    + eapply only_changes_more; [|exact O1]. intros p Hp. rewrite E, cells_app. auto.
    + intros p Hp. apply O1. intros [b [Ib Hb]]. apply (Hsep b p Ib Hb Hp).
    + exists (Raised h2). split; [rewrite E, <- El, each_t_stop, E1; cbn [bind]; rewrite E2; auto|].
      exists l1, a, l2. split; auto. split; auto. split; [|split; auto].
      * intros b p Ib Hp. destruct (V1 b p Ib Hp) as [v [Hv Q]]. exists v. split; auto. unfold holds. rewrite (proj1 O2); auto.
        apply (Hsep b p Ib Hp).
      * apply (only_changes_trans _ _ h1); (eapply only_changes_more; [|eassumption]); intros p Hp; rewrite cells_app, cells_one; auto.
Qed.
End Cells.

(** ** The algorithms *)

Section Views.
Context {V : Type}.
Implicit Types (h : heap V).

Definition gives (b : ptr) (s : list dim) (l : list (list Z)) h (step : heap V -> list Z -> outcome (heap V)) (val : list Z -> V -> V) : Prop :=
  forall h1 i old, In i l -> only_changes (fun p => In p (map (elem b s) l)) h h1 -> holds h1 (elem b s i) old ->
    exists h2, step h1 i = Ok h2 /\ holds h2 (elem b s i) (val i old) /\ only_changes (fun p => p = elem b s i) h1 h2.

Lemma gives_writes b s l h step val : (forall i, In i l -> alive h (elem b s i)) -> gives b s l h step val ->
  writes (fun i => [elem b s i]) h step l (fun i p v => exists old, holds h p old /\ v = val i old).
Proof.
  intros Ha Hg h1 i Hi O Hp. destruct (Ha i Hi) as [old Ho].
  assert (Ho1 : holds h1 (elem b s i) old) by (unfold holds; rewrite Hp; [exact Ho|left; auto]).
  destruct (Hg h1 i old Hi) as [h2 [E [H2 O2]]]; auto.
  { eapply only_changes_more; [|exact O]. intros p [j [Hj [<-|[]]]]. apply (in_map (elem b s)). auto. }
  exists h2. split; auto. split.
  - intros p [<-|[]]. exists (val i old). split; auto. exists old. auto.
  - eapply only_changes_more; [|exact O2]. intros p ->. left; auto.
Qed.

Lemma each_stops b s l val left one last h k : NoDup (map (elem b s) l) ->
  (forall i, In i l -> alive h (elem b s i)) ->
  gives b s l h one (fun i _ => val i) -> gives b s l h last (fun i old => left old (val i)) ->
  exists r, each_t one last l k h = Ok r /\ stops b s l k val left h r.
Proof.
  intros Hd Ha H1 H2.
  assert (Hd' : NoDup (flat_map (fun i => [elem b s i]) l)) by (rewrite flat_map_sing; auto).
  destruct (each_writes (fun i => [elem b s i]) h one last l _ _ k Hd' (gives_writes b s l h one _ Ha H1) (gives_writes b s l h last _ Ha H2))
    as [r [E R]].
  exists r. split; auto. destruct r as [h'|h']; cbn [stops].
  - destruct R as [Hk [Hv O]]. split; auto. split.
    + intros i Hi. destruct (Hv i (elem b s i) Hi (or_introl eq_refl)) as [v [Hh [old [_ ->]]]]. auto.
    + eapply only_changes_more; [|exact O]. intros p [i [Hi [<-|[]]]]. eauto.
  - destruct R as [l1 [i [l2 [El [Hk [Hv [Hl O]]]]]]]. exists l1, i, l2. split; auto. split; auto. split; [|split].
    + intros j Hj. destruct (Hv j (elem b s j) Hj (or_introl eq_refl)) as [v [Hh [old [_ ->]]]]. auto.
    + intros old Ho. destruct (Hl (elem b s i) (or_introl eq_refl)) as [v [Hh [old' [Ho' ->]]]].
      assert (old' = old) by (unfold holds in *; congruence). subst. auto.
    + eapply only_changes_more; [|exact O]. intros p [j [Hj [<-|[]]]]. eauto.
Qed.

Lemma store_gives h1 p old v : holds h1 p old ->
  exists h2, store h1 p v = Ok h2 /\ holds h2 p v /\ only_changes (fun q => q = p) h1 h2.
Proof.
  intros Ho. eexists. split; [apply store_ok; eexists; eauto|]. split.
  - apply peek_upd_same. unfold holds in Ho. congruence.
  - apply only_changes_upd. auto.
Qed.
Lemma torn_gives tear h1 p old v : holds h1 p old ->
  exists h2, torn_store tear h1 p v = Ok h2 /\ holds h2 p (tear old v) /\ only_changes (fun q => q = p) h1 h2.
Proof. intros Ho. unfold torn_store. rewrite (proj2 (load_holds _ _ _) Ho). cbn [bind]. eapply store_gives; eauto. Qed.
Lemma assign_gives tear f h1 p old v : holds h1 p old ->
  exists h2, assign_t tear f h1 p v = Ok h2 /\ holds h2 p (left_of tear f old v) /\ only_changes (fun q => q = p) h1 h2.
Proof.
  intros Ho. destruct f; cbn [assign_t left_of]; [|eapply torn_gives; eauto].
  exists h1. split; auto. split; auto. apply only_changes_refl.
Qed.

Lemma values_order nd s base : extents_ge 0 s -> is_null base = false \/ (forall i, ~ in_bounds s i) ->
  exists l, memory_order s l /\ values nd s base = Ok (map (elem base s) l).
Proof.
  intros Hs Hb. destruct (values_spec nd s base Hs Hb) as [l [Hl Hv]]. exists l. split; auto. split; auto.
  intros Hn Ha. destruct (is_null base) eqn:Eb.
  - destruct Hb as [Hb|Hb]; [discriminate|]. destruct l as [|i l]; [constructor|].
    destruct (Hb i). apply Hl. left; auto.
  - destruct (for_each_value_ascends s (snd base) Hs Hn Ha) as [l' [Hl' [E S]]].
    unfold values, values_in_order in Hv. rewrite Eb in Hv. unfold for_each_value in E. rewrite E in Hv. injection Hv as Hv.
    rewrite map_map in Hv.
    assert (El : map (offset s) l' = map (offset s) l).
    { pose proof (f_equal (map (fun p : ptr => snd p - snd base)) Hv) as F. rewrite !map_map in F.
      unfold to_ptr, elem in F. cbn [nth snd] in F.
      etransitivity; [|etransitivity; [exact F|]]; apply map_ext; intros; cbn beta; ring. }
    clear -S El. revert l El. induction S as [|x r S IH Hx]; intros [|y l] El; simpl in *; try discriminate; [constructor|].
    injection El as E0 E. constructor; [apply IH; auto|]. rewrite Forall_forall in *. intros z Hz.
    assert (I : In (offset s z) (map (offset s) r)) by (rewrite E; apply in_map; auto). apply in_map_iff in I.
    destruct I as [w [Ew Hw]]. rewrite <- Ew, <- E0. auto.
Qed.

Variable tear : V -> V -> V.
Variable spoil : V -> V.

Lemma fill_stops nd h dst v : extents_ge 0 (r_shape dst) -> injective_layout (r_shape dst) ->
  (forall i, in_bounds (r_shape dst) i -> alive h (elem (r_base dst) (r_shape dst) i)) ->
  exists l, memory_order (r_shape dst) l /\
    forall k, exists r, fill_t tear nd k h dst v = Ok r /\
      stops (r_base dst) (r_shape dst) l k (fun _ => v) tear h r.
Proof.
  intros Hs Hi Ha. unfold fill_t.
  destruct (values_order nd (r_shape dst) (r_base dst) Hs (alive_base h _ _ _ Hs Ha)) as [l [Hl ->]].
  exists l. split; auto. intros k. cbn [bind]. rewrite each_t_map.
  apply each_stops.
  - apply NoDup_map_elem; auto. apply Hl.
  - intros i Hin. apply Ha. apply Hl. auto.
  - intros h1 i old _ _ Ho. eapply store_gives; eauto.
  - intros h1 i old _ _ Ho. eapply torn_gives; eauto.
Qed.

Lemma transform_stops h dst (fn : index -> V) f : extents_ge 0 (r_shape dst) -> injective_layout (r_shape dst) ->
  (forall i, in_bounds (r_shape dst) i -> alive h (elem (r_base dst) (r_shape dst) i)) ->
  exists l, enumerates (in_bounds (r_shape dst)) l /\ StronglySorted colex_lt l /\
    forall k, exists r, transform_index_t tear f k h dst fn = Ok r /\
      stops (r_base dst) (r_shape dst) l k fn (left_of tear f) h r.
Proof.
  intros Hs Hi Ha. unfold transform_index_t.
  destruct (for_each_index_visits (r_shape dst) Hs) as [l [-> [Hl So]]]. exists l. split; auto. split; auto.
  intros k. cbn [bind]. apply each_stops.
  - apply NoDup_map_elem; auto.
  - intros i Hin. apply Ha. apply Hl. auto.
  - intros h1 i old _ _ Ho. rewrite elem_ref. eapply store_gives; eauto.
  - intros h1 i old _ _ Ho. rewrite elem_ref. eapply assign_gives; eauto.
Qed.

Lemma copy_stops nd h src dst (g : list Z -> V) : length (r_shape src) = length (r_shape dst) ->
  extents_ge 0 (r_shape dst) -> within (r_shape dst) (r_shape src) -> injective_layout (r_shape dst) ->
  (forall i, in_bounds (r_shape dst) i -> holds h (elem (r_base src) (r_shape src) i) (g i)) ->
  (forall i, in_bounds (r_shape dst) i -> alive h (elem (r_base dst) (r_shape dst) i)) ->
  (forall i j, in_bounds (r_shape dst) i -> in_bounds (r_shape dst) j ->
     elem (r_base src) (r_shape src) i <> elem (r_base dst) (r_shape dst) j) ->
  exists l, memory_order (r_shape dst) l /\
    forall k, exists r, copy_t tear nd k h src dst = Ok r /\
      stops (r_base dst) (r_shape dst) l k g tear h r.
Proof.
  intros Hl Hd Hw Hi Has Had Hsep. unfold copy_t. destruct (empty (r_shape dst)) eqn:E.
  - exists []. split; [split; [|constructor]|].
    + apply enumerates_nil. apply empty_no_index; auto.
    + intros k. exists (Returned h). split; auto. split; [simpl; lia|]. split; [intros i []|]. apply only_changes_refl.
  - rewrite (proj2 (in_range_corners _ _ Hl (not_empty_ge1 _ Hd E)) Hw).
    assert (Has' : forall i, in_bounds (r_shape dst) i -> alive h (elem (r_base src) (r_shape src) i)) by (intros; eexists; eauto).
    destruct (values_copy_spec nd (r_shape src) (r_base src) (r_shape dst) (r_base dst) Hl Hd) as [l [Hen Hv]].
    { destruct (alive_base h (r_base src) (r_shape src) _ Hd Has') as [H1|H1]; [|right; auto].
      destruct (alive_base h (r_base dst) (r_shape dst) _ Hd Had) as [H2|H2]; [|right; auto]. left; auto. }
    exists l. split; [split; auto; intros Hn Ha; eapply values_copy_sorted; eauto|].
    intros k. cbn [assert_ bind]. rewrite Hv. cbn [bind]. rewrite each_t_map.
    assert (Hsrc : forall h1 i, In i l -> only_changes (fun p => In p (map (elem (r_base dst) (r_shape dst)) l)) h h1 ->
      load h1 (elem (r_base src) (r_shape src) i) = Ok (g i)).
    { intros h1 i Hin O. apply load_holds. unfold holds. rewrite (proj1 O); [apply Has, Hen; auto|].
      intros C. apply in_map_iff in C. destruct C as [j [Ej Hj]]. symmetry in Ej. apply Hsep in Ej; auto; apply Hen; auto. }
    apply each_stops.
    + apply NoDup_map_elem; auto.
    + intros i Hin. apply Had. apply Hen. auto.
    + intros h1 i old Hin O Ho. unfold copy_assign. cbn [fst snd]. rewrite Hsrc by auto. cbn [bind]. eapply store_gives; eauto.
    + intros h1 i old Hin O Ho. unfold copy_assign_t. cbn [fst snd]. rewrite Hsrc by auto. cbn [bind]. eapply torn_gives; eauto.
Qed.

Lemma moves_stop mv b s a t (g : list Z -> V) l h k : NoDup (map (elem b s) l) -> NoDup (map (elem a t) l) ->
  (forall i, In i l -> holds h (elem a t i) (g i)) -> (forall i, In i l -> alive h (elem b s i)) ->
  (forall i j, In i l -> In j l -> elem a t i <> elem b s j) ->
  exists r, each_t (fun h i => move_assign mv h (elem a t i, elem b s i)) (fun h i => move_assign_t tear spoil h (elem a t i, elem b s i)) l k h = Ok r /\
    stops2 b s a t l k g tear mv spoil h r.
Proof.
    intros ND NS Has Had Hsep.
    set (D := elem b s) in *. set (S := elem a t) in *.
    assert (Hd' : NoDup (flat_map (fun i => [D i; S i]) l)).
    { assert (P : Permutation (map D l ++ map S l) (flat_map (fun i => [D i; S i]) l)).
      { clear. induction l as [|i l IH]; auto. cbn [map flat_map app]. constructor.
        etransitivity; [symmetry; apply Permutation_middle|]. constructor. auto. }
      eapply Permutation_NoDup; [exact P|]. apply NoDup_app; auto.
      intros p I1 I2. apply in_map_iff in I1. apply in_map_iff in I2. destruct I1 as [i [<- Ii]], I2 as [j [Ej Ij]].
      apply (Hsep j i); auto. }
    assert (Wr : forall (step : heap V -> ptr * ptr -> outcome (heap V)) (x : V -> V -> V) (y : V -> V),
      (forall h1 i old, load h1 (S i) = Ok (g i) -> holds h1 (D i) old -> S i <> D i ->
        exists h2, step h1 (S i, D i) = Ok h2 /\ holds h2 (D i) (x old (g i)) /\ holds h2 (S i) (y (g i)) /\
          only_changes (fun p => p = D i \/ p = S i) h1 h2) ->
      writes (fun i => [D i; S i]) h (fun h i => step h (S i, D i)) l
        (fun i p v => (p = D i -> forall old, holds h p old -> v = x old (g i)) /\ (p = S i -> v = y (g i)))).
    { intros step x y St h1 i Ii O Hp. destruct (Had i Ii) as [old Ho].
      destruct (St h1 i old) as [h2 [E2 [HD [HS O2]]]].
      - apply load_holds. unfold holds. rewrite Hp; [apply Has; auto|]. right; left; auto.
      - unfold holds. rewrite Hp; [exact Ho|]. left; auto.
      - apply Hsep; auto.
      - exists h2. split; auto. split.
        + intros p [<-|[<-|[]]].
          * eexists. split; [exact HD|]. split; [|intros C; symmetry in C; destruct (Hsep i i) as []; auto].
            intros _ old' Ho'. assert (old' = old) by (unfold holds in *; congruence). subst; auto.
          * eexists. split; [exact HS|]. split; auto. intros C. destruct (Hsep i i); auto.
        + eapply only_changes_more; [|exact O2]. intros p [->| ->]; simpl; auto. }
    assert (W1 := Wr (move_assign mv) (fun _ v => v) mv). assert (W2 := Wr (move_assign_t tear spoil) tear spoil). clear Wr.
    match type of W1 with ?P -> _ => assert (P1 : P) end.
    { intros h1 i old Ld Ho Ne. unfold move_assign. cbn [fst snd]. rewrite Ld. cbn [bind].
        destruct (store_gives h1 (D i) old (g i) Ho) as [h2 [-> [H2 O2]]]. cbn [bind].
        assert (Hs2 : holds h2 (S i) (g i)) by (apply load_holds in Ld; unfold holds; rewrite (proj1 O2); auto).
        destruct (store_gives h2 (S i) _ (mv (g i)) Hs2) as [h3 [-> [H3 O3]]]. exists h3. split; auto. split.
        - unfold holds. rewrite (proj1 O3); auto.
        - split; auto. apply (only_changes_trans _ _ h2); (eapply only_changes_more; [|eassumption]); intros p ->; auto. }
    match type of W2 with ?P -> _ => assert (P2 : P) end.
    { intros h1 i old Ld Ho Ne. unfold move_assign_t. cbn [fst snd]. rewrite Ld. cbn [bind].
        destruct (torn_gives tear h1 (D i) old (g i) Ho) as [h2 [-> [H2 O2]]]. cbn [bind].
        assert (Hs2 : holds h2 (S i) (g i)) by (apply load_holds in Ld; unfold holds; rewrite (proj1 O2); auto).
        destruct (store_gives h2 (S i) _ (spoil (g i)) Hs2) as [h3 [-> [H3 O3]]]. exists h3. split; auto. split.
        - unfold holds. rewrite (proj1 O3); auto.
        - split; auto. apply (only_changes_trans _ _ h2); (eapply only_changes_more; [|eassumption]); intros p ->; auto. }
    specialize (W1 P1). specialize (W2 P2).
    destruct (each_writes (fun i => [D i; S i]) h (fun h i => move_assign mv h (S i, D i))
      (fun h i => move_assign_t tear spoil h (S i, D i)) l _ _ k Hd' W1 W2) as [r [Er R]].
    exists r. split; [exact Er|].
    assert (Fin : forall h' (x : V -> V -> V) (y : V -> V) i, In i l ->
      (forall p, In p [D i; S i] -> exists v, holds h' p v /\
        ((p = D i -> forall old, holds h p old -> v = x old (g i)) /\ (p = S i -> v = y (g i)))) ->
      (forall old, holds h (D i) old -> holds h' (D i) (x old (g i))) /\ holds h' (S i) (y (g i))).
    { intros h' x y i Ii F. split.
      - intros old Ho. destruct (F (D i)) as [v [Hv' [A _]]]; [simpl; auto|]. rewrite <- (A eq_refl old Ho). auto.
      - destruct (F (S i)) as [v [Hv' [_ A]]]; [simpl; auto|]. rewrite <- (A eq_refl). auto. }
    destruct r as [h'|h']; cbn [stops2].
    + destruct R as [Hk [Hvs O]].
      assert (Fi : forall i, In i l -> holds h' (D i) (g i) /\ holds h' (S i) (mv (g i))).
      { intros i Ii. destruct (Fin h' (fun _ v => v) mv i Ii (fun p Ip => Hvs i p Ii Ip)) as [A B].
        split; auto. destruct (Had i Ii) as [old Ho]. eapply A; eauto. }
      split; auto. split; [intros i Ii; apply Fi; auto|]. split; [intros i Ii; apply Fi; auto|].
      eapply only_changes_more; [|exact O]. intros p [i [Ii [<-|[<-|[]]]]]; exists i; auto.
    + destruct R as [l1 [i [l2 [El [Hk [Hvs [Hlast O]]]]]]]. exists l1, i, l2. split; auto. split; auto.
      assert (I1 : forall j, In j l1 -> In j l) by (intros; rewrite El, in_app_iff; auto).
      assert (Ii : In i l) by (rewrite El, in_app_iff; simpl; auto).
      assert (Fi : forall j, In j l1 -> holds h' (D j) (g j) /\ holds h' (S j) (mv (g j))).
      { intros j Ij. destruct (Fin h' (fun _ v => v) mv j (I1 j Ij) (fun p Ip => Hvs j p Ij Ip)) as [A B].
        split; auto. destruct (Had j (I1 j Ij)) as [old Ho]. eapply A; eauto. }
      destruct (Fin h' tear spoil i Ii Hlast) as [A B].
      split; [intros j Ij; apply Fi; auto|]. split; [intros j Ij; apply Fi; auto|]. split; auto. split; auto.
      eapply only_changes_more; [|exact O]. intros p [j [Ij [<-|[<-|[]]]]]; exists j; auto.
Qed.

Lemma move_stops nd mv h src dst (g : list Z -> V) : length (r_shape src) = length (r_shape dst) ->
  extents_ge 0 (r_shape dst) -> within (r_shape dst) (r_shape src) ->
  injective_layout (r_shape dst) -> injective_layout (r_shape src) ->
  (forall i, in_bounds (r_shape dst) i -> holds h (elem (r_base src) (r_shape src) i) (g i)) ->
  (forall i, in_bounds (r_shape dst) i -> alive h (elem (r_base dst) (r_shape dst) i)) ->
  (forall i j, in_bounds (r_shape dst) i -> in_bounds (r_shape dst) j ->
     elem (r_base src) (r_shape src) i <> elem (r_base dst) (r_shape dst) j) ->
  exists l, memory_order (r_shape dst) l /\
    forall k, exists r, move_t tear spoil nd mv k h src dst = Ok r /\
      stops2 (r_base dst) (r_shape dst) (r_base src) (r_shape src) l k g tear mv spoil h r.
Proof.
  intros Hl Hd Hw Hi Hi' Has Had Hsep. unfold move_t. destruct (empty (r_shape dst)) eqn:E.
  - exists []. split; [split; [|constructor]|].
    + apply enumerates_nil. apply empty_no_index; auto.
    + intros k. exists (Returned h). split; auto. split; [simpl; lia|]. split; [intros i []|]. split; [intros i []|]. apply only_changes_refl.
  - rewrite (proj2 (in_range_corners _ _ Hl (not_empty_ge1 _ Hd E)) Hw).
    assert (Has' : forall i, in_bounds (r_shape dst) i -> alive h (elem (r_base src) (r_shape src) i)) by (intros; eexists; eauto).
    destruct (values_copy_spec nd (r_shape src) (r_base src) (r_shape dst) (r_base dst) Hl Hd) as [l [Hen Hv]].
    { destruct (alive_base h (r_base src) (r_shape src) _ Hd Has') as [H1|H1]; [|right; auto].
      destruct (alive_base h (r_base dst) (r_shape dst) _ Hd Had) as [H2|H2]; [|right; auto]. left; auto. }
    exists l. split; [split; auto; intros Hn Ha; eapply values_copy_sorted; eauto|].
    intros k. cbn [assert_ bind]. rewrite Hv. cbn [bind]. rewrite each_t_map.
    assert (Hin : forall i, In i l -> in_bounds (r_shape dst) i) by (intros; apply Hen; auto).
    apply moves_stop; auto.
    + apply NoDup_map_elem; auto.
    + apply NoDup_map_inj; [|apply Hen]. intros i j Ii Ij Eq. apply Hi'; [apply Hw; auto|apply Hw; auto|apply (elem_inj (r_base src)); auto].
Qed.
Lemma positions (l : list (list Z)) : NoDup l -> exists pos, forall n i, nth_error l n = Some i -> pos i = n.
Proof.
  induction l as [|a l IH]; intros Hd.
  - exists (fun _ => O). intros [|n] i E; discriminate.
  - inversion_clear Hd as [|? ? Ha Hl]. destruct (IH Hl) as [pos Hp].
    exists (fun i => if list_eq_dec Z.eq_dec i a then O else Datatypes.S (pos i)).
    intros [|n] i E; cbn [nth_error] in E.
    + injection E as ->. destruct (list_eq_dec Z.eq_dec i i); congruence.
    + destruct (list_eq_dec Z.eq_dec i a) as [->|_]; [destruct Ha; eapply nth_error_In; eauto|]. f_equal. auto.
Qed.
Lemma counted (g : nat -> V) (val : list Z -> V) f (addr : list Z -> ptr) l : forall k n (h : heap V),
  (forall m i, nth_error l m = Some i -> val i = g (n + m)%nat) ->
  each_t (fun st i => h' <- store (fst st) (addr i) (g (snd st)) ;; Ok (h', Datatypes.S (snd st)))
    (fun st i => h' <- assign_t tear f (fst st) (addr i) (g (snd st)) ;;
      Ok (h', match f with InValue => snd st | InAssign => Datatypes.S (snd st) end)) l k (h, n) =
  (r <- each_t (fun h i => store h (addr i) (val i)) (fun h i => assign_t tear f h (addr i) (val i)) l k h ;;
   Ok (match r with
       | Returned h' => Returned (h', n + length l)%nat
       | Raised h' => Raised (h', n + match f with InValue => k | InAssign => Datatypes.S k end)%nat
       end)).
Proof.
  induction l as [|i l IH]; intros k n h Hv.
  - destruct k; cbn [each_t bind length]; rewrite Nat.add_0_r; auto.
  - pose proof (Hv O i eq_refl) as H0. rewrite Nat.add_0_r in H0.
    destruct k as [|k]; cbn [each_t fst snd].
    + rewrite H0. destruct (assign_t tear f h (addr i) (g n)); cbn [bind]; auto. do 3 f_equal. destruct f; lia.
    + rewrite H0. destruct (store h (addr i) (g n)) as [h'| |]; cbn [bind]; auto. rewrite IH.
      * destruct (each_t _ _ l k h') as [[h2|h2]| |]; cbn [bind]; auto; do 3 f_equal; cbn [length]; [|destruct f]; lia.
      * intros m j Ej. rewrite (Hv (Datatypes.S m) j Ej). f_equal. lia.
Qed.
Lemma generate_stops nd f h dst (g : nat -> V) : extents_ge 0 (r_shape dst) -> injective_layout (r_shape dst) ->
  (forall i, in_bounds (r_shape dst) i -> alive h (elem (r_base dst) (r_shape dst) i)) ->
  exists l val, memory_order (r_shape dst) l /\ (forall n i, nth_error l n = Some i -> val i = g n) /\
    forall k, exists r, generate_t tear nd f k h dst g = Ok r /\
      stops_calls (r_base dst) (r_shape dst) l k val tear f h r.
Proof.
  intros Hs Hi Ha. unfold generate_t.
  destruct (values_order nd (r_shape dst) (r_base dst) Hs (alive_base h _ _ _ Hs Ha)) as [l [Hl ->]].
  destruct (positions l (proj1 (proj1 Hl))) as [pos Hpos].
  exists l, (fun i => g (pos i)). split; auto. split; [intros n i E; f_equal; auto|].
  intros k. cbn [bind]. rewrite each_t_map.
  rewrite (counted g (fun i => g (pos i)) f (elem (r_base dst) (r_shape dst))) by (intros m i E; rewrite (Hpos m i E); auto).
  destruct (each_stops (r_base dst) (r_shape dst) l (fun i => g (pos i)) (left_of tear f)
    (fun h i => store h (elem (r_base dst) (r_shape dst) i) (g (pos i)))
    (fun h i => assign_t tear f h (elem (r_base dst) (r_shape dst) i) (g (pos i))) h k) as [r [-> R]].
  - apply NoDup_map_elem; auto. apply Hl.
  - intros i Hin. apply Ha. apply Hl. auto.
  - intros h1 i old _ _ Ho. eapply store_gives; eauto.
  - intros h1 i old _ _ Ho. eapply assign_gives; eauto.
  - cbn [bind]. eexists. split; [reflexivity|]. destruct r as [h'|h']; cbn [stops_calls]; split; auto.
Qed.

Lemma sub_reduces h op e r out (l l1 l2 : list (list Z)) P p vs old : enumerates P l -> StronglySorted colex_lt l -> l = l1 ++ l2 ->
  Forall2 (fun env v => computes h env e v)
    (filter (fun env => ptr_eqb (elem (r_base r) (r_shape r) (values_of out env)) p) l1) vs ->
  reduces h op e (fun env => In env l1 /\ elem (r_base r) (r_shape r) (values_of out env) = p) old (fold_left op vs old).
Proof.
  intros Hen So El F. eexists _, vs. split; [|split; [|split; [exact F|reflexivity]]].
  - assert (Q : enumerates (fun env => In env l1) l1).
    { split; [|intros; reflexivity]. destruct Hen as [Hn _]. rewrite El in Hn. revert Hn. clear.
      induction l1 as [|a l1 IH]; intros H; constructor; simpl in H; inversion_clear H as [|? ? A B]; [|auto].
      intros C. apply A. apply in_or_app; auto. }
    eapply filter_enumerates in Q; [exact Q|]. intro env. apply ptr_eqb_eq.
  - apply filter_sorted. rewrite El in So. revert So. clear.
    induction l1 as [|a l1 IH]; intros H; constructor; simpl in H; inversion_clear H as [|? ? A B]; [auto|].
    rewrite Forall_forall in *. intros x Hx. apply B. apply in_or_app; auto.
Qed.

Lemma ein_stops nd f op h r out e B n :
  ranks_match ((r, out) :: operands e) -> loops n (out ++ labels e) -> ranges r out (operands e) B ->
  operands_alive h ((r, out) :: operands e) -> operands_apart r (operands e) ->
  exists l, enumerates (loop_index B n) l /\ StronglySorted colex_lt l /\
    forall k, exists res, ein_reduce_t tear nd f k op h r out e = Ok res /\
      stops_reduction r out e op l k (left_of tear f) h res.
Proof.
  intros R L G Al Ap.
  destruct (loop_shape_ok nd B n r out e R G L) as (s & Es & Xs & Is).
  assert (IB : forall env r' is_, In env (box s) -> In (r', is_) ((r, out) :: operands e) ->
               in_bounds (r_shape r') (values_of is_ env)).
  { intros env r' is_ He Hr. eapply operand_in_bounds; eauto. apply Is, box_In. exact He. }
  assert (Q : enumerates (loop_index B n) (box s)).
  { split; [apply box_NoDup|]. intro x. rewrite box_In. apply Is. }
  assert (So : StronglySorted colex_lt (box s)) by apply box_sorted.
  exists (box s). split; auto. split; auto. intros k.
  unfold ein_reduce_t. rewrite Es. cbn [bind]. rewrite (fei_box s Xs). cbn [bind].
  assert (Pre : forall l1 l2, box s = l1 ++ l2 ->
    exists h', foldM (ein_assign op r out e) l1 h = Ok h' /\ only_changes (is_elem (r_base r) (r_shape r)) h h' /\
    forall p old, is_elem (r_base r) (r_shape r) p -> holds h p old ->
      exists w, reduces h op e (fun env => In env l1 /\ elem (r_base r) (r_shape r) (values_of out env) = p) old w /\ holds h' p w).
  { intros l1 l2 El. assert (Sub : forall env, In env l1 -> In env (box s)) by (intros; rewrite El, in_app_iff; auto).
    destruct (ein_fold op r out e h l1 h) as (h' & E & C & F).
    - apply only_changes_refl.
    - intros env He. exists (values_of out env). split; auto. apply (IB env r out); auto. left. auto.
    - intros p (i & Hi & ->). apply (Al r out i); [left; auto|exact Hi].
    - intros env He. apply computes_exists. intros r' is_ Hr. apply (Al r' is_); [right; exact Hr|].
      apply (IB env r' is_); auto. right. exact Hr.
    - intros env r' is_ He Hr. apply (Ap r' is_); auto. apply (IB env r' is_); auto. right. exact Hr.
    - exists h'. split; auto. split; auto. intros p old Hp Ho. destruct (F p old Hp Ho) as (vs & Fv & Hw).
      exists (fold_left op vs old). split; auto. eapply sub_reduces; eauto. }
  destruct (le_lt_dec (length (box s)) k) as [Hk|Hk].
  - destruct (Pre (box s) []) as (h' & E & C & F); [rewrite app_nil_r; auto|].
    exists (Returned h'). rewrite each_t_all, E by auto. cbn [bind]. split; auto. split; auto. split; auto.
    intros p old Hp Ho. destruct (F p old Hp Ho) as (w & Rw & Hw). eauto.
  - destruct (cut (box s) k Hk) as [l1 [last [l2 [El Hl1]]]].
    destruct (Pre l1 (last :: l2) El) as (h1 & E & C & F).
    assert (Il : In last (box s)) by (rewrite El, in_app_iff; simpl; auto).
    set (q := elem (r_base r) (r_shape r) (values_of out last)).
    assert (Hq : is_elem (r_base r) (r_shape r) q) by (exists (values_of out last); split; auto; apply (IB last r out); [auto|left; auto]).
    destruct (Al r out (values_of out last)) as [oq Hoq]; [left; auto|apply (IB last r out); [auto|left; auto]|]. fold q in Hoq.
    destruct (F q oq Hq Hoq) as (wq & Rq & Hwq).
    assert (Cv : exists v, computes h last e v).
    { apply computes_exists. intros r' is_ Hr. apply (Al r' is_); [right; exact Hr|]. apply (IB last r' is_); auto. right. exact Hr. }
    destruct Cv as [v Cv].
    assert (Ev : eval h1 e last = Ok v).
    { apply eval_computes. eapply computes_transfer; [|exact Cv]. intros r' is_ Hr. apply C. apply (Ap r' is_ (values_of is_ last) Hr).
      apply (IB last r' is_); auto. right. exact Hr. }
    destruct (assign_gives tear f h1 q wq (op wq v) Hwq) as [h2 [E2 [H2 O2]]].
    exists (Raised h2). split.
    + rewrite El, <- Hl1, each_t_stop, E. cbn [bind]. unfold ein_assign_t. rewrite Ev. cbn [bind].
      unfold ref_at. rewrite elem_ref. change (get_all out last) with (values_of out last). fold q.
      rewrite (proj2 (load_holds _ _ _) Hwq). cbn [bind]. rewrite E2. auto.
    + exists l1, last, l2. split; auto. split; auto. split.
      * apply (only_changes_trans _ _ h1); auto. eapply only_changes_more; [|exact O2]. intros p ->. auto.
      * intros p old Hp Ho. destruct (F p old Hp Ho) as (w & Rw & Hw). exists w. split; auto. split.
        -- intros Ne. unfold holds. rewrite (proj1 O2); auto.
        -- intros ->. exists v. split; auto. assert (Hw2 : holds h1 q w) by exact Hw. assert (w = wq) by (unfold holds in Hw2, Hwq; congruence). subst w. auto.
Qed.
End Views.
