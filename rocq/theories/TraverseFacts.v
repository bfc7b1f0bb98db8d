(** Lemmas about index and value traversals. *)
From Verif Require Import Tac Interval Shape Traverse Spec ShapeFacts IntervalFacts.
Import ListNotations.
Open Scope Z_scope.

(** ** List helpers *)

Lemma flat_mapM_ok {A B} (f : A -> outcome (list B)) (g : A -> list B) l :
  (forall a, In a l -> f a = Ok (g a)) -> flat_mapM f l = Ok (flat_map g l).
Proof.
  induction l as [|a l IH]; intro H; simpl; auto. rewrite H by (left; auto). simpl.
  rewrite IH by (intros; apply H; right; auto). reflexivity.
Qed.

Lemma flat_map_map {A B C} (f : B -> list C) (g : A -> B) l : flat_map f (map g l) = flat_map (fun a => f (g a)) l.
Proof. induction l; simpl; auto. rewrite IHl. auto. Qed.

Lemma map_flat_map {A B C} (f : B -> C) (g : A -> list B) l : map f (flat_map g l) = flat_map (fun a => map f (g a)) l.
Proof. induction l; simpl; auto. rewrite map_app, IHl. auto. Qed.

Lemma flat_map_flat_map {A B C} (f : B -> list C) (g : A -> list B) l :
  flat_map f (flat_map g l) = flat_map (fun a => flat_map f (g a)) l.
Proof. induction l; simpl; auto. rewrite flat_map_app, IHl. auto. Qed.

Lemma flat_map_ext_in {A B} (f g : A -> list B) l : (forall a, In a l -> f a = g a) -> flat_map f l = flat_map g l.
Proof.
  induction l; intros H; simpl; auto. rewrite H by (left; auto). rewrite IHl; [reflexivity | intros; apply H; right; auto].
Qed.

Lemma flat_map_sing {A B} (f : A -> B) l : flat_map (fun a => [f a]) l = map f l.
Proof. induction l; simpl; congruence. Qed.

Lemma flat_map_perm {A B} (f : A -> list B) l l' : Permutation l l' -> Permutation (flat_map f l) (flat_map f l').
Proof.
  induction 1; simpl; auto.
  - apply Permutation_app_head; auto.
  - rewrite !app_assoc. apply Permutation_app_tail, Permutation_app_comm.
  - etransitivity; eauto.
Qed.

Lemma flat_map_perm_fun {A B} (f g : A -> list B) l :
  (forall a, In a l -> Permutation (f a) (g a)) -> Permutation (flat_map f l) (flat_map g l).
Proof.
  induction l; intro H; simpl; auto. apply Permutation_app; [apply H; left; auto | apply IHl; intros; apply H; right; auto].
Qed.

Lemma flat_map_cons {A B} (f : A -> B) (g : A -> list B) l :
  Permutation (flat_map (fun a => f a :: g a) l) (map f l ++ flat_map g l).
Proof.
  induction l; simpl; auto. constructor. rewrite IHl, !app_assoc. apply Permutation_app_tail, Permutation_app_comm.
Qed.

Lemma flat_map_swap {A B C} (f : A -> B -> C) la lb :
  Permutation (flat_map (fun a => map (f a) lb) la) (flat_map (fun b => map (fun a => f a b) la) lb).
Proof.
  induction la as [|a la IH]; simpl.
  - induction lb; simpl; auto.
  - rewrite flat_map_cons. apply Permutation_app_head. exact IH.
Qed.

Lemma perm_map_ex {A B} (f : A -> B) l t : Permutation t (map f l) -> exists l', t = map f l' /\ Permutation l' l.
Proof.
  intro P. apply Permutation_map_inv in P. destruct P as [l' [-> P]].
  exists l'. split; auto. symmetry; auto.
Qed.

Lemma enumerates_perm_l {A} (P : A -> Prop) l l' : Permutation l' l -> enumerates P l -> enumerates P l'.
Proof.
  intros Pm [N I]. split.
  - eapply Permutation_NoDup; [apply Permutation_sym; exact Pm | exact N].
  - intro x. rewrite <- I. split; apply Permutation_in; auto. apply Permutation_sym; auto.
Qed.

(** ** Index traversal *)

Lemma box_snoc s d : box (s ++ [d]) = flat_map (fun x => map (fun i => i ++ [x]) (box s)) (dim_list d).
Proof.
  induction s as [|e s IH]; simpl.
  - rewrite app_nil_r. rewrite flat_map_sing. reflexivity.
  - rewrite IH. rewrite flat_map_flat_map. apply flat_map_ext. intro x.
    rewrite flat_map_map, map_flat_map. apply flat_map_ext. intro i. rewrite map_map. reflexivity.
Qed.

Lemma fei_impl_box n : forall dims idx, (length dims <= n)%nat -> extents_ge 0 dims ->
  fei_impl idx dims = Ok (map (fun i => i ++ idx) (box (rev dims))).
Proof.
  induction n as [|n IH]; intros dims idx L H.
  - destruct dims; simpl in L; [reflexivity | lia].
  - destruct dims as [|d0 [|d1 rest]].
    + reflexivity.
    + inv H. cbn [fei_impl]. rewrite for_dim_ok by auto. simpl. rewrite app_nil_r, map_map. reflexivity.
    + inv H. inv H3. cbn [fei_impl]. rewrite for_dim_ok by auto. simpl bind.
      rewrite flat_mapM_ok with
        (g := fun i => flat_map (fun j => map (fun k => k ++ j :: i :: idx) (box (rev rest))) (dim_list d1)).
      2: { intros i _. rewrite for_dim_ok by auto. simpl. apply flat_mapM_ok. intros j _. apply IH; auto.
           simpl in L. lia. }
      f_equal. simpl rev. rewrite box_snoc, box_snoc. rewrite map_flat_map. apply flat_map_ext. intro i.
      rewrite map_map, map_flat_map. apply flat_map_ext. intro j. rewrite map_map. apply map_ext. intro k.
      rewrite <- !app_assoc. reflexivity.
Qed.

Lemma Forall_rev' {A} (P : A -> Prop) l : Forall P l -> Forall P (rev l).
Proof. rewrite !Forall_forall. intros H x Hx. apply H, in_rev, Hx. Qed.

Lemma fei_box s : extents_ge 0 s -> for_each_index_in_order s = Ok (box s).
Proof.
  intro H. unfold for_each_index_in_order. rewrite (fei_impl_box (length (rev s))); auto.
  - rewrite rev_involutive. f_equal. erewrite map_ext; [apply map_id|]. intro; apply app_nil_r.
  - apply Forall_rev', H.
Qed.

Lemma StronglySorted_app {A} (R : A -> A -> Prop) l1 l2 : StronglySorted R l1 -> StronglySorted R l2 ->
  (forall a b, In a l1 -> In b l2 -> R a b) -> StronglySorted R (l1 ++ l2).
Proof.
  induction 1; simpl; intros H2 HR; auto. constructor.
  - apply IHStronglySorted; [auto | intros; apply HR; simpl; auto].
  - apply Forall_app. split; auto. apply Forall_forall. intros b Hb. apply HR; simpl; auto.
Qed.

Lemma StronglySorted_flat_map {A B} (R : A -> A -> Prop) (S : B -> B -> Prop) (f : A -> list B) l :
  StronglySorted R l -> (forall a, In a l -> StronglySorted S (f a)) ->
  (forall a b x y, R a b -> In x (f a) -> In y (f b) -> S x y) -> StronglySorted S (flat_map f l).
Proof.
  induction 1 as [|a l H IH F]; simpl; intros Hf HS; [constructor|]. apply StronglySorted_app.
  - apply Hf; left; auto.
  - apply IH; [intros; apply Hf; simpl; auto | auto].
  - intros x y Hx Hy. apply in_flat_map in Hy. destruct Hy as [b [Hb Hy]].
    rewrite Forall_forall in F. eapply HS; eauto.
Qed.

Lemma StronglySorted_map {A B} (R : A -> A -> Prop) (S : B -> B -> Prop) (f : A -> B) l :
  StronglySorted R l -> (forall a b, R a b -> S (f a) (f b)) -> StronglySorted S (map f l).
Proof.
  induction 1; simpl; intro H1; constructor; auto. apply Forall_map. eapply Forall_impl; [|exact H0]. auto.
Qed.

Lemma box_sorted s : StronglySorted colex_lt (box s).
Proof.
  induction s as [|d s IH]; simpl.
  - repeat constructor.
  - apply (StronglySorted_flat_map colex_lt); auto.
    + intros i _. apply (StronglySorted_map Z.lt); [apply zseq_sorted|]. intros. simpl. right. auto.
    + intros a b x y R Hx Hy. apply in_map_iff in Hx, Hy. destruct Hx as [? [<- _]], Hy as [? [<- _]].
      simpl. left. auto.
Qed.

Lemma for_each_index_visits : forall s : shape, extents_ge 0 s ->
  exists l, for_each_index s = Ok l /\ enumerates (in_bounds s) l /\ StronglySorted colex_lt l.
Proof.
  intros s H. exists (box s). split; [apply fei_box, H|]. split; [apply box_enumerates | apply box_sorted].
Qed.

(** ** Loop orders *)

Lemma get_dims_spec s order r : get_dims s order = Some r <-> Forall2 (fun k d => nth_error s k = Some d) order r.
Proof.
  unfold get_dims. revert r. induction order as [|k order IH]; intro r; simpl.
  - split; [intro E; injection E as <-; constructor | intro H; inv H; auto].
  - destruct (nth_error s k) eqn:E.
    + destruct (fold_right _ _ order) eqn:F.
      * split.
        -- intro E'. injection E' as <-. constructor; auto. apply IH. auto.
        -- intro H. inv H. apply IH in H4. injection H4 as ->. rewrite E in H2. injection H2 as ->. reflexivity.
      * split; [discriminate|]. intro H. inv H. apply IH in H4. discriminate.
    + split; [discriminate|]. intro H. inv H. congruence.
Qed.

Lemma get_dims_total s order : Forall (fun k => (k < length s)%nat) order -> exists r, get_dims s order = Some r.
Proof.
  induction 1 as [|k order H H' [r IH]].
  - eexists; reflexivity.
  - apply nth_error_Some in H. destruct (nth_error s k) as [d|] eqn:E; [|congruence].
    exists (d :: r). apply get_dims_spec. constructor; auto. apply get_dims_spec. auto.
Qed.

Lemma index_of_nth order k x : NoDup order -> nth_error order k = Some x -> index_of x order = k.
Proof.
  revert k. induction order as [|y order IH]; intros [|k] N H; simpl in *; try discriminate.
  - injection H as ->. rewrite Nat.eqb_refl. reflexivity.
  - inv N. destruct (Nat.eqb_spec x y) as [->|].
    + exfalso. apply H2. eapply nth_error_In; eauto.
    + rewrite (IH k); auto.
Qed.

Lemma list_max_seq n : list_max (seq 0 (S n)) = n.
Proof.
  assert (H : forall k m, list_max (seq k (S m)) = (k + m)%nat).
  { intros k m. revert k. induction m; intro k.
    - simpl. lia.
    - change (seq k (S (S m))) with (k :: seq (S k) (S m)). cbn [list_max fold_right].
      change (fold_right Nat.max 0%nat (seq (S k) (S m))) with (list_max (seq (S k) (S m))).
      rewrite IHm. lia. }
  rewrite H. lia.
Qed.

Lemma list_max_perm l l' : Permutation l l' -> list_max l = list_max l'.
Proof. induction 1; simpl; auto; lia. Qed.

Definition is_perm (order : list nat) (n : nat) : Prop := Permutation order (seq 0 n).

Lemma concat_get_or_empty {A} (f : nat -> nat) (t : list A) js :
  Forall (fun j => (f j < length t)%nat) js ->
  Forall2 (fun j x => nth_error t (f j) = Some x) js (concat (map (fun j => get_or_empty (f j) t) js)).
Proof.
  induction 1; simpl; [constructor|]. unfold get_or_empty at 1. apply nth_error_Some in H.
  destruct (nth_error t (f x)) eqn:E; [|congruence]. simpl. constructor; auto.
Qed.

Lemma unshuffle_spec {A} order (t : list A) n : is_perm order n -> length t = n -> (0 < n)%nat ->
  length (unshuffle order t) = n /\
  forall k j, nth_error order k = Some j -> nth_error (unshuffle order t) j = nth_error t k.
Proof.
  intros P L N0. destruct n as [|n]; [lia|]. unfold unshuffle.
  rewrite (list_max_perm _ _ P), list_max_seq. replace (n + 1)%nat with (S n) by lia.
  assert (ND : NoDup order) by (eapply Permutation_NoDup; [apply Permutation_sym, P | apply seq_NoDup]).
  assert (LO : length order = S n) by (rewrite (Permutation_length P); apply seq_length).
  assert (F : Forall2 (fun j x => nth_error t (index_of j order) = Some x) (seq 0 (S n))
               (concat (map (fun j => get_or_empty (index_of j order) t) (seq 0 (S n))))).
  { apply concat_get_or_empty. apply Forall_forall. intros j Hj.
    assert (In j order) as Hin by (eapply Permutation_in; [apply Permutation_sym, P | auto]).
    apply In_nth_error in Hin. destruct Hin as [k Hk]. rewrite (index_of_nth _ _ _ ND Hk). rewrite L, <- LO.
    apply nth_error_Some. congruence. }
  split.
  - rewrite <- (Forall2_len _ _ _ F). apply seq_length.
  - intros k j Hk.
    assert (Hj : (j < S n)%nat).
    { assert (In j (seq 0 (S n))) by (eapply Permutation_in; [exact P | eapply nth_error_In; eauto]).
      apply in_seq in H. lia. }
    assert (G : forall (l : list nat) (m : list A) q j, Forall2 (fun j x => nth_error t (index_of j order) = Some x) l m ->
       nth_error l q = Some j -> nth_error m q = nth_error t (index_of j order)).
    { intros l m q. revert l m. induction q; intros l m j0 FF HH; inv FF; simpl in *; try discriminate.
      - injection HH as ->. auto.
      - eauto. }
    rewrite (G _ _ j j F).
    + rewrite (index_of_nth _ _ _ ND Hk). reflexivity.
    + rewrite (nth_error_nth' _ 0%nat) by (rewrite seq_length; lia). rewrite seq_nth by lia. reflexivity.
Qed.

Definition pick (order : list nat) (i : list Z) : list Z := map (fun k => nth k i 0) order.

Lemma nth_error_ext' {A} (l1 l2 : list A) : (forall k, nth_error l1 k = nth_error l2 k) -> l1 = l2.
Proof.
  revert l2. induction l1; intros [|b l2] H; auto.
  - specialize (H 0%nat). discriminate.
  - specialize (H 0%nat). discriminate.
  - f_equal; [specialize (H 0%nat); simpl in H; congruence|]. apply IHl1. intro k. apply (H (S k)).
Qed.

Lemma pick_nth order i k j : nth_error order k = Some j -> nth_error (pick order i) k = Some (nth j i 0).
Proof. intro H. unfold pick. erewrite map_nth_error by eauto. reflexivity. Qed.

Lemma unshuffle_pick order i n : is_perm order n -> length i = n -> unshuffle order (pick order i) = i \/ n = O.
Proof.
  intros P L. destruct n as [|n]; [right; auto|left].
  assert (LO : length order = S n) by (rewrite (Permutation_length P); apply seq_length).
  destruct (unshuffle_spec order (pick order i) (S n) P) as [LU NU]; [unfold pick; rewrite map_length; auto | lia |].
  apply nth_error_ext'. intro j. destruct (Nat.lt_ge_cases j (S n)) as [Hj|Hj].
  - assert (In j order) as Hin by (eapply Permutation_in; [apply Permutation_sym, P | apply in_seq; lia]).
    apply In_nth_error in Hin. destruct Hin as [k Hk]. rewrite (NU k j Hk), (pick_nth _ _ _ _ Hk).
    symmetry. apply nth_error_nth'. lia.
  - rewrite !(proj2 (nth_error_None _ _)) by lia. reflexivity.
Qed.

Lemma pick_unshuffle order t n : is_perm order n -> length t = n -> pick order (unshuffle order t) = t \/ n = O.
Proof.
  intros P L. destruct n as [|n]; [right; auto|left].
  assert (LO : length order = S n) by (rewrite (Permutation_length P); apply seq_length).
  destruct (unshuffle_spec order t (S n) P L) as [LU NU]; [lia|].
  apply nth_error_ext'. intro k. destruct (Nat.lt_ge_cases k (S n)) as [Hk|Hk].
  - destruct (nth_error order k) as [j|] eqn:E.
    2: { apply nth_error_None in E. lia. }
    rewrite (pick_nth _ _ _ _ E). specialize (NU k j E). rewrite <- NU. symmetry. apply nth_error_nth'.
    rewrite LU. assert (In j (seq 0 (S n))) as Hin by (eapply Permutation_in; [exact P | eapply nth_error_In; eauto]).
    apply in_seq in Hin. lia.
  - rewrite !(proj2 (nth_error_None _ _)); auto; try lia. unfold pick. rewrite map_length. lia.
Qed.

Lemma in_bounds_nth s i : in_bounds s i <-> (length i = length s /\
  forall k d, nth_error s k = Some d -> in_dim d (nth k i 0)).
Proof.
  revert i. induction s as [|d s IH]; intro i.
  - split; [intro H; inv H; split; auto; intros [|k]; discriminate|]. intros [L _]. destruct i; [constructor | discriminate].
  - split.
    + intro H. inv H. apply IH in H4. destruct H4 as [L F]. split; [simpl; auto|].
      intros [|k] e He; simpl in *; [congruence | auto].
    + intros [L F]. destruct i as [|x i]; [discriminate|]. constructor.
      * apply (F 0%nat). reflexivity.
      * apply IH. split; [simpl in L; lia|]. intros k e He. apply (F (S k)). auto.
Qed.

Lemma in_bounds_pick s order r i : is_perm order (length s) -> get_dims s order = Some r ->
  length i = length s -> (in_bounds s i <-> in_bounds r (pick order i)).
Proof.
  intros P G L. apply get_dims_spec in G. rewrite !in_bounds_nth.
  assert (LR : length r = length order) by (symmetry; eapply Forall2_len; eauto).
  assert (LO : length order = length s) by (rewrite (Permutation_length P); apply seq_length).
  assert (G' : forall k d, nth_error r k = Some d -> exists j, nth_error order k = Some j /\ nth_error s j = Some d).
  { clear -G. induction G; intros [|k] d Hd; simpl in *; try discriminate.
    - injection Hd as <-. eauto.
    - eauto. }
  split.
  - intros [_ F]. split; [unfold pick; rewrite map_length; lia|].
    intros k d Hd. destruct (G' k d Hd) as [j [Hj Hs]].
    erewrite nth_error_nth; [|eapply pick_nth; eauto]. auto.
  - intros [_ F]. split; auto. intros j d Hd.
    assert (In j order) as Hin.
    { eapply Permutation_in; [apply Permutation_sym, P|]. apply in_seq. split; [lia|]. simpl.
      apply nth_error_Some. congruence. }
    apply In_nth_error in Hin. destruct Hin as [k Hk].
    assert (exists d', nth_error r k = Some d') as [d' Hd'].
    { destruct (nth_error r k) eqn:E; eauto. apply nth_error_None in E.
      assert (k < length order)%nat by (apply nth_error_Some; congruence). lia. }
    destruct (G' k d' Hd') as [j' [Hj' Hs']]. rewrite Hk in Hj'. injection Hj' as <-.
    specialize (F k d' Hd'). erewrite nth_error_nth in F; [|eapply pick_nth; eauto]. congruence.
Qed.

Lemma is_perm_bound order n : is_perm order n -> Forall (fun k => (k < n)%nat) order.
Proof.
  intro P. apply Forall_forall. intros k Hk. assert (In k (seq 0 n)) by (eapply Permutation_in; eauto).
  apply in_seq in H. lia.
Qed.

Lemma Forall2_Forall_r {A B} (R : A -> B -> Prop) (P : B -> Prop) la lb :
  Forall2 R la lb -> (forall a b, R a b -> P b) -> Forall P lb.
Proof. induction 1; intros; constructor; eauto. Qed.

Lemma for_each_index_order_visits : forall (s : shape) (order : list nat), extents_ge 0 s ->
  (0 < length s)%nat -> Permutation order (seq 0 (length s)) ->
  exists l, for_each_index_loop_order order s = Some (Ok l) /\
    enumerates (in_bounds s) l /\
    StronglySorted (fun i j => colex_lt (map (fun k => nth k i 0) order) (map (fun k => nth k j 0) order)) l.
Proof.
  intros s order H N0 P.
  destruct (get_dims_total s order (is_perm_bound _ _ P)) as [r R].
  assert (Hr : extents_ge 0 r).
  { pose proof (proj1 (get_dims_spec _ _ _) R) as R'. eapply Forall2_Forall_r; [exact R'|].
    intros k d Hd. simpl in Hd. apply nth_error_In in Hd. unfold extents_ge in H. rewrite Forall_forall in H. auto. }
  assert (LR : length r = length s).
  { pose proof (proj1 (get_dims_spec _ _ _) R) as R'. rewrite <- (Forall2_len _ _ _ R'), (Permutation_length P). apply seq_length. }
  unfold for_each_index_loop_order, reorder. rewrite R, (fei_box r Hr). simpl.
  exists (map (unshuffle order) (box r)). split; auto.
  assert (PU : forall t, In t (box r) -> pick order (unshuffle order t) = t).
  { intros t Ht. apply box_In in Ht. destruct (pick_unshuffle order t (length s) P); auto; [|lia].
    apply in_bounds_length in Ht. lia. }
  split; [split|].
  - apply NoDup_map_inj; [|apply box_NoDup]. intros x y Hx Hy E. rewrite <- (PU x Hx), <- (PU y Hy). congruence.
  - intro i. rewrite in_map_iff. split.
    + intros [t [<- Ht]]. pose proof (PU t Ht) as E. apply box_In in Ht.
      assert (LT : length t = length s) by (apply in_bounds_length in Ht; lia).
      destruct (unshuffle_spec order t (length s) P LT N0) as [LU _].
      apply (in_bounds_pick s order r); auto. rewrite E. auto.
    + intro Hi. pose proof (in_bounds_length _ _ Hi) as L. exists (pick order i). split.
      * destruct (unshuffle_pick order i (length s) P); auto. lia.
      * apply box_In. apply (in_bounds_pick s order r); auto.
  - assert (G : StronglySorted colex_lt (map (pick order) (map (unshuffle order) (box r)))).
    { rewrite map_map. erewrite map_ext_in; [rewrite map_id; apply box_sorted|]. exact PU. }
    revert G. generalize (map (unshuffle order) (box r)). clear. intros l G. induction l; constructor.
    + inv G. auto.
    + inv G. rewrite Forall_map in H2. exact H2.
Qed.

(** ** Value traversal: exact order of one loop nest *)

Definition dot (st i : list Z) : Z := fold_right Z.add 0 (map2 Z.mul st i).
Definition zdims (ext : list Z) : list dim := map (fun e => mkD 0 e 0) ext.
Definition at_index (ps : pbundle) (i : list Z) : list Z := map (fun '(p, st) => p + dot st i) ps.

Lemma for_loop_seq {B} n (body : pbundle -> list B) step : forall ps,
  for_loop n body step ps = flat_map (fun k => body (Nat.iter k step ps)) (seq 0 n).
Proof.
  induction n; intro ps; simpl; auto. f_equal. rewrite IHn, <- seq_shift, flat_map_map. apply flat_map_ext.
  intro k. f_equal. simpl. clear. induction k; simpl; congruence.
Qed.

Lemma iter_advance D k : forall ps,
  Nat.iter k (advance D) ps = map (fun '(p, st) => (p + Z.of_nat k * nth D st 0, st)) ps.
Proof.
  induction k; intro ps; simpl Nat.iter.
  - rewrite (map_ext _ (fun q => q)) by (intros [p st]; f_equal; lia). rewrite map_id. reflexivity.
  - rewrite IHk. unfold advance. rewrite map_map. apply map_ext. intros [p st]. f_equal. lia.
Qed.

Lemma dot_snoc st i x : (length i < length st)%nat -> dot st (i ++ [x]) = dot st i + nth (length i) st 0 * x.
Proof.
  unfold dot. revert i. induction st as [|a st IH]; intros [|y i] H; simpl in H; try lia; cbn [map2 app fold_right length nth].
  - destruct st; cbn; ring.
  - rewrite IH by lia. ring.
Qed.

Lemma inner_dense_loop_seq n : forall f ptr0 ptrs, (n < f)%nat ->
  inner_dense_loop f ptr0 (ptr0 + Z.of_nat n) ptrs =
  map (fun k => map (fun p => p + k) (ptr0 :: ptrs)) (zseq 0 n).
Proof.
  induction n; intros [|f] ptr0 ptrs H; try lia; cbn [inner_dense_loop].
  - replace (ptr0 <? ptr0 + Z.of_nat 0) with false by lia. reflexivity.
  - replace (ptr0 <? ptr0 + Z.of_nat (S n)) with true by lia.
    replace (ptr0 + Z.of_nat (S n)) with (ptr0 + 1 + Z.of_nat n) by lia. rewrite IHn by lia.
    cbn [zseq map]. f_equal.
    + f_equal; [lia|]. rewrite (map_ext (fun p => p + 0) (fun p => p)) by (intro; lia). rewrite map_id. reflexivity.
    + replace (0 + 1) with (0 + 1)%Z by lia. rewrite (zseq_shift 0 n 1), map_map. apply map_ext. intro k.
      rewrite map_map. f_equal; [lia|]. apply map_ext. intro; lia.
Qed.

Lemma inner_dense_spec e ps : ps <> [] ->
  inner_dense e ps = map (fun k => map (fun p => p + k) ps) (zseq 0 (Z.to_nat e)).
Proof.
  intro NE. destruct ps as [|ptr0 ptrs]; [congruence|]. unfold inner_dense.
  destruct (Z.le_gt_cases 0 e).
  - replace (ptr0 + e) with (ptr0 + Z.of_nat (Z.to_nat e)) by lia. apply inner_dense_loop_seq. lia.
  - replace (Z.to_nat e) with O by lia. cbn [inner_dense_loop]. replace (ptr0 <? ptr0 + e) with false by lia. reflexivity.
Qed.

Lemma zseq_0_seq n : zseq 0 n = map Z.of_nat (seq 0 n).
Proof.
  induction n as [|n IH]; [reflexivity|]. cbn [zseq]. simpl seq. cbn [map]. f_equal.
  rewrite <- seq_shift, map_map. change (0 + 1) with (0 + 1)%Z. rewrite (zseq_shift 0 n 1), IH, map_map.
  apply map_ext. intro. lia.
Qed.

Lemma fev_inner_spec ext ps : ps <> [] -> Forall (fun p => (0 < length (snd p))%nat) ps -> (0 < length ext)%nat ->
  fev_inner ext ps = map (at_index ps) (box (zdims (firstn 1 ext))).
Proof.
  intros NE F L. destruct ext as [|e ext]; [simpl in L; lia|]. unfold fev_inner. simpl nth. cbn [firstn zdims map box].
  cbn [flat_map]. rewrite app_nil_r, map_map. unfold dim_list. cbn [dmin dext].
  destruct (vall _) eqn:V.
  - rewrite inner_dense_spec by (destruct ps; [congruence | discriminate]). apply map_ext. intro k.
    unfold at_index. rewrite map_map. rewrite vall_map in V. rewrite Forall_forall in V.
    apply map_ext_in. intros [p st] Hp. specialize (V _ Hp). simpl in *. rewrite Forall_forall in F. specialize (F _ Hp). simpl in F.
    destruct st as [|s0 st]; [simpl in F; lia|]. simpl in V. apply Z.eqb_eq in V. subst s0. unfold dot. cbn [map2 fold_right].
    destruct st; cbn [map2 fold_right]; ring.
  - rewrite for_loop_seq, zseq_0_seq, map_map. erewrite flat_map_ext; [|intro k; rewrite iter_advance; reflexivity].
    rewrite flat_map_sing. apply map_ext. intro k. unfold deref, at_index. rewrite map_map.
    apply map_ext_in. intros [p st] Hp. rewrite Forall_forall in F. specialize (F _ Hp). simpl in *.
    destruct st as [|s0 st]; [simpl in F; lia|]. unfold dot. cbn [map2 fold_right nth].
    destruct st; cbn [map2 fold_right]; ring.
Qed.

Lemma firstn_snoc {A} (l : list A) n x : nth_error l n = Some x -> firstn (S n) l = firstn n l ++ [x].
Proof.
  revert l. induction n; intros [|a l] H; simpl in *; try discriminate.
  - injection H as ->. reflexivity.
  - f_equal. apply IHn. auto.
Qed.

Lemma fev_impl_spec D : forall ext ps, ps <> [] -> Forall (fun p => (D < length (snd p))%nat) ps -> (D < length ext)%nat ->
  fev_impl D ext ps = map (at_index ps) (box (zdims (firstn (S D) ext))).
Proof.
  induction D as [|D IH]; intros ext ps NE F L.
  - apply fev_inner_spec; auto.
  - cbn [fev_impl]. rewrite for_loop_seq.
    assert (E : nth_error ext (S D) = Some (nth (S D) ext 0)) by (apply nth_error_nth'; auto).
    rewrite (firstn_snoc _ _ _ E). unfold zdims. rewrite map_app. cbn [map]. rewrite box_snoc, map_flat_map.
    unfold dim_list. cbn [dmin dext]. rewrite zseq_0_seq, flat_map_map. apply flat_map_ext. intro k.
    rewrite iter_advance, IH.
    + unfold zdims. rewrite map_map. apply map_ext_in. intros i Hi. unfold at_index. rewrite map_map.
      apply map_ext_in. intros [p st] Hp. rewrite Forall_forall in F. specialize (F _ Hp). simpl in F.
      assert (LI : length i = S D).
      { apply box_In, in_bounds_length in Hi. rewrite Hi, map_length, firstn_length. lia. }
      rewrite dot_snoc by lia. rewrite LI. ring.
    + destruct ps; [congruence | discriminate].
    + apply Forall_map. eapply Forall_impl; [|exact F]. intros [p st]. simpl. lia.
    + lia.
Qed.

Lemma fev_spec ext ps : ps <> [] -> Forall (fun p => length (snd p) = length ext) ps ->
  fev ext ps = map (at_index ps) (box (zdims ext)).
Proof.
  intros NE F. unfold fev. destruct (length ext) as [|D] eqn:L.
  - destruct ext; [|discriminate]. simpl. f_equal. unfold deref, at_index. apply map_ext_in.
    intros [p st] Hp. rewrite Forall_forall in F. specialize (F _ Hp). simpl in F. destruct st; [|discriminate].
    cbn. lia.
  - rewrite fev_impl_spec; auto; [|eapply Forall_impl; [|exact F]; simpl; intros; lia | lia].
    rewrite <- L, firstn_all. reflexivity.
Qed.

Lemma box_shift s : box s = map (fun i => map2 Z.add (mins s) i) (box (zdims (extents s))).
Proof.
  induction s as [|d s IH]; simpl; auto. rewrite IH, flat_map_map, map_flat_map. apply flat_map_ext. intro i.
  rewrite map_map. unfold dim_list. cbn [dmin dext]. replace (dmin d) with (0 + dmin d) at 1 by lia.
  rewrite zseq_shift, map_map. apply map_ext. intro x. unfold mins, extents. cbn [map map2]. f_equal. lia.
Qed.

Lemma dot_offset s : forall i, length i = length s ->
  dot (strides s) i = offset s (map2 Z.add (mins s) i).
Proof.
  unfold dot. induction s as [|d s IH]; intros [|x i] H; simpl in H; try discriminate; auto.
  unfold strides, mins in *. cbn [map map2 fold_right offset]. rewrite IH by lia. ring.
Qed.

Lemma zdims_box_length ext i : In i (box (zdims ext)) -> length i = length ext.
Proof. intro H. apply box_In, in_bounds_length in H. unfold zdims in H. rewrite map_length in H. auto. Qed.

Lemma fev_in_order_spec s base : for_each_value_in_order s base = map (fun i => [base + offset s i]) (box s).
Proof.
  unfold for_each_value_in_order. rewrite fev_spec; [|discriminate|].
  - rewrite (box_shift s), map_map. apply map_ext_in. intros i Hi. apply zdims_box_length in Hi.
    unfold at_index. simpl. rewrite dot_offset; auto. unfold extents in Hi. rewrite map_length in Hi. auto.
  - constructor; auto. simpl. unfold strides, extents. rewrite !map_length. auto.
Qed.

Lemma offset_add s : forall i j, length i = length s -> length j = length s ->
  offset s (map2 Z.add i j) = offset s i + dot (strides s) j.
Proof.
  unfold dot. induction s as [|d s IH]; intros [|x i] [|y j] H1 H2; simpl in H1, H2; try discriminate; auto.
  unfold strides in *. cbn [map map2 fold_right offset]. rewrite IH by lia. ring.
Qed.

Lemma fev_in_order2_spec s sa ba sb bb : length sa = length s -> length sb = length s ->
  for_each_value_in_order2 s sa ba sb bb = map (fun i => [ba + offset sa i; bb + offset sb i]) (box s).
Proof.
  intros LA LB. unfold for_each_value_in_order2. rewrite fev_spec; [|discriminate|].
  - rewrite (box_shift s), map_map. apply map_ext_in. intros i Hi. apply zdims_box_length in Hi.
    unfold extents in Hi. rewrite map_length in Hi. unfold at_index. simpl. rewrite !flat_offset_spec.
    assert (LM : length (mins s) = length s) by (unfold mins; apply map_length).
    rewrite !offset_add by lia. f_equal; [ring|]. f_equal. ring.
  - repeat constructor; simpl; unfold strides, extents; rewrite !map_length; auto.
Qed.

(** ** Sorting *)

Lemma bubble_inner_perm {A} lt (x : A) l : Permutation (x :: l) (fst (bubble_inner lt x l) :: snd (bubble_inner lt x l)).
Proof.
  revert x. induction l as [|y l IH]; intro x; simpl; auto.
  destruct (lt y x).
  - specialize (IH y). destruct (bubble_inner lt y l) as [m r]. cbn [fst snd] in *.
    eapply perm_trans; [apply perm_skip, IH | apply perm_swap].
  - specialize (IH x). destruct (bubble_inner lt x l) as [m r]. cbn [fst snd] in *.
    eapply perm_trans; [apply perm_swap|]. eapply perm_trans; [apply perm_skip, IH | apply perm_swap].
Qed.

Lemma bubble_sort_n_perm {A} lt n : forall l : list A, Permutation l (bubble_sort_n lt n l).
Proof.
  induction n; intros [|x l]; simpl; auto. pose proof (bubble_inner_perm lt x l) as H.
  destruct (bubble_inner lt x l) as [m r]. simpl in H. rewrite H. constructor. apply IHn.
Qed.

Lemma bubble_sort_perm {A} lt (l : list A) : Permutation l (bubble_sort lt l).
Proof. apply bubble_sort_n_perm. Qed.

Lemma bubble_inner_min {A} (key : A -> Z) lt : (forall a b, lt a b = (key a <? key b)) -> forall l x,
  Forall (fun y => key (fst (bubble_inner lt x l)) <= key y) (snd (bubble_inner lt x l)) /\
  key (fst (bubble_inner lt x l)) <= key x.
Proof.
  intros LT l. induction l as [|y l IH]; intro x; simpl; [split; [constructor | lia]|].
  destruct (lt y x) eqn:E; rewrite LT in E.
  - specialize (IH y). destruct (bubble_inner lt y l) as [m r]. simpl in *. destruct IH. split; [constructor; auto; lia | lia].
  - specialize (IH x). destruct (bubble_inner lt x l) as [m r]. simpl in *. destruct IH. split; [constructor; auto; lia | lia].
Qed.

Lemma bubble_sort_n_sorted {A} (key : A -> Z) lt : (forall a b, lt a b = (key a <? key b)) ->
  forall n l, (length l <= n)%nat -> StronglySorted (fun a b => key a <= key b) (bubble_sort_n lt n l).
Proof.
  intros LT n. induction n; intros [|x l] L; simpl in *; try constructor; try lia.
  pose proof (bubble_inner_min key lt LT l x) as [M _]. pose proof (bubble_inner_perm lt x l) as P.
  destruct (bubble_inner lt x l) as [m r]. simpl in *. apply Permutation_length in P. simpl in P.
  constructor; [apply IHn; lia|]. eapply Permutation_Forall; [apply bubble_sort_n_perm | exact M].
Qed.

Lemma bubble_sort_sorted {A} (key : A -> Z) lt l : (forall a b, lt a b = (key a <? key b)) ->
  StronglySorted (fun a b => key a <= key b) (bubble_sort lt l).
Proof. intro LT. apply bubble_sort_n_sorted; auto. Qed.

Lemma bubble_sort_dims : forall l : list dim,
  Permutation l (bubble_sort dim_ltb l) /\
  StronglySorted (fun a b => dstr a <= dstr b) (bubble_sort dim_ltb l).
Proof. intro l. split; [apply bubble_sort_perm | apply (bubble_sort_sorted dstr); reflexivity]. Qed.

Lemma bubble_sort_copy_dims : forall l : list (dim * dim),
  Permutation l (bubble_sort copy_ltb l) /\
  StronglySorted (fun a b => dstr (snd a) <= dstr (snd b)) (bubble_sort copy_ltb l).
Proof. intro l. split; [apply bubble_sort_perm | apply (bubble_sort_sorted (fun p => dstr (snd p))); reflexivity]. Qed.

(** ** Sums of offset sets *)

Definition padd (a b : Z * Z) : Z * Z := (fst a + fst b, snd a + snd b).
(** Offsets contributed by one (source, destination) dimension pair *)
Definition contrib (p : dim * dim) : list (Z * Z) :=
  map (fun x => ((x - dmin (fst p)) * dstr (fst p), (x - dmin (snd p)) * dstr (snd p))) (dim_list (snd p)).
Fixpoint sums (l : list (dim * dim)) : list (Z * Z) :=
  match l with
  | [] => [(0, 0)]
  | p :: r => flat_map (fun o => map (fun c => padd c o) (contrib p)) (sums r)
  end.

Lemma sums_box l : sums l =
  map (fun i => (offset (map fst l) i, offset (map snd l) i)) (box (map snd l)).
Proof.
  induction l as [|[a b] l IH]; simpl; auto. rewrite IH, flat_map_map, map_flat_map. apply flat_map_ext. intro i.
  rewrite map_map. unfold contrib. rewrite map_map. reflexivity.
Qed.

Lemma padd_assoc a b c : padd a (padd b c) = padd (padd a b) c.
Proof. unfold padd. simpl. f_equal; ring. Qed.
Lemma padd_comm a b : padd a b = padd b a.
Proof. unfold padd. f_equal; ring. Qed.

Lemma sums_perm l l' : Permutation l l' -> Permutation (sums l) (sums l').
Proof.
  induction 1; simpl; auto.
  - apply flat_map_perm; auto.
  - rewrite !flat_map_flat_map. apply flat_map_perm_fun. intros o _. rewrite !flat_map_map.
    rewrite flat_map_swap. apply flat_map_perm_fun. intros c _. erewrite map_ext; [reflexivity|].
    intro d. simpl. rewrite !padd_assoc, (padd_comm c d). reflexivity.
  - etransitivity; eauto.
Qed.

Lemma flat_map_zseq_mul e n : flat_map (fun b => map (fun a => a + b * Z.of_nat e) (zseq 0 e)) (zseq 0 n) = zseq 0 (e * n).
Proof.
  induction n.
  - rewrite Nat.mul_0_r. reflexivity.
  - replace (S n) with (n + 1)%nat by lia. rewrite zseq_app, flat_map_app, IHn. cbn [zseq flat_map]. rewrite app_nil_r.
    replace (e * (n + 1))%nat with (e * n + e)%nat by lia. rewrite zseq_app. f_equal. rewrite zseq_shift. apply map_ext. intro; lia.
Qed.

Lemma contrib_fuse i o : can_fuse2 i o = true -> 0 <= dext (snd i) -> 0 <= dext (snd o) ->
  contrib (fuse2 i o) = flat_map (fun y => map (fun c => padd c y) (contrib i)) (contrib o).
Proof.
  destruct i as [si di], o as [so do_]. unfold can_fuse2, can_fuse. simpl fst. simpl snd. intros H E1 E2.
  rewrite !andb_true_iff, !Z.eqb_eq in H. destruct H as [[Ee Es] Ed].
  unfold contrib, fuse2, fuse, dim_list. cbn [fst snd dmin dext dstr].
  rewrite flat_map_map. replace (Z.to_nat (dext di * dext do_)) with (Z.to_nat (dext di) * Z.to_nat (dext do_))%nat by nia.
  replace (dmin di + dmin do_ * dext di) with (0 + (dmin di + dmin do_ * dext di)) at 1 by ring.
  rewrite zseq_shift, <- flat_map_zseq_mul, !map_flat_map.
  replace (dmin do_) with (0 + dmin do_) at 3 by ring. rewrite (zseq_shift 0 _ (dmin do_)), flat_map_map.
  apply flat_map_ext. intro b. replace (dmin di) with (0 + dmin di) at 5 by ring.
  rewrite (zseq_shift 0 _ (dmin di)), !map_map. apply map_ext. intro a. unfold padd. cbn [fst snd].
  rewrite Z2Nat.id by lia. rewrite <- Es, <- Ed, Ee. f_equal; ring.
Qed.

Lemma sums_fuse i o r : can_fuse2 i o = true -> 0 <= dext (snd i) -> 0 <= dext (snd o) ->
  sums (fuse2 i o :: r) = sums (i :: o :: r).
Proof.
  intros H E1 E2. simpl. rewrite contrib_fuse by auto. rewrite flat_map_flat_map. apply flat_map_ext. intro x.
  rewrite map_flat_map, flat_map_map. apply flat_map_ext. intro y. rewrite map_map. apply map_ext. intro c.
  rewrite padd_assoc. reflexivity.
Qed.

Lemma sums_fuse2_from rest : forall cur, 0 <= dext (snd cur) -> Forall (fun p => 0 <= dext (snd p)) rest ->
  sums (fuse2_from cur rest) = sums (cur :: rest).
Proof.
  induction rest as [|d rest IH]; intros cur E F; auto. inv F. cbn [fuse2_from].
  destruct (can_fuse2 cur d) eqn:C.
  - rewrite IH; auto.
    + apply sums_fuse; auto.
    + unfold fuse2, fuse. simpl. nia.
  - cbn [sums]. rewrite IH; auto.
Qed.

Lemma sums_pad n l : sums (pad2 n l) = sums l.
Proof.
  unfold pad2. generalize (n - length l)%nat. intro k. induction l as [|p l IH]; simpl.
  - induction k; simpl; auto. rewrite IHk. reflexivity.
  - rewrite IH. reflexivity.
Qed.

Definition ext_nonneg2 (l : list (dim * dim)) : Prop := Forall (fun p => 0 <= dext (snd p)) l.

Lemma sums_optimized n l : ext_nonneg2 l ->
  Permutation (sums (pad2 n (fuse2_dims (bubble_sort copy_ltb l)))) (sums l).
Proof.
  intro F. rewrite sums_pad. pose proof (bubble_sort_perm copy_ltb l) as P.
  assert (F' : ext_nonneg2 (bubble_sort copy_ltb l)) by (eapply Permutation_Forall; eauto).
  rewrite (sums_perm _ _ P). destruct (bubble_sort copy_ltb l) as [|d r]; simpl fuse2_dims; auto.
  inv F'. rewrite sums_fuse2_from; auto.
Qed.

Lemma combine_fst {A B} (a : list A) (b : list B) : length a = length b -> map fst (combine a b) = a.
Proof. revert b. induction a; intros [|y b] H; simpl in *; try discriminate; auto. f_equal. auto. Qed.
Lemma combine_snd {A B} (a : list A) (b : list B) : length a = length b -> map snd (combine a b) = b.
Proof. revert b. induction a; intros [|y b] H; simpl in *; try discriminate; auto. f_equal. auto. Qed.

Lemma sums_combine src dst : length src = length dst ->
  sums (combine src dst) = map (fun i => (offset src i, offset dst i)) (box dst).
Proof. intro L. rewrite sums_box, combine_fst, combine_snd by auto. reflexivity. Qed.

Lemma optimize_copy_sums src dst : length src = length dst -> extents_ge 0 dst ->
  length (fst (optimize_copy_shapes src dst)) = length (snd (optimize_copy_shapes src dst)) /\
  Permutation (sums (combine (fst (optimize_copy_shapes src dst)) (snd (optimize_copy_shapes src dst))))
              (sums (combine src dst)).
Proof.
  intros L H.
  assert (G : length (fst (dynamic_optimize_copy_shapes src dst)) = length (snd (dynamic_optimize_copy_shapes src dst)) /\
  Permutation (sums (combine (fst (dynamic_optimize_copy_shapes src dst)) (snd (dynamic_optimize_copy_shapes src dst))))
              (sums (combine src dst))).
  { unfold dynamic_optimize_copy_shapes. cbn [fst snd]. split; [rewrite !map_length; auto|].
    assert (C : forall l : list (dim * dim), combine (map fst l) (map snd l) = l).
    { induction l as [|[a b] l IH]; simpl; congruence. }
    rewrite C. apply sums_optimized. unfold ext_nonneg2.
    clear -H L. revert src L. induction H; intros [|a src] L; simpl in *; try discriminate; constructor; auto. }
  destruct src as [|a [|b src]], dst as [|a' [|b' dst]]; auto.
Qed.

Lemma perm_from_sums {B} (g : Z * Z -> B) a b c d :
  length a = length b -> length c = length d ->
  Permutation (sums (combine a b)) (sums (combine c d)) ->
  Permutation (map (fun i => g (offset a i, offset b i)) (box b)) (map (fun i => g (offset c i, offset d i)) (box d)).
Proof.
  intros L1 L2 P. rewrite !sums_combine in P by auto. apply (Permutation_map g) in P. rewrite !map_map in P. exact P.
Qed.

Lemma for_each_value_copy_perm ssrc src sdst dst : length ssrc = length sdst -> extents_ge 0 sdst ->
  Permutation (for_each_value_copy ssrc src sdst dst)
              (map (fun i => [src + offset ssrc i; dst + offset sdst i]) (box sdst)).
Proof.
  intros L H. destruct (optimize_copy_sums ssrc sdst L H) as [L' P]. unfold for_each_value_copy.
  destruct (optimize_copy_shapes ssrc sdst) as [os od]. cbn [fst snd] in *.
  rewrite fev_in_order2_spec by auto.
  apply (perm_from_sums (fun o => [src + fst o; dst + snd o])); auto.
Qed.

Lemma copy_traversal_pairs : forall (ssrc sdst : shape) (src dst : Z), length ssrc = length sdst -> extents_ge 0 sdst ->
  exists l, enumerates (in_bounds sdst) l /\
    for_each_value_copy ssrc src sdst dst =
    map (fun i => [src + flat_offset ssrc i; dst + flat_offset sdst i]) l.
Proof.
  intros ssrc sdst src dst L H. destruct (perm_map_ex _ _ _ (for_each_value_copy_perm ssrc src sdst dst L H)) as [l [E P]].
  exists l. split; [eapply enumerates_perm_l; [exact P | apply box_enumerates]|]. rewrite E. apply map_ext. intro i.
  rewrite !flat_offset_spec. reflexivity.
Qed.

(** The one-array optimiser is the two-array one on pairs (d, d). *)
Definition dup (d : dim) : dim * dim := (d, d).

Lemma bubble_inner_map {A B} (f : A -> B) lt lt' : (forall a b, lt' (f a) (f b) = lt a b) -> forall l x,
  bubble_inner lt' (f x) (map f l) = (f (fst (bubble_inner lt x l)), map f (snd (bubble_inner lt x l))).
Proof.
  intros E l. induction l as [|y l IH]; intro x; simpl; auto. rewrite E. destruct (lt y x).
  - rewrite IH. destruct (bubble_inner lt y l). reflexivity.
  - rewrite IH. destruct (bubble_inner lt x l). reflexivity.
Qed.
Lemma bubble_sort_n_map {A B} (f : A -> B) lt lt' : (forall a b, lt' (f a) (f b) = lt a b) -> forall n l,
  bubble_sort_n lt' n (map f l) = map f (bubble_sort_n lt n l).
Proof.
  intros E n. induction n; intros [|x l]; simpl; auto. rewrite (bubble_inner_map f lt lt' E).
  destruct (bubble_inner lt x l) as [m r]. simpl. rewrite IHn. reflexivity.
Qed.
Lemma fuse_from_dup rest : forall cur, fuse2_from (dup cur) (map dup rest) = map dup (fuse_from cur rest).
Proof.
  induction rest as [|d rest IH]; intro cur; simpl; auto.
  replace (can_fuse2 (dup cur) (dup d)) with (can_fuse cur d).
  - destruct (can_fuse cur d); [apply (IH (fuse cur d)) | rewrite IH; reflexivity].
  - unfold can_fuse2, dup. simpl. rewrite Z.eqb_refl. destruct (can_fuse cur d); reflexivity.
Qed.
Lemma combine_dup l : combine l l = map dup l.
Proof. induction l; simpl; f_equal; auto. Qed.

Lemma dynamic_optimize_dup s : dynamic_optimize_copy_shapes s s = (dynamic_optimize_shape s, dynamic_optimize_shape s).
Proof.
  unfold dynamic_optimize_copy_shapes, dynamic_optimize_shape. rewrite combine_dup. unfold bubble_sort. rewrite map_length.
  rewrite (bubble_sort_n_map dup dim_ltb copy_ltb) by reflexivity.
  assert (F : fuse2_dims (map dup (bubble_sort_n dim_ltb (length s) s)) = map dup (fuse_dims (bubble_sort_n dim_ltb (length s) s))).
  { destruct (bubble_sort_n dim_ltb (length s) s); [reflexivity | apply fuse_from_dup]. }
  rewrite F. unfold pad2, pad_dims. rewrite map_length, !map_app, !map_map. cbn [fst snd dup].
  rewrite !map_id. f_equal; f_equal; clear; induction (length s - _)%nat; simpl; congruence.
Qed.

Lemma optimize_dup s : optimize_copy_shapes s s = (optimize_shape s, optimize_shape s).
Proof. destruct s as [|a [|b s]]; try reflexivity. apply dynamic_optimize_dup. Qed.

Lemma for_each_value_perm s base : extents_ge 0 s ->
  Permutation (for_each_value s base) (map (fun i => [base + offset s i]) (box s)).
Proof.
  intro H. unfold for_each_value. rewrite fev_in_order_spec.
  destruct (optimize_copy_sums s s eq_refl H) as [L P]. rewrite optimize_dup in *. cbn [fst snd] in *.
  apply (perm_from_sums (fun o => [base + fst o]) _ _ _ _ L eq_refl P).
Qed.

Lemma for_each_value_visits : forall (s : shape) (base : Z), extents_ge 0 s ->
  exists l, enumerates (in_bounds s) l /\
    for_each_value s base = map (fun i => [base + flat_offset s i]) l.
Proof.
  intros s base H. destruct (perm_map_ex _ _ _ (for_each_value_perm s base H)) as [l [E P]].
  exists l. split; [eapply enumerates_perm_l; [exact P | apply box_enumerates]|]. rewrite E. apply map_ext. intro i.
  rewrite !flat_offset_spec. reflexivity.
Qed.

(** The optimised nest has the same number of dimensions. *)
Lemma fuse_from_length rest : forall cur, (length (fuse_from cur rest) <= S (length rest))%nat.
Proof.
  induction rest as [|d rest IH]; intro cur; simpl; auto. destruct (can_fuse cur d); simpl.
  - specialize (IH (fuse cur d)). lia.
  - specialize (IH d). lia.
Qed.

(** ** Images and matrices *)

Lemma image_index_list x y c : 0 <= dext x -> 0 <= dext y -> 0 <= dext c ->
  for_each_image_index x y c =
  Ok (flat_map (fun yv => flat_map (fun xv => map (fun cv => [xv; yv; cv]) (dim_list c)) (dim_list x)) (dim_list y)).
Proof.
  intros Hx Hy Hc. unfold for_each_image_index. rewrite for_dim_ok by auto. simpl.
  apply flat_mapM_ok. intros yv _. rewrite for_dim_ok by auto. simpl. apply flat_mapM_ok. intros xv _.
  rewrite for_dim_ok by auto. reflexivity.
Qed.

Definition image_order (i : index) : list Z :=
  match i with [x; y; c] => [y; x; c] | _ => [] end.

Lemma image_index_visits : forall x y c : dim, 0 <= dext x -> 0 <= dext y -> 0 <= dext c ->
  exists l, for_each_image_index x y c = Ok l /\ enumerates (in_bounds [x; y; c]) l /\
    StronglySorted (fun i j => lex_lt (map (fun k => nth k i 0) [1%nat; 0%nat; 2%nat])
                                      (map (fun k => nth k j 0) [1%nat; 0%nat; 2%nat])) l.
Proof.
  intros x y c Hx Hy Hc. rewrite image_index_list by auto. eexists. split; [reflexivity|]. split; [split|].
  - apply NoDup_flat_map; [apply zseq_NoDup | |].
    + intros yv _. apply NoDup_flat_map; [apply zseq_NoDup | |].
      * intros xv _. apply NoDup_map_inj; [intros; congruence | apply zseq_NoDup].
      * intros a b i _ _ Ha Hb. apply in_map_iff in Ha, Hb. destruct Ha as [? [<- _]], Hb as [? [E _]]. congruence.
    + intros a b i _ _ Ha Hb. apply in_flat_map in Ha, Hb. destruct Ha as [? [_ Ha]], Hb as [? [_ Hb]].
      apply in_map_iff in Ha, Hb. destruct Ha as [? [<- _]], Hb as [? [E _]]. congruence.
  - intro i. rewrite in_flat_map. split.
    + intros [yv [Hyv H]]. apply in_flat_map in H. destruct H as [xv [Hxv H]]. apply in_map_iff in H.
      destruct H as [cv [<- Hcv]]. rewrite dim_list_In in *. repeat constructor; auto; apply Hxv || apply Hyv || apply Hcv.
    + intro H. inversion H as [|? xv ? ? H1 H2]. subst. inversion H2 as [|? yv ? ? H3 H4]. subst.
      inversion H4 as [|? cv ? ? H5 H6]. subst. inv H6. exists yv. rewrite dim_list_In. split; auto.
      apply in_flat_map. exists xv. rewrite dim_list_In. split; auto. apply in_map_iff. exists cv. rewrite dim_list_In. auto.
  - apply (StronglySorted_flat_map Z.lt); [apply zseq_sorted | |].
    + intros yv _. apply (StronglySorted_flat_map Z.lt); [apply zseq_sorted | |].
      * intros xv _. apply (StronglySorted_map Z.lt); [apply zseq_sorted|]. intros a b Hab. simpl. lia.
      * intros a b i j Hab Ha Hb. apply in_map_iff in Ha, Hb. destruct Ha as [? [<- _]], Hb as [? [<- _]]. simpl. lia.
    + intros a b i j Hab Ha Hb. apply in_flat_map in Ha, Hb. destruct Ha as [? [_ Ha]], Hb as [? [_ Hb]].
      apply in_map_iff in Ha, Hb. destruct Ha as [? [<- _]], Hb as [? [<- _]]. simpl. lia.
Qed.

Lemma enumerates_map_perm {A B} (P : A -> Prop) (f : A -> B) l t : enumerates P l -> Permutation t (map f l) ->
  exists l', enumerates P l' /\ t = map f l'.
Proof.
  intros E Pm. destruct (perm_map_ex _ _ _ Pm) as [l' [-> P']]. exists l'. split; auto. eapply enumerates_perm_l; eauto.
Qed.

Lemma chunky_value_visits : forall (x y c : dim) (base : Z), 0 <= dext x -> 0 <= dext y -> 0 <= dext c ->
  dstr c = 1 ->
  exists l, enumerates (in_bounds [x; y; c]) l /\
    chunky_for_each_value x y c base = map (fun i => [base + flat_offset [x; y; c] i]) l.
Proof.
  intros x y c base Hx Hy Hc Sc.
  assert (G : Permutation (chunky_for_each_value x y c base) (map (fun i => [base + offset [x; y; c] i]) (box [x; y; c]))).
  { unfold chunky_for_each_value. destruct (dext c =? dstr x) eqn:E; rewrite fev_in_order_spec; auto.
    assert (F : sums (combine [fuse c x; y] [fuse c x; y]) = sums (combine [c; x; y] [c; x; y])).
    { apply (sums_fuse (c, c) (x, x)); auto. unfold can_fuse2, can_fuse. simpl. rewrite Sc. lia. }
    assert (P : Permutation (sums (combine [c; x; y] [c; x; y])) (sums (combine [x; y; c] [x; y; c]))).
    { simpl combine. apply sums_perm. apply (Permutation_cons_append [(x, x); (y, y)] (c, c)). }
    rewrite <- F in P.
    assert (SH : Permutation (map (fun i => [base + offset [fuse c x; y] i]) (box [fuse c x; y]))
                   (map (fun i => [base + offset [x; y; c] i]) (box [x; y; c]))).
    { exact (perm_from_sums (fun o => [base + fst o]) _ _ _ _ eq_refl eq_refl P). }
    rewrite <- SH. unfold fuse. rewrite Sc. replace (dext c * dext x) with (dext x * dext c) by ring.
    (* only the min of the fused dimension differs *)
    rewrite (box_shift [mkD (dmin x * dext c) _ _; y]), (box_shift [mkD (dmin c + dmin x * dext c) _ _; y]), !map_map.
    apply Permutation_refl'. apply map_ext_in. intros i Hi. do 2 f_equal.
    apply zdims_box_length in Hi. rewrite <- !dot_offset by auto. reflexivity. }
  destruct (enumerates_map_perm _ _ _ _ (box_enumerates _) G) as [l [E ->]]. exists l. split; auto.
  apply map_ext. intro. rewrite flat_offset_spec. reflexivity.
Qed.

Lemma chunky_general_visits : forall (x y c : dim) (base : Z), 0 <= dext x -> 0 <= dext y -> 0 <= dext c ->
  exists l, enumerates (in_bounds [x; y; c]) l /\
    chunky_for_each_value_general x y c base = Ok (map (fun i => [base + flat_offset [x; y; c] i]) l).
Proof.
  intros x y c base Hx Hy Hc. destruct (image_index_visits x y c Hx Hy Hc) as [l [E [N _]]]. exists l. split; auto.
  unfold chunky_for_each_value_general. rewrite E. reflexivity.
Qed.

Lemma matrix_index_visits : forall i j : dim, 0 <= dext i -> 0 <= dext j ->
  exists l, for_each_matrix_index i j = Ok l /\ enumerates (in_bounds [i; j]) l /\ StronglySorted lex_lt l.
Proof.
  intros i j Hi Hj. unfold for_each_matrix_index. rewrite for_dim_ok by auto. simpl.
  erewrite flat_mapM_ok; [|intros iv _; rewrite for_dim_ok by auto; simpl; reflexivity].
  eexists. split; [reflexivity|]. split; [split|].
  - apply NoDup_flat_map; [apply zseq_NoDup | |].
    + intros xv _. apply NoDup_map_inj; [intros; congruence | apply zseq_NoDup].
    + intros a b k _ _ Ha Hb. apply in_map_iff in Ha, Hb. destruct Ha as [? [<- _]], Hb as [? [E _]]. congruence.
  - intro k. rewrite in_flat_map. split.
    + intros [iv [Hiv H]]. apply in_map_iff in H. destruct H as [jv [<- Hjv]]. rewrite dim_list_In in *.
      repeat constructor; auto; apply Hiv || apply Hjv.
    + intro H. inversion H as [|? iv ? ? H1 H2]. subst. inversion H2 as [|? jv ? ? H3 H4]. subst. inv H4.
      exists iv. rewrite dim_list_In. split; auto. apply in_map_iff. exists jv. rewrite dim_list_In. auto.
  - apply (StronglySorted_flat_map Z.lt); [apply zseq_sorted | |].
    + intros xv _. apply (StronglySorted_map Z.lt); [apply zseq_sorted|]. intros a b Hab. simpl. lia.
    + intros a b x y Hab Ha Hb. apply in_map_iff in Ha, Hb. destruct Ha as [? [<- _]], Hb as [? [<- _]]. simpl. lia.
Qed.

Lemma matrix_value_visits : forall (i j : dim) (base : Z), 0 <= dext i -> 0 <= dext j ->
  exists l, enumerates (in_bounds [i; j]) l /\ StronglySorted lex_lt l /\
    matrix_for_each_value i j base = Ok (map (fun k => [base + flat_offset [i; j] k]) l).
Proof.
  intros i j base Hi Hj. destruct (matrix_index_visits i j Hi Hj) as [l [E [N S]]]. exists l. split; auto. split; auto.
  unfold matrix_for_each_value. rewrite E. reflexivity.
Qed.

Lemma fused_negative_extents : exists s : shape, (forall i, ~ in_bounds s i) /\ length (for_each_value s 0) = 6%nat.
Proof.
  exists [mkD 0 (-2) (-1); mkD 0 (-3) 2]. split; [|reflexivity].
  intros i H. inv H. unfold in_dim in *. simpl in *. lia.
Qed.
