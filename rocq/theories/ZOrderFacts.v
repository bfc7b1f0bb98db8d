(** The z-order traversal visits every point of the box once, in z-order. *)
From Verif Require Import Tac Interval ZOrder Spec SpecZ ShapeFacts TraverseFacts.
Import ListNotations.
Open Scope Z_scope.

Lemma npot_spec n : forall k x, x <= 2 ^ (k + Z.of_nat n) -> 0 <= k -> (k = 0 \/ 2 ^ (k - 1) < x) ->
  exists m, npot_loop n (2 ^ k) x = Ok (2 ^ m) /\ k <= m <= k + Z.of_nat n /\ x <= 2 ^ m /\ (m = 0 \/ 2 ^ (m - 1) < x).
Proof.
  induction n as [|n IH]; intros k x Hx Hk Hlo; cbn [npot_loop].
  - replace (k + Z.of_nat 0) with k in * by lia. replace (2 ^ k <? x) with false by lia.
    exists k. repeat split; auto; lia.
  - destruct (2 ^ k <? x) eqn:E.
    + rewrite Z.shiftl_mul_pow2 by lia. replace (2 ^ k * 2 ^ 1) with (2 ^ (k + 1)) by (rewrite Z.pow_add_r; lia).
      destruct (IH (k + 1) x) as [m [H1 [H2 [H3 H4]]]]; try lia.
      * replace (k + 1 + Z.of_nat n) with (k + Z.of_nat (S n)) by lia. auto.
      * right. replace (k + 1 - 1) with k by lia. lia.
      * exists m. repeat split; auto; lia.
    + exists k. repeat split; auto; lia.
Qed.
Lemma next_power_of_two_spec x : x <= 2 ^ 62 ->
  exists m, next_power_of_two x = Ok (2 ^ m) /\ 0 <= m <= 62 /\ x <= 2 ^ m /\ (m = 0 \/ 2 ^ (m - 1) < x).
Proof.
  intros H. destruct (npot_spec 62 0 x) as [m [H1 [H2 [H3 H4]]]]; auto; try lia.
  exists m. unfold next_power_of_two. change 1 with (2 ^ 0). split; auto.
Qed.
Lemma next_power_of_two_huge x : 2 ^ 62 < x -> next_power_of_two x = UB.
Proof.
  intros H. unfold next_power_of_two.
  assert (G : forall n k, 0 <= k -> k + Z.of_nat n <= 62 -> npot_loop n (2 ^ k) x = UB).
  { induction n as [|n IH]; intros k Hk Hn; cbn [npot_loop].
    - assert (2 ^ k <= 2 ^ 62) by (apply Z.pow_le_mono_r; lia). replace (2 ^ k <? x) with true by lia. auto.
    - assert (2 ^ k <= 2 ^ 62) by (apply Z.pow_le_mono_r; lia). replace (2 ^ k <? x) with true by lia.
      rewrite Z.shiftl_mul_pow2 by lia. replace (2 ^ k * 2 ^ 1) with (2 ^ (k + 1)) by (rewrite Z.pow_add_r; lia).
      apply IH; lia. }
  apply (G 62%nat 0); simpl; lia.
Qed.

Lemma max_element_spec l : forall m, m <= max_element l m /\ Forall (fun x => x <= max_element l m) l.
Proof.
  induction l as [|x l IH]; intros m; simpl; [split; [lia|constructor]|].
  destruct (IH (if m <? x then x else m)) as [H1 H2]. split; [ifs; lia|]. constructor; auto. ifs; lia.
Qed.
Lemma max_element_in l : forall m, max_element l m = m \/ In (max_element l m) l.
Proof.
  induction l as [|x l IH]; intros m; simpl; auto.
  destruct (IH (if m <? x then x else m)) as [->|H]; auto. destruct (m <? x); auto.
Qed.

Lemma add_at_length d step z : length (add_at d step z) = length z.
Proof. revert z. induction d; intros [|x z]; simpl; auto. Qed.
Lemma add_at_nth d step z e : (d < length z)%nat ->
  nth e (add_at d step z) 0 = nth e z 0 + (if (e =? d)%nat then step else 0).
Proof.
  revert z e. induction d; intros [|x z] e H; simpl in H; try lia.
  - destruct e; simpl; lia.
  - destruct e; simpl; [lia|]. rewrite IHd by lia. auto.
Qed.

(** The block covered by a call: [z_e <= w_e < z_e + 2^(k+1)] for e <= d, [+ 2^k] for e > d *)
Definition wid (d : nat) (k : Z) (e : nat) : Z := if (e <=? d)%nat then 2 ^ (k + 1) else 2 ^ k.
Definition blk (end_ z : list Z) (d : nat) (k : Z) (w : list Z) : Prop :=
  length w = length end_ /\
  forall e, (e < length end_)%nat -> nth e z 0 <= nth e w 0 < nth e z 0 + wid d k e /\ nth e w 0 < nth e end_ 0.
Definition aligned (end_ z : list Z) (d : nat) (k : Z) : Prop :=
  length z = length end_ /\
  forall e, (e < length end_)%nat -> nth e z 0 < nth e end_ 0 /\ (wid d k e | nth e z 0).

Lemma testbit_block z w m j : 0 <= m -> (2 ^ m | z) -> z <= w < z + 2 ^ m -> m <= j -> Z.testbit w j = Z.testbit z j.
Proof.
  intros Hm [q Hq] Hw Hj. replace j with (j - m + m) by lia.
  rewrite <- !(Z.div_pow2_bits _ m (j - m)) by lia. f_equal.
  assert (0 < 2 ^ m) by (apply Z.pow_pos_nonneg; lia).
  subst z. rewrite Z.div_mul by lia. symmetry. apply Z.div_unique with (w - q * 2 ^ m); lia.
Qed.
Lemma testbit_low z w k : 0 <= k -> (2 ^ (k + 1) | z) -> z <= w < z + 2 ^ k -> Z.testbit w k = false.
Proof.
  intros Hk [q Hq] Hw. replace k with (0 + k) by lia. rewrite <- Z.div_pow2_bits by lia.
  assert (0 < 2 ^ k) by (apply Z.pow_pos_nonneg; lia). assert (E : 2 ^ (k + 1) = 2 * 2 ^ k) by (rewrite Z.pow_add_r; lia).
  replace (w / 2 ^ k) with (2 * q); [rewrite Z.testbit_even_0; auto|].
  apply Z.div_unique with (w - q * 2 ^ (k + 1)); [lia|]. rewrite E. ring.
Qed.
Lemma testbit_high z w k : 0 <= k -> (2 ^ (k + 1) | z) -> z + 2 ^ k <= w < z + 2 ^ (k + 1) -> Z.testbit w k = true.
Proof.
  intros Hk [q Hq] Hw. replace k with (0 + k) by lia. rewrite <- Z.div_pow2_bits by lia.
  assert (0 < 2 ^ k) by (apply Z.pow_pos_nonneg; lia). assert (E : 2 ^ (k + 1) = 2 * 2 ^ k) by (rewrite Z.pow_add_r; lia).
  replace (w / 2 ^ k) with (2 * q + 1); [rewrite Z.testbit_odd_0; auto|].
  apply Z.div_unique with (w - (2 * q + 1) * 2 ^ k); [|ring].
  replace ((2 * q + 1) * 2 ^ k) with (q * 2 ^ (k + 1) + 2 ^ k) by (rewrite E; ring). lia.
Qed.

(** The bits above (k, d) are the same in the whole block *)
Lemma blk_bits end_ z d k w e j : 0 <= k -> aligned end_ z d k -> blk end_ z d k w ->
  (k < j \/ j = k /\ (d < e)%nat) -> Z.testbit (nth e w 0) j = Z.testbit (nth e z 0) j.
Proof.
  intros Hk [Ha1 Ha2] [Hb1 Hb2] Hj. destruct (lt_dec e (length end_)) as [He|He].
  - destruct (Ha2 e He) as [_ Hd]. destruct (Hb2 e He) as [Hw _]. unfold wid in *.
    destruct (e <=? d)%nat eqn:E.
    + apply Nat.leb_le in E. apply (testbit_block _ _ (k + 1)); auto; lia.
    + apply (testbit_block _ _ k); auto; lia.
  - rewrite !nth_overflow by lia. auto.
Qed.

Lemma StronglySorted_app {A} (R : A -> A -> Prop) l1 l2 : StronglySorted R l1 -> StronglySorted R l2 ->
  (forall x y, In x l1 -> In y l2 -> R x y) -> StronglySorted R (l1 ++ l2).
Proof.
  intros H1 H2 H. induction H1 as [|x l1 H1 IH H3]; auto. simpl. constructor.
  - apply IH. intros; apply H; auto. right; auto.
  - apply Forall_app. split; auto. rewrite Forall_forall. intros y Hy. apply H; auto. left; auto.
Qed.

(** What is left of a block: dimension 0 at level k is followed by dimension rank - 1 at level
    k - 1 *)
Definition lower (rank d : nat) (k : Z) : nat * Z := match d with O => ((rank - 1)%nat, k - 1) | S d' => (d', k) end.

Lemma wid_lower rank d k e : (e < rank)%nat -> 0 <= k ->
  wid (fst (lower rank d k)) (snd (lower rank d k)) e = if (e =? d)%nat then 2 ^ k else wid d k e.
Proof.
  intros He Hk. unfold wid, lower. destruct d; cbn [fst snd].
  - replace (e <=? rank - 1)%nat with true by (symmetry; apply Nat.leb_le; lia). replace (k - 1 + 1) with k by lia.
    destruct e; auto.
  - destruct (Nat.eqb_spec e (S d)) as [->|Hne].
    + replace (S d <=? d)%nat with false by (symmetry; apply Nat.leb_gt; lia). auto.
    + destruct (Nat.leb_spec e d) as [H|H]; destruct (Nat.leb_spec e (S d)) as [H'|H']; auto; lia.
Qed.
Lemma pow_double k : 0 <= k -> 2 ^ (k + 1) = 2 ^ k + 2 ^ k.
Proof. intros. rewrite Z.pow_add_r by lia. lia. Qed.
Lemma wid_self d k : wid d k d = 2 ^ (k + 1).
Proof. unfold wid. rewrite Nat.leb_refl. auto. Qed.

Lemma blk_split end_ z d k w : 0 <= k -> (d < length end_)%nat -> length z = length end_ ->
  let p := lower (length end_) d k in
  blk end_ z d k w <->
  blk end_ z (fst p) (snd p) w \/ blk end_ (add_at d (2 ^ k) z) (fst p) (snd p) w.
Proof.
  intros Hk Hd Hz p. pose proof (pow_double k Hk) as P. assert (0 < 2 ^ k) by (apply Z.pow_pos_nonneg; lia).
  unfold blk. split.
  - intros [Hl Hw]. destruct (Hw d Hd) as [Hwd Hed]. rewrite wid_self in Hwd.
    destruct (Z_lt_le_dec (nth d w 0) (nth d z 0 + 2 ^ k)) as [Hlt|Hge].
    + left. split; auto. intros e He. subst p. rewrite wid_lower by auto.
      destruct (Nat.eqb_spec e d) as [->|Hne]; [lia|]. auto.
    + right. split; auto. intros e He. subst p. rewrite wid_lower, add_at_nth by (auto; lia).
      destruct (Nat.eqb_spec e d) as [->|Hne]; [lia|]. rewrite Z.add_0_r. auto.
  - intros [[Hl Hw]|[Hl Hw]]; split; auto; intros e He; specialize (Hw e He); subst p; rewrite wid_lower in Hw by auto.
    + destruct (Nat.eqb_spec e d) as [Eed|Hne]; [rewrite Eed, ?wid_self in *; lia|auto].
    + rewrite add_at_nth in Hw by lia. destruct (Nat.eqb_spec e d) as [Eed|Hne]; [rewrite Eed, ?wid_self in *; lia|].
      rewrite Z.add_0_r in Hw. auto.
Qed.
Lemma aligned_low end_ z d k : 0 <= k -> aligned end_ z d k ->
  let p := lower (length end_) d k in aligned end_ z (fst p) (snd p).
Proof.
  intros Hk [Hl Ha] p. split; auto. intros e He. destruct (Ha e He) as [H1 H2]. split; auto.
  subst p. rewrite wid_lower by auto. destruct (Nat.eqb_spec e d) as [->|Hne]; auto.
  rewrite wid_self in H2. eapply Z.divide_trans; [|exact H2]. exists 2. rewrite pow_double by auto. ring.
Qed.
Lemma aligned_high end_ z d k : 0 <= k -> (d < length end_)%nat -> aligned end_ z d k ->
  nth d (add_at d (2 ^ k) z) 0 < nth d end_ 0 ->
  let p := lower (length end_) d k in aligned end_ (add_at d (2 ^ k) z) (fst p) (snd p).
Proof.
  intros Hk Hd [Hl Ha] Hlt p. split; [rewrite add_at_length; auto|]. intros e He. destruct (Ha e He) as [H1 H2].
  subst p. rewrite wid_lower by auto. rewrite add_at_nth in * by lia.
  destruct (Nat.eqb_spec e d) as [->|Hne]; [|rewrite Z.add_0_r; auto].
  rewrite Nat.eqb_refl in Hlt. split; auto.
  rewrite wid_self in H2. apply Z.divide_add_r; [|apply Z.divide_refl].
  eapply Z.divide_trans; [|exact H2]. exists 2. rewrite pow_double by auto. ring.
Qed.
Lemma blk_before end_ z d k x y : 0 <= k -> (d < length end_)%nat -> aligned end_ z d k ->
  let p := lower (length end_) d k in
  blk end_ z (fst p) (snd p) x -> blk end_ (add_at d (2 ^ k) z) (fst p) (snd p) y -> z_before x y.
Proof.
  intros Hk Hd Ha p Hx Hy. pose proof (pow_double k Hk) as P.
  assert (Bx : blk end_ z d k x) by (apply (blk_split end_ z d k x Hk Hd (proj1 Ha)); left; auto).
  assert (By : blk end_ z d k y) by (apply (blk_split end_ z d k y Hk Hd (proj1 Ha)); right; auto).
  exists k, d. split; auto. destruct Ha as [Hl Ha']. destruct (Ha' d Hd) as [_ Hdiv]. rewrite wid_self in Hdiv.
  destruct Hx as [_ Hx]. destruct Hy as [_ Hy]. specialize (Hx d Hd). specialize (Hy d Hd).
  subst p. rewrite wid_lower, Nat.eqb_refl in Hx, Hy by auto. rewrite add_at_nth, Nat.eqb_refl in Hy by lia.
  split; [|split].
  - apply (testbit_low (nth d z 0)); auto. lia.
  - apply (testbit_high (nth d z 0)); auto. lia.
  - intros e j Hj. rewrite (blk_bits end_ z d k x), (blk_bits end_ z d k y); auto; split; auto.
Qed.

Definition traverses (P : list Z -> Prop) (l : list (list Z)) : Prop := enumerates P l /\ StronglySorted z_before l.

Lemma traverses_split end_ z d k a b : 0 <= k -> (d < length end_)%nat -> aligned end_ z d k ->
  let p := lower (length end_) d k in
  traverses (blk end_ z (fst p) (snd p)) a ->
  (if lt_at d (add_at d (2 ^ k) z) end_
   then traverses (blk end_ (add_at d (2 ^ k) z) (fst p) (snd p)) b else b = []) ->
  traverses (blk end_ z d k) (a ++ b).
Proof.
  intros Hk Hd Ha p [[Ea1 Ea2] Sa] Hb. unfold lt_at in Hb.
  assert (Hno : lt_at d (add_at d (2 ^ k) z) end_ = false -> forall w, ~ blk end_ (add_at d (2 ^ k) z) (fst p) (snd p) w).
  { unfold lt_at. intros H w [Hl Hw]. specialize (Hw d Hd). lia. }
  unfold lt_at in Hno. destruct (nth d (add_at d (2 ^ k) z) 0 <? nth d end_ 0).
  - destruct Hb as [[Eb1 Eb2] Sb]. split; [split|].
    + apply NoDup_app; auto. intros x Hx Hy. apply Ea2 in Hx. apply Eb2 in Hy.
      destruct Hx as [_ Hx]. destruct Hy as [_ Hy]. specialize (Hx d Hd). specialize (Hy d Hd).
      subst p. rewrite wid_lower, Nat.eqb_refl in Hx, Hy by auto.
      rewrite add_at_nth, Nat.eqb_refl in Hy by (destruct Ha; lia). lia.
    + intros x. rewrite in_app_iff, Ea2, Eb2. symmetry. apply blk_split; auto. apply Ha.
    + apply StronglySorted_app; auto. intros x y Hx Hy. apply Ea2 in Hx. apply Eb2 in Hy.
      eapply blk_before; eauto.
  - subst b. rewrite app_nil_r. split; [split; auto|auto]. intros x. rewrite Ea2.
    rewrite (blk_split end_ z d k x) by (auto; apply Ha). split; auto. intros [H|H]; auto. exfalso. eapply Hno; eauto.
Qed.

Lemma blk_single end_ z : aligned end_ z (length end_ - 1) (-1) -> traverses (blk end_ z (length end_ - 1) (-1)) [z].
Proof.
  intros [Hl Ha]. split; [split|].
  - constructor; [intros []|constructor].
  - intros w. split.
    + intros [<-|[]]. split; auto. intros e He. destruct (Ha e He) as [H1 _]. unfold wid.
      replace (e <=? length end_ - 1)%nat with true by (symmetry; apply Nat.leb_le; lia). simpl. lia.
    + intros [Hw1 Hw2]. left. apply nth_error_ext'. intros e. destruct (lt_dec e (length end_)) as [He|He].
      * specialize (Hw2 e He). unfold wid in Hw2.
        replace (e <=? length end_ - 1)%nat with true in Hw2 by (symmetry; apply Nat.leb_le; lia).
        change (2 ^ (-1 + 1)) with 1 in Hw2.
        rewrite (nth_error_nth' z 0), (nth_error_nth' w 0) by lia. f_equal. lia.
      * rewrite (proj2 (nth_error_None z e)), (proj2 (nth_error_None w e)) by lia. auto.
  - constructor; constructor.
Qed.

Lemma shiftr_pow k : 1 <= k -> Z.shiftr (2 ^ k) 1 = 2 ^ (k - 1).
Proof.
  intros H. rewrite Z.shiftr_div_pow2 by lia. replace k with (k - 1 + 1) at 1 by lia.
  rewrite Z.pow_add_r by lia. apply Z.div_mul. lia.
Qed.

Lemma z_impl_spec fuel : forall end_ z d k, 0 <= k -> (d < length end_)%nat -> aligned end_ z d k ->
  (d + length end_ * Z.to_nat k < fuel)%nat ->
  exists l, z_impl fuel end_ z d (2 ^ k) = Ok l /\ traverses (blk end_ z d k) l.
Proof.
  induction fuel as [|f IH]; intros end_ z d k Hk Hd Ha Hf; [lia|].
  cbn [z_impl]. pose proof (traverses_split end_ z d k) as TS.
  destruct (Nat.eqb_spec d 0) as [->|Hd0]; cbn [andb].
  - destruct (Z.eqb_spec (2 ^ k) 1) as [E1|E1].
    + assert (k = 0).
      { destruct (Z.eq_dec k 0); auto. assert (2 ^ 1 <= 2 ^ k) by (apply Z.pow_le_mono_r; lia). lia. } subst k.
      eexists. split; [reflexivity|]. change (2 ^ 0) with 1 in TS.
      match goal with |- traverses _ (z :: ?b) => change (z :: b) with ([z] ++ b) end.
      apply TS; auto.
      * apply blk_single. apply (aligned_low end_ z 0 0); auto.
      * destruct (lt_at 0 (add_at 0 1 z) end_) eqn:E; auto. apply blk_single.
        apply (aligned_high end_ z 0 0); auto. unfold lt_at in E. change (2 ^ 0) with 1. lia.
    + assert (Hk1 : 1 <= k).
      { destruct (Z.eq_dec k 0) as [->|]; [|lia]. exfalso. apply E1. reflexivity. }
      assert (Hm : (length end_ - 1 + length end_ * Z.to_nat (k - 1) < f)%nat).
      { replace (Z.to_nat k) with (S (Z.to_nat (k - 1))) in Hf by lia. nia. }
      rewrite shiftr_pow by auto.
      destruct (IH end_ z (length end_ - 1)%nat (k - 1)) as [a [Ea Ta]]; auto; try lia.
      { apply (aligned_low end_ z 0 k); auto. }
      rewrite Ea. cbn [bind]. destruct (lt_at 0 (add_at 0 (2 ^ k) z) end_) eqn:E.
      * destruct (IH end_ (add_at 0 (2 ^ k) z) (length end_ - 1)%nat (k - 1)) as [b [Eb Tb]]; auto; try lia.
        { apply (aligned_high end_ z 0 k); auto. unfold lt_at in E. lia. }
        rewrite Eb. cbn [bind]. eexists. split; [reflexivity|]. apply TS; auto. 
      * cbn [bind]. eexists. split; [reflexivity|]. apply TS; auto.
  - destruct d as [|d]; [congruence|]. replace (S d - 1)%nat with d by lia.
    destruct (IH end_ z d k) as [a [Ea Ta]]; auto; try lia.
    { apply (aligned_low end_ z (S d) k); auto. }
    rewrite Ea. cbn [bind]. destruct (lt_at (S d) (add_at (S d) (2 ^ k) z) end_) eqn:E.
    + destruct (IH end_ (add_at (S d) (2 ^ k) z) d k) as [b [Eb Tb]]; auto; try lia.
      { apply (aligned_high end_ z (S d) k); auto. unfold lt_at in E. lia. }
      rewrite Eb. cbn [bind]. eexists. split; [reflexivity|]. apply TS; auto.
    + cbn [bind]. eexists. split; [reflexivity|]. apply TS; auto.
Qed.

Lemma in_box_nth ext z : in_box ext z <->
  length z = length ext /\ forall e, (e < length ext)%nat -> 0 <= nth e z 0 < nth e ext 0.
Proof.
  split.
  - intros H. induction H as [|x y l l' H1 H2 [IH1 IH2]]; [split; auto; simpl; lia|].
    split; [simpl; lia|]. intros [|e] He; auto. simpl in *. apply IH2. lia.
  - revert z. induction ext as [|x ext IH]; intros [|y z] [H1 H2]; simpl in H1; try discriminate; constructor.
    + apply (H2 O). simpl. lia.
    + apply IH. split; [lia|]. intros e He. apply (H2 (S e)). simpl. lia.
Qed.

Theorem z_order_visits ext : (0 < length ext)%nat -> Forall (fun e => 1 <= e <= 2 ^ 62) ext ->
  exists l, for_each_index_in_z_order ext = Ok l /\ enumerates (in_box ext) l /\ StronglySorted z_before l.
Proof.
  intros Hr He. unfold for_each_index_in_z_order. destruct ext as [|x r]; [simpl in Hr; lia|].
  set (ext := x :: r) in *. set (m := max_element r x).
  assert (Hmax : Forall (fun e => e <= m) ext).
  { destruct (max_element_spec r x) as [H1 H2]. constructor; auto. }
  assert (Hm62 : m <= 2 ^ 62).
  { destruct (max_element_in r x) as [H|H]; rewrite Forall_forall in He; unfold m.
    - rewrite H. apply He. left; auto.
    - apply He. right; auto. }
  destruct (next_power_of_two_spec m Hm62) as [q [-> [Hq [Hmq Hq']]]]. cbn [bind].
  set (k := Z.max 0 (q - 1)).
  replace (Z.max 1 (Z.shiftr (2 ^ q) 1)) with (2 ^ k).
  2: { unfold k. destruct (Z.eq_dec q 0) as [->|Hq0]; [reflexivity|].
       rewrite shiftr_pow by lia. rewrite Z.max_r by lia. symmetry. apply Z.max_r.
       assert (0 < 2 ^ (q - 1)) by (apply Z.pow_pos_nonneg; lia). lia. }
  assert (Hk : 0 <= k <= 61) by lia.
  assert (Hmk : m <= 2 ^ (k + 1)).
  { eapply Z.le_trans; [exact Hmq|]. apply Z.pow_le_mono_r; lia. }
  set (z0 := map (fun _ => 0) ext).
  assert (Hz : forall e, nth e z0 0 = 0).
  { unfold z0. clear. generalize ext. intros l. induction l as [|a l IH]; intros [|e]; simpl; auto. }
  assert (Hext : forall e, (e < length ext)%nat -> 1 <= nth e ext 0 <= m).
  { intros e H. rewrite Forall_forall in He, Hmax. split; [apply He|apply Hmax]; apply nth_In; auto. }
  destruct (z_impl_spec (64 * length ext) ext z0 (length ext - 1) k) as [l [El [T1 T2]]].
  - lia.
  - lia.
  - split; [unfold z0; apply map_length|]. intros e H. rewrite Hz. split; [specialize (Hext e H); lia|]. apply Z.divide_0_r.
  - assert (Z.to_nat k <= 61)%nat by lia. nia.
  - exists l. split; auto. split; auto. destruct T1 as [N1 N2]. split; auto. intros w. rewrite N2, in_box_nth.
    assert (Hw : forall e, (e < length ext)%nat -> wid (length ext - 1) k e = 2 ^ (k + 1)).
    { intros e H. unfold wid. rewrite (proj2 (Nat.leb_le _ _)); auto. lia. }
    unfold blk. split; intros [H1 H2]; (split; [auto|]); intros e H; specialize (H2 e H); specialize (Hext e H);
      specialize (Hw e H); rewrite Hz, Hw in *; lia.
Qed.

(** On two-dimensional... ranges: the same statement, through the ranges *)
Theorem z_order_ranges {A : Type} (ranges : list (Z * (Z -> A))) : (0 < length ranges)%nat ->
  Forall (fun r => 1 <= fst r <= 2 ^ 62) ranges ->
  exists l, enumerates (in_box (map fst ranges)) l /\ StronglySorted z_before l /\
    for_each_in_z_order ranges = Ok (map (fun i => map2 (fun r k => snd r k) ranges i) l).
Proof.
  intros H1 H2. destruct (z_order_visits (map fst ranges)) as [l [E [T S]]].
  - rewrite map_length. auto.
  - apply Forall_map. auto.
  - exists l. split; auto. split; auto. unfold for_each_in_z_order. rewrite E. auto.
Qed.

(** With an extent of 0 the callback is still called *)
Lemma z_order_empty : exists ext l, Forall (fun e => 0 <= e) ext /\ (forall z, ~ in_box ext z) /\
  for_each_index_in_z_order ext = Ok l /\ l <> [].
Proof.
  exists [0; 3], [[0; 0]; [0; 1]; [0; 2]]. split; [repeat constructor; lia|]. split; [|split; [reflexivity|discriminate]].
  intros z H. inversion H. lia.
Qed.
(** ... for every shape with some extent 0: the origin is always passed to fn *)
Lemma z_impl_head fuel : forall end_ z d step l, z_impl fuel end_ z d step = Ok l -> hd_error l = Some z.
Proof.
  induction fuel as [|f IH]; intros end_ z d step l H; [discriminate|]. cbn [z_impl] in H.
  destruct ((d =? 0)%nat && (step =? 1)); [inv H; auto|].
  destruct (d =? 0)%nat.
  - destruct (z_impl f end_ z (length end_ - 1) (Z.shiftr step 1)) as [a| |] eqn:Ea; try discriminate. cbn [bind] in H.
    destruct (if lt_at 0 _ _ then _ else _) as [b| |]; try discriminate. inv H. apply IH in Ea. destruct a; auto. discriminate.
  - destruct (z_impl f end_ z (d - 1) step) as [a| |] eqn:Ea; try discriminate. cbn [bind] in H.
    destruct (if lt_at d _ _ then _ else _) as [b| |]; try discriminate. inv H. apply IH in Ea. destruct a; auto. discriminate.
Qed.
Lemma z_order_always_calls ext l : for_each_index_in_z_order ext = Ok l -> In (map (fun _ => 0) ext) l.
Proof.
  unfold for_each_index_in_z_order. destruct ext as [|x r]; [discriminate|].
  destruct (next_power_of_two _) as [p| |]; try discriminate. cbn [bind]. intros H. apply z_impl_head in H.
  destruct l; [discriminate|]. inv H. left. auto.
Qed.
