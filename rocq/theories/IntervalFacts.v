(** Lemmas about range-for loops, splits and clamping. *)
From Verif Require Import Tac Interval Shape Spec ShapeFacts.
Import ListNotations.
Open Scope Z_scope.

(** ** Range-for *)

Lemma range_for_zseq n : forall b, b + Z.of_nat n <= index_max -> range_for b (b + Z.of_nat n) (zseq b n).
Proof.
  induction n; intros b H; simpl zseq.
  - replace (b + Z.of_nat 0) with b by lia. constructor.
  - constructor; try lia. replace (b + Z.of_nat (S n)) with (b + 1 + Z.of_nat n) by lia. apply IHn. lia.
Qed.

Lemma range_for_le b e l : range_for b e l -> b <= e.
Proof. induction 1; lia. Qed.

Lemma range_for_det b e l l' : range_for b e l -> range_for b e l' -> l = l'.
Proof.
  intro H. revert l'. induction H; intros l' H'; inv H'; try congruence; try lia.
  f_equal. auto.
Qed.

Lemma range_for_no_overflow b e l : range_for b e l -> range_for_overflows b e -> False.
Proof.
  induction 1; intro O.
  - inv O; lia.
  - inv O; [lia | auto].
Qed.

Lemma range_overflow_steps n : forall b e, e < b -> b + Z.of_nat n = index_max -> range_for_overflows b e.
Proof.
  induction n; intros b e H E.
  - replace b with index_max by lia. constructor. lia.
  - apply rfo_step; try lia. apply IHn; lia.
Qed.

Lemma range_loop_zseq n : forall fuel b, (n < fuel)%nat -> range_loop fuel b (b + Z.of_nat n) = Ok (zseq b n).
Proof.
  induction n; intros [|f] b H; try lia; cbn [range_loop zseq].
  - replace (b =? b + Z.of_nat 0) with true by lia. reflexivity.
  - replace (b =? b + Z.of_nat (S n)) with false by lia.
    replace (b + Z.of_nat (S n)) with (b + 1 + Z.of_nat n) by lia. rewrite IHn by lia. reflexivity.
Qed.

Lemma range_list_ok b e : b <= e -> range_list b e = Ok (zseq b (Z.to_nat (e - b))).
Proof.
  intro H. unfold range_list. rewrite <- range_loop_zseq with (fuel := S (Z.to_nat (e - b))) by lia.
  f_equal. lia.
Qed.

Lemma range_list_ub b e : e < b -> range_list b e = UB.
Proof.
  intro H. unfold range_list. replace (Z.to_nat (e - b)) with O by lia. cbn [range_loop].
  replace (b =? e) with false by lia. reflexivity.
Qed.

Lemma for_interval_ok i : 0 <= iext i -> for_interval i = Ok (zseq (imin i) (Z.to_nat (iext i))).
Proof.
  intro H. unfold for_interval, imax. rewrite range_list_ok by lia. do 3 f_equal. lia.
Qed.

Lemma for_dim_ok d : 0 <= dext d -> for_dim d = Ok (dim_list d).
Proof. intro H. unfold for_dim. rewrite for_interval_ok; auto. Qed.

Lemma for_interval_neg i : iext i < 0 -> for_interval i = UB.
Proof. intro H. apply range_list_ub. unfold imax. lia. Qed.

Lemma range_for_visits : forall i : interval, imin i + iext i <= 9223372036854775807 ->
  (0 <= iext i ->
     exists l, range_for (imin i) (imax i + 1) l /\
       (forall l', range_for (imin i) (imax i + 1) l' -> l' = l) /\
       ~ range_for_overflows (imin i) (imax i + 1) /\
       StronglySorted Z.lt l /\ (forall x, In x l <-> in_interval i x) /\
       for_interval i = Ok l) /\
  (iext i < 0 -> imin i <= 9223372036854775807 ->
     range_for_overflows (imin i) (imax i + 1) /\
     (forall l, ~ range_for (imin i) (imax i + 1) l) /\ for_interval i = UB).
Proof.
  intros i B. split.
  - intro H. set (l := zseq (imin i) (Z.to_nat (iext i))).
    assert (R : range_for (imin i) (imax i + 1) l).
    { unfold imax. replace (imin i + iext i - 1 + 1) with (imin i + Z.of_nat (Z.to_nat (iext i))) by lia.
      apply range_for_zseq. unfold index_max. lia. }
    exists l. split; [exact R|]. split; [|split; [|split; [|split]]].
    + intros l' R'. eapply range_for_det; eauto.
    + intro O. eapply range_for_no_overflow; eauto.
    + apply zseq_sorted.
    + intro x. unfold l. rewrite zseq_In. unfold in_interval. lia.
    + apply for_interval_ok, H.
  - intros H M. split; [|split].
    + apply (range_overflow_steps (Z.to_nat (index_max - imin i))); unfold imax, index_max in *; lia.
    + intros l R. apply range_for_le in R. unfold imax in R. lia.
    + apply for_interval_neg, H.
Qed.

(** ** Splits *)

Lemma split_for_det inner b e l l' : split_for inner b e l -> split_for inner b e l' -> l = l'.
Proof.
  intro H. revert l'. induction H; intros l' H'; inv H'; try congruence. f_equal. auto.
Qed.

Lemma split_for_loop inner b e l : split_for inner b e l -> split_loop inner (S (length l)) b e = Ok l.
Proof.
  induction 1; cbn [split_loop length].
  - rewrite H. reflexivity.
  - rewrite H. cbn [split_loop length] in IHsplit_for. rewrite IHsplit_for. reflexivity.
Qed.

Lemma split_loop_for inner fuel : forall b e l, split_loop inner fuel b e = Ok l -> split_for inner b e l.
Proof.
  induction fuel; intros b e l H; cbn [split_loop] in H; try discriminate.
  destruct (si_eqb b e) eqn:E.
  - injection H as <-. constructor. auto.
  - destruct (split_loop inner fuel (si_next inner b) e) eqn:L; try discriminate. injection H as <-.
    apply sf_step; auto.
Qed.

Lemma consecutive_in a b l x : consecutive a b l -> Forall (fun p => 0 <= iext p) l ->
  a <= b /\ ((exists p, In p l /\ in_interval p x) <-> a <= x < b).
Proof.
  induction 1 as [a|a e b l H IH]; intro F.
  - split; [lia|]. split; [intros [p [[] _]] | lia].
  - inv F. simpl in *. destruct (IH H3) as [I1 I2]. split; [lia|]. split.
    + intros [p [[<-|Hp] Hx]]; [unfold in_interval in Hx; simpl in Hx; lia|].
      assert (a + e <= x < b) by (apply I2; eauto). lia.
    + intro Hx. destruct (Z.lt_ge_cases x (a + e)).
      * eexists; split; [left; reflexivity|]. unfold in_interval; simpl; lia.
      * destruct I2 as [_ I2]. destruct I2 as [p [? ?]]; [lia|]. eauto.
Qed.

Lemma consecutive_unique a b l x p q : consecutive a b l -> Forall (fun p => 0 <= iext p) l ->
  In p l -> In q l -> in_interval p x -> in_interval q x -> p = q.
Proof.
  intro C. revert p q. induction C as [a|a e b l C IH]; intros p q F Hp Hq; [destruct Hp|].
  inv F. simpl in Hp, Hq.
  assert (G : forall r, In r l -> in_interval r x -> a + e <= x).
  { intros r Hr Hx. destruct (consecutive_in _ _ _ x C H2) as [_ I]. apply I. eauto. }
  destruct Hp as [<-|Hp], Hq as [<-|Hq]; intros Xp Xq; auto.
  - exfalso. specialize (G _ Hq Xq). unfold in_interval in Xp. simpl in Xp. lia.
  - exfalso. specialize (G _ Hp Xp). unfold in_interval in Xq. simpl in Xq. lia.
Qed.

(** Pieces of size [w] starting at [a] covering up to [b], last one shortened. *)
Fixpoint pieces (n : nat) (w a b : Z) : list interval :=
  match n with
  | O => []
  | S n' => mkI a (Z.min w (b - a)) :: pieces n' w (a + w) b
  end.

Lemma pieces_length n : forall w a b, length (pieces n w a b) = n.
Proof. induction n; simpl; auto. Qed.

Lemma pieces_nth n : forall w a b k, (k < n)%nat ->
  nth_error (pieces n w a b) k = Some (mkI (a + w * Z.of_nat k) (Z.min w (b - (a + w * Z.of_nat k)))).
Proof.
  induction n; intros w a b k H; [lia|]. destruct k; simpl nth_error.
  - rewrite Z.mul_0_r, Z.add_0_r. reflexivity.
  - rewrite IHn by lia. do 2 f_equal; lia.
Qed.

(** How many pieces: a + w*(n-1) < b <= a + w*n *)
Definition npieces (n : nat) (w a b : Z) : Prop :=
  (n = O /\ a = b) \/ ((0 < n)%nat /\ a + w * (Z.of_nat n - 1) < b <= a + w * Z.of_nat n).

Lemma npieces_ex w a b : 1 <= w -> a <= b -> exists n, npieces n w a b /\ Z.of_nat n = (b - a + w - 1) / w.
Proof.
  intros W L. exists (Z.to_nat ((b - a + w - 1) / w)).
  pose proof (Z.div_mod (b - a + w - 1) w ltac:(lia)).
  pose proof (Z.mod_pos_bound (b - a + w - 1) w ltac:(lia)).
  assert (0 <= (b - a + w - 1) / w) by (apply Z.div_pos; lia).
  rewrite Z2Nat.id by auto. split; auto.
  unfold npieces. rewrite Z2Nat.id by auto.
  destruct (Z.eq_dec a b); [left|right]; [|split; [|nia]; assert (1 <= (b - a + w - 1) / w) by (apply Z.div_le_lower_bound; lia); lia].
  split; auto. subst. replace (b - b + w - 1) with (w - 1) by lia. rewrite Z.div_small; lia.
Qed.

Lemma pieces_consecutive n : forall w a b, 1 <= w -> npieces n w a b -> consecutive a b (pieces n w a b).
Proof.
  induction n; intros w a b W N; simpl.
  - destruct N as [[_ ->]|?]; [apply cons_nil|lia].
  - destruct N as [[? _]|N]; [lia|]. apply cons_next.
    destruct n.
    + simpl. replace (a + Z.min w (b - a)) with b by nia. constructor.
    + replace (Z.min w (b - a)) with w by nia. apply IHn; auto. right. nia.
Qed.

Lemma pieces_extents n : forall w a b, 1 <= w -> npieces n w a b ->
  forall k p, nth_error (pieces n w a b) k = Some p ->
    1 <= iext p <= w /\ ((S k < n)%nat -> iext p = w).
Proof.
  intros w a b W N k p Hp.
  assert (K : (k < n)%nat) by (rewrite <- (pieces_length n w a b); apply nth_error_Some; congruence).
  rewrite pieces_nth in Hp by auto. injection Hp as <-. simpl.
  destruct N as [[-> _]|N]; [lia|]. split; [nia|]. intro. nia.
Qed.

Lemma split_dynamic_from n : forall w a b, 1 <= w -> npieces n w a b ->
  split_for None (mkSI (mkI a (Z.min w (b - a))) (b - 1)) (mkSI (mkI b 0) (b - 1)) (pieces n w a b).
Proof.
  induction n; intros w a b W N; cbn [pieces].
  - destruct N as [[_ ->]|?]; [|lia]. constructor. unfold si_eqb. simpl. lia.
  - destruct N as [[? _]|N]; [lia|]. apply (sf_step None (mkSI (mkI a (Z.min w (b - a))) (b - 1))).
    + unfold si_eqb. simpl. nia.
    + unfold si_next, si_add_dynamic, iset_min, iset_extent, imax. cbn [si_i si_outer_max imin iext].
      unfold cmin. destruct n.
      * assert (Z.min w (b - a) = b - a) by nia. rewrite H. cbn [pieces].
        constructor. unfold si_eqb. simpl. lia.
      * assert (E : Z.min w (b - a) = w) by nia. rewrite E. rewrite Z.mul_1_r.
        match goal with |- split_for _ (mkSI (mkI _ ?x) _) _ _ => replace x with (Z.min w (b - (a + w))) end.
        -- apply IHn; auto. right. nia.
        -- ifs; lia.
Qed.

Lemma removelast_nth {A} (l : list A) p : In p (removelast l) ->
  exists k, nth_error l k = Some p /\ (S k < length l)%nat.
Proof.
  induction l as [|a l IH]; simpl; [intros []|]. destruct l as [|b l]; [intros []|].
  intros [<-|H].
  - exists O. simpl. split; auto. lia.
  - destruct (IH H) as [k [? ?]]. exists (S k). simpl in *. split; auto. lia.
Qed.

Lemma consecutive_count a b l : consecutive a b l -> Forall (fun p => 0 <= iext p) l ->
  forall x, a <= x < b -> exists! p, In p l /\ in_interval p x.
Proof.
  intros C F x Hx. destruct (consecutive_in _ _ _ x C F) as [_ I]. apply I in Hx. destruct Hx as [p [Hp Xp]].
  exists p. split; auto. intros q [Hq Xq]. eapply consecutive_unique; eauto.
Qed.

Lemma split_dynamic_pieces v n : 1 <= n -> 0 <= iext v -> exists m,
  npieces m (if iext v =? 0 then n else Z.min n (iext v)) (imin v) (imin v + iext v) /\
  Z.of_nat m = (iext v + n - 1) / n /\
  let l := pieces m n (imin v) (imin v + iext v) in
  split_for None (sr_begin (split_dynamic v n)) (sr_end (split_dynamic v n)) l /\
  consecutive (imin v) (imin v + iext v) l /\
  (forall k p, nth_error l k = Some p -> 1 <= iext p <= n /\ ((S k < m)%nat -> iext p = n)).
Proof.
  intros N E. destruct (npieces_ex n (imin v) (imin v + iext v) N ltac:(lia)) as [m [P Q]].
  exists m. split; [|split; [|split; [|split]]].
  - destruct (iext v =? 0) eqn:Z0; auto. destruct P as [P|P]; [left; lia|]. right.
    destruct (Z.le_gt_cases n (iext v)); [rewrite Z.min_l by lia; lia|].
    rewrite Z.min_r by lia. assert (m = 1%nat) by nia. subst. lia.
  - rewrite Q. do 2 f_equal. lia.
  - unfold split_dynamic. cbn [sr_begin sr_end]. unfold imax.
    replace (cmin n (iext v)) with (Z.min n (imin v + iext v - imin v)) by (unfold cmin; ifs; lia).
    replace (imin v + iext v - 1 + 1) with (imin v + iext v) by lia.
    apply split_dynamic_from; auto.
  - apply pieces_consecutive; auto.
  - apply pieces_extents; auto.
Qed.

Lemma In_nth_ext {A} (P : A -> Prop) l : (forall k p, nth_error l k = Some p -> P p) -> Forall P l.
Proof. intro H. apply Forall_forall. intros x Hx. apply In_nth_error in Hx. destruct Hx as [k Hk]. eauto. Qed.

Lemma split_dynamic_partition : forall (v : interval) (n : Z), 1 <= n -> 0 <= iext v ->
  exists l, split_for None (sr_begin (split_dynamic v n)) (sr_end (split_dynamic v n)) l /\
    (forall l', split_for None (sr_begin (split_dynamic v n)) (sr_end (split_dynamic v n)) l' -> l' = l) /\
    consecutive (imin v) (imin v + iext v) l /\
    Forall (fun p => 1 <= iext p <= n) l /\
    Forall (fun p => iext p = n) (removelast l) /\
    (forall x, in_interval v x -> exists! p, In p l /\ in_interval p x) /\
    (forall x p, In p l -> in_interval p x -> in_interval v x).
Proof.
  intros v n N E. destruct (split_dynamic_pieces v n N E) as [m [_ [Q [S [C X]]]]]. cbv zeta in *.
  set (l := pieces m n (imin v) (imin v + iext v)) in *. exists l.
  assert (F : Forall (fun p => 1 <= iext p <= n) l).
  { apply In_nth_ext. intros k p Hk. apply (X k p Hk). }
  assert (F0 : Forall (fun p => 0 <= iext p) l).
  { eapply Forall_impl; [|exact F]. simpl. intros. lia. }
  split; auto. split; [intros; eapply split_for_det; eauto|]. split; auto. split; auto.
  split; [|split].
  - apply Forall_forall. intros p Hp. apply removelast_nth in Hp. destruct Hp as [k [Hk L]].
    destruct (X k p Hk) as [_ G]. apply G. unfold l in L. rewrite pieces_length in L. auto.
  - intros x Hx. apply (consecutive_count _ _ _ C F0). exact Hx.
  - intros x p Hp Hx. destruct (consecutive_in _ _ _ x C F0) as [_ I]. apply I. eauto.
Qed.

(** Static splits: full pieces, then one shifted piece if there is a remainder. *)
Definition static_pieces (m : nat) (N a b : Z) : list interval :=
  map (fun p => mkI (Z.min (imin p) (b - N)) N) (pieces m N a b).

Lemma static_pieces_cons m N a b :
  static_pieces (S m) N a b = mkI (Z.min a (b - N)) N :: static_pieces m N (a + N) b.
Proof. reflexivity. Qed.

Lemma split_static_from m : forall N a b, 1 <= N -> npieces m N a b ->
  split_for (Some N) (mkSI (mkI (if a <? b then Z.min a (b - N) else a) N) (b - 1)) (mkSI (mkI b N) (b - 1))
            (static_pieces m N a b).
Proof.
  induction m; intros N a b W P.
  - destruct P as [[_ ->]|?]; [|lia]. rewrite Z.ltb_irrefl. constructor. unfold si_eqb. simpl. lia.
  - destruct P as [[? _]|P]; [lia|]. rewrite static_pieces_cons. replace (a <? b) with true by nia.
    apply (sf_step (Some N) (mkSI (mkI (Z.min a (b - N)) N) (b - 1))).
    + unfold si_eqb. simpl. lia.
    + unfold si_next, si_add_static, imax. cbn [si_i si_outer_max imin iext]. rewrite Z.mul_1_r.
      destruct m.
      * replace (Z.min a (b - N) + N) with b by nia.
        replace (b <=? b - 1) with false by lia. cbn [andb]. constructor. unfold si_eqb. simpl. lia.
      * replace (Z.min a (b - N)) with a by nia. assert (a + N < b) by nia.
        specialize (IHm N (a + N) b W). replace (a + N <? b) with true in IHm by lia.
        assert (Q : npieces (S m) N (a + N) b) by (right; nia). specialize (IHm Q).
        destruct (Z.le_gt_cases (a + N) (b - N)).
        -- replace ((a + N <=? b - 1) && (a + N + N - 1 >? b - 1)) with false by lia.
           rewrite Z.min_l in IHm by lia. exact IHm.
        -- replace ((a + N <=? b - 1) && (a + N + N - 1 >? b - 1)) with true by lia.
           rewrite Z.min_r in IHm by lia. replace (b - 1 - N + 1) with (b - N) by lia. exact IHm.
Qed.

Lemma static_pieces_nth m N a b k : (k < m)%nat ->
  nth_error (static_pieces m N a b) k = Some (mkI (Z.min (a + N * Z.of_nat k) (b - N)) N).
Proof.
  intro H. unfold static_pieces. rewrite nth_error_map, pieces_nth by auto. reflexivity.
Qed.
Lemma static_pieces_length m N a b : length (static_pieces m N a b) = m.
Proof. unfold static_pieces. rewrite map_length. apply pieces_length. Qed.

Lemma removelast_static m : forall N a b, 1 <= N -> npieces m N a b ->
  consecutive a (a + N * (Z.of_nat m - 1)) (removelast (static_pieces m N a b)) \/ m = O.
Proof.
  induction m; intros N a b W P; [right; reflexivity|left].
  destruct P as [[? _]|P]; [lia|]. rewrite static_pieces_cons. destruct m.
  - replace (a + N * (Z.of_nat 1 - 1)) with a by lia. apply cons_nil.
  - rewrite static_pieces_cons. cbn [removelast]. rewrite Z.min_l by nia. constructor.
    destruct (IHm N (a + N) b W) as [C|C]; [right; nia| |discriminate].
    rewrite static_pieces_cons in C. replace (a + N * (Z.of_nat (S (S m)) - 1)) with (a + N + N * (Z.of_nat (S m) - 1)) by nia.
    exact C.
Qed.

Lemma split_static_loop v N ndebug : 1 <= N <= iext v ->
  exists m, Z.of_nat m = (iext v + N - 1) / N /\ npieces m N (imin v) (imin v + iext v) /\
   split_static ndebug N v = Ok (mkSR (mkSI (mkI (imin v) N) (imax v)) (mkSI (mkI (imax v + 1) N) (imax v))) /\
   split_for (Some N) (mkSI (mkI (imin v) N) (imax v)) (mkSI (mkI (imax v + 1) N) (imax v))
     (static_pieces m N (imin v) (imin v + iext v)).
Proof.
  intros H. destruct (npieces_ex N (imin v) (imin v + iext v)) as [m [P Q]]; try lia.
  exists m. split; [rewrite Q; do 2 f_equal; lia|]. split; auto. split.
  - unfold split_static. replace (iext v >=? N) with true by lia. reflexivity.
  - pose proof (split_static_from m N (imin v) (imin v + iext v) ltac:(lia) P) as S.
    replace (imin v <? imin v + iext v) with true in S by lia. rewrite Z.min_l in S by lia.
    unfold imax. replace (imin v + iext v - 1 + 1) with (imin v + iext v) by lia. exact S.
Qed.

Lemma static_cover m N a b : 1 <= N -> N <= b - a -> npieces m N a b -> forall x,
  (exists p, In p (static_pieces m N a b) /\ in_interval p x) <-> a <= x < b.
Proof.
  intros W L P x. split.
  - intros [p [Hp Hx]]. apply In_nth_error in Hp. destruct Hp as [k Hk].
    assert (K : (k < m)%nat) by (rewrite <- (static_pieces_length m N a b); apply nth_error_Some; congruence).
    rewrite static_pieces_nth in Hk by auto. injection Hk as <-. unfold in_interval in Hx. simpl in Hx. nia.
  - intro Hx. destruct P as [P|P]; [lia|].
    pose proof (Z.div_mod (x - a) N ltac:(lia)). pose proof (Z.mod_pos_bound (x - a) N ltac:(lia)).
    assert (0 <= (x - a) / N) by (apply Z.div_pos; lia).
    set (q := (x - a) / N) in *. clearbody q.
    assert (q < Z.of_nat m) by nia.
    destruct (Z.lt_ge_cases q (Z.of_nat m - 1)).
    + exists (mkI (a + N * q) N). split; [|unfold in_interval; simpl; lia].
      apply (nth_error_In _ (Z.to_nat q)). rewrite static_pieces_nth by lia.
      rewrite Z2Nat.id by auto. rewrite Z.min_l by nia. reflexivity.
    + exists (mkI (b - N) N). split; [|unfold in_interval; simpl; nia].
      apply (nth_error_In _ (m - 1)). rewrite static_pieces_nth by lia.
      rewrite Z.min_r by nia. reflexivity.
Qed.

Lemma split_static_covers : forall (v : interval) (N : Z) (ndebug : bool), 1 <= N <= iext v ->
  exists r l, split_static ndebug N v = Ok r /\
    split_for (Some N) (sr_begin r) (sr_end r) l /\
    (forall l', split_for (Some N) (sr_begin r) (sr_end r) l' -> l' = l) /\
    Forall (fun p => iext p = N /\ forall x, in_interval p x -> in_interval v x) l /\
    (forall x, in_interval v x -> exists p, In p l /\ in_interval p x) /\
    exists front last_, l = front ++ [last_] /\
      imax last_ = imax v /\
      consecutive (imin v) (imin v + N * Z.of_nat (length front)) front /\
      imin v + N * Z.of_nat (length front) - N < imin last_ <= imin v + N * Z.of_nat (length front).
Proof.
  intros v N nd H. destruct (split_static_loop v N nd H) as [m [Q [P [E S]]]].
  set (l := static_pieces m N (imin v) (imin v + iext v)) in *.
  eexists. exists l. split; [exact E|]. cbn [sr_begin sr_end]. split; [exact S|].
  assert (COV := static_cover m N (imin v) (imin v + iext v) ltac:(lia) ltac:(lia) P).
  split; [intros; eapply split_for_det; eauto|]. split; [|split].
  - apply Forall_forall. intros p Hp. split.
    + unfold l, static_pieces in Hp. apply in_map_iff in Hp. destruct Hp as [? [<- _]]. reflexivity.
    + intros x Hx. apply COV. exists p. auto.
  - intros x Hx. apply COV. exact Hx.
  - assert (M : (0 < m)%nat) by (destruct P; nia).
    assert (L : length l = m) by apply static_pieces_length.
    assert (NE : l <> []) by (destruct l; simpl in L; [lia | discriminate]).
    exists (removelast l), (last l (mkI 0 0)). split; [apply app_removelast_last, NE|].
    assert (LR : length (removelast l) = (m - 1)%nat).
    { rewrite (app_removelast_last (mkI 0 0) NE) in L. rewrite app_length in L. simpl in L. lia. }
    assert (LL : last l (mkI 0 0) = mkI (imin v + iext v - N) N).
    { assert (nth_error l (m - 1) = Some (last l (mkI 0 0))).
      { rewrite (app_removelast_last (mkI 0 0) NE) at 1. rewrite nth_error_app2 by lia. rewrite LR, Nat.sub_diag. reflexivity. }
      unfold l in H0 at 1. rewrite static_pieces_nth in H0 by lia. injection H0 as <-. f_equal. destruct P as [P|P]; nia. }
    rewrite LL. unfold imax. cbn [imin iext]. split; [lia|]. rewrite LR. split.
    + destruct (removelast_static m N (imin v) (imin v + iext v) ltac:(lia) P) as [C|C]; [|lia].
      fold l in C. replace (Z.of_nat (m - 1)) with (Z.of_nat m - 1) by lia. exact C.
    + destruct P as [P|P]; nia.
Qed.

Lemma split_static_rejects : forall (v : interval) (N : Z), iext v < N -> split_static false N v = AssertFail.
Proof. intros v N H. unfold split_static. replace (iext v >=? N) with false by lia. reflexivity. Qed.

(** Without the assert, an interval shorter than the pieces is split into pieces that never
    reach the end. *)
Lemma split_static_past N e : 1 <= N -> forall it l, split_for (Some N) it e l ->
  si_outer_max it < imin (si_i it) + N -> imin (si_i e) < imin (si_i it) + N -> imin (si_i it) <> imin (si_i e) -> False.
Proof.
  intros HN it l H. induction H as [it e H|it e l H S IH]; intros A B C.
  - unfold si_eqb in H. lia.
  - apply IH; unfold si_next, si_add_static, imax; cbn [imin iext];
      replace (imin (si_i it) + N * 1 <=? si_outer_max it) with false by lia; cbn [andb si_i imin si_outer_max]; lia.
Qed.
Lemma split_static_release : forall (v : interval) (N : Z), 1 <= N -> iext v < N ->
  exists r, split_static true N v = Ok r /\
    (iext v <> 0 -> 0 <= iext v -> (forall l, ~ split_for (Some N) (sr_begin r) (sr_end r) l) /\
       ~ in_interval v (imax (si_i (sr_begin r))) /\ in_interval (si_i (sr_begin r)) (imax (si_i (sr_begin r)))) /\
    (iext v = 0 -> split_for (Some N) (sr_begin r) (sr_end r) []).
Proof.
  intros v N HN L. eexists. split; [unfold split_static; destruct (iext v >=? N); reflexivity|]. cbn [sr_begin sr_end si_i]. split.
  - intros NZ P. split; [|unfold in_interval, imax; cbn [imin iext]; lia].
    intros l H. eapply split_static_past in H; eauto; cbn [si_i si_outer_max imin]; unfold imax; lia.
  - intros Z0. constructor. unfold si_eqb, imax. cbn [si_i imin]. lia.
Qed.

(** Random access *)

Lemma quot_div a b : 0 <= a -> 0 < b -> Z.quot a b = a / b.
Proof. intros. apply Z.quot_div_nonneg; auto. Qed.

Lemma split_dynamic_access : forall (v : interval) (n : Z), 1 <= n -> 0 <= iext v ->
  exists l, split_for None (sr_begin (split_dynamic v n)) (sr_end (split_dynamic v n)) l /\
    sr_size (split_dynamic v n) = Z.of_nat (length l) /\
    Z.of_nat (length l) = (iext v + n - 1) / n /\
    (forall k, (k < length l)%nat ->
       nth_error l k = Some (si_i (sr_at None (split_dynamic v n) (Z.of_nat k)))).
Proof.
  intros v n N E. destruct (split_dynamic_pieces v n N E) as [m [P' [Q [S [C X]]]]]. cbv zeta in *.
  set (l := pieces m n (imin v) (imin v + iext v)) in *. exists l. split; auto.
  assert (L : length l = m) by apply pieces_length. rewrite L.
  assert (SZ : sr_size (split_dynamic v n) = Z.of_nat m).
  { unfold sr_size, si_diff, split_dynamic, imax, cmin. cbn [sr_begin sr_end si_i imin iext].
    destruct (Z.eq_dec (iext v) 0) as [Z0|Z0].
    - rewrite Z0 in *. replace (0 <? n) with true by lia. cbn. rewrite Q. symmetry. apply Z.div_small. lia.
    - replace (iext v =? 0) with false in P' by lia.
      assert (B : (if iext v <? n then iext v else n) = Z.min n (iext v)) by (ifs; lia). rewrite B.
      replace (Z.min n (iext v) >? 0) with true by lia. rewrite quot_div by lia.
      destruct P' as [P'|P']; [lia|]. symmetry. set (w := Z.min n (iext v)) in *.
      apply Z.div_unique with (r := (imin v + iext v - 1 + 1 + 0 - 1 - imin v + w - 0) - w * Z.of_nat m); [|lia].
      assert (1 <= w) by lia. left. nia. }
  split; [exact SZ|]. split; [exact Q|].
  intros k Hk. unfold l. rewrite pieces_nth by lia. f_equal.
  unfold sr_at, si_add_dynamic, iset_min, iset_extent, split_dynamic, imax, cmin. cbn [sr_begin si_i si_outer_max imin iext].
  destruct (Z.eq_dec (iext v) 0) as [Z0|Z0].
  { destruct P' as [P'|P']; [lia|]. rewrite Z0 in *. simpl in P'. nia. }
  replace (iext v =? 0) with false in P' by lia. destruct P' as [P'|P']; [lia|].
  assert (B : (if iext v <? n then iext v else n) = Z.min n (iext v)) by (ifs; lia). rewrite B.
  destruct (Z.le_gt_cases n (iext v)).
  - rewrite (Z.min_l n (iext v)) in * by lia. f_equal. clear B. ifs; lia.
  - rewrite (Z.min_r n (iext v)) in * by lia. assert (m = 1%nat) by nia. assert (k = O) by lia. subst k.
    f_equal; [lia|]. clear B. ifs; lia.
Qed.

Lemma split_static_access : forall (v : interval) (N : Z) (ndebug : bool), 1 <= N <= iext v ->
  exists r l, split_static ndebug N v = Ok r /\
    split_for (Some N) (sr_begin r) (sr_end r) l /\
    sr_size r = Z.of_nat (length l) /\ Z.of_nat (length l) = (iext v + N - 1) / N /\
    (forall k, (k < length l)%nat -> nth_error l k = Some (si_i (sr_at (Some N) r (Z.of_nat k)))).
Proof.
  intros v N nd H. destruct (split_static_loop v N nd H) as [m [Q [P [E S]]]].
  set (l := static_pieces m N (imin v) (imin v + iext v)) in *.
  eexists. exists l. split; [exact E|]. cbn [sr_begin sr_end]. split; [exact S|].
  assert (L : length l = m) by apply static_pieces_length. rewrite L. split; [|split; [exact Q|]].
  - rewrite Q. unfold sr_size, si_diff, imax. cbn [sr_begin sr_end si_i imin iext].
    replace (N >? 0) with true by lia. rewrite quot_div by lia. f_equal. lia.
  - intros k Hk. unfold l. rewrite static_pieces_nth by lia. f_equal.
    unfold sr_at, si_add_static, imax. cbn [sr_begin si_i si_outer_max imin iext].
    destruct P as [P|P]; [lia|].
    destruct (Z.le_gt_cases (imin v + N * Z.of_nat k) (imin v + iext v - N)).
    + rewrite Z.min_l by lia.
      replace ((imin v + N * Z.of_nat k <=? imin v + iext v - 1) && (imin v + N * Z.of_nat k + N - 1 >? imin v + iext v - 1))
        with false by lia. reflexivity.
    + rewrite Z.min_r by lia.
      replace ((imin v + N * Z.of_nat k <=? imin v + iext v - 1) && (imin v + N * Z.of_nat k + N - 1 >? imin v + iext v - 1))
        with true by nia. cbn [si_i]. f_equal. lia.
Qed.

(** ** Clamping *)

Lemma clamp_nearest : forall (x : Z) (i : interval), 1 <= iext i ->
  in_interval i (clamp_to x i) /\
  (in_interval i x -> clamp_to x i = x) /\
  (forall y, in_interval i y -> Z.abs (x - clamp_to x i) <= Z.abs (x - y)).
Proof.
  intros x i H. unfold clamp_to, clamp3, cmin, cmax, imax, in_interval. ifs; repeat split; intros; lia.
Qed.

Lemma clamp_dims_intersection : forall (a b : shape) (i : index), length a = length b ->
  (in_bounds (clamp_dims a b) i <-> in_bounds a i /\ in_bounds b i).
Proof.
  intros a. induction a as [|d a IH]; intros [|e b] i L; try discriminate.
  - split; [intro H; inv H; split; constructor | intros [H _]; inv H; constructor].
  - assert (A : forall x, in_dim (clamp_dim d e) x <-> in_dim d x /\ in_dim e x).
    { intro x. unfold in_dim, clamp_dim, dmax, cmin, cmax. simpl. ifs; lia. }
    simpl in L. split.
    + intro H. inv H. apply A in H2. apply IH in H4; auto. destruct H4. split; constructor; tauto.
    + intros [H1 H2]. inv H1. inv H2. constructor; [apply A; auto | apply IH; auto].
Qed.

Lemma split_dynamic_end_iff : forall (v : interval) (n : Z), 1 <= n -> 0 <= iext v ->
  (si_eqb (sr_at None (split_dynamic v n) (sr_size (split_dynamic v n))) (sr_end (split_dynamic v n)) = true
   <-> iext v <= n \/ iext v mod n = 0).
Proof.
  intros v n N E. destruct (split_dynamic_access v n N E) as [l [_ [S [L _]]]]. rewrite S, L.
  unfold si_eqb, sr_at, si_add_dynamic, iset_min, iset_extent, split_dynamic, imax, cmin.
  cbn [sr_begin sr_end si_i si_outer_max imin iext].
  pose proof (Z.div_mod (iext v + n - 1) n ltac:(lia)). pose proof (Z.mod_pos_bound (iext v + n - 1) n ltac:(lia)).
  pose proof (Z.div_mod (iext v) n ltac:(lia)). pose proof (Z.mod_pos_bound (iext v) n ltac:(lia)).
  set (q := (iext v + n - 1) / n) in *. set (q' := iext v / n) in *. clearbody q q'.
  destruct (iext v <? n) eqn:C.
  - assert (q' = 0) by nia. split; [lia|]. intros _.
    destruct (Z.eq_dec (iext v) 0) as [->|]; [lia|]. assert (q = 1) by nia. subst. lia.
  - split.
    + intro H3. right. assert (iext v = n * q) by lia. assert (q' = q) by nia. lia.
    + intros [H3|H3].
      * assert (iext v = n) by lia. assert (q = 1) by nia. subst q. lia.
      * assert (q = q') by nia. subst. lia.
Qed.

Lemma split_static_end_iff : forall (v : interval) (N : Z) (ndebug : bool) r, 1 <= N <= iext v ->
  split_static ndebug N v = Ok r ->
  (si_eqb (sr_at (Some N) r (sr_size r)) (sr_end r) = true <-> iext v mod N = 0).
Proof.
  intros v N nd r H R. destruct (split_static_access v N nd H) as [r' [l [R' [_ [S [L _]]]]]].
  rewrite R in R'. injection R' as <-. rewrite S, L.
  unfold split_static in R. replace (iext v >=? N) with true in R by lia. injection R as <-.
  unfold si_eqb, sr_at, si_add_static, imax. cbn [sr_begin sr_end si_i si_outer_max imin iext].
  pose proof (Z.div_mod (iext v + N - 1) N ltac:(lia)). pose proof (Z.mod_pos_bound (iext v + N - 1) N ltac:(lia)).
  pose proof (Z.div_mod (iext v) N ltac:(lia)). pose proof (Z.mod_pos_bound (iext v) N ltac:(lia)).
  set (q := (iext v + N - 1) / N) in *. set (q' := iext v / N) in *. clearbody q q'.
  replace (imin v + N * q <=? imin v + iext v - 1) with false by lia. cbn [andb si_i imin].
  split; intro H4.
  - assert (iext v = N * q) by lia. assert (q' = q) by nia. lia.
  - assert (q = q') by nia. subst. lia.
Qed.

(** ** Constructing and changing intervals; equality; clamping to an empty interval *)
Lemma set_min_spec i m x : in_interval (iset_min i m) x <-> m <= x < m + iext i.
Proof. unfold in_interval, iset_min; simpl; lia. Qed.
Lemma set_extent_spec i e x : in_interval (iset_extent i e) x <-> imin i <= x < imin i + e.
Proof. unfold in_interval, iset_extent; simpl; lia. Qed.
Lemma set_max_spec i m x : in_interval (iset_max i m) x <-> imin i <= x <= m.
Proof. unfold in_interval, iset_max, iset_extent; simpl; lia. Qed.
Lemma interval_setters i m x :
  (in_interval (iset_min i m) x <-> m <= x < m + iext i) /\
  (in_interval (iset_extent i m) x <-> imin i <= x < imin i + m) /\
  (in_interval (iset_max i m) x <-> imin i <= x <= m) /\
  imin (iset_max i m) = imin i /\ imax (iset_max i m) = m.
Proof.
  split; [apply set_min_spec|]. split; [apply set_extent_spec|]. split; [apply set_max_spec|].
  split; [reflexivity|]. unfold imax, iset_max, iset_extent; simpl; lia.
Qed.
Lemma range_spec b e : (forall x, in_interval (range b e) x <-> b <= x < e) /\ iext (range b e) = e - b.
Proof. split; [|reflexivity]. intros x. unfold in_interval, range; simpl; lia. Qed.
Lemma i_eqb_iff a b : i_eqb a b = true <-> imin a = imin b /\ iext a = iext b.
Proof. unfold i_eqb. rewrite andb_true_iff, !Z.eqb_eq. tauto. Qed.
Lemma interval_equality a b : 1 <= iext a -> 1 <= iext b ->
  (i_eqb a b = true <-> forall x, in_interval a x <-> in_interval b x).
Proof.
  intros Ha Hb. rewrite i_eqb_iff. unfold in_interval. split.
  - intros [-> ->]. tauto.
  - intros H. pose proof (proj1 (H (imin a))). pose proof (proj2 (H (imin b))).
    pose proof (proj1 (H (imin a + iext a - 1))). pose proof (proj2 (H (imin b + iext b - 1))). lia.
Qed.
Lemma interval_contains a b : (1 <= iext b -> (i_in_range_interval a b = true <-> forall x, in_interval b x -> in_interval a x)) /\
  (forall x, i_in_range a x = true <-> in_interval a x).
Proof.
  split.
  - intros Hb. unfold i_in_range_interval, in_interval, imax. rewrite andb_true_iff, !Z.leb_le. split; [lia|].
    intros H. pose proof (H (imin b)). pose proof (H (imin b + iext b - 1)). lia.
  - intros x. unfold i_in_range, in_interval, imax. rewrite andb_true_iff, !Z.leb_le. lia.
Qed.
Lemma clamp_empty x i : iext i <= 0 -> clamp_to x i = imin i + iext i - 1 /\ ~ in_interval i (clamp_to x i).
Proof.
  intros H. assert (E : clamp_to x i = imin i + iext i - 1).
  { unfold clamp_to, clamp3, cmin, cmax, imax. destruct (x <? imin i) eqn:E1;
      match goal with |- context[if ?b then _ else _] => destruct b eqn:E2 end; lia. }
  split; auto. rewrite E. unfold in_interval. lia.
Qed.
(** ** Moving a split iterator by several pieces *)
Lemma split_dynamic_add v n nd : 1 <= n -> 0 <= iext v ->
  exists l, split_for None (sr_begin (split_dynamic v n)) (sr_end (split_dynamic v n)) l /\
    (forall k, (k < length l)%nat -> exists it,
       si_add None nd (sr_begin (split_dynamic v n)) (Z.of_nat k) = Ok it /\ nth_error l k = Some (si_i it)).
Proof.
  intros Hn Hv. destruct (split_dynamic_access v n Hn Hv) as (l & Hl & _ & _ & Ha). exists l. split; auto.
  intros k Hk. specialize (Ha k Hk). unfold si_add. replace (Z.of_nat k >=? 0) with true by lia.
  unfold assert_. rewrite ?orb_true_r. cbn [orb bind]. eexists. split; [reflexivity|]. exact Ha.
Qed.
Lemma split_static_add v N nd : 1 <= N <= iext v ->
  exists r l, split_static nd N v = Ok r /\ split_for (Some N) (sr_begin r) (sr_end r) l /\
    (forall k, (k < length l)%nat -> exists it,
       si_add (Some N) nd (sr_begin r) (Z.of_nat k) = Ok it /\ nth_error l k = Some (si_i it)).
Proof.
  intros HN. destruct (split_static_access v N nd HN) as (r & l & Er & Hl & _ & _ & Ha). exists r, l.
  split; auto. split; auto.
  intros k Hk. specialize (Ha k Hk). unfold si_add. replace (Z.of_nat k >=? 0) with true by lia.
  unfold assert_. rewrite ?orb_true_r. cbn [orb bind]. eexists. split; [reflexivity|]. exact Ha.
Qed.
Lemma split_add_negative inner it n : n < 0 -> si_add inner false it n = AssertFail.
Proof. intros H. unfold si_add. replace (n >=? 0) with false by lia. reflexivity. Qed.
