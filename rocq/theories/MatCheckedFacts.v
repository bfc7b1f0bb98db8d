(** Facts about matrix products and z-order traversals in 64 bits. *)
From Coq Require Import Sorted Permutation.
From Verif Require Import Tac Interval Shape Traverse Memory Ref Static Ein ZOrder Matrix Checked Overflow ViewChecked MatChecked
  Spec SpecMem SpecZ SpecEin SpecMatrix SpecChecked SpecOverflow SpecViewChecked SpecMatChecked
  ShapeFacts IntervalFacts ResolveFacts TraverseFacts MemFacts RefFacts SliceFacts StaticFacts TileFacts
  CheckedFacts OverflowFacts EinFacts EinUses ViewCheckedFacts ZOrderFacts MatrixFacts MatrixProd MatrixEin MatrixTiles MatrixZ MatrixOrder.
Import ListNotations.
Open Scope Z_scope.

Notation big := 9223372036854775807 (only parsing).

(** ** Loops *)
Lemma for_in_same {A S} (l l' : outcome (list A)) (f g : S -> A -> outcome S) s : l = l' ->
  (forall x, l' = Ok x -> forall s a, In a x -> f s a = g s a) -> for_in l f s = for_in l' g s.
Proof.
  intros -> H. unfold for_in. destruct l' as [x| |]; cbn [bind]; auto. apply foldM_ext. intros. eapply H; eauto.
Qed.
Lemma bind_same {A B} (a a' : outcome A) (f g : A -> outcome B) : a = a' -> (forall x, f x = g x) -> bind a f = bind a' g.
Proof. intros -> H. destruct a'; cbn [bind]; auto. Qed.
Lemma roomy_in d s : roomy s -> In d s -> k_for_dim d = for_dim d /\ 0 <= dext d /\ is_interval (d_interval d).
Proof.
  intros (A & B & _) H. pose proof (is_dim_interval s A B) as F. unfold ends_fit in B. rewrite Forall_forall in *.
  split; [auto|]. destruct (A d H) as (A1 & A2 & A3 & A4), (B d H). split; [auto|]. unfold is_interval. cbn. auto.
Qed.
Lemma for_dim_same {S} d s0 (f g : S -> Z -> outcome S) s : roomy s0 -> In d s0 ->
  (forall s x, in_dim d x -> f s x = g s x) -> for_in (k_for_dim d) f s = for_in (for_dim d) g s.
Proof.
  intros R I H. destruct (roomy_in d s0 R I) as (E & X & _). apply for_in_same; [exact E|].
  rewrite for_dim_range by auto. intros l El t a Ha. inv El. apply H, in_dim_range, Ha.
Qed.
Lemma for_interval_same {S} i (f g : S -> Z -> outcome S) s : is_interval i ->
  (forall s x, in_interval i x -> f s x = g s x) -> for_in (k_for_interval i) f s = for_in (for_interval i) g s.
Proof.
  intros R H. apply for_in_same; [apply k_for_interval_ok; auto|]. destruct R as (_ & _ & X & _).
  rewrite for_interval_range by auto. intros l El t a Ha. inv El. apply H, in_interval_range, Ha.
Qed.
Lemma k_ptr_at r i : roomy (r_shape r) -> in_bounds (r_shape r) i -> k_ref_ptr r i = Ok (ref_ptr r i).
Proof. intros R I. destruct r as [b s]. rewrite elem_ref. cbn [r_shape r_base] in *. apply k_ptr_ok; auto. Qed.
Lemma k_at_same {V} (h : heap V) r i : roomy (r_shape r) -> in_bounds (r_shape r) i -> k_ref_at h r i = ref_at h r i.
Proof. intros R I. unfold k_ref_at, ref_at. rewrite k_ptr_at by auto. reflexivity. Qed.
Lemma k_slice_same r args : roomy (r_shape r) -> Forall2 arg_fits args (r_shape r) ->
  k_ref_slice r args = Ok (ref_slice r args) /\ roomy (r_shape (ref_slice r args)).
Proof.
  intros R Ha. pose proof R as (H1 & H2 & H3 & H4). pose proof (Forall2_len _ _ _ Ha) as L. split.
  - unfold k_ref_slice, ref_slice, make_array_ref_at. rewrite k_offset_near by (auto using fits_near). cbn [bind].
    rewrite flat_offset_spec. reflexivity.
  - unfold ref_slice, make_array_ref_at. cbn [r_shape]. rewrite cut_slice by auto. apply cut_roomy; auto.
Qed.

(** ** Splits *)
Lemma k_split_loop_more inner : forall n m b e l, k_split_loop inner n b e = Ok l -> (n <= m)%nat -> k_split_loop inner m b e = Ok l.
Proof.
  induction n as [|n IH]; intros m b e l H L; [discriminate|]. destruct m as [|m]; [lia|]. cbn [k_split_loop] in *.
  destruct (si_eqb b e); [exact H|]. destruct (k_si_add inner b 1) as [b'| |]; cbn [bind] in *; try discriminate.
  destruct (k_split_loop inner n b' e) as [r| |] eqn:E; cbn [bind] in *; try discriminate.
  rewrite (IH m b' e r E) by lia. exact H.
Qed.
Lemma k_static_tiles nd N v : is_interval v -> 1 <= N <= iext v -> imin v + iext v - 1 + N <= big ->
  exists r l, k_split_static nd N v = Ok r /\ split_static nd N v = Ok r /\
    k_for_split (Some N) r = Ok l /\ for_split (Some N) r = Ok l /\ sr_size r = Z.of_nat (length l) /\
    Forall (fun p => iext p = N /\ forall x, in_interval p x -> in_interval v x) l /\ Z.of_nat (length l) <= iext v /\
    (forall k, 0 <= k < Z.of_nat (length l) -> k_si_add (Some N) (sr_begin r) k = Ok (sr_at (Some N) r k)) /\
    (imin v + iext v + N <= big -> iext v + 2 * N - 1 <= big -> k_si_diff (sr_end r) (sr_begin r) = Ok (sr_size r)).
Proof.
  intros I HN F. destruct (k_split_static_ok v N nd I HN F) as (r & K & E & S & D).
  destruct (static_tiles nd N v HN) as (r' & l & E' & Fo & Sz & _ & Fa & Ln & _). assert (r' = r) by congruence. subst r'.
  exists r, l. unfold for_split in Fo. pose proof (split_loop_for _ _ _ _ _ Fo) as Sf. destruct (S l Sf) as [S1 S2].
  split; [exact K|]. split; [exact E|]. split.
  - unfold k_for_split. eapply k_split_loop_more; [exact S1|].
    unfold split_static in E. destruct (assert_ nd (iext v >=? N)); cbn [bind] in E; try discriminate. inv E.
    cbn [sr_begin sr_end si_i imin]. unfold imax. lia.
  - split; [exact Fo|]. split; [exact Sz|]. split; [exact Fa|]. split; [exact Ln|]. split; [|exact D].
    intros k Hk. rewrite <- (Z2Nat.id k) by lia. apply S2. lia.
Qed.
Lemma k_dynamic_tiles n v : is_interval v -> 1 <= n <= big -> imin v + iext v + n <= big ->
  exists l, k_split_dynamic v n = Ok (split_dynamic v n) /\ k_for_split None (split_dynamic v n) = Ok l /\
    for_split None (split_dynamic v n) = Ok l /\ Forall (fun p => 1 <= iext p <= n /\ forall x, in_interval p x -> in_interval v x) l.
Proof.
  intros I [Hn Hb] F. assert (Ix : is_index n) by (unfold is_index; lia).
  destruct (k_split_dynamic_ok v n I Hn Ix F) as (K & S & _).
  assert (X : 0 <= iext v) by apply I. destruct (dynamic_tiles n v Hn X) as (l & Fo & C & Fa & _). exists l.
  split; [exact K|]. split; [|split; [exact Fo|exact Fa]]. unfold for_split in Fo. pose proof (split_loop_for _ _ _ _ _ Fo) as Sf.
  destruct (S l Sf) as [S1 _]. unfold k_for_split. eapply k_split_loop_more; [exact S1|].
  assert (Ln : Z.of_nat (length l) <= iext v).
  { clear -C Fa. remember (imin v) as a. remember (a + iext v) as b. assert (Z.of_nat (length l) <= b - a); [|lia].
    assert (Fa' : Forall (fun p => 1 <= iext p <= n) l) by (eapply Forall_impl; [|exact Fa]; intros p [Q _]; exact Q).
    clear Heqa Heqb Fa. induction C; [cbn; lia|]. inv Fa'. cbn [iext] in *. specialize (IHC H2). cbn [length]. lia. }
  unfold split_dynamic. cbn [sr_begin sr_end si_i imin]. unfold imax. lia.
Qed.
Lemma sub_interval v p n : is_interval v -> iext p = n -> 1 <= n -> (forall x, in_interval p x -> in_interval v x) -> is_interval p.
Proof.
  intros (A & B & C & D & E) X N H. pose proof (H (imin p)) as H1. pose proof (H (imin p + iext p - 1)) as H2.
  unfold in_interval, is_interval, is_index in *. lia.
Qed.
Lemma sub_part d p n : iext p = n -> 1 <= n -> (forall x, in_interval p x -> in_dim d x) -> part (imin p) (iext p) d.
Proof.
  intros X N H. pose proof (H (imin p)) as H1. pose proof (H (imin p + iext p - 1)) as H2. right. unfold in_interval, in_dim in *. lia.
Qed.

(** ** z-order *)
Lemma k_add_at_ok step : forall d z, 0 <= step <= 2 ^ 62 -> Forall (fun x => 0 <= x < 2 ^ 62) z -> k_add_at d step z = Ok (add_at d step z).
Proof.
  induction d as [|d IH]; intros [|x z] S H; cbn [k_add_at add_at]; auto; inv H.
  - rewrite chk_ok by (unfold is_index; lia). reflexivity.
  - rewrite IH by auto. reflexivity.
Qed.
Lemma add_at_bound step end_ : Forall (fun x => x <= 2 ^ 62) end_ -> 0 <= step -> forall d z, Forall (fun x => 0 <= x < 2 ^ 62) z ->
  lt_at d (add_at d step z) end_ = true -> Forall (fun x => 0 <= x < 2 ^ 62) (add_at d step z).
Proof.
  intros F S d z H L. assert (B : nth d end_ 0 <= 2 ^ 62).
  { destruct (nth_in_or_default d end_ 0) as [I|E]; [rewrite Forall_forall in F; auto|rewrite E; lia]. }
  assert (L' : nth d (add_at d step z) 0 < 2 ^ 62) by (unfold lt_at in L; lia). clear L B F. revert z H L'.
  induction d as [|d IH]; intros [|x z] H L; cbn [add_at nth] in *; auto; inv H; constructor; auto. lia.
Qed.
Lemma k_z_impl_ok end_ : Forall (fun x => x <= 2 ^ 62) end_ -> forall fuel z d step, 0 <= step <= 2 ^ 62 ->
  Forall (fun x => 0 <= x < 2 ^ 62) z -> k_z_impl fuel end_ z d step = z_impl fuel end_ z d step.
Proof.
  intro F. induction fuel as [|n IH]; intros z d step S H; cbn [k_z_impl z_impl]; auto.
  assert (S2 : 0 <= Z.shiftr step 1 <= 2 ^ 62).
  { rewrite Z.shiftr_div_pow2 by lia. change (2 ^ 1) with 2. split; [apply Z.div_pos; lia|].
    apply Z.div_le_upper_bound; lia. }
  destruct ((d =? 0)%nat && (step =? 1)).
  - rewrite k_add_at_ok by (auto; lia). reflexivity.
  - destruct (d =? 0)%nat.
    + rewrite IH by auto. apply bind_same; [reflexivity|]. intro a. rewrite k_add_at_ok by auto. cbn [bind].
      apply bind_same; [|reflexivity]. destruct (lt_at 0 (add_at 0 step z) end_) eqn:L; [|reflexivity].
      apply IH; auto. apply (add_at_bound _ end_); auto; lia.
    + rewrite IH by auto. apply bind_same; [reflexivity|]. intro a. rewrite k_add_at_ok by auto. cbn [bind].
      apply bind_same; [|reflexivity]. destruct (lt_at d (add_at d step z) end_) eqn:L; [|reflexivity].
      apply IH; auto. apply (add_at_bound _ end_); auto; lia.
Qed.
Lemma k_z_order_ok end_ : k_for_each_index_in_z_order end_ = for_each_index_in_z_order end_.
Proof.
  unfold k_for_each_index_in_z_order, for_each_index_in_z_order. destruct end_ as [|x r]; [reflexivity|].
  destruct (Z_le_gt_dec (max_element r x) (2 ^ 62)) as [L|G].
  - destruct (max_element_spec r x) as [M1 M2].
    assert (F : Forall (fun e => e <= 2 ^ 62) (x :: r)).
    { constructor; [lia|]. eapply Forall_impl; [|exact M2]. cbn beta. intros; lia. }
    destruct (next_power_of_two (max_element r x)) as [p| |] eqn:E; cbn [bind]; auto.
    assert (P : 0 <= p <= 2 ^ 62).
    { clear -E. unfold next_power_of_two in E. revert E.
      assert (G : forall f k, 0 <= k -> k + Z.of_nat f <= 62 -> npot_loop f (2 ^ k) (max_element r x) = Ok p -> 0 <= p <= 2 ^ 62).
      { induction f as [|f IH]; intros k K B; cbn [npot_loop]; destruct (2 ^ k <? max_element r x); intro Q; try discriminate.
        - inv Q. split; [apply Z.pow_nonneg; lia|apply Z.pow_le_mono_r; lia].
        - rewrite Z.shiftl_mul_pow2, <- Z.pow_add_r in Q by lia. apply (IH (k + 1)) in Q; lia.
        - inv Q. split; [apply Z.pow_nonneg; lia|apply Z.pow_le_mono_r; lia]. }
      change 1 with (2 ^ 0) at 1. apply G; lia. }
    apply k_z_impl_ok; auto.
    + rewrite Z.shiftr_div_pow2 by lia. change (2 ^ 1) with 2.
      assert (0 <= p / 2) by (apply Z.div_pos; lia). assert (p / 2 <= 2 ^ 62) by (apply Z.div_le_upper_bound; lia). lia.
    + apply Forall_map. apply Forall_forall. intros. lia.
  - rewrite next_power_of_two_huge by lia. reflexivity.
Qed.

(** ** Prefetches *)
Lemma stepped_ok line : 1 <= line -> forall f i e, 0 <= i -> e + line <= big -> e - i <= Z.of_nat f ->
  exists l, k_stepped f i e line = Ok l /\ Forall (fun x => i <= x < e) l.
Proof.
  intro L. induction f as [|f IH]; intros i e I E F; cbn [k_stepped]; destruct (Z.ltb_spec i e); try lia.
  - exists []. auto.
  - rewrite chk_ok by (unfold is_index; lia). cbn [bind]. destruct (IH (i + line) e) as (l & -> & Fo); try lia. cbn [bind].
    exists (i :: l). split; [reflexivity|]. constructor; [lia|]. eapply Forall_impl; [|exact Fo]. cbn beta. lia.
  - exists []. auto.
Qed.
Lemma roomy_index d s x : roomy s -> In d s -> in_dim d x -> is_index x.
Proof. intros R I H. destruct (roomy_in d s R I) as (_ & _ & J). unfold is_interval, in_dim, is_index in *. cbn in *. lia. Qed.
Lemma wider_in n d x y : 0 <= y <= n -> in_dim d x -> in_dim (wider n d) (x + y).
Proof. unfold in_dim, wider. cbn. lia. Qed.
Lemma wider_ptr_1 r a b n i : r_shape r = [a; b] -> roomy [a; wider n b] -> in_bounds [a; wider n b] i ->
  exists p, k_ref_ptr r i = Ok p.
Proof.
  intros S R I. destruct r as [p s]. cbn [r_shape] in S. subst s. pose proof (k_ptr_ok p [a; wider n b] i R I) as K.
  exists (elem p [a; wider n b] i). rewrite <- K. reflexivity.
Qed.
Lemma wider_ptr_0 r a b n i : r_shape r = [a; b] -> roomy [wider n a; b] -> in_bounds [wider n a; b] i ->
  exists p, k_ref_ptr r i = Ok p.
Proof.
  intros S R I. destruct r as [p s]. cbn [r_shape] in S. subst s. pose proof (k_ptr_ok p [wider n a; b] i R I) as K.
  exists (elem p [wider n a; b] i). rewrite <- K. reflexivity.
Qed.
Lemma mapM_defined {X Y : Type} (f : X -> outcome Y) l : Forall (fun a => exists b, f a = Ok b) l -> exists r, mapM f l = Ok r.
Proof.
  induction 1 as [|a l (b & E) _ (r & IH)]; cbn [mapM]; [eauto|]. rewrite E. cbn [bind]. rewrite IH. cbn [bind]. eauto.
Qed.
