(** The checked functions agree with the unbounded ones when the layout fits (C43, C44). *)
From Verif Require Import Tac Base Interval Shape Spec Checked SpecChecked ShapeFacts ResolveFacts.
Import ListNotations.
Open Scope Z_scope.

Lemma chk_ok x : is_index x -> chk x = Ok x.
Proof.
  unfold is_index, chk, index_min, index_max. intros H.
  destruct (Z.leb_spec (-9223372036854775808) x), (Z.leb_spec x 9223372036854775807); simpl; auto; lia.
Qed.
Lemma k_abs_ok x : is_index x -> x <> index_min -> k_abs x = Ok (cabs x).
Proof.
  unfold k_abs, cabs, index_min. intros H N. destruct (x >=? 0) eqn:E; auto. apply chk_ok. unfold is_index in *. lia.
Qed.
Lemma k_sum_ok l : lsum (map Z.abs l) <= index_max -> k_sum l = Ok (vsum l).
Proof.
  assert (P : forall l, 0 <= lsum (map Z.abs l)).
  { clear. intros l. induction l as [|x l IH]; [unfold lsum; simpl; lia|]. unfold lsum in *. simpl map. cbn [fold_right]. lia. }
  assert (Q : forall l, Z.abs (vsum l) <= lsum (map Z.abs l)).
  { clear. intros l. induction l as [|x l IH]; [unfold lsum; simpl; lia|]. rewrite vsum_cons. unfold lsum in *. simpl map. cbn [fold_right]. lia. }
  unfold index_max. induction l as [|a|a b|a b c|a b c d l IH] using list4_ind; intros H; unfold lsum in H; simpl map in H; cbn [fold_right] in H; cbn [k_sum vsum]; auto.
  - apply chk_ok. unfold is_index. lia.
  - rewrite chk_ok by (unfold is_index; lia). cbn [bind]. apply chk_ok. unfold is_index. lia.
  - fold (lsum (map Z.abs l)) in H. specialize (P l). specialize (Q l).
    rewrite !chk_ok by (unfold is_index; lia). cbn [bind]. rewrite !chk_ok by (unfold is_index; lia). cbn [bind].
    rewrite !chk_ok by (unfold is_index; lia). cbn [bind]. rewrite IH by lia. cbn [bind]. apply chk_ok. unfold is_index. lia.
Qed.
Lemma mapM_ok {A B} (f : A -> outcome B) g l : Forall (fun a => f a = Ok (g a)) l -> mapM f l = Ok (map g l).
Proof. induction 1 as [|a l Ha _ IH]; simpl; auto. rewrite Ha. simpl. rewrite IH. reflexivity. Qed.
Lemma map2M_ok {A B C} (f : A -> B -> outcome C) g la lb : Forall2 (fun a b => f a b = Ok (g a b)) la lb ->
  map2M f la lb = Ok (map2 g la lb).
Proof. induction 1 as [|a b la lb Ha _ IH]; simpl; auto. rewrite Ha. simpl. rewrite IH. reflexivity. Qed.

(** ** Offsets and flat ranges *)
Lemma reach_nonneg s : 0 <= reach s.
Proof. unfold reach. induction s as [|d s IH]; simpl map; cbn [fold_right]; [lia|]. nia. Qed.
Lemma reach_cons d s : reach (d :: s) = Z.abs (dext d - 1) * Z.abs (dstr d) + reach s.
Proof. reflexivity. Qed.
Lemma reach_dim s d : In d s -> Z.abs (dext d - 1) * Z.abs (dstr d) <= reach s.
Proof.
  induction s as [|e s IH]; [contradiction|]. rewrite reach_cons. intros [-> |H].
  - pose proof (reach_nonneg s). lia.
  - specialize (IH H). nia.
Qed.
Lemma abs_sum_le {A} (f : A -> Z) g l : (forall a, In a l -> Z.abs (f a) <= g a) -> lsum (map Z.abs (map f l)) <= lsum (map g l).
Proof.
  induction l as [|a l IH]; intros H; [reflexivity|]. unfold lsum in *. simpl map. cbn [fold_right].
  pose proof (H a (or_introl eq_refl)). assert (forall b, In b l -> Z.abs (f b) <= g b) by (intros; apply H; right; auto).
  specialize (IH H1). lia.
Qed.
Lemma reach_lsum s : reach s = lsum (map (fun d => Z.abs (dext d - 1) * Z.abs (dstr d)) s).
Proof. reflexivity. Qed.

Lemma k_flat_offset_ok s i : Forall is_dim s -> in_bounds s i -> reach s <= index_max ->
  k_flat_offset s i = Ok (offset s i).
Proof.
  intros Hs Hi Hr. rewrite <- flat_offset_spec. unfold k_flat_offset, flat_offset.
  assert (Hd : Forall2 (fun d x => k_dim_flat_offset d x = Ok (dim_flat_offset d x) /\
                 Z.abs (dim_flat_offset d x) <= Z.abs (dext d - 1) * Z.abs (dstr d)) s i).
  { assert (Hd : forall d, In d s -> Z.abs (dext d - 1) * Z.abs (dstr d) <= index_max).
    { intros d Hd. pose proof (reach_dim s d Hd). lia. }
    clear Hr. unfold in_bounds in Hi.
    induction Hi as [|d x s i Hdx Hi IH]; constructor.
    - inv Hs. destruct H1 as [I1 [I2 [I3 I4]]]. unfold in_dim in Hdx.
      specialize (Hd d (or_introl eq_refl)). unfold k_dim_flat_offset, dim_flat_offset, is_index, index_max in *.
      assert (Z.abs ((x - dmin d) * dstr d) <= Z.abs (dext d - 1) * Z.abs (dstr d)).
      { rewrite Z.abs_mul. apply Z.mul_le_mono_nonneg_r; lia. }
      split; auto. rewrite chk_ok by (unfold is_index; lia). cbn [bind]. apply chk_ok. unfold is_index. lia.
    - inv Hs. apply IH; auto. intros e He. apply Hd. right. auto. }
  rewrite (map2M_ok _ dim_flat_offset).
  - cbn [bind]. apply k_sum_ok. eapply Z.le_trans; [|exact Hr]. rewrite reach_lsum. clear - Hd.
    induction Hd as [|d x s i [_ H] _ IH]; [reflexivity|]. unfold lsum in *. cbn [map2 map fold_right]. lia.
  - clear - Hd. induction Hd as [|d x s i [H _] _ IH]; constructor; auto.
Qed.
Lemma k_flat_min_ok s : Forall is_dim s -> reach s <= index_max -> k_flat_min s = Ok (flat_min s).
Proof.
  intros Hs Hr. unfold k_flat_min, flat_min.
  rewrite (mapM_ok _ (fun d => (dext d - 1) * cmin 0 (dstr d))).
  - cbn [bind]. apply k_sum_ok. eapply Z.le_trans; [|exact Hr]. rewrite reach_lsum. apply abs_sum_le.
    intros d _. rewrite cmin_min, Z.abs_mul. apply Z.mul_le_mono_nonneg_l; lia.
  - apply Forall_forall. intros d Hd. rewrite Forall_forall in Hs. destruct (Hs d Hd) as [I1 [I2 [I3 I4]]].
    pose proof (reach_dim s d Hd). unfold is_index, index_max in *. rewrite chk_ok by (unfold is_index; lia). cbn [bind].
    assert (Z.abs ((dext d - 1) * cmin 0 (dstr d)) <= Z.abs (dext d - 1) * Z.abs (dstr d)).
    { rewrite cmin_min, Z.abs_mul. apply Z.mul_le_mono_nonneg_l; lia. }
    apply chk_ok. unfold is_index. lia.
Qed.
Lemma k_flat_max_ok s : Forall is_dim s -> reach s <= index_max -> k_flat_max s = Ok (flat_max s).
Proof.
  intros Hs Hr. unfold k_flat_max, flat_max.
  rewrite (mapM_ok _ (fun d => (dext d - 1) * cmax 0 (dstr d))).
  - cbn [bind]. apply k_sum_ok. eapply Z.le_trans; [|exact Hr]. rewrite reach_lsum. apply abs_sum_le.
    intros d _. rewrite cmax_max, Z.abs_mul. apply Z.mul_le_mono_nonneg_l; lia.
  - apply Forall_forall. intros d Hd. rewrite Forall_forall in Hs. destruct (Hs d Hd) as [I1 [I2 [I3 I4]]].
    pose proof (reach_dim s d Hd). unfold is_index, index_max in *. rewrite chk_ok by (unfold is_index; lia). cbn [bind].
    assert (Z.abs ((dext d - 1) * cmax 0 (dstr d)) <= Z.abs (dext d - 1) * Z.abs (dstr d)).
    { rewrite cmax_max, Z.abs_mul. apply Z.mul_le_mono_nonneg_l; lia. }
    apply chk_ok. unfold is_index. lia.
Qed.
Lemma flat_min_bound s : Z.abs (flat_min s) <= reach s /\ Z.abs (flat_max s) <= reach s /\ Z.abs (flat_max s - flat_min s) <= reach s.
Proof.
  unfold flat_min, flat_max. induction s as [|d s IH]; [unfold reach; simpl; lia|].
  simpl map. rewrite !vsum_cons, reach_cons, cmin_min, cmax_max.
  assert (Z.abs ((dext d - 1) * Z.min 0 (dstr d)) <= Z.abs (dext d - 1) * Z.abs (dstr d)).
  { rewrite Z.abs_mul. apply Z.mul_le_mono_nonneg_l; lia. }
  assert (Z.abs ((dext d - 1) * Z.max 0 (dstr d)) <= Z.abs (dext d - 1) * Z.abs (dstr d)).
  { rewrite Z.abs_mul. apply Z.mul_le_mono_nonneg_l; lia. }
  assert (Z.abs ((dext d - 1) * Z.max 0 (dstr d) - (dext d - 1) * Z.min 0 (dstr d)) <= Z.abs (dext d - 1) * Z.abs (dstr d)).
  { rewrite <- Z.mul_sub_distr_l, Z.abs_mul. apply Z.mul_le_mono_nonneg_l; lia. }
  lia.
Qed.
Lemma k_flat_extent_ok s : Forall is_dim s -> reach s < index_max -> k_flat_extent s = Ok (flat_extent s).
Proof.
  intros Hs Hr. unfold k_flat_extent, flat_extent. destruct (flat_min_bound s) as [B1 [B2 B3]]. unfold index_max in *.
  rewrite k_flat_max_ok, k_flat_min_ok by (auto; unfold index_max; lia). cbn [bind].
  rewrite chk_ok by (unfold is_index; lia). cbn [bind]. rewrite chk_ok by (unfold is_index; lia). reflexivity.
Qed.
Lemma k_is_subset_of_ok s o off : Forall is_dim s -> Forall is_dim o -> reach s <= index_max ->
  reach o + Z.abs off <= index_max -> k_is_subset_of s o off = Ok (is_subset_of s o off).
Proof.
  intros Hs Ho Hr Hro. unfold k_is_subset_of, is_subset_of.
  destruct (flat_min_bound s) as [B1 [B2 B3]]. destruct (flat_min_bound o) as [C1 [C2 C3]]. unfold index_max in *.
  rewrite !k_flat_min_ok by (auto; unfold index_max; lia). cbn [bind]. rewrite chk_ok by (unfold is_index; lia). cbn [bind].
  destruct (flat_min s >=? flat_min o + off) eqn:E; [|reflexivity].
  rewrite !k_flat_max_ok by (auto; unfold index_max; lia). cbn [bind]. rewrite chk_ok by (unfold is_index; lia). reflexivity.
Qed.
Lemma k_size_ok s : extents_ge 0 s -> box_size s <= index_max -> k_size s = Ok (size s).
Proof.
  intros He Hb. unfold k_size, size.
  assert (B1 : forall s, 1 <= box_size s).
  { clear. intros s. unfold box_size. induction s as [|d s IH]; simpl map; cbn [fold_right]; [lia|nia]. }
  cut (k_product (extents s) = Ok (vproduct (extents s)) /\ 0 <= vproduct (extents s) <= box_size s).
  { intros [-> _]. reflexivity. }
  unfold extents. induction s as [|d s IH]; [unfold box_size; simpl; split; [reflexivity|lia]|].
  inv He. change (box_size (d :: s)) with (Z.max 1 (dext d) * box_size s) in *. specialize (B1 s).
  destruct IH as [I1 I2]; [auto|nia|]. cbn [map k_product vproduct]. rewrite I1. cbn [bind].
  split; [|nia]. apply chk_ok. unfold is_index, index_max in *. nia.
Qed.
Lemma k_index_in_range_ok s i : Forall is_dim s -> ends_fit s -> length s = length i ->
  exists b, k_index_in_range s i = Ok b /\ (b = true <-> in_bounds s i).
Proof.
  intros Hs He Hl. unfold k_index_in_range.
  rewrite (map2M_ok _ (fun d x => (dmin d <=? x) && (x <=? dmax d))).
  - cbn [bind]. eexists. split; [reflexivity|]. rewrite vall_true. unfold in_bounds, dmax.
    clear Hs He. revert i Hl. induction s as [|d s IH]; intros [|x i] Hl; try discriminate; cbn [map2].
    + split; constructor.
    + split; intros H; inv H; constructor; try (apply IH; auto).
      * unfold in_dim. lia.
      * unfold in_dim in *. lia.
  - unfold ends_fit in He. revert i Hl. induction s as [|d s IH]; intros [|x i] Hl; try discriminate; constructor.
    + inv Hs. inv He. destruct H1 as [I1 [I2 [I3 I4]]]. unfold k_in_range, dmax. destruct (dmin d <=? x); [|reflexivity].
      unfold k_max. destruct H3. rewrite chk_ok by auto. cbn [bind]. rewrite chk_ok by auto. reflexivity.
    + inv Hs. inv He. apply IH; auto.
Qed.

(** ** Resolve *)
Lemma k_stride_ok m e d : is_dim d -> (~ unknown_stride d -> span d <= index_max) -> 0 <= m <= index_max -> 0 <= e ->
  (~ unknown_stride d -> span d <= m \/ e * m <= index_max) -> k_is_stride_ok m e d = Ok (is_stride_ok m e d).
Proof.
  intros [I1 [I2 [I3 I4]]] Hsp Hm He Hor. unfold k_is_stride_ok, is_stride_ok. rewrite is_unresolved_unknown.
  destruct (unknown_strideb d) eqn:U; auto.
  assert (U' : ~ unknown_stride d) by (rewrite <- unknown_strideb_iff; congruence).
  assert (Hn : dstr d <> index_min) by exact U'.
  specialize (Hsp U'). specialize (Hor U'). rewrite (k_abs_ok (dstr d)) by auto.
  rewrite (k_abs_ok m) by (unfold is_index, index_max, index_min in *; lia).
  cbn [bind]. unfold span in *. rewrite !cabs_abs.
  assert (P : chk (dext d * Z.abs (dstr d)) = Ok (dext d * Z.abs (dstr d))).
  { apply chk_ok. unfold is_index, index_max in *. nia. }
  destruct (e =? 1) eqn:E1; cbn [bind andb].
  - destruct ((Z.abs m =? Z.abs (dstr d)) && (dext d >? 1)); auto. rewrite P. cbn [bind].
    destruct (Z.leb_spec (dext d * Z.abs (dstr d)) m); auto.
    rewrite chk_ok by (unfold is_index, index_max in *; nia). cbn [bind]. destruct (Z.abs (dstr d) >=? e * m); auto.
  - rewrite P. cbn [bind].
    destruct (Z.leb_spec (dext d * Z.abs (dstr d)) m); auto.
    rewrite chk_ok by (unfold is_index, index_max in *; nia). cbn [bind]. destruct (Z.abs (dstr d) >=? e * m); auto.
Qed.
Lemma k_filter_ok m e ds : Forall is_dim ds -> max_known_span ds <= index_max -> 0 <= m <= index_max -> 0 <= e ->
  (m = index_max \/ e * m <= index_max) -> k_filter_stride m e ds = Ok (filter_stride m e ds).
Proof.
  intros Hd Hs Hm He Hor. unfold k_filter_stride, filter_stride.
  rewrite (mapM_ok _ (is_stride_ok m e)); [reflexivity|]. apply Forall_forall. intros d Hi.
  rewrite Forall_forall in Hd. apply k_stride_ok; auto.
  - intros U. pose proof (max_known_span_ge ds d Hi U). lia.
  - intros U. pose proof (max_known_span_ge ds d Hi U). destruct Hor; [left; lia|right; auto].
Qed.
Lemma k_find_ok e ds : Forall is_dim ds -> 0 <= e -> max_known_span ds <= index_max ->
  Z.max 1 e * max_known_span ds <= index_max -> k_find_stride e ds = Ok (find_stride e ds).
Proof.
  intros Hd He Hs Hb. pose proof (max_known_span_ge1 ds) as Hm. unfold k_find_stride, find_stride.
  rewrite k_filter_ok; auto; [|unfold index_max; lia|right; nia]. cbn [bind].
  rewrite (mapM_ok _ (fun d => filter_stride (candidate_stride d) e ds)); [reflexivity|].
  apply Forall_forall. intros d Hi. rewrite Forall_forall in Hd. destruct (Hd d Hi) as [I1 [I2 [I3 I4]]].
  unfold k_candidate_stride. destruct (is_unresolved (dstr d)) eqn:U.
  - cbn [bind]. rewrite is_unresolved_unknown in U. rewrite candidate_unknown by (apply unknown_strideb_iff; auto).
    apply k_filter_ok; auto; [apply Forall_forall; auto|unfold index_max; lia].
  - rewrite is_unresolved_unknown in U.
    assert (U' : ~ unknown_stride d) by (rewrite <- unknown_strideb_iff; congruence).
    pose proof (max_known_span_ge ds d Hi U') as Hge. unfold span in *.
    rewrite (k_abs_ok (dstr d)) by auto. cbn [bind]. rewrite cabs_abs.
    rewrite chk_ok by (unfold is_index, index_max in *; nia). cbn [bind].
    rewrite candidate_known by auto. unfold span. rewrite cmax_max.
    apply k_filter_ok; auto; [apply Forall_forall; auto|lia|right].
    eapply Z.le_trans; [apply (Z.mul_le_mono_nonneg e (Z.max 1 e) _ (max_known_span ds))|exact Hb].
    all: lia.
Qed.
Lemma unknown_extents_in d s : In d s -> unknown_stride d -> Z.max 1 (dext d) <= unknown_extents s.
Proof.
  intros H U. apply in_split in H. destruct H as [a [b ->]].
  rewrite unknown_extents_app, unknown_extents_cons.
  destruct (unknown_strideb d) eqn:E; [|apply unknown_strideb_iff in U; congruence].
  pose proof (unknown_extents_ge1 a). pose proof (unknown_extents_ge1 b).
  set (m := Z.max 1 (dext d)) in *. assert (1 <= m) by (unfold m; lia).
  assert (m <= m * unknown_extents b) by nia. nia.
Qed.
Lemma k_resolve_ok s : Forall is_dim s -> stride_budget s < index_max -> k_resolve s = Ok (resolve s).
Proof.
  unfold k_resolve, resolve. intros Hd Hb.
  cut (forall todo before, Forall is_dim (before ++ todo) -> stride_budget (before ++ todo) < index_max ->
         k_resolve_from before todo = Ok (resolve_from before todo)).
  { intros H. apply H; auto. }
  clear. induction todo as [|d rest IH]; intros before Hd Hb; [reflexivity|].
  cbn [k_resolve_from resolve_from]. rewrite is_unresolved_unknown. destruct (unknown_strideb d) eqn:U.
  - assert (U' : unknown_stride d) by (apply unknown_strideb_iff; auto).
    pose proof (budget_ge_span (before ++ d :: rest)) as B1.
    assert (Hin : In d (before ++ d :: rest)) by (apply in_or_app; right; left; auto).
    pose proof (unknown_extents_in d _ Hin U') as B2.
    pose proof (max_known_span_ge1 (before ++ d :: rest)) as B3.
    assert (Hde : is_dim d) by (rewrite Forall_forall in Hd; apply Hd; auto).
    destruct (find_stride_sound (dext d) (before ++ d :: rest)) as [F1 F2]; [lia|].
    pose proof (find_stride_le_max (dext d) (before ++ d :: rest)) as F3.
    rewrite k_find_ok.
    + cbn [bind]. apply IH; rewrite <- app_assoc.
      * apply Forall_app in Hd. destruct Hd as [Ha Hr]. inv Hr. apply Forall_app. split; auto. constructor; auto.
        destruct Hde as [I1 [I2 [I3 I4]]]. unfold is_dim. simpl. unfold is_index, index_max in *. lia.
      * eapply Z.le_lt_trans; [|exact Hb]. apply budget_step; auto.
    + auto.
    + apply Hde.
    + lia.
    + unfold stride_budget in Hb. nia.
  - cbn [bind]. apply IH; rewrite <- app_assoc; auto.
Qed.
