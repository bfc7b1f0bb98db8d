(** Proofs about typed intervals, dims and slices: C60. *)
From Verif Require Import Tac Interval Shape Spec Static SpecStatic StaticFacts Typed SpecTyped.
Import ListNotations.
Open Scope Z_scope.

Lemma cassign_cindex nd t old x : fits t old -> cassign nd t old x = cindex nd t x.
Proof.
  intro F. unfold cassign, cindex. destruct (is_static t) eqn:E; auto.
  unfold is_static, dynamic in E. destruct F as [-> | ->]; [discriminate|reflexivity].
Qed.
Lemma cindex_release t x : exists r, cindex true t x = Ok r /\ fits t r /\ kept_or t x r.
Proof.
  unfold cindex, is_static, dynamic, kept_or, fits.
  destruct (Z.eqb_spec t (-9)), (x =? t); cbn; eexists; (split; [reflexivity|]); split; auto; split; tauto.
Qed.

Lemma make_interval_ok : forall nd t mn ex, int_fits t (mkI mn ex) -> make_interval nd t mn ex = Ok (mkI mn ex).
Proof. intros nd t mn ex [F1 F2]. unfold make_interval. cbn in *. rewrite !cindex_ok by assumption. reflexivity. Qed.
Lemma make_interval_rejects : forall t mn ex, ~ int_fits t (mkI mn ex) -> make_interval false t mn ex = AssertFail.
Proof.
  intros t mn ex H. unfold make_interval.
  destruct (fits_dec (itmin t) mn) as [F1|F1]; [rewrite cindex_ok by auto|rewrite cindex_fail by auto; reflexivity].
  destruct (fits_dec (itext t) ex) as [F2|F2]; [|rewrite (cindex_fail (itext t)) by auto; reflexivity].
  elim H. split; auto.
Qed.
Lemma make_interval_release : forall t mn ex, exists i, make_interval true t mn ex = Ok i /\ int_fits t i /\
  kept_or (itmin t) mn (imin i) /\ kept_or (itext t) ex (iext i).
Proof.
  intros. unfold make_interval.
  destruct (cindex_release (itmin t) mn) as (m & -> & Hm & Km).
  destruct (cindex_release (itext t) ex) as (e & -> & He & Ke).
  exists (mkI m e). repeat split; auto; cbn; first [apply Km|apply Ke]; auto.
Qed.

Lemma make_interval_min_value : forall nd t mn, fits (itmin t) mn ->
  exists i, make_interval_min nd t mn = Ok i /\ int_fits t i /\ imin i = mn /\ kept_or (itext t) 1 (iext i).
Proof.
  intros nd t mn F. unfold make_interval_min. rewrite make_interval_ok by (split; auto; apply fits_default).
  eexists. split; [reflexivity|]. split; [split; auto; apply fits_default|]. split; [reflexivity|].
  cbn [iext]. rewrite if_static. unfold kept_or. destruct (Z.eq_dec (itext t) (-9)); tauto.
Qed.
Lemma default_interval_value : forall nd t, exists i, default_interval nd t = Ok i /\ int_fits t i /\
  kept_or (itmin t) 0 (imin i) /\ kept_or (itext t) 1 (iext i).
Proof.
  intros nd t. unfold default_interval.
  destruct (make_interval_min_value nd t (if is_static (itmin t) then itmin t else 0) (fits_default _ _))
    as (i & E & F & M & K).
  exists i. repeat split; try apply F; try apply K; auto; rewrite M, if_static;
    destruct (Z.eq_dec (itmin t) (-9)); tauto.
Qed.
Lemma range_T_value : forall nd E b, E <> -9 -> range_T nd E b = Ok (mkI b E).
Proof.
  intros nd E b H. unfold range_T. destruct (make_interval_min_value nd (mkIT dynamic E) b) as ([m e] & -> & F & M & K).
  { left. reflexivity. }
  cbn in M, K. destruct K as [_ K]. rewrite M, (K H). reflexivity.
Qed.

Lemma assign_interval_is_convert : forall nd t i other, int_fits t i ->
  assign_interval nd t i other = convert_interval nd t other.
Proof.
  intros nd t i other [F1 F2]. unfold assign_interval, convert_interval, set_min_T, set_extent_T, make_interval.
  rewrite cassign_cindex by assumption.
  destruct (cindex nd (itmin t) (imin other)) eqn:E; cbn; auto.
  rewrite cassign_cindex by assumption. destruct (cindex nd (itext t) (iext other)); reflexivity.
Qed.

Lemma assign_interval_ok : forall nd t i other, int_fits t i ->
  assign_interval nd t i other = convert_interval nd t other /\
  (int_fits t other -> assign_interval nd t i other = Ok other).
Proof.
  intros nd t i other F. rewrite (assign_interval_is_convert nd t i other F).
  split; [reflexivity|]. intro G. destruct other. exact (make_interval_ok nd t _ _ G).
Qed.
Lemma assign_interval_rejects : forall t i other, int_fits t i ->
  ~ int_fits t other -> assign_interval false t i other = AssertFail.
Proof.
  intros t i other F G. rewrite (assign_interval_is_convert false t i other F).
  destruct other. exact (make_interval_rejects t _ _ G).
Qed.

Lemma set_min_T_ok : forall nd t i mn, int_fits t i -> fits (itmin t) mn -> set_min_T nd t i mn = Ok (mkI mn (iext i)).
Proof. intros nd t i mn [F1 F2] F. unfold set_min_T. rewrite cassign_cindex, cindex_ok by assumption. reflexivity. Qed.
Lemma set_min_T_rejects : forall t i mn, int_fits t i -> ~ fits (itmin t) mn -> set_min_T false t i mn = AssertFail.
Proof. intros t i mn [F1 F2] F. unfold set_min_T. rewrite cassign_cindex, cindex_fail by assumption. reflexivity. Qed.
Lemma set_extent_T_ok : forall nd t i ex, int_fits t i -> fits (itext t) ex -> set_extent_T nd t i ex = Ok (mkI (imin i) ex).
Proof. intros nd t i ex [F1 F2] F. unfold set_extent_T. rewrite cassign_cindex, cindex_ok by assumption. reflexivity. Qed.
Lemma set_extent_T_rejects : forall t i ex, int_fits t i -> ~ fits (itext t) ex -> set_extent_T false t i ex = AssertFail.
Proof. intros t i ex [F1 F2] F. unfold set_extent_T. rewrite cassign_cindex, cindex_fail by assumption. reflexivity. Qed.
(** The last index can be set to what the static extent allows, and the first index stays. *)
Lemma set_max_T_ok : forall nd t i mx, int_fits t i -> fits (itext t) (mx - imin i + 1) ->
  exists i', set_max_T nd t i mx = Ok i' /\ int_fits t i' /\ imin i' = imin i /\ imin i' + iext i' - 1 = mx.
Proof.
  intros nd t i mx F H. unfold set_max_T. rewrite set_extent_T_ok by assumption.
  eexists. split; [reflexivity|]. split; [split; [apply F|exact H]|]. cbn. lia.
Qed.
Lemma set_max_T_rejects : forall t i mx, int_fits t i -> ~ fits (itext t) (mx - imin i + 1) ->
  set_max_T false t i mx = AssertFail.
Proof. intros. apply set_extent_T_rejects; assumption. Qed.

Lemma setters_values : forall nd t i v, int_fits t i ->
  (fits (itmin t) v -> set_min_T nd t i v = Ok (mkI v (iext i))) /\
  (fits (itext t) v -> set_extent_T nd t i v = Ok (mkI (imin i) v)) /\
  (fits (itext t) (v - imin i + 1) -> exists i', set_max_T nd t i v = Ok i' /\ int_fits t i' /\
     imin i' = imin i /\ imin i' + iext i' - 1 = v).
Proof.
  intros nd t i v F. repeat split; intro H; auto using set_min_T_ok, set_extent_T_ok, set_max_T_ok.
Qed.
Lemma setters_reject : forall t i v, int_fits t i ->
  (~ fits (itmin t) v -> set_min_T false t i v = AssertFail) /\
  (~ fits (itext t) v -> set_extent_T false t i v = AssertFail) /\
  (~ fits (itext t) (v - imin i + 1) -> set_max_T false t i v = AssertFail).
Proof.
  intros t i v F. repeat split; intro H; auto using set_min_T_rejects, set_extent_T_rejects, set_max_T_rejects.
Qed.
Lemma setters_release : forall t i v, int_fits t i ->
  (exists i', set_min_T true t i v = Ok i' /\ int_fits t i' /\ kept_or (itmin t) v (imin i') /\ iext i' = iext i) /\
  (exists i', set_extent_T true t i v = Ok i' /\ int_fits t i' /\ imin i' = imin i /\ kept_or (itext t) v (iext i')).
Proof.
  intros t i v [F1 F2]. unfold set_min_T, set_extent_T. rewrite !cassign_cindex by assumption.
  destruct (cindex_release (itmin t) v) as (m & -> & Hm & Km).
  destruct (cindex_release (itext t) v) as (e & -> & He & Ke).
  split; eexists; (split; [reflexivity|]); repeat split; auto; first [apply Km|apply Ke].
Qed.

(** ** Assignment of dims *)

Lemma assign_dim_is_convert : forall nd t d other, dim_fits t d ->
  assign_dim nd t d other = convert_dim_T nd t other.
Proof.
  intros nd t d other (F1 & F2 & F3).
  unfold assign_dim, convert_dim_T, make_dim, set_min_T, set_extent_T. cbn [base_range itmin itext d_interval imin iext].
  rewrite cassign_cindex by assumption.
  destruct (cindex nd (tmin t) (dmin other)) eqn:E1; cbn; auto.
  rewrite cassign_cindex by assumption. destruct (cindex nd (text t) (dext other)) eqn:E2; cbn; auto.
  unfold default_stride. rewrite (cindex_ok nd (tstr t)) by apply fits_default. cbn [bind].
  unfold set_stride_T. destruct (is_static (tstr t)) eqn:S; [|reflexivity].
  destruct F3 as [F3|F3]; [unfold is_static, dynamic in S; rewrite F3 in S; discriminate|].
  rewrite F3. reflexivity.
Qed.
Lemma convert_dim_T_ok : forall nd t d, dim_converts t d ->
  exists d', convert_dim_T nd t d = Ok d' /\ converted t d d'.
Proof.
  intros nd t d (F1 & F2 & F3). unfold convert_dim_T, default_stride.
  rewrite make_dim_ok by (repeat split; auto; apply fits_default). cbn [bind]. unfold set_stride_T.
  unfold is_static, dynamic, converted, unknown_stride, is_unresolved, unresolved in *.
  destruct (Z.eqb_spec (tstr t) (-9)) as [E|E]; cbn.
  - eexists. split; [reflexivity|]. cbn. repeat split; auto; try tauto.
  - assert (A : (dstr d =? index_min) || (dstr d =? tstr t) = true).
    { destruct F3 as [F3|[F3|F3]]; [rewrite F3; reflexivity|contradiction|rewrite F3, Z.eqb_refl; apply orb_true_r]. }
    unfold assert_. destruct nd; cbn; rewrite ?A; cbn; (eexists; split; [reflexivity|]); cbn; repeat split; auto; try tauto;
      destruct F3 as [F3|[F3|F3]]; auto; tauto.
Qed.
Lemma convert_dim_T_rejects : forall t d, ~ dim_converts t d -> convert_dim_T false t d = AssertFail.
Proof.
  intros t d H. unfold convert_dim_T, make_dim, default_stride.
  destruct (fits_dec (tmin t) (dmin d)) as [F1|F1]; [rewrite cindex_ok by auto|rewrite cindex_fail by auto; reflexivity].
  destruct (fits_dec (text t) (dext d)) as [F2|F2]; [rewrite cindex_ok by auto|rewrite cindex_fail by auto; reflexivity].
  rewrite (cindex_ok _ (tstr t)) by apply fits_default. cbn [bind]. unfold set_stride_T.
  unfold dim_converts, unknown_stride, fits, is_static, dynamic, is_unresolved, unresolved in *.
  destruct (Z.eqb_spec (tstr t) (-9)) as [E|E]; cbn; [tauto|].
  change index_min with (-9223372036854775808) in *.
  destruct (Z.eqb_spec (dstr d) (-9223372036854775808)), (Z.eqb_spec (dstr d) (tstr t)); cbn; auto; tauto.
Qed.
Lemma assign_dim_ok : forall nd t d other, dim_fits t d -> dim_converts t other ->
  exists d', assign_dim nd t d other = Ok d' /\ converted t other d'.
Proof. intros. rewrite assign_dim_is_convert by assumption. apply convert_dim_T_ok; assumption. Qed.
Lemma assign_dim_rejects : forall t d other, dim_fits t d -> ~ dim_converts t other ->
  assign_dim false t d other = AssertFail.
Proof. intros. rewrite assign_dim_is_convert by assumption. apply convert_dim_T_rejects; assumption. Qed.

Lemma dim_of_interval_ok : forall nd t i st, int_fits (mkIT (tmin t) (text t)) i ->
  match st with Some s => fits (tstr t) s | None => True end ->
  exists d, dim_of_interval nd t i st = Ok d /\ dim_fits t d /\ dmin d = imin i /\ dext d = iext i /\
    match st with
    | Some s => dstr d = s
    | None => (tstr t = -9 -> unknown_stride d) /\ (tstr t <> -9 -> dstr d = tstr t)
    end.
Proof.
  intros nd t i st [F1 F2] Fs. cbn in F1, F2. unfold dim_of_interval.
  assert (Fs' : fits (tstr t) (match st with Some s => s | None => default_stride t end)).
  { destruct st; auto. unfold default_stride. apply fits_default. }
  rewrite make_dim_ok by (repeat split; auto). eexists. split; [reflexivity|].
  split; [repeat split; auto|]. repeat split. destruct st; [reflexivity|]. cbn [dstr].
  unfold default_stride, unknown_stride. cbn [dstr]. rewrite if_static. destruct (Z.eq_dec (tstr t) (-9)); tauto.
Qed.

(** ** Slices *)

Lemma whole_iff t i : whole (TInt t i) <-> is_placeholder t = true.
Proof. unfold is_placeholder. cbn. rewrite andb_true_iff, !Z.eqb_eq. tauto. Qed.

Lemma shape_slice_T_ok : forall nd l args, length args = length l ->
  Forall (fun td => dim_fits (fst td) (snd td)) l -> Forall arg_fits args ->
  exists r, shape_slice_T nd l args = Ok r /\ slice_of l args r /\
    Forall (fun td => dim_fits (fst td) (snd td)) r /\
    map snd r = shape_slice (map snd l) (map erase args).
Proof.
  intros nd l args. unfold shape_slice_T, shape_slice, skip_slices, intervals_with_strides.
  revert l. induction args as [|a args IH]; intros [|[t d] l] L Fl Fa; cbn in L; try discriminate.
  - exists []. repeat split; auto; constructor.
  - apply Forall_cons_iff in Fl. destruct Fl as [(G1 & G2 & G3) Fl].
    apply Forall_cons_iff in Fa. destruct Fa as [Ga Fa].
    destruct (IH l) as (r & E & S & F & M); [lia|assumption..|].
    cbn [intervals_with_strides_T]. cbn [fst snd] in *.
    destruct (intervals_with_strides_T nd args l) as [r0| |] eqn:E0; cbn in E; try discriminate.
    injection E as <-.
    destruct a as [x|ti i|tc c]; cbn [range_with_stride_T erase].
    + rewrite make_dim_ok.
      2:{ repeat split; cbn; auto; [left|right]; reflexivity. }
      cbn. eexists. split; [reflexivity|]. split; [constructor; exact S|]. split; [exact F|]. exact M.
    + destruct (is_placeholder ti) eqn:P.
      * cbn. eexists. split; [reflexivity|].
        split; [apply slice_whole; [apply whole_iff with (i := i), P|exact S]|].
        split; [constructor; [repeat split; assumption|exact F]|]. cbn. rewrite P. cbn. f_equal. exact M.
      * destruct Ga as [Ga1 Ga2].
        rewrite make_dim_ok by (repeat split; assumption). cbn. eexists. split; [reflexivity|].
        split; [apply slice_interval; [|exact S]|].
        { intro W. apply whole_iff in W. congruence. }
        split; [constructor; [repeat split; assumption|exact F]|]. cbn. rewrite P. cbn. f_equal. exact M.
    + destruct Ga as (Ga1 & Ga2 & Ga3).
      rewrite make_dim_ok by (repeat split; assumption). cbn. eexists. split; [reflexivity|].
      split; [apply slice_dim; exact S|]. split; [constructor; [repeat split; assumption|exact F]|]. cbn. f_equal. exact M.
Qed.
