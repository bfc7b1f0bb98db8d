(** Proofs about compile-time parameters: C28, C29, C45. *)
From Verif Require Import Tac Interval Shape Spec ShapeFacts ResolveFacts ShapeProps Static SpecStatic.
Import ListNotations.
Open Scope Z_scope.

(** ** Static arithmetic (C45) *)

Lemma is_dynamic2_false a b : a <> -9 -> b <> -9 -> is_dynamic2 a b = false.
Proof. unfold is_dynamic2, is_dynamic, dynamic. lia. Qed.

Ltac stat := unfold fits, static_add, static_sub, static_mul, static_min, static_max, static_abs,
  is_dynamic2, is_dynamic, is_static, dynamic, cabs in *.

Lemma static_ops_fit : forall a b va vb, fits a va -> fits b vb ->
  fits (static_add a b) (va + vb) /\ fits (static_sub a b) (va - vb) /\
  fits (static_mul a b) (va * vb) /\ fits (static_min a b) (Z.min va vb) /\
  fits (static_max a b) (Z.max va vb) /\ fits (static_abs a) (Z.abs va).
Proof.
  intros a b va vb Ha Hb. stat.
  destruct (Z.eqb_spec a (-9)), (Z.eqb_spec b (-9)); cbn [orb]; try (repeat split; left; reflexivity);
    repeat split; try (left; reflexivity); right; ifs; try lia; f_equal; lia.
Qed.

Lemma static_ops_contagious : forall a, static_add a (-9) = -9 /\ static_add (-9) a = -9 /\
  static_sub a (-9) = -9 /\ static_sub (-9) a = -9 /\ static_mul a (-9) = -9 /\ static_mul (-9) a = -9 /\
  static_min a (-9) = -9 /\ static_min (-9) a = -9 /\ static_max a (-9) = -9 /\ static_max (-9) a = -9 /\
  static_abs (-9) = -9.
Proof. intro a. stat. rewrite !orb_true_r. repeat split; reflexivity. Qed.

Lemma tmax_fits : forall t d, dim_fits t d -> fits (tmax t) (dmin d + dext d - 1).
Proof.
  intros t d (H1 & H2 & _). unfold tmax.
  apply static_ops_fit; [apply static_ops_fit; auto|]. right. reflexivity.
Qed.

Lemma cindex_ok nd t x : fits t x -> cindex nd t x = Ok x.
Proof.
  intro H. unfold cindex. destruct (is_static t) eqn:E; auto.
  unfold is_static, dynamic in E. destruct H as [-> | ->]; [discriminate|].
  unfold assert_. rewrite Z.eqb_refl. reflexivity.
Qed.
Lemma cindex_fail t x : ~ fits t x -> cindex false t x = AssertFail.
Proof.
  intro H. unfold cindex. destruct (is_static t) eqn:E.
  - unfold assert_. destruct (Z.eqb_spec x t); auto. elim H. right; auto.
  - elim H. left. unfold is_static, dynamic in E. lia.
Qed.

Lemma make_dim_ok : forall nd t mn ex st, dim_fits t (mkD mn ex st) -> make_dim nd t mn ex st = Ok (mkD mn ex st).
Proof.
  intros nd t mn ex st (H1 & H2 & H3). cbn [dmin dext dstr] in *. unfold make_dim.
  rewrite !cindex_ok by assumption. reflexivity.
Qed.
Lemma fits_dec t v : {fits t v} + {~ fits t v}.
Proof.
  unfold fits. destruct (Z.eq_dec t (-9)); [left; auto|]. destruct (Z.eq_dec v t); [left; auto|].
  right. tauto.
Qed.
Lemma make_dim_rejects : forall t mn ex st, ~ dim_fits t (mkD mn ex st) -> make_dim false t mn ex st = AssertFail.
Proof.
  intros t mn ex st H. unfold make_dim.
  destruct (fits_dec (tmin t) mn) as [F1|F1]; [rewrite cindex_ok by auto|rewrite cindex_fail by auto; reflexivity].
  destruct (fits_dec (text t) ex) as [F2|F2]; [rewrite cindex_ok by auto|rewrite cindex_fail by auto; reflexivity].
  destruct (fits_dec (tstr t) st) as [F3|F3]; [|rewrite (cindex_fail (tstr t)) by auto; reflexivity].
  elim H. repeat split; auto.
Qed.

Lemma fits_default t v : fits t (if is_static t then t else v).
Proof. unfold fits, is_static, dynamic. destruct (Z.eqb_spec t (-9)); auto. Qed.
Lemma if_static {A} t (x y : A) : (if is_static t then x else y) = if Z.eq_dec t (-9) then y else x.
Proof. unfold is_static, dynamic. destruct (Z.eqb_spec t (-9)), (Z.eq_dec t (-9)); auto; contradiction. Qed.

Lemma default_dim_values : forall nd t, exists d, default_dim nd t = Ok d /\ dim_fits t d /\
  (tmin t = -9 -> dmin d = 0) /\ (text t = -9 -> dext d = 0) /\ (tstr t = -9 -> unknown_stride d).
Proof.
  intros nd t. unfold default_dim, make_dim_extent, default_stride.
  rewrite make_dim_ok by (repeat split; apply fits_default).
  eexists. split; [reflexivity|]. split; [repeat split; apply fits_default|].
  unfold unknown_stride. cbn [dmin dext dstr]. rewrite !if_static.
  destruct (Z.eq_dec (tmin t) (-9)), (Z.eq_dec (text t) (-9)), (Z.eq_dec (tstr t) (-9)); auto; tauto.
Qed.

(** Without assertions static parameters win. *)
Lemma cindex_release t x : cindex true t x = Ok (if Z.eq_dec t (-9) then x else t).
Proof. unfold cindex, is_static, dynamic, assert_. destruct (Z.eq_dec t (-9)), (t =? -9) eqn:E; try lia; destruct (x =? t); reflexivity. Qed.
Lemma forced_value t x : forced t x (if Z.eq_dec t (-9) then x else t).
Proof. unfold forced. destruct (Z.eq_dec t (-9)); split; intros; congruence. Qed.
Lemma forced_fits t x y : forced t x y -> fits t y.
Proof. unfold forced, fits. destruct (Z.eq_dec t (-9)); tauto. Qed.
Lemma make_dim_release : forall (t : dimT) (mn ex st : Z), exists d, make_dim true t mn ex st = Ok d /\ dim_fits t d /\
  forced (tmin t) mn (dmin d) /\ forced (text t) ex (dext d) /\ forced (tstr t) st (dstr d).
Proof.
  intros t mn ex st. unfold make_dim. rewrite !cindex_release. cbn [bind]. eexists. split; [reflexivity|].
  cbn [dmin dext dstr]. split; [|split; [|split]; apply forced_value].
  split; [|split]; cbn [dmin dext dstr]; eapply forced_fits, forced_value.
Qed.
Lemma convert_dim_release t d : exists d', convert_dim_T true t d = Ok d' /\ dim_fits t d' /\
  forced (tmin t) (dmin d) (dmin d') /\ forced (text t) (dext d) (dext d') /\ forced (tstr t) (dstr d) (dstr d').
Proof.
  unfold convert_dim_T. destruct (make_dim_release t (dmin d) (dext d) (default_stride t)) as [d' [-> [[F1 [F2 F3]] [A [B C]]]]].
  cbn [bind]. unfold set_stride_T, assert_. destruct (is_static (tstr t)) eqn:E.
  - exists d'. split; [destruct (is_unresolved (dstr d) || (dstr d =? tstr t)); reflexivity|]. split; [split; auto|]. split; [exact A|]. split; [exact B|].
    unfold is_static, dynamic, forced in *. split; intros; [lia|tauto].
  - exists (set_stride d' (dstr d)). split; [reflexivity|]. unfold set_stride, is_static, dynamic in *.
    split; [split; [|split]; cbn [dmin dext dstr]; auto; left; lia|]. cbn [dmin dext dstr].
    split; [exact A|]. split; [exact B|]. split; intros; [auto|lia].
Qed.
Lemma shape_from_release : forall (ts : list dimT) (s : shape), length ts = length s ->
  exists s', shape_from true ts s = Ok s' /\ Forall2 dim_fits ts s' /\
    Forall2 (fun d t_d' => forced (tmin (fst t_d')) (dmin d) (dmin (snd t_d')) /\ forced (text (fst t_d')) (dext d) (dext (snd t_d')) /\
                           forced (tstr (fst t_d')) (dstr d) (dstr (snd t_d'))) s (combine ts s').
Proof.
  assert (U : forall ts s, shape_from true ts s = convert_all true ts s)
    by (intros ts s; unfold shape_from, assert_; destruct (all_compatible_assert ts s); reflexivity).
  induction ts as [|t ts IH]; intros [|d s] L; try discriminate L; rewrite U.
  - exists []. repeat split; constructor.
  - injection L as L. destruct (IH s L) as [s' [E [F G]]]. destruct (convert_dim_release t d) as [d' [E' [F' G']]].
    rewrite U in E. cbn [convert_all]. rewrite E', E. cbn [bind]. exists (d' :: s'). split; [reflexivity|]. split; constructor; auto.
Qed.

(** array.h:1547-1556: the static result of clamp agrees with the run-time one. *)
Lemma clamp_typed_ok : forall nd ta tb a b, dim_fits ta a -> dim_fits tb b ->
  exists d, clamp_typed nd ta tb a b = Ok d /\ dim_fits (clamp_T ta tb) d /\ dstr d = dstr a /\
    forall x, in_dim d x <-> in_dim a x /\ in_dim b x.
Proof.
  intros nd ta tb a b Ha Hb. pose proof (tmax_fits _ _ Ha) as Ma. pose proof (tmax_fits _ _ Hb) as Mb.
  destruct Ha as (A1 & A2 & A3), Hb as (B1 & B2 & B3).
  unfold clamp_typed, clamp_dim. cbn [dmin dext dstr]. rewrite cmax_max, cmin_min. unfold dmax.
  assert (F : dim_fits (clamp_T ta tb) (mkD (Z.max (dmin a) (dmin b))
    (Z.min (dmin a + dext a - 1) (dmin b + dext b - 1) - Z.max (dmin a) (dmin b) + 1) (dstr a))).
  { unfold clamp_T. repeat split; cbn [tmin text tstr dmin dext dstr].
    - eapply static_ops_fit; eauto.
    - apply static_ops_fit; [|right; reflexivity].
      eapply static_ops_fit; [eapply static_ops_fit|eapply static_ops_fit]; eauto.
    - exact A3. }
  rewrite make_dim_ok by exact F. eexists. split; [reflexivity|]. split; [exact F|].
  split; [reflexivity|]. intro x. unfold in_dim. cbn [dmin dext]. lia.
Qed.

(** ** Conversions (C29) *)

Lemma dim_compatible_assert_iff t d : dim_compatible_assert t d = true <-> dim_converts t d.
Proof.
  unfold dim_compatible_assert, dim_converts, fits, unknown_stride, is_static, is_resolved_stride, dynamic, unresolved, index_min.
  lia.
Qed.
Lemma all_compatible_iff ts s : length ts = length s ->
  (all_compatible_assert ts s = true <-> Forall2 dim_converts ts s).
Proof.
  revert s. induction ts as [|t ts IH]; intros [|d s] L; try discriminate L; simpl.
  - split; auto.
  - rewrite andb_true_iff, dim_compatible_assert_iff, IH by (simpl in L; lia).
    split; [intros []; constructor; auto|intro H; inv H; auto].
Qed.
Lemma convert_dim_ok nd t d : dim_converts t d ->
  exists d', convert_dim_T nd t d = Ok d' /\ converted t d d' /\ (fits (tstr t) (dstr d) -> d' = d).
Proof.
  intros (H1 & H2 & H3). unfold convert_dim_T.
  rewrite make_dim_ok by (repeat split; auto; apply fits_default). simpl.
  unfold set_stride_T, default_stride. rewrite !if_static. destruct (Z.eq_dec (tstr t) (-9)) as [E|E].
  - eexists. split; [reflexivity|]. destruct d. split; [|intros; reflexivity].
    repeat split; auto; intros; try contradiction.
  - assert (C : is_unresolved (dstr d) || (dstr d =? tstr t) = true).
    { unfold is_unresolved, unresolved, index_min. unfold unknown_stride in H3. destruct H3 as [H3|[H3|H3]]; lia. }
    rewrite C. simpl. eexists. split; [reflexivity|]. unfold converted. cbn [dmin dext dstr].
    split; [repeat split; auto; intros; try contradiction|].
    + destruct H3 as [|[|]]; [contradiction|contradiction|congruence].
    + intros [|F]; [contradiction|]. destruct d; simpl in *; congruence.
Qed.

Lemma convert_all_ok nd ts s : Forall2 dim_converts ts s ->
  exists s', convert_all nd ts s = Ok s' /\ length s' = length s /\
    (forall k t d d', nth_error ts k = Some t -> nth_error s k = Some d -> nth_error s' k = Some d' -> converted t d d') /\
    (Forall2 dim_fits ts s -> s' = s).
Proof.
  induction 1 as [|t d ts s H F (s' & E & L & C & I)]; simpl.
  - exists []. split; [reflexivity|]. split; [reflexivity|]. split; [|auto]. intros [|k]; discriminate.
  - destruct (convert_dim_ok nd t d H) as (d' & E' & C' & I'). rewrite E'. simpl. rewrite E. simpl.
    exists (d' :: s'). split; [reflexivity|]. split; [simpl; lia|]. split.
    + intros [|k]; simpl; [intros; congruence|apply C].
    + intro G. inv G. f_equal; [apply I'; apply H3|auto].
Qed.

Lemma shape_from_ok : forall nd ts s, Forall2 dim_converts ts s ->
  exists s', shape_from nd ts s = Ok s' /\ length s' = length s /\
    (forall k t d d', nth_error ts k = Some t -> nth_error s k = Some d -> nth_error s' k = Some d' -> converted t d d').
Proof.
  intros nd ts s H. unfold shape_from. rewrite (proj2 (all_compatible_iff ts s (Forall2_len _ _ _ H)) H). simpl.
  destruct (convert_all_ok nd ts s H) as (s' & E & L & C & _). eauto.
Qed.
Lemma shape_from_rejects : forall ts s, length ts = length s -> ~ Forall2 dim_converts ts s ->
  shape_from false ts s = AssertFail.
Proof.
  intros ts s L H. unfold shape_from. destruct (all_compatible_assert ts s) eqn:E; auto.
  apply all_compatible_iff in E; [contradiction|auto].
Qed.

Lemma converts_fits ts s : Forall (fun d => ~ unknown_stride d) s -> Forall2 dim_converts ts s -> Forall2 dim_fits ts s.
Proof.
  intros U H. induction H as [|t d ts s (H1 & H2 & H3)]; constructor; inv U; auto.
  repeat split; auto. destruct H3; [contradiction|auto].
Qed.
Lemma fits_converts ts s : Forall2 dim_fits ts s -> Forall2 dim_converts ts s.
Proof. induction 1 as [|t d ts s (H1 & H2 & H3)]; constructor; auto. repeat split; auto. Qed.

Lemma shape_from_fits nd ts s : Forall2 dim_fits ts s -> shape_from nd ts s = Ok s.
Proof.
  intro H. pose proof (fits_converts _ _ H) as H'. unfold shape_from.
  rewrite (proj2 (all_compatible_iff ts s (Forall2_len _ _ _ H)) H'). simpl.
  destruct (convert_all_ok nd ts s H') as (s' & E & _ & _ & I). rewrite E. f_equal. auto.
Qed.

Lemma shape_from_resolved : forall ts s s', length ts = length s -> Forall (fun d => ~ unknown_stride d) s ->
  shape_from false ts s = Ok s' -> s' = s /\ Forall2 dim_fits ts s.
Proof.
  intros ts s s' L U E.
  destruct (all_compatible_assert ts s) eqn:A.
  - apply all_compatible_iff in A; auto. apply converts_fits in A; auto.
    rewrite shape_from_fits in E by auto. inv E. auto.
  - unfold shape_from in E. rewrite A in E. discriminate.
Qed.

Lemma is_dim_compatible_iff t d : is_dim_compatible t d = true <-> dim_fits t d.
Proof. unfold is_dim_compatible, dim_fits, fits, is_dynamic, dynamic. lia. Qed.
Lemma is_compatible_iff ts s : length ts = length s -> (is_compatible ts s = true <-> Forall2 dim_fits ts s).
Proof.
  unfold is_compatible. revert s. induction ts as [|t ts IH]; intros [|d s] L; try discriminate L; simpl.
  - split; auto.
  - rewrite vall_cons, andb_true_iff, is_dim_compatible_iff, IH by (simpl in L; lia).
    split; [intros []; constructor; auto|intro H; inv H; auto].
Qed.
Lemma is_compatible_sound : forall nd ts s, length ts = length s -> is_compatible ts s = true ->
  shape_from nd ts s = Ok s.
Proof. intros nd ts s L H. apply shape_from_fits. apply is_compatible_iff; auto. Qed.
Lemma is_compatible_complete : forall ts s s', length ts = length s -> Forall (fun d => ~ unknown_stride d) s ->
  shape_from false ts s = Ok s' -> is_compatible ts s = true.
Proof.
  intros ts s s' L U E. apply is_compatible_iff; auto. eapply shape_from_resolved; eauto.
Qed.

(** convert_shape *)
Lemma trivial_slice_iff n s : is_trivial_slice n s = true <-> Forall (fun d => dext d = 1) (skipn n s).
Proof.
  unfold is_trivial_slice. rewrite vall_map. split; apply Forall_impl; intros; lia.
Qed.

Lemma convert_dims_drop nd ts s : (length ts <= length s)%nat -> convert_dims nd ts s = Ok (firstn (length ts) s).
Proof.
  revert s. induction ts as [|t ts IH]; intros [|d s] L; simpl in *; try lia; auto.
  rewrite IH by lia. reflexivity.
Qed.

(** Dropping dims of extent 1 *)
Lemma offset_drop n s i : in_bounds s i -> Forall (fun d => dext d = 1) (skipn n s) ->
  offset s i = offset (firstn n s) (firstn n i).
Proof.
  revert s i. induction n as [|n IH]; intros s i B T.
  - simpl. simpl in T. induction B as [|d x s i H B IHB]; simpl; auto. inv T.
    unfold in_dim in H. rewrite IHB by auto. destruct s; simpl; replace (x - dmin d) with 0 by lia; lia.
  - inv B; simpl; auto. simpl in T. rewrite (IH l l'); auto.
Qed.

Lemma convert_shape_drop : forall nd ts s, (length ts <= length s)%nat ->
  Forall (fun d => dext d = 1) (skipn (length ts) s) -> Forall2 dim_fits ts (firstn (length ts) s) ->
  convert_shape nd ts s = Ok (firstn (length ts) s) /\
  forall i, in_bounds s i -> offset (firstn (length ts) s) (firstn (length ts) i) = offset s i.
Proof.
  intros nd ts s L T F. split.
  - unfold convert_shape. rewrite (proj2 (trivial_slice_iff _ _) T). simpl.
    rewrite convert_dims_drop by auto. simpl.
    destruct (convert_all_ok nd ts _ (fits_converts _ _ F)) as (s' & E & _ & _ & I). rewrite E. simpl.
    rewrite (I F). apply shape_from_fits, F.
  - intros i B. symmetry. apply offset_drop; auto.
Qed.
Lemma convert_shape_drop_rejects : forall ts s,
  ~ Forall (fun d => dext d = 1) (skipn (length ts) s) -> convert_shape false ts s = AssertFail.
Proof.
  intros ts s H. unfold convert_shape. destruct (is_trivial_slice (length ts) s) eqn:E; auto.
  apply trivial_slice_iff in E. contradiction.
Qed.

Lemma make_dim_extent_one nd t : fits (text t) 1 -> exists d, make_dim_extent nd t 1 = Ok d /\ added t d /\ dim_fits t d.
Proof.
  intro F. unfold make_dim_extent.
  assert (G : dim_fits t (mkD (if is_static (tmin t) then tmin t else 0) 1 (default_stride t))).
  { repeat split; auto; apply fits_default. }
  rewrite make_dim_ok by exact G. eexists. split; [reflexivity|]. split; [|exact G].
  unfold added. cbn [dmin dext]. rewrite if_static. destruct (Z.eq_dec (tmin t) (-9)); intuition congruence.
Qed.

Lemma convert_dims_add nd ts1 ts2 s : length ts1 = length s -> Forall (fun t => fits (text t) 1) ts2 ->
  exists e, convert_dims nd (ts1 ++ ts2) s = Ok (s ++ e) /\ Forall2 added ts2 e /\ Forall2 dim_fits ts2 e.
Proof.
  revert s. induction ts1 as [|t ts1 IH]; intros [|d s] L F; try discriminate L; simpl.
  - clear L. induction F as [|t ts2 H F (e & E & A & G)]; simpl; [exists []; auto|].
    destruct (make_dim_extent_one nd t H) as (d & Ed & Ad & Gd). rewrite Ed. simpl.
    rewrite E. simpl. exists (d :: e). auto.
  - destruct (IH s) as (e & E & A); [simpl in L; lia|auto|]. rewrite E. simpl. eauto.
Qed.

Lemma offset_app s1 s2 i1 i2 : length s1 = length i1 -> offset (s1 ++ s2) (i1 ++ i2) = offset s1 i1 + offset s2 i2.
Proof.
  revert i1. induction s1 as [|d s1 IH]; intros [|x i1] L; try discriminate L; simpl; auto.
  rewrite IH by (simpl in L; lia). lia.
Qed.
Lemma in_bounds_ext1 s i : Forall (fun d => dext d = 1) s -> in_bounds s i -> offset s i = 0.
Proof.
  intros F B. induction B as [|d x s i H B IH]; simpl; auto. inv F. unfold in_dim in H.
  rewrite IH by auto. replace (x - dmin d) with 0 by lia. lia.
Qed.

Lemma convert_shape_add : forall nd ts1 ts2 s, Forall2 dim_fits ts1 s -> Forall (fun t => fits (text t) 1) ts2 ->
  exists e, convert_shape nd (ts1 ++ ts2) s = Ok (s ++ e) /\ Forall2 added ts2 e /\
    forall i j, in_bounds s i -> in_bounds e j -> in_bounds (s ++ e) (i ++ j) /\
      offset (s ++ e) (i ++ j) = offset s i.
Proof.
  intros nd ts1 ts2 s F G. pose proof (Forall2_len _ _ _ F) as L.
  destruct (convert_dims_add nd ts1 ts2 s L G) as (e & E & A & Fe).
  exists e. split; [|split; [exact A|]].
  - unfold convert_shape. assert (T : is_trivial_slice (length (ts1 ++ ts2)) s = true).
    { apply trivial_slice_iff. rewrite skipn_all2; auto. rewrite app_length. lia. }
    rewrite T. simpl. rewrite E. simpl.
    assert (FF : Forall2 dim_fits (ts1 ++ ts2) (s ++ e)) by (apply Forall2_app; auto).
    destruct (convert_all_ok nd _ _ (fits_converts _ _ FF)) as (s' & E' & _ & _ & I). rewrite E'. simpl.
    rewrite (I FF). apply shape_from_fits, FF.
  - intros i j B1 B2. split; [apply Forall2_app; auto|].
    rewrite offset_app by (symmetry; apply in_bounds_length; auto).
    rewrite (in_bounds_ext1 e j); [lia| |auto].
    clear -A. induction A as [|t d ts e (H & _)]; constructor; auto.
Qed.

(** ** make_compact (C28) *)

Lemma make_compact_from_bounds nd cur l : Forall (fun td => dim_fits (fst td) (snd td)) l ->
  exists r, make_compact_from nd cur l = Ok r /\
    Forall2 (fun td td' => same_bounds (snd td) (snd td') /\ tmin (fst td') = tmin (fst td) /\
      text (fst td') = text (fst td) /\ dim_fits (fst td') (snd td') /\
      (tstr (fst td) <> -9 -> tstr (fst td') = tstr (fst td))) l r.
Proof.
  intro H. revert cur. induction H as [|[t d] l (H1 & H2 & H3) H IH]; intro cur; simpl; [eauto|].
  cbn [fst snd] in *.
  set (t' := mkDT _ _ _).
  assert (F : dim_fits t' (mkD (dmin d) (dext d) (default_stride t'))).
  { repeat split; cbn [dmin dext dstr]; auto. apply fits_default. }
  rewrite make_dim_ok by exact F. simpl. destruct (IH (static_mul cur (text t))) as (r & E & R).
  rewrite E. simpl. eexists. split; [reflexivity|]. constructor; [|exact R]. cbn [fst snd].
  repeat split; try apply F. intro N. subst t'. cbn [tstr]. rewrite if_static.
  destruct (Z.eq_dec (tstr t) (-9)); [contradiction|reflexivity].
Qed.

Definition dyn_strides (l : tshape) : Prop := Forall (fun td => tstr (fst td) = -9) l.
Definition well_typed (l : tshape) : Prop := Forall (fun td => dim_fits (fst td) (snd td)) l.

Lemma volume_pos s : extents_ge 1 s -> 1 <= volume s.
Proof. unfold volume. induction 1; simpl; [lia|]. nia. Qed.

Lemma unknown_extents_le_volume s : extents_ge 1 s -> unknown_extents s <= volume s.
Proof.
  induction 1 as [|d s H1 H2 IH]; [reflexivity|].
  rewrite unknown_extents_cons. unfold volume in *. simpl. pose proof (unknown_extents_ge1 s).
  destruct (unknown_strideb d); nia.
Qed.

Lemma known_dims_cons d s : known_dims (d :: s) = if unknown_strideb d then known_dims s else d :: known_dims s.
Proof. unfold known_dims. simpl. destruct (unknown_strideb d); reflexivity. Qed.

Lemma make_compact_from_tiles nd : forall l cur base r, dyn_strides l -> well_typed l ->
  extents_ge 1 (map snd l) -> (cur = -9 \/ 1 <= cur) ->
  make_compact_from nd cur l = Ok r ->
  (cur = -9 -> Forall unknown_stride (map snd r)) /\
  (1 <= cur -> tiles cur base -> exists n, tiles n (rev (known_dims (map snd r)) ++ base) /\
      n * unknown_extents (map snd r) = cur * volume (map snd l)).
Proof.
  induction l as [|[t d] l IH]; intros cur base r D W X C E; simpl in E.
  - inv E. split; [constructor|]. intros _ T. exists cur. split; auto.
  - inv D. inv W. inv X. cbn [fst snd] in *. destruct H3 as (F1 & F2 & F3).
    revert E. set (t' := mkDT _ _ _).
    assert (Et : tstr t' = cur).
    { subst t'. cbn [tstr]. rewrite if_static. destruct (Z.eq_dec (tstr t) (-9)); [auto|contradiction]. }
    rewrite make_dim_ok.
    2:{ repeat split; cbn [dmin dext dstr]; auto. apply fits_default. }
    simpl. destruct (make_compact_from nd (static_mul cur (text t)) l) as [r'| |] eqn:E'; try discriminate.
    simpl. clearbody t'. intro E. injection E as <-. cbn [map snd].
    assert (C' : static_mul cur (text t) = -9 \/ 1 <= static_mul cur (text t)).
    { stat. destruct (Z.eqb_spec cur (-9)); simpl; auto. destruct (Z.eqb_spec (text t) (-9)); auto. right. nia. }
    unfold default_stride. rewrite if_static. rewrite Et.
    split.
    + intros ->. constructor.
      * destruct (Z.eq_dec (-9) (-9)); [reflexivity|contradiction].
      * apply (IH (static_mul (-9) (text t)) [] r'); auto.
    + intros C1 T. destruct (Z.eq_dec cur (-9)); [lia|].
      set (d' := mkD (dmin d) (dext d) cur).
      assert (K : unknown_strideb d' = false) by (unfold unknown_strideb; subst d'; cbn [dstr]; lia).
      rewrite known_dims_cons, unknown_extents_cons, K. cbn [rev].
      rewrite <- app_assoc. simpl.
      assert (T' : tiles (cur * dext d) (d' :: base)).
      { apply (tiles_cons cur d'); auto. cbn [dstr]. subst d'. cbn [dstr]. lia. }
      unfold volume. simpl.
      destruct (Z.eq_dec (text t) (-9)) as [Ex|Ex].
      * (* the rest is unknown *)
        destruct (IH (static_mul cur (text t)) [] r') as [U _]; auto.
        assert (Un : Forall unknown_stride (map snd r')).
        { apply U. rewrite Ex. stat. rewrite orb_true_r. reflexivity. }
        exists (cur * dext d). rewrite (known_all_unknown _ Un). simpl. split; [exact T'|].
        destruct (make_compact_from_bounds nd (static_mul cur (text t)) l H4) as (r2 & E2 & R2).
        assert (r2 = r') by congruence. subst r2.
        assert (Ex' : map dext (map snd r') = map dext (map snd l)).
        { clear -R2. induction R2 as [|? ? ? ? ((_ & Q) & _)]; simpl; auto. f_equal; auto. }
        rewrite unknown_extents_all; auto.
        2:{ apply (extents_ge_map 1 (map snd l)); auto. }
        rewrite Ex'. lia.
      * assert (N : static_mul cur (text t) = cur * dext d).
        { unfold static_mul. rewrite is_dynamic2_false by auto. destruct F2 as [|F2]; [contradiction|].
          rewrite F2. reflexivity. }
        rewrite N in *. destruct (IH (cur * dext d) (d' :: base) r') as [_ U]; auto.
        destruct U as (m & Tm & Em); [nia|exact T'|]. exists m. split; [exact Tm|]. rewrite Em.
        unfold volume. lia.
Qed.

Lemma compact_next_dynamic l : dyn_strides l -> compact_next (map fst l) = 1.
Proof.
  intro D. unfold compact_next.
  assert (A : vany (map (fun t => tstr t >? 1) (map fst l)) = false).
  { unfold vany. replace (vsum _) with 0; auto. symmetry.
    induction D as [|[t d] l H D IH]; [reflexivity|]. cbn [map fst]. rewrite vsum_cons, IH. simpl in H. rewrite H. reflexivity. }
  rewrite A.
  assert (B : vall (map (fun t => is_dynamic (tstr t)) (map fst l)) = true).
  { apply vall_map. apply Forall_map. eapply Forall_impl; [|exact D]. simpl. intros a ->. reflexivity. }
  rewrite B. reflexivity.
Qed.

Lemma combine_fst {A B} (a : list A) (b : list B) : length a = length b -> map fst (combine a b) = a.
Proof. revert b. induction a; intros [|y b] L; try discriminate L; simpl; auto. f_equal. auto. Qed.
Lemma combine_snd {A B} (a : list A) (b : list B) : length a = length b -> map snd (combine a b) = b.
Proof. revert b. induction a; intros [|y b] L; try discriminate L; simpl; auto. f_equal. auto. Qed.

Lemma resolve_length s : length (resolve s) = length s.
Proof.
  unfold resolve. cut (forall todo before, length (resolve_from before todo) = (length before + length todo)%nat).
  { intro G. rewrite G. reflexivity. }
  induction todo as [|d todo IH]; intros before; simpl; [lia|]. rewrite IH, app_length. simpl. lia.
Qed.
Lemma resolve_bounds s : Forall2 same_bounds s (resolve s).
Proof.
  unfold resolve. cut (forall todo before pre, Forall2 same_bounds pre before -> Forall2 same_bounds (pre ++ todo) (resolve_from before todo)).
  { intro G. apply (G s [] []). constructor. }
  induction todo as [|d todo IH]; intros before pre H; simpl; [rewrite app_nil_r; auto|].
  change (pre ++ d :: todo) with (pre ++ [d] ++ todo). rewrite app_assoc. apply IH.
  apply Forall2_snoc; auto. destruct (is_unresolved (dstr d)); split; reflexivity.
Qed.

Lemma make_compact_unfold nd l r : make_compact_from nd (compact_next (map fst l)) l = Ok r ->
  exists r', make_compact nd l = Ok r' /\ map snd r' = resolve (map snd r) /\ map fst r' = map fst r.
Proof.
  intro E. unfold make_compact. rewrite E. simpl. eexists. split; [reflexivity|].
  assert (L : length (map fst r) = length (resolve (map snd r))).
  { rewrite resolve_length, !map_length. reflexivity. }
  rewrite combine_snd, combine_fst by exact L. auto.
Qed.

Lemma make_compact_bounds : forall nd l, Forall (fun td => dim_fits (fst td) (snd td)) l ->
  exists r, make_compact nd l = Ok r /\ Forall2 same_bounds (map snd l) (map snd r) /\
    map tmin (map fst r) = map tmin (map fst l) /\ map text (map fst r) = map text (map fst l).
Proof.
  intros nd l H.
  destruct (make_compact_from_bounds nd (compact_next (map fst l)) l H) as (r & E & R).
  destruct (make_compact_unfold nd l r E) as (r' & E' & Es & Ef). exists r'. split; [exact E'|].
  rewrite Es, Ef. split.
  - pose proof (resolve_bounds (map snd r)) as B. revert B. generalize (resolve (map snd r)). clear -R.
    induction R as [|x y l r ((A1 & A2) & _) R IH]; intros s B; inv B; constructor.
    + destruct H1. split; congruence.
    + apply IH. auto.
  - clear -R. split; induction R as [|x y l r (_ & A1 & A2 & _)]; simpl; auto; f_equal; auto.
Qed.

Lemma tiles_gapless s n l : extents_ge 1 s -> Permutation s l -> tiles n l -> gapless s.
Proof.
  intros H P T. destruct (tiles_compact s n l H P T) as (I & F & S & C & O).
  split; [exact I|]. exists (flat_min s).
  assert (V : volume s = n).
  { rewrite (tiles_product _ _ T). unfold volume. apply fold_mul_perm, Permutation_map, P. }
  destruct (flat_extent_nonempty s H) as [F' _]. intro o. rewrite V. split.
  - intro B. apply O. lia.
  - intros (i & B & <-). pose proof (offset_range s i B). lia.
Qed.

Lemma same_bounds_ext s s' : Forall2 same_bounds s s' -> map dext s' = map dext s.
Proof. induction 1 as [|? ? ? ? (_ & Q)]; simpl; auto. f_equal; auto. Qed.

Lemma make_compact_from_positive nd l : dyn_strides l -> well_typed l -> extents_ge 1 (map snd l) ->
  forall cur r, make_compact_from nd cur l = Ok r -> (cur = -9 \/ 1 <= cur) ->
  Forall (fun d => unknown_stride d \/ 1 <= dstr d) (map snd r).
Proof.
  intros D W X. induction l as [|[t d] l IH]; intros cur r E C; simpl in E; [inv E; constructor|].
  inv D. inv W. inv X. cbn [fst snd] in *. destruct H3 as (F1 & F2 & F3).
  revert E. set (t' := mkDT _ _ _).
  assert (Et : tstr t' = cur).
  { subst t'. cbn [tstr]. rewrite if_static. destruct (Z.eq_dec (tstr t) (-9)); [auto|contradiction]. }
  rewrite make_dim_ok.
  2:{ repeat split; cbn [dmin dext dstr]; auto. apply fits_default. }
  simpl. destruct (make_compact_from nd (static_mul cur (text t)) l) as [r'| |] eqn:E'; try discriminate.
  simpl. clearbody t'. intro E. inv E. cbn [map snd].
  unfold default_stride. rewrite if_static. constructor.
  - cbn [dstr]. unfold unknown_stride. cbn [dstr]. destruct (Z.eq_dec (tstr t') (-9)); [left; reflexivity|right; lia].
  - eapply IH; eauto. stat. destruct (Z.eqb_spec (tstr t') (-9)); simpl; auto.
    destruct (Z.eqb_spec (text t) (-9)); auto. right. nia.
Qed.

Lemma make_compact_gapless : forall nd l, Forall (fun td => dim_fits (fst td) (snd td)) l ->
  Forall (fun td => tstr (fst td) = -9) l -> extents_ge 1 (map snd l) ->
  volume (map snd l) < 9223372036854775807 ->
  exists r, make_compact nd l = Ok r /\ Forall2 same_bounds (map snd l) (map snd r) /\
    gapless (map snd r) /\ Forall (fun d => 1 <= dstr d) (map snd r) /\ is_compact (map snd r) = true.
Proof.
  intros nd l W D X V.
  destruct (make_compact_from_bounds nd 1 l W) as (r & E & R).
  rewrite <- (compact_next_dynamic l D) in E.
  destruct (make_compact_unfold nd l r E) as (r' & E' & Es & Ef).
  rewrite (compact_next_dynamic l D) in E.
  destruct (make_compact_bounds nd l W) as (r2 & E2 & B & _). assert (r2 = r') by congruence. subst r2.
  exists r'. split; [exact E'|]. split; [exact B|]. rewrite Es in *.
  destruct (make_compact_from_tiles nd l 1 [] r D W X) as [_ (n & T & En)]; auto; [lia|lia|constructor|].
  rewrite app_nil_r in T.
  assert (Xr : extents_ge 1 (map snd r)).
  { apply (extents_ge_map 1 (map snd l)); auto.
    clear -R. induction R as [|? ? ? ? ((_ & Q) & _)]; simpl; auto. f_equal; auto. }
  assert (Xr' : extents_ge 1 (resolve (map snd r))).
  { apply (extents_ge_map 1 (map snd l)); auto. apply same_bounds_ext, B. }
  assert (P : Permutation (known_dims (map snd r)) (rev (known_dims (map snd r)))) by apply Permutation_rev.
  destruct (resolve_tiles (map snd r) n _ Xr P T) as (m & l' & P' & T' & _).
  { unfold index_max. lia. }
  split; [eapply tiles_gapless; eauto|].
  split.
  - assert (Bud : stride_budget (map snd r) < index_max).
    { apply (tiling_budget _ n (rev (known_dims (map snd r)))) in Xr; auto. unfold index_max in *. lia. }
    pose proof (resolve_spec _ Bud) as Sp.
    assert (G : Forall (fun d => unknown_stride d \/ 1 <= dstr d) (map snd r)).
    { apply (make_compact_from_positive nd l D W X 1 r); auto. lia. }
    clear -Sp G. induction Sp as [|d d' s s' (_ & _ & K & U) Sp IH]; constructor; inv G; auto.
    destruct H1 as [H1|H1]; [apply U in H1; lia|].
    rewrite K; auto. unfold unknown_stride. lia.
  - apply (tiles_compact _ m l' Xr' P' T').
Qed.

(** fixed_dense_shape *)
Lemma fixed_dense_from nd : forall exts cur, 1 <= cur -> Forall (fun e => 1 <= e) exts ->
  exists r, make_compact_from nd cur (map (fun e => (mkDT 0 e dynamic, mkD 0 e unresolved)) exts) = Ok r /\
    length r = length exts /\
    forall k e, nth_error exts k = Some e -> exists t d, nth_error r k = Some (t, d) /\
      tmin t = 0 /\ dmin d = 0 /\ text t = e /\ dext d = e /\ tstr t = dstr d /\
      dstr d = cur * fold_right Z.mul 1 (firstn k exts).
Proof.
  induction exts as [|e exts IH]; intros cur C H.
  - exists []. split; [reflexivity|]. split; [reflexivity|]. intros [|k]; discriminate.
  - inv H. assert (N : static_mul cur e = cur * e) by (unfold static_mul; rewrite is_dynamic2_false by lia; reflexivity).
    destruct (IH (cur * e)) as (r & E & L & R); [nia|auto|]. cbn [map make_compact_from].
    cbn [tmin text tstr dmin dext dstr]. change (is_static dynamic) with false. cbv iota.
    unfold default_stride. cbn [tstr]. rewrite if_static. destruct (Z.eq_dec cur (-9)); [lia|].
    rewrite make_dim_ok by (repeat split; right; reflexivity). cbn [bind]. rewrite N, E. cbn [bind].
    eexists. split; [reflexivity|]. split; [simpl; lia|]. intros [|k] e0 Hk.
    + simpl in Hk. inv Hk. eexists _, _. split; [reflexivity|]. cbn [tmin text tstr dmin dext dstr firstn fold_right].
      repeat split; lia.
    + simpl in Hk. destruct (R k e0 Hk) as (t & d & Ek & A1 & A2 & A3 & A4 & A5 & A6).
      exists t, d. split; [exact Ek|]. repeat split; auto. rewrite A6. cbn [firstn fold_right]. lia.
Qed.

Lemma fixed_dense_tiles : forall exts cur base s, 1 <= cur -> Forall (fun e => 1 <= e) exts -> tiles cur base ->
  length s = length exts ->
  (forall k e, nth_error exts k = Some e -> exists d, nth_error s k = Some d /\ dext d = e /\
     dstr d = cur * fold_right Z.mul 1 (firstn k exts)) ->
  exists n, tiles n (rev s ++ base).
Proof.
  induction exts as [|e exts IH]; intros cur base [|d s] C H T L R; try discriminate L; simpl; [eauto|].
  rewrite <- app_assoc. simpl. inv H. destruct (R 0%nat e eq_refl) as (d' & Ed & X & HS). inv Ed.
  simpl in HS. apply (IH (cur * dext d')); auto; try nia.
  - constructor; auto. lia.
  - intros k e Hk. destruct (R (S k) e Hk) as (d & Ed & X' & S'). exists d. repeat split; auto.
    rewrite S'. simpl. lia.
Qed.

Lemma fixed_dense_ok : forall nd exts, Forall (fun e => 1 <= e) exts ->
  exists r, fixed_dense_shape nd exts = Ok r /\ map dext (map snd r) = exts /\
    (forall k t d, nth_error r k = Some (t, d) -> tmin t = 0 /\ dmin d = 0 /\ text t = dext d /\ tstr t = dstr d /\
       dstr d = fold_right Z.mul 1 (firstn k exts)) /\
    gapless (map snd r).
Proof.
  intros nd exts H. destruct (fixed_dense_from nd exts 1) as (r & E & L & R); [lia|auto|].
  exists r. split; [exact E|].
  assert (X : map dext (map snd r) = exts).
  { clear -L R. apply nth_ext with (d := 0) (d' := 0); [rewrite !map_length; auto|].
    intros k Hk. rewrite !map_length in Hk.
    destruct (nth_error exts k) as [e|] eqn:Ek.
    2:{ apply nth_error_None in Ek. lia. }
    destruct (R k e Ek) as (t & d & Er & _ & _ & _ & Xd & _).
    rewrite (nth_error_nth _ _ _ Ek). apply nth_error_nth.
    apply map_nth_error with (f := snd) in Er. apply map_nth_error with (f := dext) in Er.
    rewrite Er. simpl. congruence. }
  split; [exact X|]. split.
  - intros k t d Hk. assert (Lk : (k < length exts)%nat).
    { rewrite <- L. apply nth_error_Some. congruence. }
    destruct (nth_error exts k) as [e|] eqn:Ek; [|apply nth_error_None in Ek; lia].
    destruct (R k e Ek) as (t' & d' & Er & A1 & A2 & A3 & A4 & A5 & A6).
    assert (t' = t /\ d' = d) as [-> ->] by (split; congruence). repeat split; auto; lia.
  - destruct (fixed_dense_tiles exts 1 [] (map snd r)) as [n T]; auto; try lia.
    + constructor.
    + rewrite map_length. auto.
    + intros k e Ek. destruct (R k e Ek) as (t & d & Er & _ & _ & _ & Xd & _ & S).
      exists d. repeat split; auto. apply map_nth_error with (f := snd) in Er. exact Er.
    + rewrite app_nil_r in T. apply (tiles_gapless _ n (rev (map snd r))); auto.
      * unfold extents_ge. apply Forall_map. rewrite <- X in H. rewrite !Forall_map in H. auto.
      * apply Permutation_rev.
Qed.

(** One dense dimension *)
Fixpoint dense_once (E : Z) (b : bool) (l : tshape) : Prop :=
  match l with
  | [] => True
  | (t, d) :: r => (tstr t = -9 /\ dense_once E b r) \/ (b = true /\ tstr t = 1 /\ dext d = E /\ dense_once E false r)
  end.

Lemma dense_once_nested nd E : 1 <= E -> forall l b cur r, dense_once E b l -> well_typed l -> extents_ge 1 (map snd l) ->
  (cur = -9 \/ E <= cur) -> make_compact_from nd cur l = Ok r ->
  Forall (fun d => 1 <= dstr d /\ ((b = true /\ dstr d = 1 /\ dext d = E) \/ (cur <> -9 /\ cur <= dstr d))) (known_dims (map snd r)) /\
  ForallOrdPairs nest_rel (known_dims (map snd r)) /\
  stride_budget (map snd r) <= Z.max cur E * volume (map snd l) /\
  unknown_extents (map snd r) <= volume (map snd l).
Proof.
  intro HE. induction l as [|[t d] l IH]; intros b cur r D W X C Em.
  - simpl in Em. inv Em. split; [constructor|]. split; [constructor|]. unfold stride_budget, max_known_span, unknown_extents, volume. simpl. lia.
  - cbn [make_compact_from] in Em. inv W. inv X. cbn [fst snd] in *. destruct H1 as (F1 & F2 & F3).
    revert Em. set (t' := mkDT _ _ _).
    rewrite make_dim_ok.
    2:{ repeat split; cbn [dmin dext dstr]; auto. apply fits_default. }
    cbn [bind]. set (next := static_mul cur (text t)).
    destruct (make_compact_from nd next l) as [r'| |] eqn:E'; try discriminate.
    cbn [bind]. intro Em. injection Em as <-. cbn [map snd].
    assert (Nx : next = -9 \/ (cur <> -9 /\ next = cur * dext d)).
    { subst next. stat. destruct (Z.eqb_spec cur (-9)); simpl; auto. destruct (Z.eqb_spec (text t) (-9)); auto.
      destruct F2 as [|F2]; [contradiction|]. rewrite F2. auto. }
    assert (C' : next = -9 \/ E <= next) by (destruct Nx as [|[]]; [auto|right; nia]).
    assert (Vr : 1 <= volume (map snd l)) by (apply volume_pos; auto).
    assert (Vc : volume (d :: map snd l) = dext d * volume (map snd l)) by reflexivity.
    rewrite Vc.
    destruct D as [[Ds D]|(-> & Ds & Dx & D)].
    + destruct (IH b next r' D H2 H4 C' E') as (I1 & I2 & I3 & I4).
      assert (St : tstr t' = cur).
      { subst t'. cbn [tstr]. rewrite if_static. destruct (Z.eq_dec (tstr t) (-9)); [auto|contradiction]. }
      unfold default_stride. rewrite if_static, St.
      destruct (Z.eq_dec cur (-9)) as [Ec|Ec].
      * (* no stride yet *)
        set (d' := mkD (dmin d) (dext d) unresolved).
        assert (U : unknown_strideb d' = true) by reflexivity.
        rewrite known_dims_cons, U, unknown_extents_cons, U. unfold stride_budget in *.
        rewrite max_known_span_cons, U, unknown_extents_cons, U.
        assert (Nx9 : next = -9) by (destruct Nx as [|[]]; [auto|contradiction]).
        rewrite Nx9 in I1, I3. rewrite Ec. replace (dext d') with (dext d) by reflexivity.
        rewrite Z.max_r by lia.
        split.
        { eapply Forall_impl; [|exact I1]. intros a [A1 [A2|[A2 _]]]; [split; auto|contradiction]. }
        split; [exact I2|]. split; [|nia].
        rewrite Z.max_r in I3 by lia. rewrite Z.max_r by lia. nia.
      * assert (Cc : E <= cur) by (destruct C; [contradiction|auto]).
        set (d' := mkD (dmin d) (dext d) cur).
        assert (U : unknown_strideb d' = false) by (unfold unknown_strideb; subst d'; cbn [dstr]; lia).
        rewrite known_dims_cons, U, unknown_extents_cons, U. unfold stride_budget in *.
        rewrite max_known_span_cons, U, unknown_extents_cons, U.
        assert (Sp : span d' = cur * dext d) by (unfold span; subst d'; cbn [dstr dext]; lia).
        rewrite Sp. split; [|split].
        { constructor; [subst d'; cbn [dstr]; split; [lia|right; split; [auto|lia]]|].
          eapply Forall_impl; [|exact I1]. intros a [A1 [A2|[A2 A3]]]; split; auto.
          right. split; auto. destruct Nx as [|[_ Nx]]; [contradiction|]. nia. }
        { constructor; auto. eapply Forall_impl; [|exact I1]. intros a [A1 A2] _ _. unfold nested2.
          subst d'. cbn [dstr dext]. destruct A2 as [(_ & A2 & A3)|[A2 A3]].
          - right. rewrite A2, A3. lia.
          - left. destruct Nx as [|[_ Nx]]; [contradiction|]. rewrite Nx in A3. nia. }
        { split; [|nia]. pose proof (max_known_span_ge1 (map snd r')). pose proof (unknown_extents_ge1 (map snd r')).
          rewrite (Z.max_l cur E) by lia.
          assert (A : cur * dext d * unknown_extents (map snd r') <= cur * (dext d * volume (map snd l))).
          { rewrite <- Z.mul_assoc. apply Z.mul_le_mono_nonneg_l; [lia|]. apply Z.mul_le_mono_nonneg_l; lia. }
          assert (B : Z.max next E * volume (map snd l) <= cur * (dext d * volume (map snd l))).
          { rewrite Z.mul_assoc. apply Z.mul_le_mono_nonneg_r; [lia|]. destruct Nx as [->|[_ ->]]; nia. }
          destruct (Z.max_spec (cur * dext d) (max_known_span (map snd r'))) as [[_ ->]|[_ ->]]; lia. }
    + destruct (IH false next r' D H2 H4 C' E') as (I1 & I2 & I3 & I4).
      assert (St : tstr t' = 1).
      { subst t'. cbn [tstr]. rewrite if_static. destruct (Z.eq_dec (tstr t) (-9)); [lia|auto]. }
      unfold default_stride. rewrite if_static, St. destruct (Z.eq_dec 1 (-9)); [lia|].
      set (d' := mkD (dmin d) (dext d) 1).
      assert (U : unknown_strideb d' = false) by reflexivity.
      rewrite known_dims_cons, U, unknown_extents_cons, U. unfold stride_budget in *.
      rewrite max_known_span_cons, U, unknown_extents_cons, U.
      assert (Sp : span d' = E) by (unfold span; subst d'; cbn [dstr dext]; lia).
      rewrite Sp. split; [|split].
      { constructor; [subst d'; cbn [dstr dext]; split; [lia|left; auto]|].
        eapply Forall_impl; [|exact I1]. intros a [A1 [(A2 & _)|[A2 A3]]]; [discriminate|split; auto].
        right. destruct Nx as [|[N1 Nx]]; [contradiction|]. split; auto. nia. }
      { constructor; auto. eapply Forall_impl; [|exact I1]. intros a [A1 A2] _ _. unfold nested2.
        subst d'. cbn [dstr dext]. destruct A2 as [(A2 & _)|[A2 A3]]; [discriminate|].
        left. lia. }
      { split; [|nia]. pose proof (max_known_span_ge1 (map snd r')). pose proof (unknown_extents_ge1 (map snd r')).
        set (V := volume (map snd l)) in *.
        assert (A : E * unknown_extents (map snd r') <= Z.max cur E * (dext d * V)).
        { apply Z.mul_le_mono_nonneg; try lia. nia. }
        assert (B : Z.max next E * V <= Z.max cur E * (dext d * V)).
        { rewrite Z.mul_assoc. apply Z.mul_le_mono_nonneg_r; [lia|].
          destruct Nx as [->|[_ ->]]; [nia|]. rewrite Dx in *. destruct C as [C|C]; [nia|].
          rewrite (Z.max_l cur E) by lia. nia. }
        destruct (Z.max_spec E (max_known_span (map snd r'))) as [[_ ->]|[_ ->]]; lia. }
Qed.

Lemma dense_once_split E a t d b : dyn_strides a -> dyn_strides b -> tstr t = 1 -> dext d = E ->
  dense_once E true (a ++ (t, d) :: b).
Proof.
  intros Da Db T X. assert (Hb : dense_once E false b).
  { induction Db as [|[? ?]]; simpl; auto. }
  induction Da as [|[t0 d0] a H Da IH]; simpl; auto.
Qed.

Lemma variadic_max_const l M : Forall (fun x => x = -9 \/ x = M) l -> In M l -> 0 <= M -> variadic_max l = M.
Proof.
  intros F I HM.
  assert (G : forall l, Forall (fun x => x = -9 \/ x = M) l -> variadic_max l <= M /\ (In M l -> variadic_max l = M)).
  { clear -HM. induction 1 as [|x l H F [IH1 IH2]]; cbn [variadic_max].
    - split; [unfold index_min; lia|intros []].
    - rewrite cmax_max. split; [lia|]. intros [->|J]; [lia|]. rewrite IH2 by auto. lia. }
  apply G; auto.
Qed.

Lemma vany_false l : Forall (fun b => b = false) l -> vany l = false.
Proof.
  intro F. unfold vany. replace (vsum _) with 0; auto. symmetry.
  induction F; [reflexivity|]. cbn [map]. rewrite vsum_cons, IHF, H. reflexivity.
Qed.

Lemma compact_next_one_dense a t d b : dyn_strides a -> dyn_strides b -> tstr t = 1 -> fits (text t) (dext d) ->
  1 <= dext d -> compact_next (map fst (a ++ (t, d) :: b)) = if text t =? -9 then -9 else dext d.
Proof.
  intros Da Db T F X. unfold compact_next.
  assert (Ga : Forall (fun t => tstr t = -9) (map fst a)) by (apply Forall_map; exact Da).
  assert (Gb : Forall (fun t => tstr t = -9) (map fst b)) by (apply Forall_map; exact Db).
  rewrite map_app. simpl (map fst (_ :: _)).
  rewrite vany_false.
  2:{ apply Forall_map. apply Forall_app. split; [|constructor].
      - eapply Forall_impl; [|exact Ga]. simpl. intros x ->. reflexivity.
      - rewrite T. reflexivity.
      - eapply Forall_impl; [|exact Gb]. simpl. intros x ->. reflexivity. }
  destruct (vall (map (fun t => is_dynamic (tstr t)) (map fst a ++ t :: map fst b))) eqn:EA.
  { apply vall_map in EA. apply Forall_app in EA as [_ EA]. inv EA. rewrite T in H1. discriminate. }
  set (M := if text t =? -9 then -9 else dext d).
  assert (EM : static_abs (text t) = M).
  { subst M. stat. destruct (Z.eqb_spec (text t) (-9)) as [|N]; auto. destruct F as [|F]; [contradiction|].
    rewrite F in *. ifs; lia. }
  assert (FF : Forall (fun x => x = -9 \/ x = M) (map (fun t0 => if tstr t0 =? 1 then static_abs (text t0) else dynamic)
     (map fst a ++ t :: map fst b))).
  { apply Forall_map. apply Forall_app. split; [|constructor].
    - eapply Forall_impl; [|exact Ga]. simpl. intros x ->. left. reflexivity.
    - rewrite T. simpl. right. exact EM.
    - eapply Forall_impl; [|exact Gb]. simpl. intros x ->. left. reflexivity. }
  assert (II : In M (map (fun t0 => if tstr t0 =? 1 then static_abs (text t0) else dynamic) (map fst a ++ t :: map fst b))).
  { apply in_map_iff. exists t. rewrite T. simpl. split; [exact EM|]. apply in_or_app. right. left. reflexivity. }
  revert FF II. generalize (map (fun t0 => if tstr t0 =? 1 then static_abs (text t0) else dynamic) (map fst a ++ t :: map fst b)).
  intros l FF II. subst M. destruct (Z.eqb_spec (text t) (-9)).
  - clear -FF II. assert (G : Forall (fun x => x = -9) l) by (eapply Forall_impl; [|exact FF]; simpl; intros; lia).
    clear FF. induction G as [|x l -> G IH]; [destruct II|]. cbn [variadic_max].
    destruct l as [|y l]; [reflexivity|]. rewrite IH; [reflexivity|]. inv G. left. reflexivity.
  - apply variadic_max_const; auto. lia.
Qed.

Lemma make_compact_one_dense : forall nd a t d b,
  let l := a ++ (t, d) :: b in
  Forall (fun td => dim_fits (fst td) (snd td)) l ->
  Forall (fun td => tstr (fst td) = -9) a -> Forall (fun td => tstr (fst td) = -9) b -> tstr t = 1 ->
  extents_ge 1 (map snd l) -> dext d * volume (map snd l) < 9223372036854775807 ->
  exists r, make_compact nd l = Ok r /\ Forall2 same_bounds (map snd l) (map snd r) /\
    injective_layout (map snd r).
Proof.
  intros nd a t d b l W Da Db T X V.
  assert (Xd : 1 <= dext d).
  { unfold extents_ge in X. rewrite Forall_forall in X. apply X. apply in_map_iff. exists (t, d).
    split; auto. apply in_or_app. right. left. reflexivity. }
  assert (Fd : dim_fits t d).
  { rewrite Forall_forall in W. apply (W (t, d)). apply in_or_app. right. left. reflexivity. }
  destruct (make_compact_from_bounds nd (compact_next (map fst l)) l W) as (r & E & R).
  destruct (make_compact_unfold nd l r E) as (r' & E' & Es & Ef).
  destruct (make_compact_bounds nd l W) as (r2 & E2 & B & _). assert (r2 = r') by congruence. subst r2.
  exists r'. split; [exact E'|]. split; [exact B|]. rewrite Es in *.
  set (cur := compact_next (map fst l)) in *.
  assert (Cur : cur = -9 \/ cur = dext d).
  { subst cur l. rewrite compact_next_one_dense by (auto; apply Fd). destruct (text t =? -9); auto. }
  destruct (dense_once_nested nd (dext d) Xd l true cur r) as (N1 & N2 & N3 & N4); auto.
  { apply dense_once_split; auto. }
  { destruct Cur; [auto|right; lia]. }
  apply resolve_injective.
  - eapply Z.le_lt_trans; [exact N3|]. unfold index_max. rewrite Z.max_r by lia. exact V.
  - split; [|exact N2]. eapply Forall_impl; [|exact N1]. simpl. intros x [A _] _. lia.
Qed.

(** [not_equal] decides that no value has both types. *)
Lemma not_equal_iff a b : not_equal a b = true <-> ~ exists v, fits a v /\ fits b v.
Proof.
  unfold not_equal, is_static, dynamic, fits. rewrite !andb_true_iff, !negb_true_iff, !Z.eqb_neq. split.
  - intros [[Ha Hb] Hab] [v [H1 H2]]. lia.
  - intros H. split; [split|]; intros ->.
    + apply H. exists b. auto.
    + apply H. exists a. auto.
    + apply H. exists b. auto.
Qed.
