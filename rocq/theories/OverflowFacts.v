(** Loops, split iterators and the loop optimiser agree with the unbounded versions when the
    distances they compute fit in index_t (C59). *)
From Verif Require Import Tac Base Interval Shape Traverse Spec ShapeFacts IntervalFacts TraverseFacts
  ResolveFacts Checked SpecChecked CheckedFacts Overflow SpecOverflow.
Import ListNotations.
Open Scope Z_scope.

Ltac ckd := rewrite chk_ok by (unfold is_index in *; nia); cbn [bind].
Ltac ckl := rewrite chk_ok by (unfold is_index in *; lia); cbn [bind].

(** ** Range-for *)
Lemma k_imax_ok i : is_index (imin i + iext i) -> is_index (imin i + iext i - 1) -> k_imax i = Ok (imax i).
Proof. intros A B. unfold k_imax. ckl. ckl. reflexivity. Qed.
Lemma k_range_loop_ok fuel : forall i e, is_index i -> is_index e -> i <= e ->
  k_range_loop fuel i e = range_loop fuel i e.
Proof.
  induction fuel; intros i e I E L; cbn [k_range_loop range_loop]; auto. destruct (Z.eqb_spec i e); auto.
  ckl. rewrite IHfuel by (unfold is_index in *; lia). reflexivity.
Qed.
Lemma k_for_interval_ok i : is_interval i -> k_for_interval i = for_interval i.
Proof.
  intros [A [B [C [D E]]]]. unfold k_for_interval. rewrite k_imax_ok by auto. cbn [bind]. unfold imax. ckl.
  unfold for_interval, range_list, imax. replace (imin i + iext i - 1 + 1) with (imin i + iext i) by lia.
  apply k_range_loop_ok; auto. lia.
Qed.
Lemma is_dim_interval s : Forall is_dim s -> ends_fit s -> Forall (fun d => k_for_dim d = for_dim d) s.
Proof.
  intros A B. unfold ends_fit in B. rewrite Forall_forall in *. intros d Hd. apply k_for_interval_ok.
  destruct (A d Hd) as [? [? [? ?]]], (B d Hd). unfold is_interval. cbn. auto.
Qed.
Lemma flat_mapM_ext {A B} (f g : A -> outcome (list B)) l : (forall a, f a = g a) -> flat_mapM f l = flat_mapM g l.
Proof. intros H. induction l; simpl; auto. rewrite H, IHl. reflexivity. Qed.
Lemma k_fei_impl_ok : forall dims idx, Forall (fun d => k_for_dim d = for_dim d) dims -> k_fei_impl idx dims = fei_impl idx dims.
Proof.
  fix IH 1. intros [|d0 [|d1 rest]] idx H.
  - reflexivity.
  - cbn. rewrite (Forall_inv H). reflexivity.
  - pose proof (Forall_inv H) as H0. pose proof (Forall_inv (Forall_inv_tail H)) as H1.
    pose proof (Forall_inv_tail (Forall_inv_tail H)) as H2. cbn [k_fei_impl fei_impl]. rewrite H0.
    destruct (for_dim d0); cbn [bind]; auto. apply flat_mapM_ext. intros i. rewrite H1.
    destruct (for_dim d1); cbn [bind]; auto. apply flat_mapM_ext. intros j. apply IH. exact H2.
Qed.
Lemma k_for_each_index_ok s : Forall is_dim s -> ends_fit s -> k_for_each_index s = for_each_index s.
Proof.
  intros A B. unfold k_for_each_index, for_each_index. apply k_fei_impl_ok, Forall_rev, is_dim_interval; auto.
Qed.
Lemma is_dim_extents s : Forall is_dim s -> extents_ge 0 s.
Proof. intros H. eapply Forall_impl; [|exact H]. intros d [? [? [? ?]]]. auto. Qed.

(** ** Splits *)
Lemma k_add_dynamic_ok (om n k : Z) it : let m := imin (si_i it) in let e := iext (si_i it) in
  si_outer_max it = om -> is_index m -> is_index om -> 1 <= e <= n -> 0 <= k -> m + e * k <= om + 1 ->
  is_index n -> om + 1 + n <= 9223372036854775807 -> is_index (e * k) ->
  k_si_add_dynamic it k = Ok (si_add_dynamic it k).
Proof.
  intros m e Hom Im Io He Hk Hme In Hfit Hek. subst om. unfold k_si_add_dynamic, si_add_dynamic, iset_min, iset_extent, imax.
  cbn [imin iext]. fold m e. assert (0 <= e * k) by nia. set (ek := e * k) in *. clearbody ek.
  ckl. ckl. unfold k_imax. cbn [imin iext]. ckl. ckl. rewrite cmin_min. ckl. ckl. reflexivity.
Qed.
Lemma k_split_loop_S inner f it e : k_split_loop inner (S f) it e =
  if si_eqb it e then Ok [] else it' <- k_si_add inner it 1 ;; r <- k_split_loop inner f it' e ;; Ok (si_i it :: r).
Proof. reflexivity. Qed.
Lemma k_split_dynamic_loop om n : is_index om -> is_index n -> is_index (om + 1) -> om + 1 + n <= 9223372036854775807 ->
  forall it e l, split_for None it e l -> si_outer_max it = om -> imin (si_i e) = om + 1 ->
  is_index (imin (si_i it)) -> 0 <= iext (si_i it) <= n -> imin (si_i it) + iext (si_i it) <= om + 1 ->
  (imin (si_i it) <> om + 1 -> 1 <= iext (si_i it)) ->
  k_split_loop None (S (length l)) it e = Ok l.
Proof.
  intros Io In Io1 Hfit it e l H. induction H as [it e H|it e l H S IH]; intros Hom He Im Hx Hme H1.
  - cbn. rewrite H. reflexivity.
  - specialize (H1 ltac:(unfold si_eqb in H; lia)). cbn [length]. rewrite k_split_loop_S, H. cbn [k_si_add].
    rewrite (k_add_dynamic_ok om n) by (auto; unfold is_index in *; lia). cbn [bind].
    assert (k_split_loop None (Datatypes.S (length l)) (si_add_dynamic it 1) e = Ok l) as K.
    { apply IH; auto; unfold si_next, si_add_dynamic, iset_min, iset_extent, imax; cbn [imin iext si_i si_outer_max];
        rewrite ?cmin_min; unfold is_index in *; lia. }
    rewrite K. reflexivity.
Qed.
Lemma k_split_dynamic_ok v n : is_interval v -> 1 <= n -> is_index n -> imin v + iext v + n <= 9223372036854775807 ->
  k_split_dynamic v n = Ok (split_dynamic v n) /\
  (forall l, split_for None (sr_begin (split_dynamic v n)) (sr_end (split_dynamic v n)) l ->
     k_split_loop None (S (length l)) (sr_begin (split_dynamic v n)) (sr_end (split_dynamic v n)) = Ok l /\
     forall k, (k < length l)%nat ->
       k_si_add None (sr_begin (split_dynamic v n)) (Z.of_nat k) = Ok (sr_at None (split_dynamic v n) (Z.of_nat k))) /\
  (iext v + n <= 9223372036854775807 ->
     k_si_diff (sr_end (split_dynamic v n)) (sr_begin (split_dynamic v n)) = Ok (sr_size (split_dynamic v n))).
Proof.
  intros [A [B [C [D E]]]] N In F. split; [|split].
  - unfold k_split_dynamic. rewrite k_imax_ok by auto. cbn [bind]. unfold imax. ckl. reflexivity.
  - intros l H. split.
    + apply (k_split_dynamic_loop (imax v) n); auto; unfold imax, split_dynamic; cbn [sr_begin sr_end si_i imin iext si_outer_max];
        rewrite ?cmin_min; unfold is_index, imax in *; auto; lia.
    + intros k Hk. destruct (split_dynamic_access v n N C) as [l' [S' [_ [L X]]]].
      rewrite (split_for_det _ _ _ _ _ H S') in Hk. clear H.
      assert (P : iext v = 0 -> False). { intros Z0. rewrite Z0 in L. rewrite Z.div_small in L by lia. lia. }
      assert (K : n * Z.of_nat k < iext v).
      { assert (Z.of_nat k < (iext v + n - 1) / n) by lia. pose proof (Z.mul_div_le (iext v + n - 1) n ltac:(lia)). nia. }
      cbn [k_si_add]. unfold sr_at. assert (M : 0 <= Z.min n (iext v) * Z.of_nat k < iext v) by nia.
      apply (k_add_dynamic_ok (imax v) n); unfold imax, split_dynamic; cbn [sr_begin sr_end si_i imin iext si_outer_max];
        rewrite ?cmin_min; unfold is_index, imax in *; auto; lia.
  - intros G. unfold k_si_diff, sr_size, si_diff, split_dynamic, imax. cbn [sr_begin sr_end si_i imin iext]. rewrite cmin_min.
    destruct (Z.min n (iext v) >? 0) eqn:Q; auto.
    unfold k_imax, imax. cbn [imin iext]. ckl. ckl. ckl. ckl. ckl. apply chk_ok.
    set (a := imin v + iext v - 1 + 1 + 0 - 1 - imin v + Z.min n (iext v) - 0).
    assert (0 <= a <= 9223372036854775807) by lia. assert (1 <= Z.min n (iext v)) by lia.
    pose proof (Z.quot_pos a (Z.min n (iext v)) ltac:(lia) ltac:(lia)).
    assert (Z.quot a (Z.min n (iext v)) <= a) by (apply Z.quot_le_upper_bound; nia). unfold is_index. lia.
Qed.

Lemma k_add_static_ok (om N k : Z) it : let m := imin (si_i it) in
  si_outer_max it = om -> is_index m -> is_index om -> 1 <= N -> is_index N -> 0 <= k -> m + N <= om + 1 ->
  om + N <= 9223372036854775807 -> is_index (N * k) -> is_index (m + N * k) ->
  k_si_add_static N it k = Ok (si_add_static N it k).
Proof.
  intros m Hom Im Io HN IN Hk Hme Hfit Hek Hmk. subst om. unfold k_si_add_static, si_add_static, imax. cbn [imin iext].
  fold m. assert (K : N * k = 0 \/ N <= N * k) by (destruct (Z.eq_dec k 0); [left; subst; lia | right; nia]). set (nk := N * k) in *. clearbody nk.
  ckl. ckl. unfold k_imax. cbn [imin iext]. destruct (Z.leb_spec (m + nk) (si_outer_max it)) as [L|L]; cbn [andb]; auto.
  ckl. ckl. destruct (m + nk + N - 1 >? si_outer_max it) eqn:Q; auto.
  ckl. ckl. reflexivity.
Qed.
Lemma k_split_static_loop om N : is_index om -> 1 <= N -> is_index N -> is_index (om + 1) -> om + N <= 9223372036854775807 ->
  forall it e l, split_for (Some N) it e l -> si_outer_max it = om -> imin (si_i e) = om + 1 ->
  is_index (imin (si_i it)) -> iext (si_i it) = N -> (imin (si_i it) <> om + 1 -> imin (si_i it) + N <= om + 1) ->
  k_split_loop (Some N) (S (length l)) it e = Ok l.
Proof.
  intros Io N1 In Io1 Hfit it e l H. induction H as [it e H|it e l H S IH]; intros Hom He Im Hx Hme.
  - cbn. rewrite H. reflexivity.
  - specialize (Hme ltac:(unfold si_eqb in H; lia)). cbn [length]. rewrite k_split_loop_S, H. cbn [k_si_add].
    rewrite (k_add_static_ok om N) by (auto; unfold is_index in *; lia). cbn [bind].
    assert (k_split_loop (Some N) (Datatypes.S (length l)) (si_add_static N it 1) e = Ok l) as K.
    { apply IH; auto; unfold si_next, si_add_static, imax; cbn [imin iext si_i si_outer_max];
        destruct (Z.leb_spec (imin (si_i it) + N * 1) (si_outer_max it)), (Z.gtb_spec (imin (si_i it) + N * 1 + N - 1) (si_outer_max it));
        cbn [andb si_i imin iext si_outer_max]; unfold is_index in *; auto; lia. }
    rewrite K. reflexivity.
Qed.
Lemma k_split_static_ok v N nd : is_interval v -> 1 <= N <= iext v -> imin v + iext v - 1 + N <= 9223372036854775807 ->
  exists r, k_split_static nd N v = Ok r /\ split_static nd N v = Ok r /\
  (forall l, split_for (Some N) (sr_begin r) (sr_end r) l ->
     k_split_loop (Some N) (S (length l)) (sr_begin r) (sr_end r) = Ok l /\
     forall k, (k < length l)%nat -> k_si_add (Some N) (sr_begin r) (Z.of_nat k) = Ok (sr_at (Some N) r (Z.of_nat k))) /\
  (imin v + iext v + N <= 9223372036854775807 -> iext v + 2 * N - 1 <= 9223372036854775807 ->
     k_si_diff (sr_end r) (sr_begin r) = Ok (sr_size r)).
Proof.
  intros [A [B [C [D E]]]] N1 F. eexists. split; [|split; [|split]].
  - unfold k_split_static. replace (iext v >=? N) with true by lia. destruct nd; cbn [assert_ bind]; rewrite k_imax_ok by auto; cbn [bind]; unfold imax; ckl; reflexivity.
  - unfold split_static. replace (iext v >=? N) with true by lia. destruct nd; reflexivity.
  - cbn [sr_begin sr_end]. intros l H. split.
    + apply (k_split_static_loop (imax v) N); auto; unfold imax; cbn [si_i imin iext si_outer_max]; unfold is_index, imax in *; auto; lia.
    + intros k Hk. destruct (split_static_access v N nd N1) as [r [l' [R [S' [_ [L X]]]]]].
      unfold split_static in R. replace (iext v >=? N) with true in R by lia.
      assert (R' : r = mkSR (mkSI (mkI (imin v) N) (imax v)) (mkSI (mkI (imax v + 1) N) (imax v))) by (destruct nd; injection R as <-; reflexivity).
      subst r. cbn [sr_begin sr_end] in S'. unfold imax in S', H.
      rewrite (split_for_det _ _ _ _ _ H S') in Hk. clear H.
      assert (K : N * Z.of_nat k < iext v).
      { assert (Z.of_nat k < (iext v + N - 1) / N) by lia. pose proof (Z.mul_div_le (iext v + N - 1) N ltac:(lia)). nia. }
      cbn [k_si_add]. unfold sr_at. assert (M : 0 <= N * Z.of_nat k < iext v) by nia.
      apply (k_add_static_ok (imax v) N); unfold imax; cbn [sr_begin sr_end si_i imin iext si_outer_max];
        unfold is_index, imax in *; auto; lia.
  - intros G1 G2. unfold k_si_diff, sr_size, si_diff, imax. cbn [sr_begin sr_end si_i imin iext].
    destruct (N >? 0) eqn:Q; auto. unfold k_imax, imax. cbn [imin iext]. ckl. ckl. ckl. ckl. ckl.
    match goal with |- chk (?a ÷ N) = _ => set (b := a); assert (0 <= b <= 9223372036854775807) by (unfold is_index in *; lia) end.
    rewrite chk_ok; [f_equal; f_equal; unfold b; lia|].
    pose proof (Z.quot_pos b N ltac:(lia) ltac:(lia)).
    assert (Z.quot b N <= b) by (apply Z.quot_le_upper_bound; nia). unfold is_index. lia.
Qed.

(** ** The loop optimiser *)
Definition big := 9223372036854775807.
Lemma box_size_cons d s : box_size (d :: s) = Z.max 1 (dext d) * box_size s.
Proof. reflexivity. Qed.
Lemma box_size_pos s : 1 <= box_size s.
Proof. induction s as [|d s IH]; [unfold box_size; simpl; lia|]. rewrite box_size_cons. nia. Qed.
Lemma far_cons d s : far (d :: s) = Z.abs (dmin d) + far s.
Proof. reflexivity. Qed.
Lemma far_nonneg s : 0 <= far s.
Proof. induction s as [|d s IH]; [unfold far; simpl; lia|]. rewrite far_cons. lia. Qed.
Lemma box_size_perm s t : Permutation s t -> box_size s = box_size t.
Proof. induction 1; rewrite ?box_size_cons; try lia; auto. Qed.
Lemma far_perm s t : Permutation s t -> far s = far t.
Proof. induction 1; rewrite ?far_cons; try lia; auto. Qed.
Lemma loops_fit_perm s t : Permutation s t -> loops_fit s -> loops_fit t.
Proof.
  intros P [A [B [C D]]]. rewrite (box_size_perm _ _ P) in *. rewrite (far_perm _ _ P) in *.
  repeat split; auto; eapply Permutation_Forall; eauto.
Qed.
(** What the fusing loop needs to know about the dimension it is at and those that follow;
    [M] bounds the mins of the fused dimensions *)
Definition fits_from (M : Z) (cur : dim) (rest : list dim) : Prop :=
  0 <= dext cur /\ Z.abs (dstr cur) * dext cur <= big /\ Forall is_dim rest /\
  Forall (fun d => Z.abs (dstr d) * dext d <= big) rest /\
  Z.max 1 (dext cur) * box_size rest <= big /\
  Z.abs (dmin cur) + Z.max 1 (dext cur) * (far rest * box_size rest) <= M.
Lemma fits_from_start M d r : Forall is_dim (d :: r) -> Forall (fun d => Z.abs (dstr d) * dext d <= big) (d :: r) ->
  box_size (d :: r) <= big -> far (d :: r) * box_size (d :: r) <= M -> fits_from M d r.
Proof.
  intros A B C D. rewrite box_size_cons, far_cons in *. inversion A; subst. inversion B; subst.
  destruct H1 as [I1 [I2 [I3 I4]]]. unfold fits_from, big. pose proof (box_size_pos r). pose proof (far_nonneg r).
  repeat (split; auto).
  set (b := box_size r) in *. set (f := far r) in *. set (e := Z.max 1 (dext d)) in *. clearbody b f.
  assert (E : 1 <= e) by lia. clearbody e. clear - H H0 E D. assert (1 <= e * b) by nia.
  assert (Z.abs (dmin d) * 1 <= Z.abs (dmin d) * (e * b)) by (apply Z.mul_le_mono_nonneg_l; lia).
  replace ((Z.abs (dmin d) + f) * (e * b)) with (Z.abs (dmin d) * (e * b) + e * (f * b)) in D by ring. lia.
Qed.
Lemma fits_from_tail M cur d r : fits_from M cur (d :: r) -> fits_from M d r.
Proof.
  intros [A [B [C [D [E F]]]]]. pose proof (box_size_pos (d :: r)). pose proof (far_nonneg (d :: r)).
  assert (1 <= Z.max 1 (dext cur)) by lia. set (e := Z.max 1 (dext cur)) in *. clearbody e.
  assert (1 * box_size (d :: r) <= e * box_size (d :: r)) by (apply Z.mul_le_mono_nonneg_r; lia).
  assert (0 <= far (d :: r) * box_size (d :: r)) by (apply Z.mul_nonneg_nonneg; lia).
  assert (1 * (far (d :: r) * box_size (d :: r)) <= e * (far (d :: r) * box_size (d :: r))) by (apply Z.mul_le_mono_nonneg_r; lia).
  apply fits_from_start; auto; lia.
Qed.
Lemma fits_from_min M cur r : fits_from M cur r -> Z.abs (dmin cur) <= M.
Proof.
  intros [A [B [C [D [E F]]]]]. pose proof (box_size_pos r). pose proof (far_nonneg r).
  assert (0 <= far r * box_size r) by (apply Z.mul_nonneg_nonneg; lia).
  assert (0 <= Z.max 1 (dext cur) * (far r * box_size r)) by (apply Z.mul_nonneg_nonneg; lia). lia.
Qed.
Lemma k_can_fuse_ok cur d : 0 <= dext cur -> Z.abs (dstr cur) * dext cur <= big -> k_can_fuse cur d = Ok (can_fuse cur d).
Proof. unfold big. intros A B. unfold k_can_fuse, can_fuse. ckd. reflexivity. Qed.
Lemma fuse_bounds a f b e x : 0 <= a -> 0 <= f -> 1 <= b -> 1 <= e -> 1 <= x ->
  a * e + e * x * (f * b) <= e * ((a + f) * (x * b)) /\ e * x <= e * (x * b) /\ 0 <= f * b.
Proof.
  intros A F B E X. assert (XB : x * 1 <= x * b) by (apply Z.mul_le_mono_nonneg_l; lia).
  assert (A1 : a * 1 <= a * (x * b)) by (apply Z.mul_le_mono_nonneg_l; lia).
  assert (A2 : e * a <= e * (a * (x * b))) by (apply Z.mul_le_mono_nonneg_l; lia).
  repeat split.
  - replace (e * ((a + f) * (x * b))) with (e * (a * (x * b)) + e * x * (f * b)) by ring. lia.
  - apply Z.mul_le_mono_nonneg_l; lia.
  - apply Z.mul_nonneg_nonneg; lia.
Qed.
Lemma max_mul p q : 0 <= p -> 0 <= q -> 0 <= p * q /\ Z.max 1 (p * q) <= Z.max 1 p * Z.max 1 q.
Proof. intros A B. split; [nia|]. destruct (Z.max_spec 1 p) as [[? ->]|[? ->]], (Z.max_spec 1 q) as [[? ->]|[? ->]]; nia. Qed.
Lemma fits_from_fuse M cur d r : M <= big -> fits_from M cur (d :: r) -> can_fuse cur d = true ->
  k_fuse cur d = Ok (fuse cur d) /\ fits_from M (fuse cur d) r.
Proof.
  intros HM [A [B [C [D [E F]]]]] H. apply Z.eqb_eq in H. inversion C; subst. inversion D; subst. destruct H2 as [I1 [I2 [I3 I4]]].
  rewrite box_size_cons, far_cons in *. pose proof (box_size_pos r) as Pb. pose proof (far_nonneg r) as Pf. unfold big in *.
  destruct (fuse_bounds (Z.abs (dmin d)) (far r) (box_size r) (Z.max 1 (dext cur)) (Z.max 1 (dext d))) as [M2 [M4 M6]]; try lia.
  destruct (max_mul (dext cur) (dext d)) as [M8 Hm]; auto.
  assert (M1 : Z.abs (dmin d * dext cur) <= Z.abs (dmin d) * Z.max 1 (dext cur)).
  { rewrite Z.abs_mul. apply Z.mul_le_mono_nonneg_l; lia. }
  assert (M5 : Z.max 1 (dext cur * dext d) * (far r * box_size r) <= Z.max 1 (dext cur) * Z.max 1 (dext d) * (far r * box_size r))
    by (apply Z.mul_le_mono_nonneg_r; auto).
  assert (M7 : Z.max 1 (dext cur * dext d) * box_size r <= Z.max 1 (dext cur) * Z.max 1 (dext d) * box_size r)
    by (apply Z.mul_le_mono_nonneg_r; lia).
  assert (M9 : 0 <= Z.max 1 (dext cur * dext d) * (far r * box_size r)) by (apply Z.mul_nonneg_nonneg; lia).
  rewrite Z.mul_assoc in E.
  split.
  - unfold k_fuse, fuse. ckl. ckl. ckl. reflexivity.
  - unfold fits_from, fuse, big. cbn [dmin dext dstr]. split; [lia|]. split.
    + replace (Z.abs (dstr cur) * (dext cur * dext d)) with (Z.abs (dstr cur * dext cur) * dext d); [rewrite H; auto|].
      rewrite Z.abs_mul, (Z.abs_eq (dext cur)) by auto. ring.
    + repeat (split; auto); lia.
Qed.
Lemma k_fuse_from_ok M : M <= big -> forall rest cur, fits_from M cur rest -> k_fuse_from cur rest = Ok (fuse_from cur rest).
Proof.
  intros HM. induction rest as [|d r IH]; intros cur H; cbn [k_fuse_from fuse_from]; auto.
  rewrite k_can_fuse_ok by (destruct H as [? [? ?]]; auto). cbn [bind]. destruct (can_fuse cur d) eqn:Q.
  - destruct (fits_from_fuse M cur d r HM H Q) as [-> F]. cbn [bind]. auto.
  - rewrite IH by (eapply fits_from_tail; eauto). reflexivity.
Qed.
Lemma k_optimize_shape_ok s : loops_fit s -> k_optimize_shape s = Ok (optimize_shape s).
Proof.
  intros H. assert (D : k_dynamic_optimize_shape s = Ok (dynamic_optimize_shape s)).
  { unfold k_dynamic_optimize_shape, dynamic_optimize_shape.
    pose proof (loops_fit_perm _ _ (bubble_sort_perm dim_ltb s) H) as [A [B [C D]]].
    destruct (bubble_sort dim_ltb s) as [|d r]; cbn [k_fuse_dims fuse_dims]; auto.
    rewrite (k_fuse_from_ok big) by (try apply fits_from_start; auto; apply Z.le_refl). reflexivity. }
  destruct s as [|a [|b s]]; auto.
Qed.
Lemma k_for_each_value_ok s base : loops_fit s -> k_for_each_value s base = Ok (for_each_value s base).
Proof. intros H. unfold k_for_each_value, for_each_value. rewrite k_optimize_shape_ok by auto. reflexivity. Qed.

(** ** Two arrays *)
Definition fits2 (Ma Mb : Z) (cur : dim * dim) (rest : list (dim * dim)) : Prop :=
  fits_from Ma (fst cur) (map fst rest) /\ fits_from Mb (snd cur) (map snd rest).
Definition lead2 (l : list (dim * dim)) : Z :=
  fold_right Z.add 0 (map (fun p => Z.abs (dmin (snd p) - dmin (fst p)) * Z.abs (dstr (fst p))) l).
Lemma lead2_cons p l : lead2 (p :: l) = Z.abs (dmin (snd p) - dmin (fst p)) * Z.abs (dstr (fst p)) + lead2 l.
Proof. reflexivity. Qed.
Lemma lead2_nonneg l : 0 <= lead2 l.
Proof. induction l; [unfold lead2; simpl; lia|]. rewrite lead2_cons. nia. Qed.
Lemma lead2_perm s t : Permutation s t -> lead2 s = lead2 t.
Proof. induction 1; rewrite ?lead2_cons; try lia. Qed.
Lemma k_can_fuse2_ok Ma Mb cur d r : fits2 Ma Mb cur r -> k_can_fuse2 cur d = Ok (can_fuse2 cur d).
Proof.
  intros [[A [B _]] [C [D _]]]. unfold k_can_fuse2, can_fuse2. destruct (dext (fst cur) =? dext (snd cur)); cbn [andb]; auto.
  rewrite k_can_fuse_ok by auto. cbn [bind]. destruct (can_fuse (fst cur) (fst d)); cbn [andb]; auto. apply k_can_fuse_ok; auto.
Qed.
Lemma fuse2_lead cur d r : 0 <= dext (fst cur) -> can_fuse2 cur d = true -> lead2 (fuse2 cur d :: r) <= lead2 (cur :: d :: r).
Proof.
  intros H F. unfold can_fuse2, can_fuse in F. apply andb_true_iff in F. destruct F as [F _]. apply andb_true_iff in F. destruct F as [E F].
  apply Z.eqb_eq in E. apply Z.eqb_eq in F. rewrite !lead2_cons. unfold fuse2, fuse. cbn [fst snd dmin dstr].
  rewrite <- F, <- E, <- !Z.abs_mul.
  replace ((dmin (snd cur) + dmin (snd d) * dext (fst cur) - (dmin (fst cur) + dmin (fst d) * dext (fst cur))) * dstr (fst cur))
    with ((dmin (snd cur) - dmin (fst cur)) * dstr (fst cur) + (dmin (snd d) - dmin (fst d)) * (dstr (fst cur) * dext (fst cur))) by ring.
  lia.
Qed.
Lemma k_fuse2_from_ok Ma Mb : Ma <= big -> Mb <= big -> forall rest cur, fits2 Ma Mb cur rest ->
  k_fuse2_from cur rest = Ok (fuse2_from cur rest) /\ lead2 (fuse2_from cur rest) <= lead2 (cur :: rest) /\
  Forall (fun p => Z.abs (dmin (fst p)) <= Ma /\ Z.abs (dmin (snd p)) <= Mb) (fuse2_from cur rest).
Proof.
  intros HA HB. induction rest as [|d r IH]; intros cur H; cbn [k_fuse2_from fuse2_from].
  - destruct H as [A B]. repeat split; try lia. repeat constructor; eapply fits_from_min; eauto.
  - rewrite (k_can_fuse2_ok Ma Mb cur d (d :: r)) by auto. cbn [bind]. destruct (can_fuse2 cur d) eqn:Q.
    + pose proof Q as Q'. unfold can_fuse2 in Q'. apply andb_true_iff in Q'. destruct Q' as [Q' Qb].
      apply andb_true_iff in Q'. destruct Q' as [_ Qa]. destruct H as [A B]. cbn [map] in A, B.
      assert (0 <= dext (fst cur)) by apply A.
      destruct (fits_from_fuse Ma _ _ _ HA A Qa) as [Ka Fa], (fits_from_fuse Mb _ _ _ HB B Qb) as [Kb Fb].
      unfold k_fuse2. rewrite Ka. cbn [bind]. rewrite Kb. cbn [bind].
      destruct (IH (fuse2 cur d)) as [I1 [I2 I3]]; [split; auto|]. split; [exact I1|]. split; auto.
      pose proof (fuse2_lead cur d r H Q). lia.
    + destruct H as [A B]. cbn [map] in A, B.
      destruct (IH d) as [I1 [I2 I3]]; [split; eapply fits_from_tail; eauto|]. rewrite I1. cbn [bind]. split; auto. split.
      * rewrite !lead2_cons in *. lia.
      * constructor; auto. split; eapply fits_from_min; eauto.
Qed.
Lemma k_lead_ok l : lead2 l <= big -> Forall (fun p => Z.abs (dmin (fst p)) + Z.abs (dmin (snd p)) <= big) l ->
  k_flat_offset (map fst l) (mins (map snd l)) = Ok (flat_offset (map fst l) (mins (map snd l))) /\
  k_flat_offset (map snd l) (mins (map snd l)) = Ok (flat_offset (map snd l) (mins (map snd l))).
Proof.
  intros L F. unfold k_flat_offset, flat_offset, mins. rewrite map_map. split.
  - rewrite (map2M_ok _ dim_flat_offset).
    + cbn [bind]. apply k_sum_ok. eapply Z.le_trans; [|exact L]. clear.
      induction l as [|p l IH]; [reflexivity|]. rewrite lead2_cons. cbn [map map2]. unfold lsum in *. cbn [fold_right].
      unfold dim_flat_offset at 1. rewrite Z.abs_mul. lia.
    + induction l as [|p l IH]; cbn [map]; constructor.
      * rewrite lead2_cons in L. pose proof (lead2_nonneg l). apply Forall_inv in F. unfold k_dim_flat_offset, dim_flat_offset, big in *.
        rewrite <- Z.abs_mul in L. ckl. ckl. reflexivity.
      * rewrite lead2_cons in L. apply IH; [|exact (Forall_inv_tail F)].
        assert (0 <= Z.abs (dmin (snd p) - dmin (fst p)) * Z.abs (dstr (fst p))) by nia. lia.
  - rewrite (map2M_ok _ dim_flat_offset).
    + cbn [bind]. apply k_sum_ok. replace (lsum _) with 0; [unfold index_max; lia|]. clear.
      induction l as [|p l IH]; [reflexivity|]. cbn [map map2]. unfold lsum in *. cbn [fold_right].
      unfold dim_flat_offset at 1. rewrite Z.sub_diag. cbn [Z.mul Z.abs]. lia.
    + clear. induction l as [|p l IH]; cbn [map]; constructor; auto.
      unfold k_dim_flat_offset, dim_flat_offset. rewrite Z.sub_diag. reflexivity.
Qed.
Lemma lead2_pad n l : lead2 (pad2 n l) = lead2 l.
Proof.
  unfold pad2. generalize (n - length l)%nat. intros m. induction l as [|p l IH]; cbn [app].
  - induction m as [|m IH]; auto.
  - rewrite !lead2_cons, IH. reflexivity.
Qed.
Lemma combine_fst {A B} (a : list A) : forall b : list B, length a = length b -> map fst (combine a b) = a /\ map snd (combine a b) = b.
Proof.
  induction a as [|x a IH]; intros [|y b] H; try discriminate; auto. cbn [combine map]. destruct (IH b ltac:(cbn in H; lia)) as [-> ->]. auto.
Qed.
Lemma k_copy_ok ssrc src sdst dst : length ssrc = length sdst -> loops_fit ssrc -> loops_fit sdst ->
  far ssrc * box_size ssrc + far sdst * box_size sdst <= big -> lead ssrc sdst <= big ->
  k_for_each_value_copy ssrc src sdst dst = Ok (for_each_value_copy ssrc src sdst dst).
Proof.
  intros L Fs Fd Fm Fl.
  assert (exists l, k_optimize_copy_shapes ssrc sdst = Ok (map fst l, map snd l) /\
            optimize_copy_shapes ssrc sdst = (map fst l, map snd l) /\ lead2 l <= big /\
            Forall (fun p => Z.abs (dmin (fst p)) + Z.abs (dmin (snd p)) <= big) l) as [l [E1 [E2 [E3 E4]]]].
  { destruct (combine_fst ssrc sdst L) as [C1 C2]. change (lead2 (combine ssrc sdst) <= big) in Fl.
    set (c := combine ssrc sdst) in *.
    assert (D : exists l, k_dynamic_optimize_copy_shapes ssrc sdst = Ok (map fst l, map snd l) /\
            dynamic_optimize_copy_shapes ssrc sdst = (map fst l, map snd l) /\ lead2 l <= big /\
            Forall (fun p => Z.abs (dmin (fst p)) + Z.abs (dmin (snd p)) <= big) l).
    { unfold k_dynamic_optimize_copy_shapes, dynamic_optimize_copy_shapes. fold c.
      pose proof (bubble_sort_perm copy_ltb c) as P. rewrite (lead2_perm _ _ P) in Fl.
      pose proof (Permutation_map fst P) as P1. pose proof (Permutation_map snd P) as P2. rewrite C1 in P1. rewrite C2 in P2.
      set (b := bubble_sort copy_ltb c) in *. clearbody b.
      assert (K : k_fuse2_dims b = Ok (fuse2_dims b) /\ lead2 (fuse2_dims b) <= big /\
                  Forall (fun p => Z.abs (dmin (fst p)) + Z.abs (dmin (snd p)) <= big) (fuse2_dims b)).
      { apply (loops_fit_perm _ _ P1) in Fs. apply (loops_fit_perm _ _ P2) in Fd.
        rewrite (far_perm _ _ P1), (box_size_perm _ _ P1), (far_perm _ _ P2), (box_size_perm _ _ P2) in Fm.
        clear P P1 P2. destruct b as [|p r]; cbn [k_fuse2_dims fuse2_dims map] in *; [split; auto|].
        destruct Fs as [A1 [A2 [A3 A4]]], Fd as [B1 [B2 [B3 B4]]].
        destruct (k_fuse2_from_ok (far (fst p :: map fst r) * box_size (fst p :: map fst r))
                   (far (snd p :: map snd r) * box_size (snd p :: map snd r)) A4 B4 r p) as [K1 [K2 K3]].
        { split; apply fits_from_start; auto; apply Z.le_refl. }
        split; [exact K1|]. split; [lia|]. eapply Forall_impl; [|exact K3]. cbv beta. intros q [? ?]. lia. }
      destruct K as [K1 [K2 K3]]. exists (pad2 (length ssrc) (fuse2_dims b)). rewrite K1. cbn [bind]. split; auto. split; auto.
      rewrite lead2_pad. split; auto. unfold pad2. apply Forall_app. split; auto.
      apply Forall_forall. intros q Hq. apply repeat_spec in Hq. subst q. cbn. unfold big. lia. }
    destruct ssrc as [|a [|a' ssrc]], sdst as [|b [|b' sdst]]; try discriminate L; auto. }
  unfold k_for_each_value_copy, for_each_value_copy, for_each_value_in_order2. rewrite E1, E2. cbn [bind].
  destruct (k_lead_ok l E3 E4) as [-> ->]. reflexivity.
Qed.

(** ** Images and matrices *)
Lemma k_image_index_ok x y c : Forall is_dim [x; y; c] -> ends_fit [x; y; c] -> k_for_each_image_index x y c = for_each_image_index x y c.
Proof.
  intros A B. pose proof (is_dim_interval _ A B) as F. inversion F as [|? ? Fx F1]; subst. inversion F1 as [|? ? Fy F2]; subst.
  inversion F2 as [|? ? Fc F3]; subst. unfold k_for_each_image_index, for_each_image_index. rewrite Fy.
  destruct (for_dim y); cbn [bind]; auto. apply flat_mapM_ext. intros yv. rewrite Fx. destruct (for_dim x); cbn [bind]; auto.
  apply flat_mapM_ext. intros xv. rewrite Fc. reflexivity.
Qed.
Lemma k_matrix_index_ok i j : Forall is_dim [i; j] -> ends_fit [i; j] -> k_for_each_matrix_index i j = for_each_matrix_index i j.
Proof.
  intros A B. pose proof (is_dim_interval _ A B) as F. inversion F as [|? ? Fi F1]; subst. inversion F1 as [|? ? Fj F2]; subst.
  unfold k_for_each_matrix_index, for_each_matrix_index. rewrite Fi. destruct (for_dim i); cbn [bind]; auto.
  apply flat_mapM_ext. intros iv. rewrite Fj. reflexivity.
Qed.
Lemma k_chunky_ok x y c base : is_index (dmin x * dext c) -> is_index (dext x * dext c) ->
  k_chunky_for_each_value x y c base = Ok (chunky_for_each_value x y c base).
Proof.
  intros A B. unfold k_chunky_for_each_value, chunky_for_each_value. destruct (dext c =? dstr x); auto. ckl. ckl. reflexivity.
Qed.

(** ** The statements of C59 *)
Lemma loops_range_for : forall i : interval, is_interval i ->
  exists l, k_for_interval i = Ok l /\ StronglySorted Z.lt l /\ forall x, In x l <-> in_interval i x.
Proof.
  intros i H. pose proof (k_for_interval_ok i H) as K. destruct H as [A [B [C [D E]]]].
  destruct (range_for_visits i ltac:(unfold is_index in *; lia)) as [X _]. destruct (X C) as [l [_ [_ [_ [S [I F]]]]]].
  exists l. rewrite K. auto.
Qed.
Lemma loops_for_each_index : forall s : shape, Forall is_dim s -> ends_fit s ->
  exists l, k_for_each_index s = Ok l /\ enumerates (in_bounds s) l /\ StronglySorted colex_lt l.
Proof. intros s A B. rewrite k_for_each_index_ok by auto. apply for_each_index_visits, is_dim_extents, A. Qed.
Lemma loops_for_each_value : forall (s : shape) (base : Z), loops_fit s ->
  exists l, enumerates (in_bounds s) l /\ k_for_each_value s base = Ok (map (fun i => [base + offset s i]) l).
Proof.
  intros s base H. destruct (for_each_value_visits s base (is_dim_extents _ (proj1 H))) as [l [E V]]. exists l. split; auto.
  rewrite k_for_each_value_ok by auto. rewrite V. f_equal. apply map_ext. intros i. rewrite flat_offset_spec. reflexivity.
Qed.
Lemma loops_copy : forall (ssrc sdst : shape) (src dst : Z), length ssrc = length sdst ->
  loops_fit ssrc -> loops_fit sdst ->
  far ssrc * box_size ssrc + far sdst * box_size sdst <= 9223372036854775807 -> lead ssrc sdst <= 9223372036854775807 ->
  exists l, enumerates (in_bounds sdst) l /\
    k_for_each_value_copy ssrc src sdst dst = Ok (map (fun i => [src + offset ssrc i; dst + offset sdst i]) l).
Proof.
  intros ssrc sdst src dst L A B C D. destruct (copy_traversal_pairs ssrc sdst src dst L (is_dim_extents _ (proj1 B))) as [l [E V]].
  exists l. split; auto. rewrite k_copy_ok by auto. rewrite V. f_equal. apply map_ext. intros i. rewrite !flat_offset_spec. reflexivity.
Qed.
Lemma loops_split_dynamic : forall (v : interval) (n : Z), is_interval v -> 1 <= n -> is_index n ->
  imin v + iext v + n <= 9223372036854775807 ->
  exists r l, k_split_dynamic v n = Ok r /\
    (exists fuel, k_split_loop None fuel (sr_begin r) (sr_end r) = Ok l) /\
    consecutive (imin v) (imin v + iext v) l /\
    Forall (fun p => 1 <= iext p <= n) l /\ Forall (fun p => iext p = n) (removelast l) /\
    (forall k, (k < length l)%nat -> exists it, k_si_add None (sr_begin r) (Z.of_nat k) = Ok it /\ nth_error l k = Some (si_i it)) /\
    (iext v + n <= 9223372036854775807 -> k_si_diff (sr_end r) (sr_begin r) = Ok (Z.of_nat (length l))).
Proof.
  intros v n I N In F. destruct (k_split_dynamic_ok v n I N In F) as [K1 [K2 K3]].
  destruct (split_dynamic_partition v n N ltac:(apply I)) as [l [S [_ [C [P1 [P2 _]]]]]].
  destruct (split_dynamic_access v n N ltac:(apply I)) as [l' [S' [Z' [_ X]]]].
  assert (l' = l) by (eapply split_for_det; eauto). subst l'. destruct (K2 l S) as [L1 L2].
  exists (split_dynamic v n), l. split; auto. split; [eexists; exact L1|]. repeat (split; auto).
  - intros k Hk. eexists. split; [apply L2; auto|]. apply X. auto.
  - intros G. rewrite K3 by auto. rewrite Z'. reflexivity.
Qed.
Lemma loops_split_static : forall (v : interval) (N : Z) (ndebug : bool), is_interval v -> 1 <= N <= iext v ->
  imin v + iext v - 1 + N <= 9223372036854775807 ->
  exists r l, k_split_static ndebug N v = Ok r /\
    (exists fuel, k_split_loop (Some N) fuel (sr_begin r) (sr_end r) = Ok l) /\
    Forall (fun p => iext p = N /\ forall x, in_interval p x -> in_interval v x) l /\
    (forall x, in_interval v x -> exists p, In p l /\ in_interval p x) /\
    Z.of_nat (length l) = (iext v + N - 1) / N /\
    (forall k, (k < length l)%nat -> exists it, k_si_add (Some N) (sr_begin r) (Z.of_nat k) = Ok it /\ nth_error l k = Some (si_i it)) /\
    (imin v + iext v + N <= 9223372036854775807 -> iext v + 2 * N - 1 <= 9223372036854775807 ->
       k_si_diff (sr_end r) (sr_begin r) = Ok (Z.of_nat (length l))).
Proof.
  intros v N nd I N1 F. destruct (k_split_static_ok v N nd I N1 F) as [r [K1 [K0 [K2 K3]]]].
  destruct (split_static_covers v N nd N1) as [r1 [l [R1 [S [_ [C [P1 _]]]]]]].
  destruct (split_static_access v N nd N1) as [r2 [l' [R2 [S' [Z' [Q X]]]]]].
  assert (r1 = r) by congruence. assert (r2 = r) by congruence. subst r1 r2.
  assert (l' = l) by (eapply split_for_det; eauto). subst l'. destruct (K2 l S) as [L1 L2].
  exists r, l. split; auto. split; [eexists; exact L1|]. repeat (split; auto).
  - intros k Hk. eexists. split; [apply L2; auto|]. apply X. auto.
  - intros G1 G2. rewrite K3 by auto. rewrite Z'. reflexivity.
Qed.
Lemma loops_image_index : forall x y c : dim, Forall is_dim [x; y; c] -> ends_fit [x; y; c] ->
  exists l, k_for_each_image_index x y c = Ok l /\ enumerates (in_bounds [x; y; c]) l.
Proof.
  intros x y c A B. rewrite k_image_index_ok by auto. pose proof (is_dim_extents _ A) as E.
  destruct (image_index_visits x y c) as [l [H1 [H2 _]]]; [apply (Forall_inv E) | apply (Forall_inv (Forall_inv_tail E)) |
    apply (Forall_inv (Forall_inv_tail (Forall_inv_tail E))) |]. eauto.
Qed.
Lemma loops_matrix_index : forall i j : dim, Forall is_dim [i; j] -> ends_fit [i; j] ->
  exists l, k_for_each_matrix_index i j = Ok l /\ enumerates (in_bounds [i; j]) l /\ StronglySorted lex_lt l.
Proof.
  intros i j A B. rewrite k_matrix_index_ok by auto. pose proof (is_dim_extents _ A) as E.
  apply matrix_index_visits; [apply (Forall_inv E) | apply (Forall_inv (Forall_inv_tail E))].
Qed.
Lemma loops_chunky_value : forall (x y c : dim) (base : Z), Forall is_dim [x; y; c] -> dstr c = 1 ->
  is_index (dmin x * dext c) -> is_index (dext x * dext c) ->
  exists l, enumerates (in_bounds [x; y; c]) l /\
    k_chunky_for_each_value x y c base = Ok (map (fun i => [base + offset [x; y; c] i]) l).
Proof.
  intros x y c base A S B C. rewrite k_chunky_ok by auto. pose proof (is_dim_extents _ A) as E.
  destruct (chunky_value_visits x y c base) as [l [H1 H2]]; [apply (Forall_inv E) | apply (Forall_inv (Forall_inv_tail E)) |
    apply (Forall_inv (Forall_inv_tail (Forall_inv_tail E))) | exact S |]. exists l. split; auto. rewrite H2. f_equal.
  apply map_ext. intros i. rewrite flat_offset_spec. reflexivity.
Qed.

(** ** Overflows *)
Lemma last_index_overflows : exists i : interval, is_index (imin i) /\ is_index (iext i) /\ 0 <= iext i /\
  (forall x, in_interval i x -> is_index x) /\ in_interval i 9223372036854775807 /\ k_for_interval i = UB.
Proof.
  exists (mkI 9223372036854775800 8). unfold is_index, in_interval. cbn [imin iext]. repeat (split; try lia).
Qed.
Lemma first_index_overflows : exists i : interval, is_index (imin i) /\ iext i = 0 /\
  (forall x, ~ in_interval i x) /\ k_for_interval i = UB.
Proof.
  exists (mkI (-9223372036854775808) 0). unfold is_index, in_interval. cbn [imin iext]. repeat (split; try lia).
Qed.
Lemma split_near_the_end : exists (v : interval) (n : Z) (r : split_result),
  is_interval v /\ k_split_dynamic v n = Ok r /\
  split_for None (sr_begin r) (sr_end r) [mkI 9223372036854775801 3; mkI 9223372036854775804 2] /\
  forall fuel, k_split_loop None fuel (sr_begin r) (sr_end r) = UB.
Proof.
  exists (mkI 9223372036854775801 5), 3. eexists. split; [unfold is_interval, is_index; cbn; lia|]. split; [reflexivity|].
  cbn [sr_begin sr_end]. split.
  - apply (split_loop_for None 4). reflexivity.
  - intros [|[|[|fuel]]]; reflexivity.
Qed.
Lemma fused_min_overflows : exists s : shape, Forall is_dim s /\ ends_fit s /\ reach s = 2047 /\
  resolve s = s /\ k_flat_extent s = Ok 2048 /\ k_size s = Ok 2048 /\ k_for_each_value s 0 = UB.
Proof.
  exists [mkD 0 1024 1; mkD 1152921504606846976 2 1024].
  split; [repeat constructor; discriminate|]. split; [repeat constructor; discriminate|]. repeat split.
Qed.
