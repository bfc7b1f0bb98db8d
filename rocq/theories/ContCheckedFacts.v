(** Arrays and algorithms agree with the unbounded versions when the distances they compute fit
    in index_t (C69). *)
From Verif Require Import Tac Base Interval Shape Traverse Memory Ref Spec SpecMem ShapeFacts IntervalFacts TraverseFacts
  ResolveFacts Checked SpecChecked CheckedFacts Overflow SpecOverflow OverflowFacts ViewChecked ViewCheckedFacts
  ShapeProps RefFacts SpecStatic Container SpecContainer ContainerFacts ContainerWorld ContChecked SpecContChecked.
Import ListNotations.
Open Scope Z_scope.

Notation big := 9223372036854775807 (only parsing).

(** ** Budgets *)
Lemma widest_ge1 s : 1 <= widest s.
Proof. unfold widest. induction (map _ (known_dims s)) as [|x l IH]; simpl; lia. Qed.
Lemma widest_cons d s : widest (d :: s) =
  if unknown_strideb d then widest s else Z.max (Z.abs (dstr d) * Z.max 1 (dext d)) (widest s).
Proof. unfold widest, known_dims. simpl. destruct (unknown_strideb d); reflexivity. Qed.
Lemma widest_app a b : widest (a ++ b) = Z.max (widest a) (widest b).
Proof.
  induction a as [|d a IH]; cbn [app].
  - pose proof (widest_ge1 b). unfold widest at 2. simpl. lia.
  - rewrite !widest_cons, IH. destruct (unknown_strideb d); lia.
Qed.
Lemma widest_in s d : In d s -> ~ unknown_stride d -> Z.abs (dstr d) * Z.max 1 (dext d) <= widest s.
Proof.
  induction s as [|e s IH]; intros H U; [destruct H|]. rewrite widest_cons. destruct H as [->|H].
  - destruct (unknown_strideb d) eqn:E; [apply unknown_strideb_iff in E; contradiction|lia].
  - specialize (IH H U). destruct (unknown_strideb e); lia.
Qed.
Lemma span_le_widest s : max_known_span s <= widest s.
Proof.
  induction s as [|d s IH]; [unfold max_known_span, widest; simpl; lia|]. rewrite max_known_span_cons, widest_cons.
  destruct (unknown_strideb d); auto. unfold span.
  assert (Z.abs (dstr d) * dext d <= Z.abs (dstr d) * Z.max 1 (dext d)) by (apply Z.mul_le_mono_nonneg_l; lia). lia.
Qed.
Lemma stride_le_layout s : stride_budget s <= layout_budget s.
Proof.
  unfold stride_budget, layout_budget. pose proof (span_le_widest s). pose proof (unknown_extents_ge1 s).
  apply Z.mul_le_mono_nonneg_r; lia.
Qed.
Lemma layout_step_arith M1 M2 U1 U2 e m : 1 <= M1 -> 1 <= M2 -> 1 <= U1 -> 1 <= U2 -> 1 <= m <= Z.max M1 M2 -> 1 <= e ->
  Z.max M1 (Z.max (m * e) M2) * (U1 * U2) <= Z.max M1 M2 * (U1 * (e * U2)).
Proof.
  intros A B C D E F. assert (Z.max M1 (Z.max (m * e) M2) <= Z.max M1 M2 * e) by nia.
  assert (0 <= U1 * U2) by nia. replace (Z.max M1 M2 * (U1 * (e * U2))) with ((Z.max M1 M2 * e) * (U1 * U2)) by ring.
  apply Z.mul_le_mono_nonneg_r; auto.
Qed.
Lemma layout_step before d rest m : unknown_stride d -> 1 <= m <= max_known_span (before ++ d :: rest) ->
  m < index_max ->
  layout_budget (before ++ set_stride d m :: rest) <= layout_budget (before ++ d :: rest).
Proof.
  intros U Hm Hi. pose proof (span_le_widest (before ++ d :: rest)) as W. unfold layout_budget.
  rewrite !widest_app, !unknown_extents_app, !widest_cons, !unknown_extents_cons in *.
  assert (E : unknown_strideb d = true) by (apply unknown_strideb_iff, U). rewrite E in *.
  assert (E2 : unknown_strideb (set_stride d m) = false) by (unfold unknown_strideb; simpl; lia).
  rewrite E2. cbn [set_stride dstr dext]. rewrite (Z.abs_eq m) by lia.
  apply layout_step_arith; try apply widest_ge1; try apply unknown_extents_ge1; lia.
Qed.
Lemma layout_resolve s : stride_budget s < index_max -> layout_budget (resolve s) <= layout_budget s.
Proof.
  unfold resolve. change s with ([] ++ s) at 1 3. generalize (@nil dim) as before.
  induction s as [|d rest IH]; intros before H; [rewrite app_nil_r; simpl; lia|].
  cbn [resolve_from]. rewrite is_unresolved_unknown. destruct (unknown_strideb d) eqn:U.
  - assert (U' : unknown_stride d) by (apply unknown_strideb_iff; auto).
    pose proof (budget_ge_span (before ++ d :: rest)) as B1.
    destruct (find_stride_sound (dext d) (before ++ d :: rest)) as [F1 F2]; [lia|].
    pose proof (find_stride_le_max (dext d) (before ++ d :: rest)) as F3.
    eapply Z.le_trans; [apply IH|]; rewrite <- app_assoc; cbn [app].
    + eapply Z.le_lt_trans; [|exact H]. apply budget_step; auto.
    + apply layout_step; auto. lia.
  - eapply Z.le_trans; [apply IH|]; rewrite <- app_assoc; cbn [app]; auto. lia.
Qed.

(** ** Tame shapes *)
Definition span_sum (s : shape) : Z := fold_right Z.add 0 (map (fun d => Z.abs (dstr d) * Z.max 1 (dext d)) s).
Lemma span_sum_cons d s : span_sum (d :: s) = Z.abs (dstr d) * Z.max 1 (dext d) + span_sum s.
Proof. reflexivity. Qed.
Lemma span_sum_le s W : Forall (fun d => Z.abs (dstr d) * Z.max 1 (dext d) <= W) s -> span_sum s <= Z.of_nat (length s) * W.
Proof. induction 1; [unfold span_sum; simpl; lia|]. rewrite span_sum_cons. cbn [length]. rewrite Nat2Z.inj_succ. nia. Qed.
Lemma reach_le_span s : Forall is_dim s -> reach s <= span_sum s.
Proof.
  induction 1 as [|d s H _ IH]; [unfold reach, span_sum; simpl; lia|]. rewrite span_sum_cons. unfold reach in *. cbn [map fold_right].
  destruct H as [_ [_ [_ H]]].
  assert (Z.abs (dext d - 1) * Z.abs (dstr d) <= Z.max 1 (dext d) * Z.abs (dstr d)) by (apply Z.mul_le_mono_nonneg_r; lia). lia.
Qed.
Lemma layout_ge1 s : 1 <= layout_budget s.
Proof. unfold layout_budget. pose proof (widest_ge1 s). pose proof (unknown_extents_ge1 s). nia. Qed.
Lemma tame_layout d s : tame (d :: s) -> layout_budget (d :: s) < big.
Proof.
  intros [_ [_ [_ [_ H]]]]. pose proof (layout_ge1 (d :: s)). cbn [length] in H. rewrite Nat2Z.inj_succ in H.
  assert (1 * layout_budget (d :: s) <= Z.succ (Z.of_nat (length s)) * layout_budget (d :: s)) by (apply Z.mul_le_mono_nonneg_r; lia). lia.
Qed.
Lemma tame_budget s : tame s -> stride_budget s < index_max.
Proof.
  intros H. destruct s as [|d s]; [reflexivity|]. pose proof (tame_layout d s H). pose proof (stride_le_layout (d :: s)).
  unfold index_max. lia.
Qed.
Lemma k_resolve_tame s : tame s -> k_resolve s = Ok (resolve s).
Proof. intros H. apply k_resolve_ok; [apply H|apply tame_budget, H]. Qed.
Lemma same_bounds_box s t : Forall2 same_bounds s t -> box_size s = box_size t /\ far s = far t.
Proof.
  induction 1 as [|d e s t [A B] _ [I J]]; [auto|]. rewrite !box_size_cons, !far_cons, A, B, I, J. auto.
Qed.
Lemma resolve_bounds s : stride_budget s < index_max -> Forall2 same_bounds (resolve s) s.
Proof.
  intros H. pose proof (resolve_spec s H) as F. clear H. revert F. generalize (resolve s). intros r F.
  induction F as [|d e a b [A [B _]] _ IH]; constructor; auto. split; auto.
Qed.
Lemma tame_resolve s : tame s -> tame (resolve s) /\ known_strides (resolve s) /\ Forall2 same_bounds (resolve s) s.
Proof.
  intros T. pose proof (tame_budget s T) as B. pose proof (resolve_bounds s B) as S. split; [|split; auto; apply resolved_all_known, B].
  destruct T as [A [E [C [D F]]]]. destruct (same_bounds_box _ _ S) as [S1 S2]. unfold tame. rewrite S1, S2.
  pose proof (layout_resolve s B) as L. pose proof (resolve_spec s B) as R. pose proof (Forall2_len _ _ _ R) as N. rewrite <- N. split.
  - clear -A R. induction R as [|d e a b R1 _ IH]; [constructor|]. inversion A; subst. constructor; auto.
    destruct R1 as [R1 [R2 [R3 R4]]]. destruct H1 as [I1 [I2 [I3 I4]]]. unfold is_dim. rewrite R1, R2. repeat (split; auto); unfold is_index, index_max in *.
    + destruct (Z.eq_dec (dstr d) (-9223372036854775808)) as [U|U]; [apply R4 in U; lia|]. rewrite (R3 U). lia.
    + destruct (Z.eq_dec (dstr d) (-9223372036854775808)) as [U|U]; [apply R4 in U; lia|]. rewrite (R3 U). lia.
  - split.
    + clear -E S. unfold ends_fit in *. induction S as [|d e a b [S1 S2] _ IH]; [constructor|]. inversion E; subst. constructor; auto.
      rewrite S1, S2. auto.
    + split; auto. split; auto. eapply Z.le_lt_trans; [|exact F]. apply Z.mul_le_mono_nonneg_l; lia.
Qed.
Lemma settled_known s : known_strides s -> settled s.
Proof. intros H. eapply Forall_impl; [|exact H]. intros d U V. contradiction. Qed.
Lemma tame_span s : tame s -> known_strides s -> span_sum s < big.
Proof.
  intros T K. destruct T as [A [E [C [D F]]]].
  eapply Z.le_lt_trans; [apply span_sum_le with (W := widest s)|].
  - apply Forall_forall. intros d H. apply widest_in; auto. unfold known_strides in K. rewrite Forall_forall in K. auto.
  - eapply Z.le_lt_trans; [|exact F]. apply Z.mul_le_mono_nonneg_l; [lia|]. unfold layout_budget.
    pose proof (widest_ge1 s). pose proof (unknown_extents_ge1 s). nia.
Qed.
Lemma tame_reach s : tame s -> known_strides s -> reach s < index_max.
Proof. intros T K. pose proof (tame_span s T K). pose proof (reach_le_span s (proj1 T)). unfold index_max. lia. Qed.
Lemma far_box_nonneg s : 0 <= far s * box_size s.
Proof. pose proof (far_nonneg s). pose proof (box_size_pos s). apply Z.mul_nonneg_nonneg; lia. Qed.
Lemma tame_settled_span s : tame s -> settled s -> Forall (fun d => Z.abs (dstr d) * dext d <= big) s.
Proof.
  intros T S. apply Forall_forall. intros d H. destruct (Z.eq_dec (dstr d) (-9223372036854775808)) as [U|U].
  - unfold settled in S. rewrite Forall_forall in S. rewrite (S d H U). lia.
  - destruct s as [|e s]; [destruct H|]. pose proof (tame_layout e s T). pose proof (widest_in (e :: s) d H U). unfold layout_budget in *.
    pose proof (widest_ge1 (e :: s)). pose proof (unknown_extents_ge1 (e :: s)).
    assert (Z.abs (dstr d) * dext d <= Z.abs (dstr d) * Z.max 1 (dext d)) by (apply Z.mul_le_mono_nonneg_l; lia).
    assert (widest (e :: s) * 1 <= widest (e :: s) * unknown_extents (e :: s)) by (apply Z.mul_le_mono_nonneg_l; lia). lia.
Qed.
Lemma tame_loops s : tame s -> settled s -> loops_fit s.
Proof.
  intros T S. pose proof (tame_settled_span s T S) as P. pose proof (far_box_nonneg s). destruct T as [A [E [C [D F]]]].
  repeat (split; auto). lia.
Qed.

(** ** Traversals *)
Lemma k_empty_ok s : extents_ge 0 s -> box_size s <= big -> k_empty s = Ok (empty s).
Proof. intros A B. unfold k_empty. rewrite k_size_ok by (auto; unfold index_max; lia). reflexivity. Qed.
Lemma k_assert_ok nd b : k_assert nd (Ok b) = assert_ nd b.
Proof. destruct nd, b; reflexivity. Qed.
Lemma fuse_max1 a b : 0 <= dext a -> 0 <= dext b -> 0 <= dext (fuse a b) /\ Z.max 1 (dext (fuse a b)) <= Z.max 1 (dext a) * Z.max 1 (dext b).
Proof. intros A B. cbn [fuse dext]. apply max_mul; auto. Qed.
Lemma box_app s t : box_size (s ++ t) = box_size s * box_size t.
Proof. induction s as [|d s IH]; cbn [app]; [change (box_size []) with 1; lia|]. rewrite !box_size_cons, IH. ring. Qed.
Lemma box_ones n : box_size (repeat (mkD 0 1 0) n) = 1 /\ extents_ge 0 (repeat (mkD 0 1 0) n).
Proof.
  induction n as [|n [I J]]; [split; [reflexivity|constructor]|]. cbn [repeat]. rewrite box_size_cons, I. split; [reflexivity|].
  constructor; auto. cbn. lia.
Qed.
Lemma fuse_from_box r : forall cur, extents_ge 0 (cur :: r) ->
  extents_ge 0 (fuse_from cur r) /\ box_size (fuse_from cur r) <= box_size (cur :: r).
Proof.
  induction r as [|d r IH]; intros cur H; cbn [fuse_from]; [split; auto; lia|]. inversion H; subst. inversion H3; subst.
  destruct (can_fuse cur d).
  - destruct (fuse_max1 cur d H2 H4) as [F1 F2]. destruct (IH (fuse cur d)) as [I J]; [constructor; auto|]. split; auto.
    eapply Z.le_trans; [exact J|]. rewrite !box_size_cons. pose proof (box_size_pos r).
    replace (Z.max 1 (dext cur) * (Z.max 1 (dext d) * box_size r)) with (Z.max 1 (dext cur) * Z.max 1 (dext d) * box_size r) by ring.
    apply Z.mul_le_mono_nonneg_r; lia.
  - destruct (IH d H3) as [I J]. split; [constructor; auto|]. rewrite (box_size_cons cur), (box_size_cons cur).
    apply Z.mul_le_mono_nonneg_l; lia.
Qed.
Lemma optimize_box s : extents_ge 0 s -> extents_ge 0 (optimize_shape s) /\ box_size (optimize_shape s) <= box_size s.
Proof.
  intros H. assert (D : extents_ge 0 (dynamic_optimize_shape s) /\ box_size (dynamic_optimize_shape s) <= box_size s).
  { unfold dynamic_optimize_shape, pad_dims. pose proof (bubble_sort_perm dim_ltb s) as P. rewrite (box_size_perm _ _ P).
    assert (H' : extents_ge 0 (bubble_sort dim_ltb s)) by (eapply Permutation_Forall; eauto).
    destruct (box_ones (length s - length (fuse_dims (bubble_sort dim_ltb s)))) as [O1 O2]. rewrite box_app, O1.
    destruct (bubble_sort dim_ltb s) as [|d r]; cbn [fuse_dims] in *.
    - split; [apply Forall_app; auto|lia].
    - destruct (fuse_from_box r d H') as [I J]. split; [apply Forall_app; auto|lia]. }
  destruct s as [|a [|b s]]; exact D.
Qed.
Lemma k_values_ok nd s base : loops_fit s -> k_values nd s base = values nd s base.
Proof.
  intros L. unfold k_values, values, values_in_order. rewrite k_optimize_shape_ok by auto. cbn [bind].
  destruct (is_null base); auto. destruct L as [A [B [C D]]]. destruct (optimize_box s (is_dim_extents _ A)) as [O1 O2].
  rewrite k_empty_ok by (auto; lia). rewrite k_assert_ok. reflexivity.
Qed.
Lemma k_optimize_copy_ok ssrc sdst : length ssrc = length sdst -> loops_fit ssrc -> loops_fit sdst ->
  k_optimize_copy_shapes ssrc sdst = Ok (optimize_copy_shapes ssrc sdst).
Proof.
  intros L Fs Fd. destruct (combine_fst ssrc sdst L) as [C1 C2]. set (c := combine ssrc sdst) in *.
  assert (D : k_dynamic_optimize_copy_shapes ssrc sdst = Ok (dynamic_optimize_copy_shapes ssrc sdst)).
  { unfold k_dynamic_optimize_copy_shapes, dynamic_optimize_copy_shapes. fold c.
    pose proof (bubble_sort_perm copy_ltb c) as P.
    pose proof (Permutation_map fst P) as P1. pose proof (Permutation_map snd P) as P2. rewrite C1 in P1. rewrite C2 in P2.
    set (b := bubble_sort copy_ltb c) in *. clearbody b. apply (loops_fit_perm _ _ P1) in Fs. apply (loops_fit_perm _ _ P2) in Fd.
    destruct b as [|p r]; [reflexivity|]. cbn [k_fuse2_dims fuse2_dims map] in *.
    destruct Fs as [A1 [A2 [A3 A4]]], Fd as [B1 [B2 [B3 B4]]].
    destruct (k_fuse2_from_ok _ _ A4 B4 r p) as [K1 _]; [|rewrite K1; reflexivity].
    split; apply fits_from_start; auto; apply Z.le_refl. }
  destruct ssrc as [|a [|a' ssrc]], sdst as [|b [|b' sdst]]; try discriminate L; auto.
Qed.
Lemma fuse2_from_box r : forall cur, extents_ge 0 (map snd (cur :: r)) ->
  extents_ge 0 (map snd (fuse2_from cur r)) /\ box_size (map snd (fuse2_from cur r)) <= box_size (map snd (cur :: r)).
Proof.
  induction r as [|d r IH]; intros cur H; cbn [fuse2_from]; [split; auto; lia|]. cbn [map] in H. inversion H; subst. inversion H3; subst.
  destruct (can_fuse2 cur d).
  - destruct (fuse_max1 (snd cur) (snd d) H2 H4) as [F1 F2]. destruct (IH (fuse2 cur d)) as [I J]; [constructor; auto|]. split; auto.
    eapply Z.le_trans; [exact J|]. cbn [map]. rewrite !box_size_cons. cbn [fuse2 snd]. pose proof (box_size_pos (map snd r)).
    replace (Z.max 1 (dext (snd cur)) * (Z.max 1 (dext (snd d)) * box_size (map snd r)))
      with (Z.max 1 (dext (snd cur)) * Z.max 1 (dext (snd d)) * box_size (map snd r)) by ring.
    apply Z.mul_le_mono_nonneg_r; lia.
  - destruct (IH d H3) as [I J]. cbn [map]. split; [constructor; auto|]. rewrite (box_size_cons (snd cur)), (box_size_cons (snd cur)).
    apply Z.mul_le_mono_nonneg_l; [lia|]. exact J.
Qed.
Lemma optimize_copy_box ssrc sdst : length ssrc = length sdst -> extents_ge 0 sdst ->
  extents_ge 0 (snd (optimize_copy_shapes ssrc sdst)) /\ box_size (snd (optimize_copy_shapes ssrc sdst)) <= box_size sdst.
Proof.
  intros L H. destruct (combine_fst ssrc sdst L) as [C1 C2].
  assert (D : extents_ge 0 (snd (dynamic_optimize_copy_shapes ssrc sdst)) /\ box_size (snd (dynamic_optimize_copy_shapes ssrc sdst)) <= box_size sdst).
  { unfold dynamic_optimize_copy_shapes. set (c := combine ssrc sdst) in *. cbn [snd].
    pose proof (Permutation_map snd (bubble_sort_perm copy_ltb c)) as P. rewrite C2 in P. rewrite (box_size_perm _ _ P).
    assert (H' : extents_ge 0 (map snd (bubble_sort copy_ltb c))) by (eapply Permutation_Forall; eauto).
    unfold pad2. set (b := bubble_sort copy_ltb c) in *. clearbody b.
    destruct (box_ones (length ssrc - length (fuse2_dims b))) as [O1 O2].
    assert (R : map snd (repeat (mkD 0 1 0, mkD 0 1 0) (length ssrc - length (fuse2_dims b))) = repeat (mkD 0 1 0) (length ssrc - length (fuse2_dims b))).
    { generalize (length ssrc - length (fuse2_dims b))%nat. intros n. induction n; simpl; congruence. }
    rewrite map_app, R, box_app, O1. destruct b as [|p r]; cbn [fuse2_dims] in *.
    - split; [apply Forall_app; auto|lia].
    - destruct (fuse2_from_box r p H') as [I J]. split; [apply Forall_app; auto|lia]. }
  destruct ssrc as [|a [|a' ssrc]], sdst as [|b [|b' sdst]]; try discriminate L; exact D.
Qed.
Lemma k_values_copy_null nd ssrc src sdst dst : length ssrc = length sdst -> loops_fit ssrc -> loops_fit sdst ->
  is_null src || is_null dst = true -> k_values_copy nd ssrc src sdst dst = values_copy nd ssrc src sdst dst.
Proof.
  intros L Fs Fd N. unfold k_values_copy, values_copy, values_in_order2. rewrite k_optimize_copy_ok by auto. cbn [bind].
  destruct Fd as [A [B [C D]]]. destruct (optimize_copy_box ssrc sdst L (is_dim_extents _ A)) as [O1 O2].
  destruct (optimize_copy_shapes ssrc sdst) as [os od]. cbn [snd] in *. rewrite N.
  rewrite k_empty_ok by (auto; lia). rewrite k_assert_ok. reflexivity.
Qed.
Lemma k_values_copy_ok nd ssrc src sdst dst : length ssrc = length sdst -> loops_fit ssrc -> loops_fit sdst ->
  far ssrc * box_size ssrc + far sdst * box_size sdst <= big -> lead ssrc sdst <= big ->
  k_values_copy nd ssrc src sdst dst = values_copy nd ssrc src sdst dst.
Proof.
  intros L Fs Fd Fm Fl. destruct (is_null src || is_null dst) eqn:N; [apply k_values_copy_null; auto|].
  pose proof (k_copy_ok ssrc (snd src) sdst (snd dst) L Fs Fd Fm Fl) as K.
  unfold k_for_each_value_copy, for_each_value_copy in K. unfold k_values_copy, values_copy, values_in_order2.
  rewrite k_optimize_copy_ok in * by auto. cbn [bind] in *. destruct (optimize_copy_shapes ssrc sdst) as [os od]. rewrite N.
  destruct (k_flat_offset os (mins od)); try discriminate K. cbn [bind] in *.
  destruct (k_flat_offset od (mins od)); try discriminate K. cbn [bind] in *. injection K as K. rewrite K. reflexivity.
Qed.

(** ** Algorithms *)
Lemma lead_cons a b s t : lead (a :: s) (b :: t) = Z.abs (dmin b - dmin a) * Z.abs (dstr a) + lead s t.
Proof. reflexivity. Qed.
Lemma same_lead s t : Forall2 same_bounds s t -> lead t s = 0.
Proof.
  induction 1 as [|d e s t [A B] _ IH]; [reflexivity|]. rewrite lead_cons, IH, A.
  replace (dmin e - dmin e) with 0 by lia. reflexivity.
Qed.
Lemma same_values_copy nd ssrc src sdst dst : Forall2 same_bounds sdst ssrc -> tame ssrc -> tame sdst -> settled ssrc -> settled sdst ->
  k_values_copy nd ssrc src sdst dst = values_copy nd ssrc src sdst dst.
Proof.
  intros S T1 T2 S1 S2. pose proof (tame_loops _ T1 S1) as L1. pose proof (tame_loops _ T2 S2) as L2.
  apply k_values_copy_ok; auto.
  - symmetry. apply (Forall2_len _ _ _ S).
  - destruct T1 as [_ [_ [_ [T1 _]]]], T2 as [_ [_ [_ [T2 _]]]]. pose proof (far_box_nonneg ssrc). pose proof (far_box_nonneg sdst). lia.
  - rewrite same_lead by auto. lia.
Qed.
Lemma near_lead src dst : Forall2 (fun a b => Z.abs (dmin b - dmin a) * Z.abs (dstr a) <= Z.abs (dstr a) * Z.max 1 (dext a)) src dst ->
  lead src dst <= span_sum src.
Proof.
  induction 1 as [|a b s t A _ IH]; [unfold lead, span_sum; simpl; lia|]. rewrite lead_cons, span_sum_cons. lia.
Qed.
Lemma in_bounds_mins s : extents_ge 1 s -> in_bounds s (mins s) /\ in_bounds s (maxs s).
Proof.
  induction 1 as [|d s H _ [I J]]; [split; constructor|]. split; constructor; auto; unfold in_dim; [|unfold dmax]; lia.
Qed.
Lemma settled_ge1 s : settled s -> extents_ge 1 s -> known_strides s.
Proof.
  intros S H. apply Forall_forall. intros d Hd U. unfold settled, extents_ge in *. rewrite Forall_forall in *.
  specialize (S d Hd U). specialize (H d Hd). cbv beta in H. lia.
Qed.
Lemma bounds_ge1 s i : in_bounds s i -> extents_ge 1 s.
Proof. induction 1 as [|d x s i H _ IH]; constructor; auto. unfold in_dim in H. lia. Qed.
Lemma in_bounds_near s t : in_bounds s (mins t) -> Forall2 (fun a b => Z.abs (dmin b - dmin a) * Z.abs (dstr a) <= Z.abs (dstr a) * Z.max 1 (dext a)) s t.
Proof.
  intros H. unfold mins in H. remember (map dmin t) as m eqn:E. revert t E. induction H as [|d x s i H _ IH]; intros t E.
  - destruct t; try discriminate. constructor.
  - destruct t as [|e t]; try discriminate. injection E as E1 E2. constructor; auto. subst x. unfold in_dim in H.
    rewrite (Z.mul_comm (Z.abs (dstr d))). apply Z.mul_le_mono_nonneg_r; lia.
Qed.
Lemma k_index_in_range_eq s i : Forall is_dim s -> ends_fit s -> length s = length i ->
  k_index_in_range s i = Ok (index_in_range s i).
Proof.
  intros A B C. destruct (k_index_in_range_ok s i A B C) as [b [-> H]]. f_equal.
  pose proof (index_in_range_iff s i (eq_sym C)) as I. destruct b, (index_in_range s i); auto; destruct H, I; intuition congruence.
Qed.
Lemma k_maxs_ok s : ends_fit s -> k_maxs s = Ok (maxs s).
Proof.
  intros H. apply mapM_ok. eapply Forall_impl; [|exact H]. intros d [A B]. unfold k_max, dmax. ckl. ckl. reflexivity.
Qed.
Lemma within_values nd src dst pa pb : tame src -> tame dst -> settled src -> settled dst -> empty dst = false -> within dst src ->
  k_assert nd (k_in_source src dst) = assert_ nd (index_in_range src (mins dst) && index_in_range src (maxs dst)) /\
  k_values_copy nd src pa dst pb = values_copy nd src pa dst pb.
Proof.
  intros T1 T2 S1 S2 E W. pose proof (not_empty_ge1 dst (is_dim_extents _ (proj1 T2)) E) as G.
  destruct (in_bounds_mins dst G) as [I J]. apply W in I. apply W in J.
  pose proof (Forall2_len _ _ _ I) as N. pose proof (Forall2_len _ _ _ J) as N2.
  assert (N3 : length (mins dst) = length dst) by (unfold mins; apply map_length).
  pose proof (settled_ge1 _ S1 (bounds_ge1 _ _ I)) as K. split.
  - unfold k_in_source. rewrite k_index_in_range_eq by (auto; apply T1). cbn [bind].
    destruct (index_in_range src (mins dst)) eqn:Q; cbn [andb].
    + rewrite k_maxs_ok by apply T2. cbn [bind]. rewrite k_index_in_range_eq by (auto; apply T1). apply k_assert_ok.
    + apply k_assert_ok.
  - apply k_values_copy_ok; try apply tame_loops; auto; try congruence.
    + destruct T1 as [_ [_ [_ [T1 _]]]], T2 as [_ [_ [_ [T2 _]]]]. pose proof (far_box_nonneg src). pose proof (far_box_nonneg dst). lia.
    + eapply Z.le_trans; [apply near_lead, in_bounds_near, I|]. pose proof (tame_span src T1 K). lia.
Qed.
Section Algorithms.
Context {V : Type}.
Implicit Types (h : heap V).
Lemma k_empty_tame s : tame s -> k_empty s = Ok (empty s).
Proof. intros T. apply k_empty_ok; [apply is_dim_extents, T|]. apply T. Qed.
Lemma k_copy_tame nd h src dst : tame (r_shape src) -> tame (r_shape dst) -> settled (r_shape src) -> settled (r_shape dst) ->
  within (r_shape dst) (r_shape src) -> k_copy nd h src dst = copy nd h src dst.
Proof.
  intros T1 T2 S1 S2 W. unfold k_copy, copy. rewrite k_empty_tame by auto. cbn [bind]. destruct (empty (r_shape dst)) eqn:E; auto.
  destruct (within_values nd _ _ (r_base src) (r_base dst) T1 T2 S1 S2 E W) as [-> ->]. reflexivity.
Qed.
Lemma k_move_tame nd mv h src dst : tame (r_shape src) -> tame (r_shape dst) -> settled (r_shape src) -> settled (r_shape dst) ->
  within (r_shape dst) (r_shape src) -> k_move nd mv h src dst = move nd mv h src dst.
Proof.
  intros T1 T2 S1 S2 W. unfold k_move, move. rewrite k_empty_tame by auto. cbn [bind]. destruct (empty (r_shape dst)) eqn:E; auto.
  destruct (within_values nd _ _ (r_base src) (r_base dst) T1 T2 S1 S2 E W) as [-> ->]. reflexivity.
Qed.
Lemma k_values_tame nd s base : tame s -> settled s -> k_values nd s base = values nd s base.
Proof. intros T S. apply k_values_ok, tame_loops; auto. Qed.
Lemma k_fill_tame nd h dst (v : V) : tame (r_shape dst) -> settled (r_shape dst) -> k_fill nd h dst v = fill nd h dst v.
Proof. intros T S. unfold k_fill. rewrite k_values_tame by auto. reflexivity. Qed.
Lemma k_generate_tame nd h dst (g : nat -> V) : tame (r_shape dst) -> settled (r_shape dst) -> k_generate nd h dst g = generate nd h dst g.
Proof. intros T S. unfold k_generate. rewrite k_values_tame by auto. reflexivity. Qed.
Lemma k_ref_ptr_tame r i : tame (r_shape r) -> settled (r_shape r) -> in_bounds (r_shape r) i -> k_ref_ptr r i = Ok (ref_ptr r i).
Proof.
  intros T S I. unfold k_ref_ptr, ref_ptr. rewrite flat_offset_spec. rewrite k_flat_offset_ok; auto; [apply T|].
  pose proof (tame_reach _ T (settled_ge1 _ S (bounds_ge1 _ _ I))). unfold index_max in *. lia.
Qed.
Lemma k_transform_tame h dst (fn : index -> V) : tame (r_shape dst) -> settled (r_shape dst) ->
  k_transform_index h dst fn = transform_index h dst fn.
Proof.
  intros T S. unfold k_transform_index, transform_index. rewrite k_for_each_index_ok by apply T.
  destruct (for_each_index_visits (r_shape dst) (is_dim_extents _ (proj1 T))) as [l [-> [[_ E] _]]]. cbn [bind].
  apply foldM_ext. intros s i Hi. rewrite k_ref_ptr_tame; auto. apply E, Hi.
Qed.
Lemma list_eqb_eq a : forall b, list_eqb a b = true -> a = b.
Proof.
  induction a as [|x a IH]; intros [|y b] H; try discriminate; auto. cbn in H. apply andb_true_iff in H. destruct H as [H1 H2].
  apply Z.eqb_eq in H1. apply IH in H2. congruence.
Qed.
Lemma bounds_of_lists s : forall t, mins s = mins t -> extents s = extents t -> Forall2 same_bounds t s.
Proof.
  induction s as [|d s IH]; intros [|e t] A B; try discriminate; [constructor|]. injection A as A1 A2. injection B as B1 B2.
  constructor; auto. split; auto.
Qed.
Lemma same_bounds_refl s : Forall2 same_bounds s s.
Proof. induction s; constructor; auto. split; auto. Qed.
Lemma k_equal_tame nd eqb h a b : tame (r_shape a) -> tame (r_shape b) -> settled (r_shape a) -> settled (r_shape b) ->
  k_equal nd eqb h a b = equal nd eqb h a b.
Proof.
  intros T1 T2 S1 S2. unfold k_equal, equal. destruct (list_eqb (mins (r_shape a)) (mins (r_shape b))) eqn:A; auto.
  destruct (list_eqb (extents (r_shape a)) (extents (r_shape b))) eqn:B; auto. cbn [negb orb].
  apply list_eqb_eq in A. apply list_eqb_eq in B. rewrite same_values_copy; auto. apply bounds_of_lists; auto.
Qed.
Lemma k_ref_eq_tame nd eqb h a b : tame (r_shape a) -> settled (r_shape a) -> k_ref_eq nd eqb h a b = ref_eq nd eqb h a b.
Proof.
  intros T1 S1. unfold k_ref_eq, ref_eq, k_ref_neq, ref_neq. destruct (shape_eqb (r_shape a) (r_shape b)) eqn:A; auto. cbn [negb].
  apply shape_eqb_eq in A. rewrite <- A. rewrite same_values_copy; auto. apply same_bounds_refl.
Qed.
End Algorithms.

(** ** The container *)
Definition agrees {A} (P : A -> Prop) (k m : outcome A) : Prop := k = m /\ forall r, m = Ok r -> P r.
Lemma agrees_bind {A B} (P : A -> Prop) (Q : B -> Prop) k m fk fm : agrees P k m -> (forall a, P a -> agrees Q (fk a) (fm a)) ->
  agrees Q (bind k fk) (bind m fm).
Proof.
  intros [-> H] F. destruct m as [a| |]; cbn [bind]; [apply F, H; auto|split; auto; discriminate|split; auto; discriminate].
Qed.
Lemma agrees_ret {A} (P : A -> Prop) a : P a -> agrees P (Ok a) (Ok a).
Proof. intros H. split; auto. intros r E. injection E as <-. auto. Qed.
Lemma agrees_refl {A} (m : outcome A) : agrees (fun _ => True) m m.
Proof. split; auto. Qed.
Lemma agrees_eq {A} (k m : outcome A) : k = m -> agrees (fun _ => True) k m.
Proof. split; auto. Qed.
Lemma agrees_weaken {A} (P Q : A -> Prop) k m : agrees P k m -> (forall a, P a -> Q a) -> agrees Q k m.
Proof. intros [A1 B] H. split; auto. Qed.
Ltac step_with R := apply agrees_bind with (P := R).
Ltac step_same := apply agrees_bind with (P := fun _ => True); [apply agrees_refl|intros ? _].

Section Container.
Context {V : Type}.
Variable c : config V.
Notation nd := (c_ndebug c).
Implicit Types (h : heap V).
Hypothesis T0 : tame (c_shape0 c).
Variable G : Prop.
Hypothesis HG : G -> settled (c_shape0 c).

(** What holds of every array *)
Definition fine (a : arr) : Prop :=
  tame (a_shape a) /\ (is_null (a_base a) = false -> settled (a_shape a)) /\ (G -> settled (a_shape a)).
Definition fineH (p : heap V * arr) : Prop := fine (snd p).
Definition fineH2 (p : heap V * arr * arr) : Prop := fine (snd (fst p)) /\ fine (snd p).

Lemma fine_settled a : tame (a_shape a) -> settled (a_shape a) -> fine a.
Proof. intros A B. split; auto. Qed.
Lemma fine_null a : is_null (a_base a) = true -> tame (a_shape a) -> (G -> settled (a_shape a)) -> fine a.
Proof. intros A B C. split; auto. split; auto. congruence. Qed.
Lemma fine_blank al : fine (blank al (c_shape0 c)).
Proof. apply fine_null; auto. Qed.

Lemma k_allocate_ok x h a : tame (a_shape a) ->
  agrees (fun p => a_shape (snd p) = resolve (a_shape a)) (k_allocate c x h a) (allocate c x h a).
Proof.
  intros T. unfold k_allocate, allocate. step_same. rewrite k_resolve_tame by auto. cbn [bind].
  destruct (tame_resolve _ T) as [T' [K _]]. rewrite k_flat_extent_ok by (try apply tame_reach; auto; apply T'). cbn [bind].
  rewrite k_flat_min_ok by (try (apply Z.lt_le_incl, tame_reach; auto); apply T'). cbn [bind].
  destruct (0 <? flat_extent (resolve (a_shape a))).
  - destruct (alloc_get c x h a (flat_extent (resolve (a_shape a)))) as [[h' busy] p]. apply agrees_ret. reflexivity.
  - apply agrees_ret. reflexivity.
Qed.
Lemma allocated_fine (a : arr) s : tame s -> a_shape a = resolve s -> fine a /\ settled (a_shape a) /\ Forall2 same_bounds (a_shape a) s.
Proof.
  intros T E. destruct (tame_resolve _ T) as [T' [K B]]. unfold fine. rewrite E.
  assert (S : settled (resolve s)) by (apply settled_known, K). auto.
Qed.
Lemma k_usable_ok a : tame (a_shape a) -> k_usable c a = assert_ nd (negb (is_null (a_base a)) || empty (a_shape a)).
Proof. intros T. unfold k_usable. rewrite k_empty_tame by auto. destruct (is_null (a_base a)); apply k_assert_ok. Qed.
Lemma k_construct_ok h a init : tame (a_shape a) -> settled (a_shape a) -> k_construct c h a init = construct c h a init.
Proof. intros T S. unfold k_construct, construct. rewrite k_usable_ok, k_values_tame by auto. reflexivity. Qed.
Lemma k_construct_default_ok h a : tame (a_shape a) -> settled (a_shape a) -> k_construct_default c h a = construct_default c h a.
Proof. apply k_construct_ok. Qed.
Lemma k_copy_construct_ok h a b : tame (a_shape a) -> settled (a_shape a) -> tame (a_shape b) -> settled (a_shape b) ->
  Forall2 same_bounds (a_shape a) (a_shape b) -> k_copy_construct c h a b = copy_construct c h a b.
Proof. intros T S Tb Sb B. unfold k_copy_construct, copy_construct. rewrite k_usable_ok, same_values_copy by auto. reflexivity. Qed.
Lemma k_move_construct_ok h a b : tame (a_shape a) -> settled (a_shape a) -> tame (a_shape b) -> settled (a_shape b) ->
  Forall2 same_bounds (a_shape a) (a_shape b) -> k_move_construct c h a b = move_construct c h a b.
Proof. intros T S Tb Sb B. unfold k_move_construct, move_construct. rewrite k_usable_ok, same_values_copy by auto. reflexivity. Qed.
Lemma k_destroy_ok h a : tame (a_shape a) -> settled (a_shape a) -> k_destroy c h a = destroy c h a.
Proof. intros T S. unfold k_destroy, destroy. rewrite k_usable_ok, k_values_tame by auto. reflexivity. Qed.
Lemma k_deallocate_ok x h a : fine a -> agrees fineH (k_deallocate c x h a) (deallocate c x h a).
Proof.
  intros F. unfold k_deallocate, deallocate. destruct (is_null (a_base a)) eqn:N; [apply agrees_ret, F|].
  destruct F as [T [S _]]. specialize (S N). rewrite k_destroy_ok by auto. step_same.
  step_with (fun _ : heap V * bool => True); [apply agrees_refl|]. intros [h2 busy] _.
  apply agrees_ret. apply fine_null; auto.
Qed.
Lemma k_ctor_shape_ok x h al s : tame s ->
  agrees (fun p => fine (snd p) /\ a_shape (snd p) = resolve s /\ settled (a_shape (snd p))) (k_ctor_shape c x h al s) (ctor_shape c x h al s).
Proof.
  intros T. unfold k_ctor_shape, ctor_shape. step_with (fun p : heap V * arr => a_shape (snd p) = resolve s).
  - apply (k_allocate_ok x h (blank al s)). exact T.
  - intros [h1 a] E. cbn [snd] in E. destruct (allocated_fine a s T E) as [F [S B]]. rewrite k_construct_default_ok by (auto; apply F).
    step_same. apply agrees_ret. auto.
Qed.
Lemma k_reallocate_ok x h a s : fine a -> tame s ->
  agrees (fun p => fine (snd p) /\ settled (a_shape (snd p)) /\ Forall2 same_bounds (a_shape (snd p)) s)
    (' (h', a') <- k_deallocate c x h a ;; k_allocate c x h' (with_shape a' s))
    (' (h', a') <- deallocate c x h a ;; allocate c x h' (with_shape a' s)).
Proof.
  intros F T. step_with fineH; [apply k_deallocate_ok, F|]. intros [h' a'] _.
  eapply agrees_weaken; [apply k_allocate_ok; exact T|]. intros p E. apply (allocated_fine _ s T E).
Qed.
Lemma k_assign_value_ok x h a s init : fine a -> tame s ->
  agrees fineH (k_assign_value c x h a s init) (assign_value c x h a s init).
Proof.
  intros F T. unfold k_assign_value, assign_value. rewrite k_resolve_tame by auto. cbn [bind].
  destruct (tame_resolve _ T) as [T' [K B]].
  step_with (fun p : heap V * arr => fine (snd p) /\ settled (a_shape (snd p))).
  - destruct (shape_eqb (a_shape a) (resolve s)) eqn:E.
    + apply shape_eqb_eq in E. assert (S : settled (a_shape a)) by (rewrite E; apply settled_known, K).
      rewrite k_destroy_ok by (auto; apply F). step_same. apply agrees_ret. auto.
    + eapply agrees_weaken; [apply k_reallocate_ok; auto|]. cbv beta. intuition.
  - intros [h1 a1] [F1 S1]. cbn [snd] in *. rewrite k_construct_ok by (auto; apply F1). step_same. apply agrees_ret, F1.
Qed.
Lemma k_ctor_value_ok x h al s v : tame s -> agrees fineH (k_ctor_value c x h al s v) (ctor_value c x h al s v).
Proof.
  intros T. unfold k_ctor_value, ctor_value. eapply agrees_bind; [apply k_ctor_shape_ok, T0|]. intros [h1 a] [F _].
  apply k_assign_value_ok; auto.
Qed.
Lemma fine_reshape a b : fine a -> fine b -> is_null (a_base a) = true -> fine (with_shape a (a_shape b)).
Proof. intros A B N. apply fine_null; auto; apply B. Qed.
Lemma k_same_base_ok (T : Type) (P : T -> Prop) (f : arr -> T) (a b : arr) k m : fine a -> fine b -> (forall a', fine a' -> P (f a')) ->
  agrees P k m ->
  agrees P (match k_same_base c a b with Some r => a1 <- r ;; Ok (f a1) | None => k end)
    (if ptr_eqb (a_base a) (a_base b) then
       if negb (is_null (a_base a)) then _ <- assert_ nd (shape_eqb (a_shape a) (a_shape b)) ;; Ok (f a)
       else let a1 := with_shape a (a_shape b) in _ <- assert_ nd (empty (a_shape a1)) ;; Ok (f a1)
     else m).
Proof.
  intros Fa Fb Hf H. unfold k_same_base. destruct (ptr_eqb (a_base a) (a_base b)); auto.
  destruct (is_null (a_base a)) eqn:N; cbn [negb].
  - cbn [with_shape a_shape]. rewrite k_empty_tame by apply Fb. rewrite k_assert_ok.
    destruct (assert_ nd (empty (a_shape b))); cbn [bind]; [|split; auto; discriminate|split; auto; discriminate].
    apply agrees_ret, Hf, fine_reshape; auto.
  - destruct (assert_ nd (shape_eqb (a_shape a) (a_shape b))); cbn [bind]; [|split; auto; discriminate|split; auto; discriminate].
    apply agrees_ret, Hf, Fa.
Qed.
Lemma k_storage_ok x h a b : fine a -> fine b ->
  agrees (fun p => fine (snd p) /\ settled (a_shape (snd p)) /\ Forall2 same_bounds (a_shape (snd p)) (a_shape b))
    (k_storage c x h a b)
    (if negb (is_null (a_base a)) && shape_eqb (a_shape a) (a_shape b)
     then h' <- destroy c h a ;; Ok (h', a)
     else ' (h', a') <- deallocate c x h a ;; allocate c x h' (with_shape a' (a_shape b))).
Proof.
  intros Fa Fb. unfold k_storage. destruct (negb (is_null (a_base a)) && shape_eqb (a_shape a) (a_shape b)) eqn:E.
  - apply andb_true_iff in E. destruct E as [N E]. apply negb_true_iff in N. apply shape_eqb_eq in E.
    destruct Fa as [T [S S0]]. specialize (S N). rewrite k_destroy_ok by auto. step_same. apply agrees_ret. cbn [snd].
    split; [apply fine_settled; auto|]. split; auto. rewrite E. apply same_bounds_refl.
  - apply k_reallocate_ok; auto. apply Fb.
Qed.
Lemma k_assign_copy_ok x h a b : fine a -> fine b -> settled (a_shape b) ->
  agrees fineH (k_assign_copy c x h a b) (assign_copy c x h a b).
Proof.
  intros Fa Fb Sb. unfold k_assign_copy, assign_copy. apply (k_same_base_ok _ fineH (fun a1 => (h, a1))); auto.
  eapply agrees_bind; [apply k_storage_ok; auto|]. intros [h1 a1] [F1 [S1 B1]]. cbn [snd] in *.
  rewrite k_copy_construct_ok by (auto; try apply F1; apply Fb). step_same. apply agrees_ret, F1.
Qed.
Lemma k_assign_move_ok x h a b : fine a -> fine b -> settled (a_shape b) ->
  agrees fineH (k_assign_move c x h a b) (assign_move c x h a b).
Proof.
  intros Fa Fb Sb. unfold k_assign_move, assign_move. apply (k_same_base_ok _ fineH (fun a1 => (h, a1))); auto.
  eapply agrees_bind; [apply k_storage_ok; auto|]. intros [h1 a1] [F1 [S1 B1]]. cbn [snd] in *.
  rewrite k_move_construct_ok by (auto; try apply F1; apply Fb). step_same. apply agrees_ret, F1.
Qed.
Lemma k_ctor_copy_ok x h b : fine b -> settled (a_shape b) -> agrees fineH (k_ctor_copy c x h b) (ctor_copy c x h b).
Proof. intros F S. apply k_assign_copy_ok; auto. apply fine_blank. Qed.
Lemma k_ctor_copy_alloc_ok x h b al : fine b -> settled (a_shape b) ->
  agrees fineH (k_ctor_copy_alloc c x h b al) (ctor_copy_alloc c x h b al).
Proof.
  intros F S. unfold k_ctor_copy_alloc, ctor_copy_alloc. eapply agrees_bind; [apply k_ctor_shape_ok, T0|]. intros [h1 a] [F1 _].
  apply k_assign_copy_ok; auto.
Qed.
Lemma fine_swap a b : fine a -> fine b -> fine (fst (swap_except_allocator a b)) /\ fine (snd (swap_except_allocator a b)).
Proof. intros A B. split; [apply B|apply A]. Qed.
Lemma fine_swap_al a b : fine a -> fine b -> fine (fst (swap_allocators a b)) /\ fine (snd (swap_allocators a b)).
Proof. intros A B. split; [apply A|apply B]. Qed.
Lemma k_move_to_new_ok x h a b : fine b -> settled (a_shape b) -> 
  agrees fineH2 (' (h1, a1) <- k_allocate c x h (with_shape a (a_shape b)) ;; h2 <- k_move_construct c h1 a1 b ;; Ok (h2, a1, b))
    (' (h1, a1) <- allocate c x h (with_shape a (a_shape b)) ;; h2 <- move_construct c h1 a1 b ;; Ok (h2, a1, b)).
Proof.
  intros F S. eapply agrees_bind; [apply k_allocate_ok; apply F|]. intros [h1 a1] E. cbn [snd with_shape a_shape] in E.
  destruct (allocated_fine a1 (a_shape b) (proj1 F) E) as [F1 [S1 B1]]. rewrite k_move_construct_ok by (auto; try apply F1; apply F).
  step_same. apply agrees_ret. split; auto.
Qed.
Lemma k_ctor_move_ok x h y b : fine b -> settled (a_shape b) ->
  agrees (fun p => fineH2 p /\ settled (a_shape (snd (fst p)))) (k_ctor_move c x h y b) (ctor_move c x h y b).
Proof.
  intros F S. unfold k_ctor_move, ctor_move. destruct (c_pocma c || _).
  - apply agrees_ret. split; [split; [apply F|apply fine_null; auto]|apply S].
  - eapply agrees_bind; [apply k_allocate_ok; apply F|]. intros [h1 a1] E. cbn [snd with_shape a_shape] in E.
    destruct (allocated_fine a1 (a_shape b) (proj1 F) E) as [F1 [S1 B1]]. rewrite k_move_construct_ok by (auto; try apply F1; apply F).
    step_same. apply agrees_ret. split; [split|]; auto.
Qed.
Lemma k_ctor_move_alloc_ok x h y b al : fine b -> settled (a_shape b) ->
  agrees fineH2 (k_ctor_move_alloc c x h y b al) (ctor_move_alloc c x h y b al).
Proof.
  intros F S. unfold k_ctor_move_alloc, ctor_move_alloc. destruct (alloc_eq _ _ _ _).
  - apply agrees_ret. split; [apply F|apply fine_null; auto].
  - apply k_move_to_new_ok; auto.
Qed.
Lemma k_copy_assign_op_ok x h a y b : fine a -> fine b -> settled (a_shape b) ->
  agrees fineH (k_copy_assign_op c x h a y b) (copy_assign_op c x h a y b).
Proof.
  intros Fa Fb Sb. unfold k_copy_assign_op, copy_assign_op. apply (k_same_base_ok _ fineH (fun a1 => (h, a1))); auto.
  step_with fineH.
  - destruct (c_pocca c); [|apply agrees_ret, Fa]. step_with fineH.
    + destruct (negb (alloc_eq x a y b)); [apply k_deallocate_ok, Fa|apply agrees_ret, Fa].
    + intros [h' a'] F'. apply agrees_ret. exact F'.
  - intros [h1 a1] F1. apply k_assign_copy_ok; auto.
Qed.
Lemma k_move_assign_op_ok x h a y b : fine a -> fine b -> (ptr_eqb (a_base a) (a_base b) = false -> settled (a_shape b)) ->
  agrees fineH2 (k_move_assign_op c x h a y b) (move_assign_op c x h a y b).
Proof.
  intros Fa Fb Sb. unfold k_move_assign_op, move_assign_op. destruct (ptr_eqb (a_base a) (a_base b)) eqn:P.
  - destruct (is_null (a_base a)) eqn:N; cbn [negb].
    + cbn [with_shape a_shape]. rewrite k_empty_tame by apply Fb. rewrite k_assert_ok. step_same. apply agrees_ret.
      assert (Nb : is_null (a_base b) = true).
      { destruct a as [? ? ? ? [? ?] ?], b as [? ? ? ? [? ?] ?]. cbn in *. unfold ptr_eqb, is_null in *. cbn in *.
        apply andb_true_iff in P. destruct P as [P1 P2]. apply Nat.eqb_eq in P1. apply Z.eqb_eq in P2. subst. exact N. }
      split; apply fine_reshape; auto.
    + step_same. apply agrees_ret. split; auto.
  - destruct (c_pocma c); [apply agrees_ret; split; [apply Fb|apply Fa]|].
    destruct (alloc_eq x a y b); [apply agrees_ret; split; [apply Fb|apply Fa]|].
    step_with fineH; [apply k_assign_move_ok; auto|]. intros [h1 a1] F1. apply agrees_ret. split; auto.
Qed.
Lemma k_clear_ok x h a : fine a -> agrees fineH (k_clear c x h a) (clear c x h a).
Proof.
  intros F. unfold k_clear, clear. step_with fineH; [apply k_deallocate_ok, F|]. intros [h1 a1] F1.
  eapply agrees_bind; [apply k_allocate_ok; exact T0|]. intros [h2 a2] E. cbn [snd with_shape a_shape] in E.
  destruct (allocated_fine a2 _ T0 E) as [F2 [S2 _]]. rewrite k_construct_default_ok by (auto; apply F2). step_same. apply agrees_ret, F2.
Qed.
Lemma k_make_copy_ok x h b s al : fine b -> settled (a_shape b) -> tame s -> within (resolve s) (a_shape b) ->
  agrees fineH (k_make_copy c x h (aref_of b) s al) (make_copy c x h (aref_of b) s al).
Proof.
  intros F S T W. unfold k_make_copy, make_copy. eapply agrees_bind; [apply k_ctor_shape_ok, T|]. intros [h1 a] [F1 [E S1]].
  cbn [snd] in *. assert (W' : within (r_shape (aref_of a)) (r_shape (aref_of b))) by (cbn [aref_of r_shape]; rewrite E; exact W).
  pose proof (proj1 F) as TF. pose proof (proj1 F1) as TF1. rewrite k_copy_tame by auto.
  step_same. apply agrees_ret, F1.
Qed.
Lemma k_make_move_ok x h b s al : fine b -> settled (a_shape b) -> tame s -> within (resolve s) (a_shape b) ->
  agrees fineH (k_make_move c x h (aref_of b) s al) (make_move c x h (aref_of b) s al).
Proof.
  intros F S T W. unfold k_make_move, make_move. eapply agrees_bind; [apply k_ctor_shape_ok, T|]. intros [h1 a] [F1 [E S1]].
  cbn [snd] in *. assert (W' : within (r_shape (aref_of a)) (r_shape (aref_of b))) by (cbn [aref_of r_shape]; rewrite E; exact W).
  pose proof (proj1 F) as TF. pose proof (proj1 F1) as TF1. rewrite k_move_tame by auto.
  step_same. apply agrees_ret, F1.
Qed.
Lemma k_make_move_rvalue_ok x h b s z al : fine b -> settled (a_shape b) -> tame s -> within (resolve s) (a_shape b) ->
  agrees fineH (k_make_move_rvalue c x h b s z al) (make_move_rvalue c x h b s z al).
Proof.
  intros F S T W. unfold k_make_move_rvalue, make_move_rvalue. destruct (shape_eqb (a_shape b) s && _).
  - apply k_ctor_copy_ok; auto.
  - apply k_make_move_ok; auto.
Qed.

(** ** Programs *)
Definition fineW (w : world V) : Prop := forall x a, w_arr w x = Some a -> fine a.
Definition settledW (w : world V) (x : nat) : Prop := forall a, w_arr w x = Some a -> settled (a_shape a).

Lemma get_ok (w : world V) x : fineW w -> agrees (fun a => fine a /\ w_arr w x = Some a) (get w x) (get w x).
Proof. intros F. unfold get. destruct (w_arr w x) as [a|] eqn:E; [apply agrees_ret; split; auto; eapply F; eauto|split; auto; discriminate]. Qed.
Lemma put_some (f : nat -> option arr) x o y a : put f x o y = Some a -> (y = x /\ o = Some a) \/ (y <> x /\ f y = Some a).
Proof. unfold put. destruct (Nat.eqb_spec y x); auto. Qed.
Lemma fine_put w h n x a : fineW w -> fine a -> fineW (mkW h (put (w_arr w) x (Some a)) n).
Proof.
  intros F A y b E. cbn [w_arr] in E. apply put_some in E. destruct E as [[_ E]|[_ E]]; [injection E as <-; auto|eapply F; eauto].
Qed.
Lemma add_ok w k m : fineW w -> agrees fineH k m -> agrees fineW (add w k) (add w m).
Proof. intros F H. unfold add. eapply agrees_bind; [exact H|]. intros [h a] A. apply agrees_ret. apply fine_put; auto. Qed.
Lemma change_ok w x k m : fineW w -> agrees fineH k m -> agrees fineW (change w x k) (change w x m).
Proof. intros F H. unfold change. eapply agrees_bind; [exact H|]. intros [h a] A. apply agrees_ret. apply fine_put; auto. Qed.
Lemma fine_put2 w h n x y a b : fineW w -> fine a -> fine b -> fineW (mkW h (put (put (w_arr w) y (Some b)) x (Some a)) n).
Proof.
  intros F A B z e E. cbn [w_arr] in E. apply put_some in E. destruct E as [[_ E]|[_ E]]; [injection E as <-; auto|].
  apply put_some in E. destruct E as [[_ E]|[_ E]]; [injection E as <-; auto|eapply F; eauto].
Qed.
Lemma add2_ok w y k m : fineW w -> agrees fineH2 k m -> agrees fineW (add2 w y k) (add2 w y m).
Proof. intros F H. unfold add2. eapply agrees_bind; [exact H|]. intros [[h a] b] [A B]. apply agrees_ret. apply fine_put2; auto. Qed.
Lemma change2_ok w x y k m : fineW w -> agrees fineH2 k m -> agrees fineW (change2 w x y k) (change2 w x y m).
Proof. intros F H. unfold change2. eapply agrees_bind; [exact H|]. intros [[h a] b] [A B]. apply agrees_ret. apply fine_put2; auto. Qed.
Lemma k_do_new_ok w s al : fineW w -> tame s ->
  agrees (fun w' => fineW w' /\ w_next w' = S (w_next w) /\ (forall z, z <> w_next w -> w_arr w' z = w_arr w z) /\
            forall b, w_arr w' (w_next w) = Some b -> a_shape b = resolve s /\ settled (a_shape b)) (k_do_new c w s al) (do_new c w s al).
Proof.
  intros F T. unfold k_do_new, do_new, add. eapply agrees_bind; [apply k_ctor_shape_ok, T|]. intros [h a] [A [E S]]. apply agrees_ret.
  cbn [snd w_next w_arr] in *. split; [apply fine_put; auto|]. split; auto. split.
  - intros z Hz. unfold put. destruct (Nat.eqb_spec z (w_next w)); [contradiction|auto].
  - intros b Eb. apply put_some in Eb. destruct Eb as [[_ Eb]|[Eb _]]; [injection Eb as <-; auto|contradiction].
Qed.
Lemma k_do_new_move_ok w y : fineW w -> settledW w y ->
  agrees (fun w' => fineW w' /\ w_next w' = S (w_next w) /\ settledW w' (w_next w) /\
            forall z, z <> y -> z <> w_next w -> w_arr w' z = w_arr w z) (k_do_new_move c w y) (do_new_move c w y).
Proof.
  intros F S. unfold k_do_new_move, do_new_move. eapply agrees_bind; [apply get_ok, F|]. intros b [B E]. unfold add2.
  eapply agrees_bind; [apply k_ctor_move_ok; auto|]. intros [[h a'] b'] [[A' B'] S']. apply agrees_ret. cbn [snd fst] in *.
  split; [apply fine_put2; auto|]. split; auto. split.
  - intros d Ed. cbn [w_arr] in Ed. apply put_some in Ed. destruct Ed as [[_ Ed]|[Ed _]]; [injection Ed as <-; auto|contradiction].
  - intros z Z1 Z2. cbn [w_arr]. unfold put. destruct (Nat.eqb_spec z (w_next w)); [contradiction|]. destruct (Nat.eqb_spec z y); [contradiction|auto].
Qed.
Lemma k_do_move_assign_ok w x y : fineW w -> (x <> y -> settledW w y) ->
  agrees (fun w' => fineW w' /\ w_next w' = w_next w /\ forall z, z <> x -> z <> y -> w_arr w' z = w_arr w z)
    (k_do_move_assign c w x y) (do_move_assign c w x y).
Proof.
  intros F S. unfold k_do_move_assign, do_move_assign. eapply agrees_bind; [apply get_ok, F|]. intros a [A Ea].
  eapply agrees_bind; [apply get_ok, F|]. intros b [B Eb]. unfold change2.
  eapply agrees_bind; [apply k_move_assign_op_ok; auto|].
  { intros P. destruct (Nat.eq_dec x y) as [<-|N]; [|apply (S N b Eb)]. rewrite Ea in Eb. injection Eb as <-.
    unfold ptr_eqb in P. rewrite Nat.eqb_refl, Z.eqb_refl in P. discriminate P. }
  intros [[h a'] b'] [A' B']. apply agrees_ret. cbn [snd fst] in *.
  split; [apply fine_put2; auto|]. split; auto. intros z Z1 Z2. cbn [w_arr]. unfold put.
  destruct (Nat.eqb_spec z x); [contradiction|]. destruct (Nat.eqb_spec z y); [contradiction|auto].
Qed.
Lemma k_do_delete_ok w x : fineW w -> agrees fineW (k_do_delete c w x) (do_delete c w x).
Proof.
  intros F. unfold k_do_delete, do_delete. eapply agrees_bind; [apply get_ok, F|]. intros a [A _].
  step_with fineH; [apply k_deallocate_ok, A|]. intros [h a'] _. apply agrees_ret. intros y b E. cbn [w_arr] in E.
  apply put_some in E. destruct E as [[_ E]|[_ E]]; [discriminate|eapply F; eauto].
Qed.

(** The part of [reshape] between the allocations *)
Lemma clamp_bounds (a b : dim) : is_dim a -> is_dim b -> is_index (dmin a + dext a) /\ is_index (dmin a + dext a - 1) ->
  is_index (dmin b + dext b) /\ is_index (dmin b + dext b - 1) -> meets a b ->
  k_clamp_dim a b = Ok (clamp_dim a b) /\ is_dim (clamp_dim a b) /\ 0 <= dmin (clamp_dim a b) - dmin a <= dext a /\
  0 <= dmin (clamp_dim a b) - dmin b <= dext b /\ dext (clamp_dim a b) <= dext a /\ dext (clamp_dim a b) <= dext b /\
  Z.abs (dmin (clamp_dim a b)) <= Z.abs (dmin a) + Z.abs (dmin b) /\ dstr (clamp_dim a b) = dstr a.
Proof.
  intros [A1 [A2 [A3 A4]]] [B1 [B2 [B3 B4]]] [A5 A6] [B5 B6] M. unfold SpecContainer.meets in M. unfold k_clamp_dim, k_max.
  rewrite !chk_ok by (unfold is_index in *; lia). cbn [bind]. rewrite !chk_ok by (unfold is_index in *; lia). cbn [bind].
  unfold clamp_dim, dmax, cmin, cmax. cbn [dmin dext dstr].
  destruct (Z.ltb_spec (dmin a) (dmin b)), (Z.ltb_spec (dmin b + dext b - 1) (dmin a + dext a - 1));
    rewrite ?chk_ok by (unfold is_index in *; lia); cbn [bind]; rewrite ?chk_ok by (unfold is_index in *; lia); cbn [bind];
    (split; [reflexivity|]); unfold is_dim, is_index in *; cbn [dmin dext dstr]; lia.
Qed.
Lemma clamp_ok n a : Forall2 meets n a -> Forall is_dim n -> Forall is_dim a -> ends_fit n -> ends_fit a ->
  k_clamp_dims n a = Ok (clamp_dims n a) /\ Forall is_dim (clamp_dims n a) /\ length (clamp_dims n a) = length n /\
  box_size (clamp_dims n a) <= box_size n /\ box_size (clamp_dims n a) <= box_size a /\ far (clamp_dims n a) <= far n + far a /\
  Forall2 (fun d i => dstr i = dstr d /\ 0 <= dmin i - dmin d <= dext d /\ 0 <= dext i <= dext d) n (clamp_dims n a) /\
  Forall2 (fun d i => 0 <= dmin i - dmin d <= dext d) a (clamp_dims n a).
Proof.
  unfold k_clamp_dims, clamp_dims, ends_fit. induction 1 as [|d e n a M _ IH]; intros A B C D.
  - cbn [map2M map2]. repeat split; try constructor; cbn; lia.
  - inversion A; subst. inversion B; subst. inversion C; subst. inversion D; subst.
    destruct (clamp_bounds d e) as [K [I [L1 [L2 [L3 [L4 [L5 L6]]]]]]]; auto.
    destruct IH as [J1 [J2 [J3 [J4 [J5 [J6 [J7 J8]]]]]]]; auto. cbn [map2M map2]. rewrite K, J1. cbn [bind].
    rewrite !box_size_cons, !far_cons. pose proof (box_size_pos (map2 clamp_dim n a)).
    split; [reflexivity|]. split; [constructor; auto|]. split; [cbn [length]; lia|].
    split; [apply Z.mul_le_mono_nonneg; lia|]. split; [apply Z.mul_le_mono_nonneg; lia|]. split; [lia|].
    split; constructor; auto. repeat split; auto; try lia. apply I.
Qed.
Lemma lead_le src dst W : Forall2 (fun a b => Z.abs (dmin b - dmin a) * Z.abs (dstr a) <= W) src dst ->
  lead src dst <= Z.of_nat (length src) * W.
Proof.
  induction 1 as [|a b s t A _ IH]; [unfold lead; simpl; lia|]. rewrite lead_cons. cbn [length]. rewrite Nat2Z.inj_succ. nia.
Qed.
Lemma settled_lead s i : tame s -> settled s -> Forall2 (fun d i => 0 <= dmin i - dmin d <= dext d) s i -> lead s i < big.
Proof.
  intros T S H. eapply Z.le_lt_trans; [apply lead_le with (W := widest s)|].
  - pose proof (widest_in s) as W. clear T. pose proof (widest_ge1 s) as W1. set (w := widest s) in *. clearbody w.
    induction H as [|d e s i L _ IH]; constructor.
    + inversion S; subst. destruct (Z.eq_dec (dstr d) (-9223372036854775808)) as [U|U].
      * specialize (H1 U). replace (dmin e - dmin d) with 0 by lia. rewrite Z.abs_0. lia.
      * specialize (W d (or_introl eq_refl) U). rewrite (Z.mul_comm (Z.abs (dmin e - dmin d))).
        assert (Z.abs (dstr d) * Z.abs (dmin e - dmin d) <= Z.abs (dstr d) * Z.max 1 (dext d)) by (apply Z.mul_le_mono_nonneg_l; lia). lia.
    + inversion S; subst. apply IH; auto. intros d' I U. apply W; auto. right. auto.
  - destruct T as [_ [_ [_ [_ F]]]]. eapply Z.le_lt_trans; [|exact F]. apply Z.mul_le_mono_nonneg_l; [lia|]. unfold layout_budget.
    pose proof (widest_ge1 s). pose proof (unknown_extents_ge1 s). nia.
Qed.
Lemma far_ge s d : In d s -> Z.abs (dmin d) <= far s.
Proof. induction s as [|e s IH]; intros H; [destruct H|]. rewrite far_cons. pose proof (far_nonneg s). destruct H as [->|H]; [lia|]. specialize (IH H). lia. Qed.
Lemma mul_box f g b bn ba : 0 <= f -> 0 <= g -> 1 <= b -> b <= bn -> b <= ba -> (f + g) * b <= f * bn + g * ba.
Proof. intros. assert (f * b <= f * bn) by (apply Z.mul_le_mono_nonneg_l; lia). assert (g * b <= g * ba) by (apply Z.mul_le_mono_nonneg_l; lia). lia. Qed.
Lemma far_le_box s : far s <= far s * box_size s.
Proof. pose proof (far_nonneg s). pose proof (box_size_pos s). assert (far s * 1 <= far s * box_size s) by (apply Z.mul_le_mono_nonneg_l; lia). lia. Qed.
Lemma k_move_common_ok h a b n : tame n -> known_strides n -> fine a -> settled (a_shape a) -> Forall2 meets n (a_shape a) ->
  k_move_common c h a b n = move_common c h a b n.
Proof.
  intros T K F S M. unfold k_move_common, move_common. pose proof (proj1 F) as Ta.
  destruct (clamp_ok n (a_shape a) M) as [J1 [J2 [J3 [J4 [J5 [J6 [J7 J8]]]]]]]; try apply T; try apply Ta.
  rewrite J1. cbn [bind]. set (i := clamp_dims n (a_shape a)) in *.
  pose proof (far_nonneg n) as N1. pose proof (far_nonneg (a_shape a)) as N2. pose proof (box_size_pos i) as N3. pose proof (far_nonneg i) as N4.
  pose proof (far_box_nonneg n) as N5. pose proof (far_box_nonneg (a_shape a)) as N6. pose proof (far_box_nonneg i) as N7.
  pose proof (mul_box (far n) (far (a_shape a)) (box_size i) (box_size n) (box_size (a_shape a)) N1 N2 N3 J4 J5) as N8.
  assert (N9 : far i * box_size i <= (far n + far (a_shape a)) * box_size i) by (apply Z.mul_le_mono_nonneg_r; lia).
  pose proof T as [_ [_ [Tb [Tf _]]]]. pose proof Ta as [_ [_ [Tab [Taf _]]]].
  assert (Li : loops_fit i).
  { repeat split; auto; try lia. pose proof (tame_settled_span n T (settled_known n K)) as P.
    clear -J7 P. induction J7 as [|d e n i [H1 [H2 H3]] _ IH]; constructor; inversion P; subst; auto.
    rewrite H1. assert (Z.abs (dstr d) * dext e <= Z.abs (dstr d) * dext d) by (apply Z.mul_le_mono_nonneg_l; lia). lia. }
  assert (Kn : k_flat_offset n (mins i) = Ok (flat_offset n (mins i))).
  { destruct (combine_fst n i (eq_sym J3)) as [C1 C2].
    destruct (k_lead_ok (combine n i)) as [Q _].
    - change (lead n i <= big). apply Z.lt_le_incl, settled_lead; auto; [apply settled_known, K|].
      clear -J7. induction J7 as [|d e n i [? [? ?]] _ IH]; constructor; auto.
    - apply Forall_forall. intros [d e] I. cbn [fst snd]. pose proof (far_ge n d (in_combine_l _ _ _ _ I)).
      pose proof (far_ge i e (in_combine_r _ _ _ _ I)). pose proof (far_le_box n). pose proof (far_le_box (a_shape a)).
      unfold OverflowFacts.big. lia.
    - rewrite C1, C2 in Q. exact Q. }
  rewrite Kn. cbn [bind]. rewrite k_values_copy_ok; auto.
  - rewrite J3. symmetry. apply (Forall2_len _ _ _ M).
  - apply tame_loops; auto.
  - lia.
  - apply Z.lt_le_incl, settled_lead; auto.
Qed.
Lemma meets_resolve s a : Forall2 same_bounds (resolve s) s -> Forall2 meets s a -> Forall2 meets (resolve s) a.
Proof.
  generalize (resolve s). intros r B M. revert r B. induction M as [|d e s a M _ IH]; intros r B; inversion B as [|? ? ? ? [H1 H2] B']; subst; constructor; auto.
  unfold meets in *. rewrite H1, H2. auto.
Qed.
Lemma k_do_reshape_ok w x s : fineW w -> tame s -> settledW w x -> w_arr w (w_next w) = None ->
  (forall a, w_arr w x = Some a -> Forall2 meets s (a_shape a)) ->
  agrees fineW (k_do_reshape c w x s) (do_reshape c w x s).
Proof.
  intros F T S Nx M. unfold k_do_reshape, do_reshape. eapply agrees_bind; [apply get_ok, F|]. intros a [A Ea].
  rewrite k_resolve_tame by auto. cbn [bind]. destruct (tame_resolve _ T) as [T' [K B]].
  destruct (shape_eqb (a_shape a) (resolve s)); [apply agrees_ret, F|].
  eapply agrees_bind; [apply k_do_new_ok; auto|]. intros w1 [F1 [W1 [W2 W3]]].
  eapply agrees_bind; [apply get_ok, F1|]. intros b [Fb Eb]. cbv zeta.
  rewrite k_move_common_ok; auto; [|apply meets_resolve; auto]. step_same.
  eapply agrees_bind; [apply k_do_move_assign_ok; auto|].
  - intros _ d Ed. cbn [w_arr] in Ed. apply W3 in Ed. apply Ed.
  - intros w3 [F3 _]. apply k_do_delete_ok; auto.
Qed.
Lemma k_do_swap_ok w x y : fineW w -> settledW w x -> settledW w y -> x <> w_next w -> y <> w_next w ->
  agrees fineW (k_do_swap c w x y) (do_swap c w x y).
Proof.
  intros F Sx Sy Nx Ny. unfold k_do_swap, do_swap. destruct (c_pocs c).
  - eapply agrees_bind; [apply get_ok, F|]. intros a [A Ea]. eapply agrees_bind; [apply get_ok, F|]. intros b [B Eb].
    cbn [swap_allocators]. apply change2_ok; auto. apply agrees_ret. split; [apply B|apply A].
  - eapply agrees_bind; [apply k_do_new_move_ok; auto|]. intros w1 [F1 [W1 [W2 W3]]].
    eapply agrees_bind; [apply k_do_move_assign_ok; auto|].
    + intros Hxy d Ed. rewrite W3 in Ed by auto. eapply Sx; eauto.
    + intros w2 [F2 [V1 V2]]. eapply agrees_bind; [apply k_do_move_assign_ok; auto|].
      * intros _ d Ed. rewrite V2 in Ed by auto. eapply W2; eauto.
      * intros w3 [F3 _]. apply k_do_delete_ok; auto.
Qed.
Lemma k_step_ok w o : fineW w -> (forall x, (w_next w <= x)%nat -> w_arr w x = None) -> legal_op c w o -> tame_op w o ->
  agrees fineW (k_step c w o) (step c w o).
Proof.
  intros F Nx L T. destruct o; cbn [k_step step tame_op legal_op] in *.
  - eapply agrees_weaken; [apply k_do_new_ok; auto|]. intros ? [? _]. auto.
  - apply add_ok; auto. apply k_ctor_value_ok; auto.
  - eapply agrees_bind; [apply get_ok, F|]. intros b [B E]. apply add_ok; auto. apply k_ctor_copy_ok; auto.
  - eapply agrees_bind; [apply get_ok, F|]. intros b [B E]. apply add_ok; auto. apply k_ctor_copy_alloc_ok; auto.
  - eapply agrees_weaken; [apply k_do_new_move_ok; auto|]. intros ? [? _]. auto.
  - eapply agrees_bind; [apply get_ok, F|]. intros b [B E]. apply add2_ok; auto. apply k_ctor_move_alloc_ok; auto.
  - destruct T as [T S], L as [_ [b' [E' W]]]. eapply agrees_bind; [apply get_ok, F|]. intros b [B E]. apply add_ok; auto.
    rewrite E in E'. injection E' as <-. apply k_make_copy_ok; auto.
  - destruct T as [T S], L as [_ [b' [E' W]]]. eapply agrees_bind; [apply get_ok, F|]. intros b [B E]. apply add_ok; auto.
    rewrite E in E'. injection E' as <-. apply k_make_move_ok; auto.
  - eapply agrees_bind; [apply get_ok, F|]. intros a [A Ea]. eapply agrees_bind; [apply get_ok, F|]. intros b [B Eb].
    apply change_ok; auto. apply k_copy_assign_op_ok; auto.
  - eapply agrees_weaken; [apply k_do_move_assign_ok; auto|]. intros ? [? _]. auto.
  - eapply agrees_bind; [apply get_ok, F|]. intros a [A Ea]. eapply agrees_bind; [apply get_ok, F|]. intros b [B Eb].
    apply change_ok; auto. apply k_assign_copy_ok; auto.
  - eapply agrees_bind; [apply get_ok, F|]. intros a [A Ea]. eapply agrees_bind; [apply get_ok, F|]. intros b [B Eb].
    apply change_ok; auto. apply k_assign_move_ok; auto.
  - eapply agrees_bind; [apply get_ok, F|]. intros a [A Ea]. apply change_ok; auto. apply k_assign_value_ok; auto.
  - eapply agrees_bind; [apply get_ok, F|]. intros a [A Ea]. apply change_ok; auto. apply k_clear_ok; auto.
  - destruct T as [T S], L as [_ [a [Ea M]]]. apply k_do_reshape_ok; auto.
    intros b Eb. rewrite Ea in Eb. injection Eb as <-. auto.
  - destruct T as [Tx Ty], L as [[a [Ea _]] [b [Eb _]]].
    apply k_do_swap_ok; auto; intros ->; [rewrite Nx in Ea by lia; discriminate Ea|rewrite Nx in Eb by lia; discriminate Eb].
  - destruct L as [a' [E' I]]. eapply agrees_bind; [apply get_ok, F|]. intros a [A Ea]. rewrite Ea in E'. injection E' as <-.
    rewrite k_ref_ptr_tame; [|apply A|apply (T a Ea)|exact I]. cbn [bind]. step_same. apply agrees_ret. exact F.
  - apply k_do_delete_ok; auto.
Qed.
Lemma k_subset_ok new old off : Forall is_dim new -> Forall is_dim old -> reach new <= big -> reach old + Z.abs off <= big ->
  k_assert nd (k_is_subset_of new old off) = assert_ nd (is_subset_of new old off).
Proof. intros A B C D. rewrite k_is_subset_of_ok by (auto; unfold index_max; lia). apply k_assert_ok. Qed.
Lemma reach_pos s : 0 <= reach s.
Proof. induction s as [|d s IH]; [unfold reach; simpl; lia|]. unfold reach in *. cbn [map fold_right]. nia. Qed.
Lemma k_arr_set_shape_ok a new off : Forall is_dim new -> Forall is_dim (a_shape a) -> reach new <= big ->
  reach (a_shape a) + Z.abs off <= big -> k_arr_set_shape c a new off = arr_set_shape c a new off.
Proof.
  intros A B C D. pose proof (reach_pos (a_shape a)). unfold k_arr_set_shape, arr_set_shape. ckl.
  rewrite k_subset_ok by (auto; lia). reflexivity.
Qed.
Lemma k_move_reinterpret_ok x h y b old0 new off : Forall is_dim new -> Forall is_dim (a_shape b) -> reach new <= big ->
  reach (a_shape b) + Z.abs off <= big ->
  k_move_reinterpret_shape c x h y b old0 new off = move_reinterpret_shape c x h y b old0 new off.
Proof.
  intros A B C D. unfold k_move_reinterpret_shape, move_reinterpret_shape. rewrite k_subset_ok by auto.
  destruct (k_ctor_shape_ok x h (c_default c) (c_shape0 c) T0) as [-> _]. reflexivity.
Qed.
End Container.

Section Programs.
Context {V : Type}.
Implicit Types (c : config V) (w : world V) (o : op V).

Lemma names_free c w : Inv c w -> forall x, (w_next w <= x)%nat -> w_arr w x = None.
Proof. intros I x L. destruct (w_arr w x) as [a|] eqn:E; auto. pose proof (inv_lt c w x a I E). lia. Qed.
Lemma tame_world_fine w : tame_world w -> fineW False w.
Proof. intros H x a E. destruct (H x a E) as [A B]. split; [exact A|]. split; [exact B|]. intros []. Qed.
Lemma fine_tame_world w (G : Prop) : fineW G w -> tame_world w.
Proof. intros H x a E. destruct (H x a E) as [A [B _]]. auto. Qed.
Lemma step_64 c w o : fair c -> tame (c_shape0 c) -> reachable c w -> tame_world w -> legal_op c w o -> tame_op w o ->
  exists w', k_step c w o = Ok w' /\ step c w o = Ok w' /\ tame_world w'.
Proof.
  intros F T R W L O. pose proof (reachable_inv c F w R) as I. destruct (step_ok c F w o I L) as [w' [E _]].
  destruct (k_step_ok c T False (fun x => match x with end) w o (tame_world_fine w W) (names_free c w I) L O) as [K P].
  exists w'. rewrite K, E. split; auto. split; auto. eapply fine_tame_world. apply P. auto.
Qed.
Lemma programs_64 c ops : fair c -> tame (c_shape0 c) -> legal c empty_world ops -> tame_ops c empty_world ops ->
  exists w, k_run c ops empty_world = Ok w /\ run c ops empty_world = Ok w.
Proof.
  intros F T. cut (forall ops w, Inv c w -> tame_world w -> legal c w ops -> tame_ops c w ops -> exists w', k_run c ops w = Ok w' /\ run c ops w = Ok w').
  { intros H L O. apply H; auto; [apply inv_empty|]. intros x a E. discriminate E. }
  clear ops. induction ops as [|o ops IH]; intros w I W L O; unfold k_run, run in *; cbn [foldM]; [eauto|].
  destruct L as [L1 L2], O as [O1 O2]. destruct (step_ok c F w o I L1) as [w' [E I']].
  destruct (k_step_ok c T False (fun x => match x with end) w o (tame_world_fine w W) (names_free c w I) L1 O1) as [K P].
  rewrite K, E. cbn [bind]. apply IH; auto. eapply fine_tame_world. apply P. auto.
Qed.
Lemma settled_op w o : fineW True w -> tame_shapes o -> tame_op w o.
Proof.
  intros F T. assert (S : forall x, settled_arr w x). { intros x a E. apply (F x a E). auto. }
  destruct o; cbn [tame_op tame_shapes] in *; auto.
Qed.
Lemma settled_programs_64 c ops : fair c -> tame (c_shape0 c) -> settled (c_shape0 c) -> legal c empty_world ops -> Forall tame_shapes ops ->
  exists w, k_run c ops empty_world = Ok w /\ run c ops empty_world = Ok w.
Proof.
  intros F T S. cut (forall ops w, Inv c w -> fineW True w -> legal c w ops -> Forall tame_shapes ops -> exists w', k_run c ops w = Ok w' /\ run c ops w = Ok w').
  { intros H L O. apply H; auto; [apply inv_empty|]. intros x a E. discriminate E. }
  clear ops. induction ops as [|o ops IH]; intros w I W L O; unfold k_run, run in *; cbn [foldM]; [eauto|].
  destruct L as [L1 L2]. inversion O as [|? ? O1 O2]; subst. destruct (step_ok c F w o I L1) as [w' [E I']].
  destruct (k_step_ok c T True (fun _ => S) w o W (names_free c w I) L1 (settled_op w o W O1)) as [K P].
  rewrite K, E. cbn [bind]. apply IH; auto.
Qed.
End Programs.
