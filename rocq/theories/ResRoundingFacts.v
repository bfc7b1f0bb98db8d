(** Proofs about rounding errors of resampling. *)
From Coq Require Import ZArith QArith Qabs List Bool Lia Lqa Qfield Permutation Sorted.
From Verif Require Import RoundingProps Tac Base Interval Shape Memory Ref Spec SpecMem SpecEin Rational SpecRational Resample SpecResample
  EinUses MatrixFacts ResampleFacts ResampleWhole Rounding SpecRounding RoundingFacts ResRounding SpecResRounding.
Import ListNotations.
Local Open Scope Q_scope.

(** ** Sums *)
Lemma sum_qsum l g : sum_of l g == qsum (map g l).
Proof. unfold sum_of. rewrite fold_qsum. ring. Qed.
Lemma qsum_ext {A} (g h : A -> Q) l : (forall i, In i l -> g i == h i) -> qsum (map g l) == qsum (map h l).
Proof.
  induction l as [|a l IH]; intros H; [reflexivity|]. cbn [map qsum fold_right]. fold (qsum (map g l)). fold (qsum (map h l)).
  rewrite IH by (intros; apply H; right; auto). rewrite (H a) by (left; auto). reflexivity.
Qed.
Lemma qsum_cons {A} (g : A -> Q) a l : qsum (map g (a :: l)) = g a + qsum (map g l).
Proof. reflexivity. Qed.
Lemma qsum_le {A} (g h : A -> Q) l : (forall i, In i l -> g i <= h i) -> qsum (map g l) <= qsum (map h l).
Proof.
  induction l as [|a l IH]; intros H; [apply Qle_refl|]. rewrite !qsum_cons. pose proof (H a (or_introl eq_refl)).
  assert (qsum (map g l) <= qsum (map h l)) by (apply IH; intros; apply H; right; auto). lra.
Qed.
Lemma qsum_mul {A} c (g : A -> Q) l : qsum (map (fun i => c * g i) l) == c * qsum (map g l).
Proof. induction l as [|a l IH]; [unfold qsum; cbn; ring|]. rewrite !qsum_cons, IH. ring. Qed.
Lemma qsum_sub {A} (g h : A -> Q) l : qsum (map (fun i => g i - h i) l) == qsum (map g l) - qsum (map h l).
Proof. induction l as [|a l IH]; [unfold qsum; cbn; ring|]. rewrite !qsum_cons, IH. ring. Qed.
Lemma qsum_abs {A} (g : A -> Q) l : Qabs (qsum (map g l)) <= qsum (map (fun i => Qabs (g i)) l).
Proof.
  induction l as [|a l IH]; [unfold qsum; cbn; apply Qle_refl|]. rewrite !qsum_cons. pose proof (abs_bounds (g a)). rewrite abs_le in *. lra.
Qed.
Lemma qsum_at_least {A} (w : A -> Q) l a : (forall i, In i l -> 0 <= w i) -> In a l -> w a <= qsum (map w l).
Proof.
  induction l as [|b l IH]; intros H I; [destruct I|]. rewrite qsum_cons. pose proof (H b (or_introl eq_refl)).
  assert (P : 0 <= qsum (map w l)).
  { clear - H. assert (forall i, In i l -> 0 <= w i) by (intros; apply H; right; auto). clear H. induction l as [|c l IH]; [apply Qle_refl|]. rewrite qsum_cons.
    pose proof (H0 c (or_introl eq_refl)). assert (0 <= qsum (map w l)) by (apply IH; intros; apply H0; right; auto). lra. }
  destruct I as [->|I]; [lra|]. specialize (IH (fun i Hi => H i (or_intror Hi)) I). lra.
Qed.
Lemma qsum_permut l l' : Permutation l l' -> qsum l == qsum l'.
Proof. unfold qsum. induction 1; cbn [fold_right]; [reflexivity|rewrite IHPermutation; reflexivity|ring|rewrite IHPermutation1; auto]. Qed.
Lemma qsum_filtered {A} (p : A -> bool) (g : A -> Q) (l : list A) : (forall i, p i = false -> g i == 0) -> qsum (map g (filter p l)) == qsum (map g l).
Proof.
  intros H. induction l as [|a l IH]; [reflexivity|]. cbn [filter]. destruct (p a) eqn:E; rewrite ?qsum_cons, IH; [reflexivity|]. rewrite (H a E). ring.
Qed.

Section One.
Variables (u : Q) (rnd : Q -> Q).
Hypothesis Hr : rounds u 0 rnd.
Variables (w : Z -> Q) (lo n : Z) (k : Q) (N : nat).
Notation fl := (rounded rnd).
Notation L := (range lo n).
Notation TL := (taps fl w lo n).
Notation R := (tap_range fl w lo n).
Hypothesis Hc : conditioned k w lo n.
Hypothesis Ht : taps_within N w lo n.
Hypothesis Hg : (grow u N - 1) * k < 1.
Let T := qsum (map w L).
Let A := qsum (map (fun i => Qabs (w i)) L).
Let th := (grow u N - 1) * k.
Let T' := total fl w lo n.

Lemma tap_nonzero i : In i TL <-> (lo <= i < lo + n)%Z /\ ~ w i == 0.
Proof.
  rewrite taps_In. cbn [f_ne f0 rounded]. rewrite negb_true_iff. split; intros [H1 H2]; split; auto.
  - apply Qeq_bool_neq. exact H2.
  - destruct (Qeq_bool (w i) 0) eqn:E; [apply Qeq_bool_eq in E; contradiction|reflexivity].
Qed.
Lemma some_taps : TL <> [].
Proof. destruct Ht as [(i & Hi & Hw) _]. assert (I : In i TL) by (apply tap_nonzero; auto). intros E. rewrite E in I. exact I. Qed.
Lemma R_within : (length R <= N)%nat /\ (length TL <= N)%nat /\ (forall i, In i R -> (lo <= i < lo + n)%Z).
Proof.
  destruct (window_bounds fl w lo n some_taps) as (_ & _ & B1 & B2).
  destruct (sorted_hd_last TL some_taps (taps_sorted fl w lo n)) as (H1 & H2 & H3). fold (first_tap fl w lo n) (last_tap fl w lo n) in *.
  destruct Ht as [_ (a & Ha)]. pose proof (proj1 (tap_nonzero _) H1) as [I1 N1]. pose proof (proj1 (tap_nonzero _) H2) as [I2 N2].
  pose proof (Ha _ I1 N1). pose proof (Ha _ I2 N2).
  assert (LR : (length R <= N)%nat) by (unfold tap_range; rewrite range_length; lia). split; [exact LR|].
  assert (G : forall i, In i R -> (lo <= i < lo + n)%Z) by (unfold tap_range; intros i Hi; apply range_In in Hi; lia). split; [|exact G].
  etransitivity; [|exact LR]. apply NoDup_incl_length.
  - apply NoDup_filter, range_NoDup.
  - intros i Hi. unfold tap_range. apply range_In. specialize (H3 i Hi). lia.
Qed.
(** Sums over all positions are sums over those of the kernel *)
Lemma sum_taps g : (forall i, w i == 0 -> g i == 0) -> qsum (map g TL) == qsum (map g L).
Proof.
  intros H. unfold taps. apply qsum_filtered. intros i Hi. apply H. cbn [f_ne f0 rounded] in Hi. apply negb_false_iff in Hi. apply Qeq_bool_eq. exact Hi.
Qed.
Lemma sum_R g : (forall i, w i == 0 -> g i == 0) -> qsum (map g R) == qsum (map g L).
Proof.
  intros H. rewrite <- (sum_taps g H). rewrite <- (qsum_filtered (fun i => f_ne fl (w i) (f0 fl)) g R).
  2:{ intros i Hi. apply H. cbn [f_ne f0 rounded] in Hi. apply negb_false_iff in Hi. apply Qeq_bool_eq. exact Hi. }
  apply qsum_permut, Permutation_map, NoDup_Permutation.
  - apply NoDup_filter, range_NoDup.
  - apply NoDup_filter, range_NoDup.
  - intro i. destruct (window_bounds fl w lo n some_taps) as (_ & _ & B1 & B2).
    destruct (sorted_hd_last TL some_taps (taps_sorted fl w lo n)) as (_ & _ & H3). fold (first_tap fl w lo n) (last_tap fl w lo n) in *.
    rewrite filter_In. unfold tap_range. rewrite range_In. split; intros Hi.
    + apply taps_In. split; [lia|apply Hi].
    + specialize (H3 i Hi). apply taps_In in Hi. split; [lia|apply Hi].
Qed.
Lemma A_pos : 0 < A.
Proof.
  destruct Ht as [(i & Hi & Hw) _]. assert (0 < Qabs (w i)) by (apply Qabs_case; intros; destruct (Q_dec (w i) 0) as [[?|?]|?]; try lra; contradiction).
  pose proof (qsum_at_least (fun i => Qabs (w i)) L i (fun j _ => Qabs_nonneg (w j))) as G. unfold A. eapply Qlt_le_trans; [eassumption|]. apply G. apply range_In. lia.
Qed.
Lemma A_T : A <= k * T.
Proof. destruct Hc as [_ H]. rewrite !sum_qsum in H. exact H. Qed.
Lemma T_pos : 0 < T.
Proof.
  pose proof A_pos. pose proof A_T. destruct Hc as [Hk _]. destruct (Qlt_le_dec 0 T) as [P|P]; [exact P|]. exfalso.
  assert (0 <= k * - T) by (apply Qmult_le_0_compat; lra). lra.
Qed.
Lemma th_pos : 0 <= th.
Proof. pose proof (grow_ge u 0 rnd Hr N). destruct Hc. apply Qmult_le_0_compat; lra. Qed.
Lemma total_error : Qabs (T' - T) <= th * T.
Proof.
  assert (E : T' = computed rnd (loop (map (fun i => Given (w i)) TL) Zero)) by (rewrite loop_computed, map_map; reflexivity).
  assert (M : meant (loop (map (fun i => Given (w i)) TL) Zero) == T).
  { rewrite loop_meant, map_map. cbn [meant]. rewrite (sum_taps w) by auto. unfold T. ring. }
  assert (S' : size (loop (map (fun i => Given (w i)) TL) Zero) == A).
  { rewrite loop_size, map_map. cbn [size]. rewrite (sum_taps (fun i => Qabs (w i))) by (intros i Hi; rewrite Hi; reflexivity). unfold A. ring. }
  rewrite E, <- M. destruct R_within as (_ & Ln & _).
  eapply Qle_trans; [apply (tree_error u 0 rnd Hr _ N (roundings (loop (map (fun i => Given (w i)) TL) Zero)))|].
  - pose proof (loop_depth 0 (map (fun i => Given (w i)) TL)) as D. specialize (D ltac:(apply Forall_map, Forall_forall; intros; cbn; auto) Zero 0%nat). cbn [depth] in D. rewrite map_length in D. lia.
  - apply le_n.
  - unfold error_bound. rewrite S', M. pose proof (grow_ge u 0 rnd Hr N) as G. pose proof A_T as AT.
    assert (0 <= (grow u N - 1) * (k * T - A)) by (apply Qmult_le_0_compat; lra). unfold th. lra.
Qed.
Lemma total_bounds : (1 - th) * T <= T' /\ 0 < (1 - th) * T.
Proof.
  pose proof total_error as H. pose proof T_pos. rewrite abs_le in H. split; [lra|]. unfold th in *. apply Qmult_lt_0_compat; lra.
Qed.
Lemma usable_rounded : usable_weights fl w lo n.
Proof.
  split; [exact some_taps|]. pose proof total_bounds as [H1 H2]. cbn [f_lt f0 rounded]. fold T'. rewrite negb_true_iff.
  destruct (Qle_bool T' 0) eqn:E; [apply Qle_bool_iff in E; lra|reflexivity].
Qed.
(** The normalised weights *)
Let v i := rnd (w i / T').
Let et := (1 + u) / (1 - th).
Lemma et_ge : 1 <= et /\ 0 < 1 - th.
Proof.
  pose proof th_pos. destruct Hr as (Hu & _ & _). assert (0 < 1 - th) by (unfold th in *; lra). split; [|auto]. unfold et. apply Qle_shift_div_l; lra.
Qed.
Lemma share_error i : Qabs (v i - w i / T) <= (et - 1) * (Qabs (w i) / T).
Proof.
  pose proof total_bounds as [B1 B2]. pose proof T_pos as Tp. pose proof total_error as Te. pose proof et_ge as [E1 E2]. pose proof (Qabs_nonneg (w i)) as Wp.
  assert (T'p : 0 < T') by lra. destruct Hr as (Hu & _ & Hround).
  assert (X : Qabs (w i / T') <= Qabs (w i) / ((1 - th) * T)).
  { unfold Qdiv. rewrite Qabs_Qmult, (Qabs_pos (/ T')) by (apply Qlt_le_weak, Qinv_lt_0_compat; auto).
    rewrite !(Qmult_comm (Qabs (w i))). apply Qmult_le_compat_r; auto. apply Qle_shift_inv_l; auto.
    setoid_replace (/ T' * ((1 - th) * T)) with (((1 - th) * T) / T') by (field; lra). apply Qle_shift_div_r; auto. lra. }
  assert (Y : Qabs (w i / T' - w i / T) <= Qabs (w i) / ((1 - th) * T) * th).
  { setoid_replace (w i / T' - w i / T) with ((w i / T') * ((T - T') / T)) by (field; lra). rewrite Qabs_Qmult.
    assert (Z1 : Qabs ((T - T') / T) <= th).
    { unfold Qdiv. rewrite Qabs_Qmult, (Qabs_pos (/ T)) by (apply Qlt_le_weak, Qinv_lt_0_compat; auto). apply Qle_shift_div_r; auto. rewrite Qabs_Qminus. exact Te. }
    pose proof (Qabs_nonneg ((T - T') / T)). pose proof (Qabs_nonneg (w i / T')). pose proof th_pos.
    eapply Qle_trans; [apply Qmult_le_compat_r; [exact X|auto]|]. rewrite !(Qmult_comm (Qabs (w i) / _)). apply Qmult_le_compat_r; auto. lra. }
  specialize (Hround (w i / T')). fold (v i) in Hround. set (X0 := Qabs (w i / T')) in *. set (c := Qabs (w i) / ((1 - th) * T)) in *.
  assert (u * X0 <= u * c) by (rewrite !(Qmult_comm u); apply Qmult_le_compat_r; auto).
  assert (F : (et - 1) * (Qabs (w i) / T) == c * (th + u)). { unfold et, c. field. lra. }
  rewrite F. rewrite abs_le in *. lra.
Qed.
Variables (g : Z -> Q) (G : Q).
Hypothesis Gb : forall i, (lo <= i < lo + n)%Z -> Qabs (g i) <= G.
Lemma G_pos : 0 <= G.
Proof. destruct Ht as [(i & Hi & _) _]. pose proof (Gb i Hi). pose proof (Qabs_nonneg (g i)). lra. Qed.
Lemma shares : qsum (map (fun i => Qabs (w i) / T) R) <= k.
Proof.
  pose proof T_pos. rewrite (qsum_ext _ (fun i => / T * Qabs (w i))) by (intros; unfold Qdiv; ring). rewrite qsum_mul.
  rewrite (sum_R (fun i => Qabs (w i))) by (intros i Hi; rewrite Hi; reflexivity). fold A. pose proof A_T.
  setoid_replace (/ T * A) with (A / T) by (unfold Qdiv; ring). apply Qle_shift_div_r; auto.
Qed.
Lemma average_sum : average w lo n g == qsum (map (fun i => g i * (w i / T)) R).
Proof.
  pose proof T_pos as Tp. unfold average. rewrite !sum_qsum. fold T.
  rewrite (qsum_ext (fun i => g i * (w i / T)) (fun i => / T * (g i * w i))) by (intros; field; lra). rewrite qsum_mul.
  rewrite (sum_R (fun i => g i * w i)) by (intros i Hi; rewrite Hi; ring). field. lra.
Qed.
Lemma weighted_close : Qabs (weighted fl w lo n g - average w lo n g) <= average_error u k N * G.
Proof.
  pose proof T_pos as Tp. pose proof et_ge as [E1 E2]. pose proof G_pos as Gp. destruct R_within as (LR & _ & IR). pose proof shares as Sh.
  assert (Wp : forall i, 0 <= Qabs (w i) / T) by (intros i; apply Qle_shift_div_l; auto; pose proof (Qabs_nonneg (w i)); lra).
  set (t := loop (map (fun i => Times (g i) (v i)) R) Zero).
  assert (E : weighted fl w lo n g = computed rnd t) by (unfold t; rewrite loop_computed, map_map; reflexivity).
  assert (M : meant t == qsum (map (fun i => g i * v i) R)) by (unfold t; rewrite loop_meant, map_map; cbn [meant]; ring).
  assert (Sz : size t <= et * (k * G)).
  { unfold t. rewrite loop_size, map_map. cbn [size]. assert (B : qsum (map (fun i => Qabs (g i * v i)) R) <= qsum (map (fun i => (et * G) * (Qabs (w i) / T)) R)).
    { apply qsum_le. intros i Hi. rewrite Qabs_Qmult. pose proof (share_error i) as Se. pose proof (Gb i (IR i Hi)). pose proof (Qabs_nonneg (g i)). pose proof (Qabs_nonneg (v i)).
      assert (V : Qabs (v i) <= et * (Qabs (w i) / T)).
      { assert (Qabs (w i / T) == Qabs (w i) / T) by (unfold Qdiv; rewrite Qabs_Qmult, (Qabs_pos (/ T)) by (apply Qlt_le_weak, Qinv_lt_0_compat; auto); reflexivity).
        pose proof (abs_bounds (w i / T)) as Bb. rewrite H2 in Bb. rewrite abs_le in *. lra. }
      specialize (Wp i). eapply Qle_trans; [apply Qmult_le_compat_r; [exact H|auto]|]. setoid_replace (et * G * (Qabs (w i) / T)) with (et * (Qabs (w i) / T) * G) by ring.
      rewrite (Qmult_comm G). apply Qmult_le_compat_r; auto. }
    rewrite qsum_mul in B. assert (0 <= et * G) by (apply Qmult_le_0_compat; lra).
    assert (0 <= (et * G) * (k - qsum (map (fun i => Qabs (w i) / T) R))) by (apply Qmult_le_0_compat; lra). lra. }
  assert (D1 : Qabs (computed rnd t - meant t) <= (grow u (S N) - 1) * (et * (k * G))).
  { eapply Qle_trans; [apply (tree_error u 0 rnd Hr t (S N) (roundings t))|].
    - unfold t. pose proof (loop_depth 1 (map (fun i => Times (g i) (v i)) R)) as D. specialize (D ltac:(apply Forall_map, Forall_forall; intros; cbn; auto) Zero 1%nat). cbn [depth] in D. rewrite map_length in D. lia.
    - apply le_n.
    - unfold error_bound. pose proof (grow_ge u 0 rnd Hr (S N)). assert (0 <= (grow u (S N) - 1) * (et * (k * G) - size t)) by (apply Qmult_le_0_compat; lra). lra. }
  assert (D2 : Qabs (meant t - average w lo n g) <= (et - 1) * (k * G)).
  { rewrite M, average_sum, <- qsum_sub. eapply Qle_trans; [apply qsum_abs|].
    assert (B : qsum (map (fun i => Qabs (g i * v i - g i * (w i / T))) R) <= qsum (map (fun i => ((et - 1) * G) * (Qabs (w i) / T)) R)).
    { apply qsum_le. intros i Hi. setoid_replace (g i * v i - g i * (w i / T)) with (g i * (v i - w i / T)) by ring. rewrite Qabs_Qmult.
      pose proof (share_error i) as Se. pose proof (Gb i (IR i Hi)). pose proof (Qabs_nonneg (g i)). pose proof (Qabs_nonneg (v i - w i / T)).
      eapply Qle_trans; [apply Qmult_le_compat_r; [exact H|auto]|]. setoid_replace ((et - 1) * G * (Qabs (w i) / T)) with ((et - 1) * (Qabs (w i) / T) * G) by ring.
      rewrite (Qmult_comm G). apply Qmult_le_compat_r; auto. }
    rewrite qsum_mul in B. assert (0 <= (et - 1) * G) by (apply Qmult_le_0_compat; lra).
    assert (0 <= ((et - 1) * G) * (k - qsum (map (fun i => Qabs (w i) / T) R))) by (apply Qmult_le_0_compat; lra). lra. }
  rewrite E. assert (F : average_error u k N * G == (grow u (S N) - 1) * (et * (k * G)) + (et - 1) * (k * G)).
  { unfold average_error, et. cbn [grow]. fold th. field. lra. }
  rewrite F. rewrite abs_le in *. lra.
Qed.
Lemma average_abs : Qabs (average w lo n g) <= k * G.
Proof.
  pose proof T_pos as Tp. pose proof G_pos as Gp. destruct R_within as (_ & _ & IR). rewrite average_sum. eapply Qle_trans; [apply qsum_abs|].
  assert (B : qsum (map (fun i => Qabs (g i * (w i / T))) R) <= qsum (map (fun i => G * (Qabs (w i) / T)) R)).
  { apply qsum_le. intros i Hi. assert (E : Qabs (w i / T) == Qabs (w i) / T) by (unfold Qdiv; rewrite Qabs_Qmult, (Qabs_pos (/ T)) by (apply Qlt_le_weak, Qinv_lt_0_compat; auto); reflexivity).
    rewrite Qabs_Qmult, E. apply Qmult_le_compat_r; [apply Gb, IR, Hi|]. rewrite <- E. apply Qabs_nonneg. }
  rewrite qsum_mul in B. pose proof shares as Sh. assert (0 <= G * (k - qsum (map (fun i => Qabs (w i) / T) R))) by (apply Qmult_le_0_compat; lra). lra.
Qed.
End One.
Lemma average_minus w lo n g g' : average w lo n g - average w lo n g' == average w lo n (fun i => g i - g' i).
Proof.
  unfold average. rewrite !sum_qsum. rewrite (qsum_ext (fun i => (g i - g' i) * w i) (fun i => g i * w i - g' i * w i)) by (intros; ring).
  rewrite qsum_sub. unfold Qdiv. ring.
Qed.
