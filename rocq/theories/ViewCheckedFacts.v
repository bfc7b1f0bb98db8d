(** Facts about views and reductions in 64 bits. *)
From Verif Require Import Tac Interval Shape Traverse Memory Ref Checked Overflow Spec SpecMem SpecChecked SpecOverflow
  ShapeFacts IntervalFacts ResolveFacts TraverseFacts MemFacts RefFacts SliceFacts CheckedFacts OverflowFacts
  Ein SpecEin EinFacts EinUses ViewChecked SpecViewChecked.
Import ListNotations.
Open Scope Z_scope.

Notation big := 9223372036854775807 (only parsing).

(** ** Elements *)

Lemma k_offset_near s i : Forall is_dim s -> Forall2 (fun d x => Z.abs (x - dmin d) <= Z.abs (dext d - 1)) s i ->
  reach s <= big -> k_flat_offset s i = Ok (offset s i).
Proof.
  intros Hs Hi Hr. rewrite <- flat_offset_spec. unfold k_flat_offset, flat_offset.
  assert (Hd : Forall2 (fun d x => k_dim_flat_offset d x = Ok (dim_flat_offset d x) /\
                 Z.abs (dim_flat_offset d x) <= Z.abs (dext d - 1) * Z.abs (dstr d)) s i).
  { assert (Hd : forall d, In d s -> Z.abs (dext d - 1) * Z.abs (dstr d) <= big).
    { intros d Hd. pose proof (reach_dim s d Hd). lia. }
    clear Hr. induction Hi as [|d x s i Hdx Hi IH]; constructor.
    - inv Hs. destruct H1 as [I1 [I2 [I3 I4]]].
      specialize (Hd d (or_introl eq_refl)). unfold k_dim_flat_offset, dim_flat_offset, is_index in *.
      assert (Z.abs ((x - dmin d) * dstr d) <= Z.abs (dext d - 1) * Z.abs (dstr d)).
      { rewrite Z.abs_mul. apply Z.mul_le_mono_nonneg_r; lia. }
      split; auto. rewrite chk_ok by (unfold is_index; lia). cbn [bind]. apply chk_ok. unfold is_index. lia.
    - inv Hs. apply IH; auto. intros e He. apply Hd. right. auto. }
  rewrite (map2M_ok _ dim_flat_offset).
  - cbn [bind]. apply k_sum_ok. eapply Z.le_trans; [|exact Hr]. rewrite reach_lsum. clear - Hd.
    induction Hd as [|d x s i [_ H] _ IH]; [reflexivity|]. unfold lsum in *. cbn [map2 map fold_right]. lia.
  - clear - Hd. induction Hd as [|d x s i [H _] _ IH]; constructor; auto.
Qed.
Lemma k_ptr_ok b s i : roomy s -> in_bounds s i -> k_ref_ptr (mkR b s) i = Ok (elem b s i).
Proof.
  intros (H1 & H2 & H3 & H4) Hi. unfold k_ref_ptr. cbn [r_shape r_base]. rewrite k_flat_offset_ok by auto. reflexivity.
Qed.
Lemma roomy_nil : roomy [].
Proof. repeat split; try constructor. discriminate. Qed.
Lemma roomy_cons d s : roomy (d :: s) <->
  is_dim d /\ is_index (dmin d + dext d) /\ is_index (dmin d + dext d - 1) /\ ~ unknown_stride d /\
  Forall is_dim s /\ ends_fit s /\ Forall (fun d => ~ unknown_stride d) s /\
  Z.abs (dext d - 1) * Z.abs (dstr d) + reach s <= big.
Proof.
  unfold roomy, ends_fit. rewrite reach_cons, !Forall_cons_iff. tauto.
Qed.
Lemma k_resolve_known s : Forall (fun d => ~ unknown_stride d) s -> k_resolve s = Ok s.
Proof.
  intro H. unfold k_resolve. change s with ([] ++ s) at 2. generalize (@nil dim) as b. induction H as [|d s Hd H IH]; intro b.
  - cbn. rewrite app_nil_r. reflexivity.
  - cbn [k_resolve_from]. replace (is_unresolved (dstr d)) with false.
    + cbn [bind]. rewrite IH. rewrite <- app_assoc. reflexivity.
    + rewrite is_unresolved_unknown. destruct (unknown_strideb d) eqn:E; auto. apply unknown_strideb_iff in E. contradiction.
Qed.

(** ** Slices *)

Lemma cut_slice args : forall s, length args = length s -> shape_slice s args = cut args s.
Proof.
  induction args as [|a r IH]; intros [|d s] H; try discriminate; [reflexivity|].
  rewrite shape_slice_cons, IH by (simpl in H; lia). destruct a; reflexivity.
Qed.
Lemma part_near m e d : is_dim d -> part m e d -> Z.abs (m - dmin d) <= Z.abs (dext d - 1) /\
  Z.abs (e - 1) <= Z.abs (dext d - 1) /\ 0 <= e /\ dmin d <= m /\ m + e <= dmin d + dext d.
Proof. intros (_ & _ & _ & H) [[-> ->]|(A & B & C)]; lia. Qed.
Lemma part_roomy m e d s R : roomy (d :: s) -> part m e d -> roomy R -> reach R <= reach s ->
  roomy (mkD m e (dstr d) :: R).
Proof.
  intros H P (R1 & R2 & R3 & R4) Hr. apply roomy_cons in H. destruct H as (D & E1 & E2 & U & F1 & F2 & F3 & L).
  pose proof (part_near m e d D P) as (N1 & N2 & N3 & N4 & N5). destruct D as (D1 & D2 & D3 & D4).
  assert (M : Z.abs (e - 1) * Z.abs (dstr d) <= Z.abs (dext d - 1) * Z.abs (dstr d))
    by (apply Z.mul_le_mono_nonneg_r; lia).
  apply roomy_cons. cbn [dmin dext dstr]. unfold is_dim, is_index, unknown_stride in *. cbn [dmin dext dstr].
  repeat split; try assumption; try lia; destruct P as [[-> ->]|P]; lia.
Qed.
Lemma term_nonneg d : 0 <= Z.abs (dext d - 1) * Z.abs (dstr d).
Proof. apply Z.mul_nonneg_nonneg; lia. Qed.
Lemma cut_roomy args : forall s, Forall2 arg_fits args s -> roomy s -> roomy (cut args s) /\ reach (cut args s) <= reach s.
Proof.
  induction args as [|a r IH]; intros s H Hs; inv H; [split; [exact Hs|apply Z.le_refl]|]. rename y into d. rename l' into s.
  assert (Hs' : roomy s).
  { apply roomy_cons in Hs. destruct Hs as (_ & _ & _ & _ & F1 & F2 & F3 & L). repeat (split; auto).
    pose proof (term_nonneg d). lia. }
  destruct (IH s H4 Hs') as [R1 R2]. rewrite (reach_cons d s).
  pose proof (term_nonneg d) as P.
  assert (Q : forall m e, part m e d -> roomy (mkD m e (dstr d) :: cut r s) /\
                reach (mkD m e (dstr d) :: cut r s) <= Z.abs (dext d - 1) * Z.abs (dstr d) + reach s).
  { intros m e Pm. split; [eapply part_roomy; eauto|]. rewrite reach_cons. cbn [dext dstr].
    apply roomy_cons in Hs. destruct Hs as (D & _). pose proof (part_near m e d D Pm) as (_ & N2 & _).
    assert (M : Z.abs (e - 1) * Z.abs (dstr d) <= Z.abs (dext d - 1) * Z.abs (dstr d))
      by (apply Z.mul_le_mono_nonneg_r; lia). lia. }
  destruct a; cbn [cut arg_fits] in *.
  - split; [exact R1|lia].
  - apply Q. assumption.
  - apply Q. assumption.
  - destruct d as [m e t]. apply (Q m e). left. split; reflexivity.
Qed.
Lemma fits_near args s : Forall2 arg_fits args s -> Forall is_dim s ->
  Forall2 (fun d x => Z.abs (x - dmin d) <= Z.abs (dext d - 1)) s (mins_of_intervals args s).
Proof.
  unfold mins_of_intervals. induction 1 as [|a d args s H _ IH]; intro D; cbn [map2]; [constructor|]. inv D. constructor; auto.
  destruct a; cbn [min_of_range arg_fits] in *.
  - unfold in_dim in H. lia.
  - apply (part_near _ _ _ H2 H).
  - apply (part_near _ _ _ H2 H).
  - lia.
Qed.
Lemma fits_within args s : Forall2 arg_fits args s -> args_within args s.
Proof.
  induction 1 as [|a d args s H _ IH]; constructor; auto. intros x Hx. destruct a; cbn [selects arg_fits] in *.
  - subst. auto.
  - unfold in_interval, in_dim in *. destruct H as [[E1 E2]|H]; lia.
  - unfold in_dim in *. destruct H as [[E1 E2]|H]; lia.
  - exact Hx.
Qed.
Lemma slice_step b s args : roomy s -> fst b <> O -> Forall2 arg_fits args s ->
  exists b', k_ref_slice (mkR b s) args = Ok (mkR b' (cut args s)) /\ fst b' <> O /\ roomy (cut args s) /\
    forall i, in_bounds (cut args s) i -> in_bounds s (full_index args i) /\
      elem b' (cut args s) i = elem b s (full_index args i).
Proof.
  intros Hs Hb Ha. pose proof Hs as (H1 & H2 & H3 & H4). pose proof (Forall2_len _ _ _ Ha) as L.
  unfold k_ref_slice. cbn [r_shape r_base]. rewrite k_offset_near by (auto using fits_near). cbn [bind].
  destruct (slice_denotes (mkR b s) args L Hb) as (_ & D2 & D3 & D4 & _). cbn [r_shape r_base] in *.
  unfold ref_slice, make_array_ref_at in *. cbn [r_shape r_base] in *. rewrite flat_offset_spec in *.
  rewrite cut_slice in * by auto. eexists. split; [reflexivity|].
  split; [rewrite pointer_add_block by auto; exact Hb|]. split; [apply cut_roomy; auto|].
  intros i Hi. split; [apply D4; auto using fits_within|].
  rewrite <- (D2 i (D3 i Hi)). rewrite elem_ref. reflexivity.
Qed.

(** ** Transposition and reordering *)

Lemma given_at order : forall i p k x, NoDup order -> nth_error order p = Some k -> nth_error i p = Some x ->
  given k order i = Some x.
Proof.
  induction order as [|o order IH]; intros i p k x N Ho Hi; [destruct p; discriminate|]. inv N.
  destruct i as [|y i]; [destruct p; discriminate|]. destruct p as [|p]; cbn in Ho, Hi; cbn [given].
  - inv Ho. inv Hi. rewrite Nat.eqb_refl. reflexivity.
  - destruct (Nat.eqb_spec o k) as [->|_]; [|eapply IH; eauto]. apply nth_error_In in Ho. contradiction.
Qed.
Lemma given_none k order : forall i, ~ In k order -> given k order i = None.
Proof.
  induction order as [|o order IH]; intros [|x i] H; try reflexivity. cbn [given].
  destruct (Nat.eqb_spec o k) as [->|_]; [destruct H; left; auto|]. apply IH. intro. apply H. right. auto.
Qed.
Lemma spread_nth order i : forall s k j, nth_error (spread_from k order s i) j =
  option_map (fun d => match given (k + j) order i with Some x => x | None => dmin d end) (nth_error s j).
Proof.
  induction s as [|d s IH]; intros k j; cbn [spread_from]; [destruct j; reflexivity|].
  destruct j as [|j]; cbn [nth_error]; [rewrite Nat.add_0_r; reflexivity|]. rewrite IH, Nat.add_succ_comm. reflexivity.
Qed.
Lemma spread_length order s i : length (spread order s i) = length s.
Proof. unfold spread. generalize O as k. induction s; intro k; cbn; auto. Qed.
Lemma picked_nth order s p k d : nth_error order p = Some k -> nth_error s k = Some d -> nth_error (picked order s) p = Some d.
Proof.
  intros H1 H2. unfold picked. rewrite (map_nth_error _ _ _ H1). rewrite (nth_error_nth _ _ _ H2). reflexivity.
Qed.
Lemma spread_at order s i p k : NoDup order -> (k < length s)%nat -> length i = length order -> nth_error order p = Some k ->
  nth_error i p = Some (nth k (spread order s i) 0).
Proof.
  intros N Hk L Hp. destruct (nth_error i p) as [x|] eqn:Ei.
  - destruct (nth_error s k) as [d|] eqn:Es; [|apply nth_error_None in Es; lia].
    pose proof (spread_nth order i s 0 k) as Q. rewrite Es in Q. cbn [option_map Nat.add] in Q.
    rewrite (given_at order i p k x) in Q by auto. unfold spread. rewrite (nth_error_nth _ _ _ Q). reflexivity.
  - apply nth_error_None in Ei. assert (nth_error order p <> None) by congruence. apply nth_error_Some in H. lia.
Qed.
Lemma spread_rest order s i k : (k < length s)%nat -> ~ In k order ->
  nth k (spread order s i) 0 = nth k (map dmin s) 0.
Proof.
  intros Hk N. destruct (nth_error s k) as [d|] eqn:Es; [|apply nth_error_None in Es; lia].
  pose proof (spread_nth order i s 0 k) as Q. rewrite Es in Q. cbn [option_map Nat.add] in Q. rewrite given_none in Q by auto.
  unfold spread. rewrite (nth_error_nth _ _ _ Q). rewrite (nth_error_nth _ _ 0 (map_nth_error dmin _ _ Es)). reflexivity.
Qed.
Lemma spread_bounds order s i : NoDup order -> Forall (fun k => (k < length s)%nat) order ->
  (forall k d, nth_error s k = Some d -> ~ In k order -> 1 <= dext d) ->
  in_bounds (picked order s) i -> in_bounds s (spread order s i).
Proof.
  intros N F E B. apply in_bounds_nth in B. destruct B as [L B]. unfold picked in L. rewrite map_length in L.
  apply in_bounds_nth. split; [apply spread_length|]. intros k d Hk.
  assert (Lk : (k < length s)%nat) by (apply nth_error_Some; congruence).
  destruct (in_dec Nat.eq_dec k order) as [I|I].
  - apply In_nth_error in I. destruct I as [p Hp]. pose proof (picked_nth _ _ _ _ _ Hp Hk) as Q.
    specialize (B _ _ Q). pose proof (spread_at order s i p k N Lk L Hp) as S.
    rewrite (nth_error_nth _ _ _ S) in B. exact B.
  - rewrite spread_rest by auto. rewrite (nth_error_nth _ _ 0 (map_nth_error dmin _ _ Hk)).
    specialize (E k d Hk I). unfold in_dim. lia.
Qed.
Lemma get_picked s order : Forall (fun k => (k < length s)%nat) order -> get_dims s order = Some (picked order s).
Proof.
  intro F. destruct (get_dims_total s order F) as [r Hr]. rewrite Hr. f_equal. apply (get_dims_map _ _ _ _ Hr).
Qed.
Lemma picked_roomy s order : NoDup order -> Forall (fun k => (k < length s)%nat) order -> roomy s -> roomy (picked order s).
Proof.
  intros N F (H1 & H2 & H3 & H4). unfold ends_fit in *.
  assert (P : forall (P : dim -> Prop), Forall P s -> Forall P (picked order s)).
  { intros P HP. unfold picked. apply Forall_map. eapply Forall_impl; [|exact F]. intros k Hk. cbn.
    rewrite Forall_forall in HP. apply HP, nth_In. exact Hk. }
  split; [auto|]. split; [apply P; exact H2|]. split; [auto|].
  destruct (select_complete _ _ N F) as [rest Hp]. eapply Z.le_trans; [|exact H4].
  unfold reach. set (f := fun d : dim => Z.abs (dext d - 1) * Z.abs (dstr d)).
  rewrite <- (seq_nth_self s (mkD 0 1 0)) at 2.
  rewrite <- (fold_add_perm _ _ (Permutation_map f (Permutation_map (fun k => nth k s (mkD 0 1 0)) Hp))).
  rewrite !map_app, fold_add_app. fold (picked order s). fold (picked rest s).
  pose proof (reach_nonneg (picked rest s)) as R. unfold reach in R. fold f in R. lia.
Qed.
Lemma reinterpret_step nd b s order : roomy s -> NoDup order -> Forall (fun k => (k < length s)%nat) order ->
  is_subset_of (picked order s) s 0 = true ->
  k_reinterpret_shape nd (mkR b s) (picked order s) 0 = Ok (mkR b (picked order s)).
Proof.
  intros Hs N F Hsub. pose proof (picked_roomy s order N F Hs) as (P1 & P2 & P3 & P4). destruct Hs as (H1 & H2 & H3 & H4).
  unfold k_reinterpret_shape, k_make_ref. cbn [r_shape r_base]. rewrite k_resolve_known by auto. cbn [bind r_shape].
  assert (Eb : ptr_off b 0 = b) by (unfold ptr_off; destruct b; cbn; f_equal; lia). rewrite Eb.
  destruct nd; [reflexivity|]. rewrite chk_ok by (unfold is_index; lia). cbn [bind].
  change (- 0) with 0. rewrite k_is_subset_of_ok; [|auto|auto|exact P4|cbn [Z.abs]; unfold index_max; lia].
  cbn [bind]. rewrite Hsub. reflexivity.
Qed.
Lemma reinterpret_subset b s t r' : Forall (fun d => ~ unknown_stride d) t ->
  reinterpret_shape false (mkR b s) t 0 = Ok r' -> is_subset_of t s 0 = true /\ r' = mkR b t.
Proof.
  intros K. unfold reinterpret_shape, make_ref. cbn [r_shape r_base]. rewrite resolve_known by auto. change (- 0) with 0.
  destruct (is_subset_of t s 0); cbn [assert_ bind]; [|discriminate]. intro H. inv H. split; auto.
  unfold ptr_off. destruct b. cbn. f_equal. f_equal. lia.
Qed.
Lemma perm_facts (s : shape) order : Permutation order (seq 0 (length s)) ->
  NoDup order /\ Forall (fun k => (k < length s)%nat) order /\ length order = length s.
Proof.
  intro P. split; [eapply Permutation_NoDup; [apply Permutation_sym; exact P|apply seq_NoDup]|]. split.
  - apply Forall_forall. intros k Hk. apply (Permutation_in _ P) in Hk. apply in_seq in Hk. lia.
  - rewrite (Permutation_length P). apply seq_length.
Qed.
Lemma picked_known s order : Forall (fun d => ~ unknown_stride d) s -> Forall (fun k => (k < length s)%nat) order ->
  Forall (fun d => ~ unknown_stride d) (picked order s).
Proof. intros K F. eapply get_dims_known; [exact K|]. apply get_picked. exact F. Qed.
Lemma transpose_step nd b s order : roomy s -> Permutation order (seq 0 (length s)) ->
  k_ref_transpose nd order (mkR b s) = Some (Ok (mkR b (picked order s))) /\ roomy (picked order s) /\
  forall i, in_bounds (picked order s) i -> in_bounds s (spread order s i) /\
    elem b (picked order s) i = elem b s (spread order s i).
Proof.
  intros Hs P. destruct (perm_facts s order P) as (N & F & L). pose proof Hs as (H1 & H2 & H3 & H4).
  pose proof (picked_known s order H3 F) as K.
  destruct (ref_transpose_relabels false (mkR b s) order H3 P) as (r' & E & Eb & _ & D).
  assert (T : transpose order s = Some (picked order s)).
  { unfold transpose. rewrite get_picked by auto. rewrite L, skipn_all, app_nil_r. reflexivity. }
  assert (E' : ref_transpose false order (mkR b s) = Some (reinterpret_shape false (mkR b s) (picked order s) 0)).
  { unfold ref_transpose. cbn [r_shape]. rewrite permutation_accepted by auto. rewrite T. reflexivity. }
  rewrite E' in E. injection E as E. apply reinterpret_subset in E; [|exact K]. destruct E as [Sub ->].
  cbn [r_shape r_base] in *. split.
  - unfold k_ref_transpose. cbn [r_shape]. rewrite permutation_accepted by auto. rewrite T. cbn [option_map]. f_equal.
    apply reinterpret_step; auto.
  - split; [apply picked_roomy; auto|]. intros i Hi. split.
    + apply spread_bounds; auto. intros k d Hk Nk. destruct Nk. apply (Permutation_in _ (Permutation_sym P)).
      apply in_seq. assert (k < length s)%nat by (apply nth_error_Some; congruence). lia.
    + assert (Li : length i = length order).
      { apply in_bounds_nth in Hi. destruct Hi as [Hi _]. unfold picked in Hi. rewrite map_length in Hi. exact Hi. }
      destruct (D (spread order s i) (spread_length _ _ _)) as [_ D2]. rewrite <- D2. f_equal.
      apply nth_error_ext'. intro p. destruct (nth_error order p) as [k|] eqn:Ep.
      * rewrite (map_nth_error _ _ _ Ep). apply spread_at; auto. rewrite Forall_forall in F. apply F. eapply nth_error_In; eauto.
      * rewrite (proj2 (nth_error_None _ p)); [symmetry; apply nth_error_None; rewrite map_length; apply nth_error_None; exact Ep|].
        rewrite Li. apply nth_error_None. exact Ep.
Qed.
Lemma reorder_step nd b s order : roomy s -> extents_ge 1 s -> NoDup order -> Forall (fun k => (k < length s)%nat) order ->
  k_ref_reorder nd order (mkR b s) = Some (Ok (mkR b (picked order s))) /\ roomy (picked order s) /\
  forall i, in_bounds (picked order s) i -> in_bounds s (spread order s i) /\
    elem b (picked order s) i = elem b s (spread order s i).
Proof.
  intros Hs X N F. pose proof Hs as (H1 & H2 & H3 & H4).
  pose proof (picked_known s order H3 F) as K.
  destruct (reorder_selects false (mkR b s) order H3 X N F) as (r' & E & Eb & _ & D).
  unfold ref_reorder, reorder in E. cbn [r_shape] in E. rewrite get_picked in E by auto. cbn [option_map] in E.
  injection E as E. apply reinterpret_subset in E; [|exact K]. destruct E as [Sub ->].
  cbn [r_shape r_base] in *. split.
  - unfold k_ref_reorder, reorder. cbn [r_shape]. rewrite get_picked by auto. cbn [option_map]. f_equal.
    apply reinterpret_step; auto.
  - split; [apply picked_roomy; auto|]. intros i Hi.
    assert (Li : length i = length order).
    { apply in_bounds_nth in Hi. destruct Hi as [Hi _]. unfold picked in Hi. rewrite map_length in Hi. exact Hi. }
    split.
    + apply spread_bounds; auto. intros k d Hk _. unfold extents_ge in X. rewrite Forall_forall in X. apply X. eapply nth_error_In; eauto.
    + apply D; auto using spread_length, spread_rest.
      intros p k Hp. apply spread_at; auto. rewrite Forall_forall in F. apply F. eapply nth_error_In; eauto.
Qed.

(** ** Crops *)

Lemma meets_part d a b : is_dim d -> meets d a b ->
  part (crop_min d a) (dext (crop_dim d a b (crop_min d a))) d /\ 1 <= dext (crop_dim d a b (crop_min d a)).
Proof. unfold meets, part, crop_dim, crop_min. cbn [dext]. lia. Qed.
Lemma crop_roomy x y c x0 y0 x1 y1 mx my : roomy [x; y; c] -> meets x x0 x1 -> meets y y0 y1 ->
  mx = 0 \/ mx = crop_min x x0 -> my = 0 \/ my = crop_min y y0 ->
  roomy [crop_dim x x0 x1 mx; crop_dim y y0 y1 my; c].
Proof.
  intros (H1 & H2 & H3 & H4) Mx My Ex Ey. unfold ends_fit in H2.
  rewrite !Forall_cons_iff in H1, H2, H3. destruct H1 as (X1 & Y1 & C1 & _), H2 as (X2 & Y2 & C2 & _), H3 as (X3 & Y3 & C3 & _).
  destruct (meets_part x x0 x1 X1 Mx) as [Px Nx]. destruct (meets_part y y0 y1 Y1 My) as [Py Ny].
  pose proof (part_near _ _ _ X1 Px) as (_ & Ax & Bx & Cx & Dx).
  pose proof (part_near _ _ _ Y1 Py) as (_ & Ay & By & Cy & Dy).
  set (ex := dext (crop_dim x x0 x1 (crop_min x x0))) in *. set (ey := dext (crop_dim y y0 y1 (crop_min y y0))) in *.
  change (crop_dim x x0 x1 mx) with (mkD mx ex (dstr x)). change (crop_dim y y0 y1 my) with (mkD my ey (dstr y)).
  rewrite !reach_cons in H4.
  assert (M1 : Z.abs (ex - 1) * Z.abs (dstr x) <= Z.abs (dext x - 1) * Z.abs (dstr x)) by (apply Z.mul_le_mono_nonneg_r; lia).
  assert (M2 : Z.abs (ey - 1) * Z.abs (dstr y) <= Z.abs (dext y - 1) * Z.abs (dstr y)) by (apply Z.mul_le_mono_nonneg_r; lia).
  clearbody ex ey. unfold roomy, ends_fit. rewrite !reach_cons. cbn [dext dstr].
  split; [|split; [|split; [|lia]]].
  - repeat constructor; cbn [dmin dext dstr]; unfold is_dim, is_index in *; try lia; destruct Ex, Ey; subst; lia.
  - repeat constructor; cbn [dmin dext dstr]; unfold is_dim, is_index in *; try lia; destruct Ex, Ey; subst; lia.
  - constructor; [exact X3|]. constructor; [exact Y3|]. constructor; [exact C3|]. constructor.
Qed.
Lemma near_cons d s x i : Z.abs (x - dmin d) <= Z.abs (dext d - 1) ->
  Forall2 (fun d x => Z.abs (x - dmin d) <= Z.abs (dext d - 1)) s i ->
  Forall2 (fun d x => Z.abs (x - dmin d) <= Z.abs (dext d - 1)) (d :: s) (x :: i).
Proof. constructor; auto. Qed.
Lemma crop_step b x y c x0 y0 x1 y1 origin : roomy [x; y; c] -> fst b <> O -> meets x x0 x1 -> meets y y0 y1 ->
  let v := VCrop x0 y0 x1 y1 origin in
  exists b', k_crop b x y c x0 y0 x1 y1 origin = Ok (mkR b' (view_dims [x; y; c] v)) /\ fst b' <> O /\
    roomy (view_dims [x; y; c] v) /\
    forall i, in_bounds (view_dims [x; y; c] v) i -> in_bounds [x; y; c] (view_index [x; y; c] v i) /\
      elem b' (view_dims [x; y; c] v) i = elem b [x; y; c] (view_index [x; y; c] v i).
Proof.
  intros Hs Hb Mx My v. pose proof Hs as (H1 & H2 & H3 & H4). unfold ends_fit in H2.
  rewrite !Forall_cons_iff in H1, H2. destruct H1 as (X1 & Y1 & C1 & _), H2 as (X2 & Y2 & C2 & _).
  destruct (meets_part x x0 x1 X1 Mx) as [Px Nx]. destruct (meets_part y y0 y1 Y1 My) as [Py Ny].
  pose proof (part_near _ _ _ X1 Px) as (Zx & Ax & Bx & Cx & Dx).
  pose proof (part_near _ _ _ Y1 Py) as (Zy & Ay & By & Cy & Dy).
  assert (R : roomy (view_dims [x; y; c] v)).
  { unfold v. destruct origin; cbn [view_dims]; apply crop_roomy; auto. }
  pose proof R as (R1 & R2 & R3 & R4).
  assert (Fi : forall a, is_index a -> chk a = Ok a) by (intros; apply chk_ok; auto).
  set (b0 := elem b [x; y; c] [crop_min x x0; crop_min y y0; dmin c]).
  assert (K : k_crop b x y c x0 y0 x1 y1 origin = Ok (mkR b0 (view_dims [x; y; c] v))).
  { unfold k_crop. rewrite !cmax_max. fold (crop_min x x0) (crop_min y y0).
    unfold k_max. rewrite !Fi by (unfold is_index in *; lia). cbn [bind].
    rewrite !Fi by (unfold is_index in *; lia). cbn [bind].
    rewrite !Fi by (unfold is_index in *; lia). cbn [bind]. rewrite !cmin_min.
    replace (dmin x + dext x - 1 + 1) with (dmin x + dext x) by lia.
    replace (dmin y + dext y - 1 + 1) with (dmin y + dext y) by lia.
    unfold k_crop_image_shape.
    change (Z.min x1 (dmin x + dext x) - crop_min x x0) with (dext (crop_dim x x0 x1 (crop_min x x0))).
    change (Z.min y1 (dmin y + dext y) - crop_min y y0) with (dext (crop_dim y y0 y1 (crop_min y y0))).
    destruct X1 as (I1 & I2 & I3 & I4), Y1 as (J1 & J2 & J3 & J4).
    rewrite (Fi (dext (crop_dim x _ _ _))) by (unfold is_index in *; lia). cbn [bind].
    rewrite (Fi (dext (crop_dim y _ _ _))) by (unfold is_index in *; lia). cbn [bind].
    rewrite (is_null_block b) by auto.
    rewrite k_offset_near; [|exact (proj1 Hs)|repeat apply near_cons; try assumption; [lia|constructor]|exact H4].
    cbn [bind]. change (ptr_off b (offset [x; y; c] [crop_min x x0; crop_min y y0; dmin c])) with b0.
    destruct origin; cbn [bind].
    - change [mkD 0 _ _; _; c] with (view_dims [x; y; c] v). unfold k_make_ref. rewrite k_resolve_known by auto. reflexivity.
    - change [mkD (crop_min x x0) _ _; _; c] with (view_dims [x; y; c] v).
      assert (O0 : offset (view_dims [x; y; c] v) [crop_min x x0; crop_min y y0; dmin c] = 0).
      { unfold v. cbn [view_dims offset crop_dim dmin dstr]. ring. }
      rewrite k_offset_near; [|exact R1| |exact R4].
      + rewrite O0. cbn [bind]. rewrite Fi by (unfold is_index; lia). cbn [bind]. change (- 0) with 0.
        rewrite pointer_add_block by exact Hb. unfold k_make_ref. rewrite k_resolve_known by auto. cbn [bind].
        f_equal. f_equal. unfold ptr_off, b0, elem. cbn [fst snd]. f_equal. lia.
      + unfold v. cbn [view_dims]. repeat apply near_cons; cbn [crop_dim dmin dext]; try lia. constructor. }
  exists b0. split; [exact K|]. split; [exact Hb|]. split; [exact R|].
  intros i Hi. unfold v in *. destruct origin; cbn [view_dims view_index] in *.
  - pose proof (proj1 (proj1 (in_bounds_nth _ _) Hi)) as L; destruct i as [|i1 [|i2 [|i3 [|]]]]; try discriminate L.
    apply in_bounds3 in Hi. destruct Hi as (B1 & B2 & B3). split.
    + apply in_bounds3. unfold in_dim, crop_dim, crop_min in *. cbn [dmin dext] in *. lia.
    + unfold b0, elem. cbn [fst snd offset crop_dim dmin dstr]. f_equal. ring.
  - pose proof (proj1 (proj1 (in_bounds_nth _ _) Hi)) as L; destruct i as [|i1 [|i2 [|i3 [|]]]]; try discriminate L.
    apply in_bounds3 in Hi. destruct Hi as (B1 & B2 & B3). split.
    + apply in_bounds3. unfold in_dim, crop_dim, crop_min in *. cbn [dmin dext] in *. lia.
    + unfold b0, elem. cbn [fst snd offset crop_dim dmin dstr]. f_equal. ring.
Qed.

(** ** Chains of views *)

Lemma view_step nd b s v : roomy s -> fst b <> O -> view_fits s v ->
  exists b', k_view nd (mkR b s) v = Ok (mkR b' (view_dims s v)) /\ fst b' <> O /\ roomy (view_dims s v) /\
    forall i, in_bounds (view_dims s v) i -> in_bounds s (view_index s v i) /\
      elem b' (view_dims s v) i = elem b s (view_index s v i).
Proof.
  intros Hs Hb Hv. destruct v as [args|order|order|x0 y0 x1 y1 origin|ch]; cbn [k_view view_fits r_shape r_base] in *.
  - apply slice_step; auto.
  - destruct (transpose_step nd b s order Hs Hv) as (E & R & D). exists b. rewrite E. cbn [compiled]. auto.
  - destruct Hv as (X & N & F). destruct (reorder_step nd b s order Hs X N F) as (E & R & D). exists b. rewrite E. cbn [compiled]. auto.
  - destruct s as [|x [|y [|c [|]]]]; try contradiction. destruct Hv. apply crop_step; auto.
  - destruct s as [|x [|y [|c [|]]]]; try contradiction.
    destruct (slice_step b [x; y; c] [ADim x; ADim y; AIdx ch] Hs Hb) as (b' & E & B & R & D).
    { constructor; [left; split; reflexivity|]. constructor; [left; split; reflexivity|]. constructor; [exact Hv|constructor]. }
    replace (cut [ADim x; ADim y; AIdx ch] [x; y; c]) with [x; y] in * by (destruct x, y; reflexivity).
    exists b'. cbn [view_dims view_index]. split; [exact E|]. split; [exact B|]. split; [exact R|].
    intros i Hi. pose proof (proj1 (proj1 (in_bounds_nth _ _) Hi)) as L; destruct i as [|i1 [|i2 [|]]]; try discriminate L.
    apply (D _ Hi).
Qed.
Lemma views_step nd : forall vs b s, roomy s -> fst b <> O -> views_fit s vs ->
  exists b', k_views nd (mkR b s) vs = Ok (mkR b' (views_dims s vs)) /\ fst b' <> O /\ roomy (views_dims s vs) /\
    forall i, in_bounds (views_dims s vs) i -> in_bounds s (views_index s vs i) /\
      elem b' (views_dims s vs) i = elem b s (views_index s vs i).
Proof.
  unfold k_views, views_dims. induction vs as [|v vs IH]; intros b s Hs Hb Hv; cbn [foldM fold_left views_index].
  - exists b. auto.
  - destruct Hv as [Hv Hvs]. destruct (view_step nd b s v Hs Hb Hv) as (b1 & E & B1 & R1 & D1). rewrite E. cbn [bind].
    destruct (IH b1 (view_dims s v) R1 B1 Hvs) as (b2 & E2 & B2 & R2 & D2). exists b2. split; [exact E2|].
    split; [exact B2|]. split; [exact R2|]. intros i Hi. destruct (D2 i Hi) as [I2 E3]. destruct (D1 _ I2) as [I1 E4].
    split; [exact I1|]. congruence.
Qed.

Lemma views_denote nd b s vs : roomy s -> fst b <> O -> views_fit s vs ->
  exists r, k_views nd (mkR b s) vs = Ok r /\ r_shape r = views_dims s vs /\ roomy (r_shape r) /\
    forall i, in_bounds (r_shape r) i -> in_bounds s (views_index s vs i) /\
      k_ref_ptr r i = Ok (elem b s (views_index s vs i)).
Proof.
  intros Hs Hb Hv. destruct (views_step nd vs b s Hs Hb Hv) as (b' & E & B & R & D).
  exists (mkR b' (views_dims s vs)). cbn [r_shape]. split; [exact E|]. split; [reflexivity|]. split; [exact R|].
  intros i Hi. destruct (D i Hi) as [I Ei]. split; [exact I|]. rewrite <- Ei. apply k_ptr_ok; auto.
Qed.

(** ** set_shape and reinterpret_shape *)

Lemma k_set_shape_ok nd r new off : roomy (r_shape r) -> roomy new -> is_index off ->
  reach (r_shape r) + Z.abs off <= big -> k_ref_set_shape nd r new off = ref_set_shape nd r new off.
Proof.
  intros (H1 & _ & _ & H4) (N1 & _ & _ & N4) Ho Hr. unfold k_ref_set_shape, ref_set_shape.
  destruct nd; [destruct (is_subset_of _ _ _); reflexivity|]. rewrite chk_ok by (pose proof (reach_nonneg (r_shape r)); unfold is_index in *; lia). cbn [bind].
  rewrite k_is_subset_of_ok; [reflexivity|auto|auto|exact N4|unfold index_max; lia].
Qed.
Lemma k_reinterpret_ok nd r new off : roomy (r_shape r) -> roomy new -> is_index off ->
  reach (r_shape r) + Z.abs off <= big -> k_reinterpret_shape nd r new off = reinterpret_shape nd r new off.
Proof.
  intros (H1 & _ & _ & H4) (N1 & _ & N3 & N4) Ho Hr. unfold k_reinterpret_shape, reinterpret_shape, k_make_ref, make_ref.
  rewrite k_resolve_known, resolve_known by auto. cbn [bind r_shape].
  destruct nd; [destruct (is_subset_of _ _ _); reflexivity|]. rewrite chk_ok by (pose proof (reach_nonneg (r_shape r)); unfold is_index in *; lia). cbn [bind].
  rewrite k_is_subset_of_ok; [reflexivity|auto|auto|exact N4|unfold index_max; lia].
Qed.

(** ** Einstein reductions *)
Section Ein.
Context {V : Type}.
Implicit Types (h : heap V) (e : expr V).

Definition ends (d : dim) : Prop := is_index (dmin d + dext d) /\ is_index (dmin d + dext d - 1).
Lemma k_dmax_ok d : ends d -> k_max d = Ok (dmin d + dext d - 1).
Proof. intros [A B]. unfold k_max. rewrite chk_ok by auto. cbn [bind]. apply chk_ok. auto. Qed.
Lemma k_reconcile_ok nd ds : Forall ends ds -> k_reconcile_dim nd ds = reconcile_dim nd ds.
Proof.
  intro H. destruct ds as [|d0 ds]; [reflexivity|]. inv H. unfold k_reconcile_dim, reconcile_dim.
  destruct (negb (dstr d0 =? 0)); [|reflexivity].
  destruct nd; [destruct (vall _); reflexivity|].
  rewrite (mapM_ok _ (fun d => i_in_range_interval (d_interval d) (d_interval d0))); [reflexivity|].
  eapply Forall_impl; [|exact H3]. intros d Hd. unfold k_dim_in_range, i_in_range_interval, imax, d_interval. cbn [imin iext].
  destruct (dmin d <=? dmin d0); [|reflexivity]. rewrite !k_dmax_ok by auto. reflexivity.
Qed.
Definition dim_room (d : dim) : Prop := is_dim d /\ ends d.
Lemma roomy_dims s : roomy s -> Forall dim_room s.
Proof.
  intros (H1 & H2 & _). unfold ends_fit in H2. rewrite Forall_forall in *. intros d Hd. split; [auto|]. apply (H2 d Hd).
Qed.
Lemma get_or_empty_in {A} k (l : list A) x : In x (get_or_empty k l) -> In x l.
Proof. unfold get_or_empty. destruct (nth_error l k) eqn:E; [|intros []]. intros [<-|[]]. eapply nth_error_In; eauto. Qed.
Lemma kind_room k d : k <> is_inferred_shape -> dim_room d -> dim_room (kind_stride k d).
Proof.
  intros N ((A & B & C & D) & E). destruct k; [contradiction|exact (conj (conj A (conj B (conj C D))) E)|].
  split; [|exact E]. unfold is_dim, is_index in *. cbn. lia.
Qed.
Lemma gather_room D k e : k <> is_inferred_shape -> Forall (fun o => roomy (r_shape (fst o))) (operands e) ->
  Forall dim_room (gather_dims D k e).
Proof.
  intro N. induction e as [r is_|f is_|f e IH|f a IHa b IHb]; cbn [operands gather_dims]; intro H; auto.
  - inv H. apply Forall_map. apply Forall_forall. intros d Hd. apply get_or_empty_in in Hd.
    apply kind_room; auto. cbn [fst] in H2. apply roomy_dims in H2. rewrite Forall_forall in H2. auto.
  - apply Forall_app in H. destruct H. apply Forall_app. auto.
Qed.
Lemma reconcile_room nd ds d : Forall dim_room ds -> reconcile_dim nd ds = Ok d -> dim_room d.
Proof.
  intros H. destruct ds as [|d0 ds]; cbn [reconcile_dim].
  - intro E. inv E. unfold dim_room, is_dim, ends, is_index. cbn. lia.
  - inv H. destruct (negb _).
    + destruct (assert_ _ _); cbn [bind]; intro E; inv E. auto.
    + destruct (assert_ _ _); cbn [bind]; [|intro E; inv E..]. destruct (assert_ _ _); cbn [bind]; intro E; inv E. auto.
Qed.
Lemma k_loop_shape_ok nd r out e : Forall (fun o => roomy (r_shape (fst o))) ((r, out) :: operands e) ->
  k_ein_loop_shape nd r out e = ein_loop_shape nd r out e /\
  forall s, ein_loop_shape nd r out e = Ok s -> Forall is_dim s /\ ends_fit s.
Proof.
  intro H. inv H. unfold k_ein_loop_shape, ein_loop_shape, reconcile_all.
  assert (G : forall D, Forall dim_room (gather_dims D is_result_shape (EArr (V := V) r out) ++ gather_dims D is_operand_shape e)).
  { intro D. apply Forall_app. split; apply gather_room; try discriminate; auto.
    constructor; [exact H2|constructor]. }
  generalize (seq 0 (Nat.max (op_rank out) (loop_rank e))) as ks. split.
  - apply flat_mapM_ext. intro D. rewrite k_reconcile_ok; [reflexivity|].
    eapply Forall_impl; [|apply G]. intros d [_ E]. exact E.
  - intros s E. enough (Q : Forall dim_room s).
    { split; [eapply Forall_impl; [|exact Q]; intros d [A _]; exact A|].
      unfold ends_fit. eapply Forall_impl; [|exact Q]. intros d [_ A]. exact A. }
    revert s E. induction ks as [|k ks IH]; cbn [flat_mapM]; intros s E; [inv E; constructor|].
    destruct (reconcile_dim nd _) as [d| |] eqn:Ed; cbn [bind] in E; try discriminate.
    destruct (flat_mapM _ ks) as [s'| |]; cbn [bind] in E; try discriminate. inv E. constructor; [|apply IH; reflexivity].
    eapply reconcile_room; [apply G|exact Ed].
Qed.
Lemma k_eval_ok h e idx : (forall r is_, In (r, is_) (operands e) -> roomy (r_shape r) /\ in_bounds (r_shape r) (get_all is_ idx)) ->
  k_eval h e idx = eval h e idx.
Proof.
  induction e as [r is_|f is_|f e IH|f a IHa b IHb]; cbn [operands k_eval eval]; intro H; auto.
  - destruct (H r is_ (or_introl eq_refl)) as [A B]. destruct r as [b s]. unfold k_ref_at, ref_at.
    rewrite k_ptr_ok by auto. cbn [bind]. rewrite elem_ref. reflexivity.
  - rewrite IH by auto. reflexivity.
  - rewrite IHa by (intros; apply H; apply in_or_app; auto). rewrite IHb by (intros; apply H; apply in_or_app; auto). reflexivity.
Qed.
Lemma k_assign_ok f r out e h idx : roomy (r_shape r) -> in_bounds (r_shape r) (get_all out idx) ->
  (forall r is_, In (r, is_) (operands e) -> roomy (r_shape r) /\ in_bounds (r_shape r) (get_all is_ idx)) ->
  k_ein_assign f r out e h idx = ein_assign f r out e h idx.
Proof.
  intros A B H. unfold k_ein_assign, ein_assign. rewrite k_eval_ok by auto. destruct (eval h e idx); cbn [bind]; auto.
  destruct r as [b s]. unfold ref_at. rewrite k_ptr_ok by auto. cbn [bind]. rewrite elem_ref. reflexivity.
Qed.
Lemma foldM_ext {A S} (f g : S -> A -> outcome S) l : (forall s a, In a l -> f s a = g s a) -> forall s, foldM f l s = foldM g l s.
Proof.
  induction l as [|a l IH]; intros H s; cbn [foldM]; [reflexivity|]. rewrite H by (left; auto).
  destruct (g s a); cbn [bind]; auto. apply IH. intros. apply H. right. auto.
Qed.
Lemma k_ein_reduce_ok nd f h r out e B n :
  ranks_match ((r, out) :: operands e) -> loops n (out ++ labels e) -> ranges r out (operands e) B ->
  Forall (fun o => roomy (r_shape (fst o))) ((r, out) :: operands e) ->
  k_ein_reduce nd f h r out e = ein_reduce nd f h r out e.
Proof.
  intros R L G Ro. destruct (k_loop_shape_ok nd r out e Ro) as [E1 E2].
  destruct (loop_shape_ok nd B n r out e R G L) as (s & Es & Xs & Is). destruct (E2 s Es) as [D1 D2].
  unfold k_ein_reduce, ein_reduce. rewrite E1, Es. cbn [bind].
  rewrite k_for_each_index_ok by auto. change (for_each_index s) with (for_each_index_in_order s).
  rewrite (fei_box s Xs). cbn [bind]. apply foldM_ext. intros h' env He.
  assert (IB : forall r' is_, In (r', is_) ((r, out) :: operands e) -> roomy (r_shape r') /\ in_bounds (r_shape r') (get_all is_ env)).
  { intros r' is_ Hr. split; [rewrite Forall_forall in Ro; apply (Ro _ Hr)|].
    change (get_all is_ env) with (values_of is_ env). eapply operand_in_bounds; eauto. apply Is, box_In. exact He. }
  destruct (IB r out (or_introl eq_refl)). apply k_assign_ok; auto. intros r' is_ Hr. apply IB. right. exact Hr.
Qed.
Lemma k_reduction nd f h r out e B n :
  ranks_match ((r, out) :: operands e) -> loops n (out ++ labels e) -> ranges r out (operands e) B ->
  Forall (fun o => roomy (r_shape (fst o))) ((r, out) :: operands e) ->
  operands_alive h ((r, out) :: operands e) -> operands_apart r (operands e) -> injective_layout (r_shape r) ->
  exists h', k_ein_reduce nd f h r out e = Ok h' /\ only_changes (is_elem (r_base r) (r_shape r)) h h' /\
    forall o old, in_bounds (r_shape r) o -> holds h (elem (r_base r) (r_shape r) o) old ->
      exists w, holds h' (elem (r_base r) (r_shape r) o) w /\
        reduces h f e (fun env => loop_index B n env /\ values_of out env = o) old w.
Proof.
  intros R L G Ro Al Ap I. rewrite (k_ein_reduce_ok nd f h r out e B n) by auto. apply ein_reduce_index; auto.
Qed.
End Ein.

Lemma set_shape_cases r new off : ref_set_shape false r new off = AssertFail \/ exists r', ref_set_shape false r new off = Ok r'.
Proof.
  unfold ref_set_shape. destruct (is_resolved new); cbn [assert_ bind]; [|left; reflexivity].
  destruct (is_subset_of _ _ _); cbn [assert_ bind]; [right; eauto|left; reflexivity].
Qed.
Lemma reinterpret_cases r new off : reinterpret_shape false r new off = AssertFail \/ exists r', reinterpret_shape false r new off = Ok r'.
Proof.
  unfold reinterpret_shape. destruct (is_subset_of _ _ _); cbn [assert_ bind]; [right; eauto|left; reflexivity].
Qed.
Lemma set_shape_fits nd r new off : roomy (r_shape r) -> roomy new -> is_index off ->
  reach (r_shape r) + Z.abs off <= big -> fst (r_base r) <> O -> extents_ge 1 new -> inside r new off ->
  exists r', k_ref_set_shape nd r new off = Ok r' /\ r_shape r' = new /\
    forall i, in_bounds new i -> k_ref_ptr r' i = Ok (fst (r_base r), snd (r_base r) + (off + offset new i)).
Proof.
  intros A B C D E X I. rewrite k_set_shape_ok by auto.
  destruct (set_shape_accepts r new off X (proj1 (proj2 (proj2 B))) I) as [r0 H].
  assert (R : ref_set_shape nd r new off = Ok (mkR (pointer_add (r_base r) off) new)).
  { unfold ref_set_shape in *. destruct (is_resolved new); cbn [assert_ bind] in *; [|discriminate].
    destruct (is_subset_of _ _ _); cbn [assert_ bind] in *; [reflexivity|discriminate]. }
  rewrite R. eexists. split; [reflexivity|]. split; [reflexivity|]. intros i Hi. rewrite k_ptr_ok by auto.
  rewrite pointer_add_block by auto. unfold elem, ptr_off. cbn [fst snd]. f_equal. f_equal. lia.
Qed.
Lemma set_shape_rejects r new off : roomy (r_shape r) -> roomy new -> is_index off ->
  reach (r_shape r) + Z.abs off <= big -> fst (r_base r) <> O -> ~ inside r new off ->
  k_ref_set_shape false r new off = AssertFail.
Proof.
  intros A B C D E I. rewrite k_set_shape_ok by auto. destruct (set_shape_cases r new off) as [H|[r' H]]; [exact H|].
  destruct I. intros i Hi. destruct (set_shape_inside r new off r' H E) as [_ S]. destruct (S i Hi) as (o & Ho & Eo).
  unfold ref_set_shape in H. destruct (is_resolved new); cbn [assert_ bind] in H; [|discriminate].
  destruct (is_subset_of _ _ _); cbn [assert_ bind] in H; [|discriminate]. inv H. cbn [r_base] in Eo.
  rewrite pointer_add_block in Eo by auto. unfold elem, ptr_off in Eo. cbn [fst snd] in Eo. injection Eo. lia.
Qed.
Lemma reinterpret_fits nd r new off : roomy (r_shape r) -> roomy new -> is_index off ->
  reach (r_shape r) + Z.abs off <= big -> extents_ge 1 new -> inside r new off ->
  exists r', k_reinterpret_shape nd r new off = Ok r' /\ r_shape r' = new /\
    forall i, in_bounds new i -> k_ref_ptr r' i = Ok (fst (r_base r), snd (r_base r) + (off + offset new i)).
Proof.
  intros A B C D X I. rewrite k_reinterpret_ok by auto. pose proof (proj1 (proj2 (proj2 B))) as K.
  destruct (reinterpret_accepts r new off X K I) as [r0 H].
  assert (R : reinterpret_shape nd r new off = Ok (mkR (ptr_off (r_base r) off) new)).
  { unfold reinterpret_shape, make_ref in *. rewrite resolve_known in * by auto. cbn [r_shape] in *.
    destruct (is_subset_of _ _ _); cbn [assert_ bind] in *; [reflexivity|discriminate]. }
  rewrite R. eexists. split; [reflexivity|]. split; [reflexivity|]. intros i Hi. rewrite k_ptr_ok by auto.
  unfold elem, ptr_off. cbn [fst snd]. f_equal. f_equal. lia.
Qed.
Lemma reinterpret_rejects r new off : roomy (r_shape r) -> roomy new -> is_index off ->
  reach (r_shape r) + Z.abs off <= big -> ~ inside r new off ->
  k_reinterpret_shape false r new off = AssertFail.
Proof.
  intros A B C D I. rewrite k_reinterpret_ok by auto. pose proof (proj1 (proj2 (proj2 B))) as K.
  destruct (reinterpret_cases r new off) as [H|[r' H]]; [exact H|].
  destruct I. intros i Hi. destruct (reinterpret_inside r new off r' H) as [_ S].
  unfold reinterpret_shape, make_ref in H. rewrite resolve_known in H by auto. cbn [r_shape] in H.
  destruct (is_subset_of _ _ _); cbn [assert_ bind] in H; [|discriminate]. inv H. cbn [r_base r_shape] in S.
  destruct (S i Hi) as (o & Ho & Eo). unfold elem, ptr_off in Eo. cbn [fst snd] in Eo. injection Eo. lia.
Qed.
