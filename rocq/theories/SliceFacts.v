(** Facts about slices, transposition, reinterpretation and crops. *)
From Verif Require Import Tac Interval Shape Traverse Memory Ref Spec SpecMem ShapeFacts IntervalFacts
  ResolveFacts TraverseFacts MemFacts RefFacts.
Import ListNotations.
Open Scope Z_scope.

(** ** Slices *)

Lemma shape_slice_nil s : shape_slice s [] = [].
Proof. destruct s; reflexivity. Qed.
Lemma shape_slice_cons a args d s :
  shape_slice (d :: s) (a :: args) =
  match a with AIdx _ => [] | _ => [range_with_stride a d] end ++ shape_slice s args.
Proof. unfold shape_slice, intervals_with_strides, skip_slices. simpl. destruct a; reflexivity. Qed.

Lemma pointer_add_block p n : fst p <> O -> pointer_add p n = ptr_off p n.
Proof. intros H. unfold pointer_add. rewrite is_null_block; auto. Qed.

Lemma slice_asked args : forall s, length args = length s ->
  map (fun d => (dmin d, dext d)) (shape_slice s args) = asked args s.
Proof.
  induction args as [|a r IH]; intros [|d s] H; simpl in H; try discriminate; auto.
  rewrite shape_slice_cons, map_app, IH by lia. destruct a; reflexivity.
Qed.
Lemma slice_length args : forall s, length args = length s -> length (shape_slice s args) = kept args.
Proof.
  induction args as [|a r IH]; intros [|d s] H; simpl in H; try discriminate; auto.
  rewrite shape_slice_cons, app_length, IH by lia. destruct a; reflexivity.
Qed.
Lemma slice_offset args : forall s i, length args = length s -> length i = kept args ->
  offset s (mins_of_intervals args s) + offset (shape_slice s args) i = offset s (full_index args i).
Proof.
  unfold mins_of_intervals. induction args as [|a r IH]; intros [|d s] i H Hi; simpl in H; try discriminate; auto.
  rewrite shape_slice_cons. cbn [map2]. destruct a; cbn [kept] in Hi;
    [|destruct i as [|x i]; [discriminate|]..]; cbn [app full_index offset min_of_range range_with_stride dmin dstr];
    (rewrite <- (IH s i) by (simpl in *; lia)); ring.
Qed.
Lemma slice_in_bounds args : forall s i, length args = length s -> in_bounds (shape_slice s args) i ->
  length i = kept args /\ Forall2 (fun ad x => selects (fst ad) (snd ad) x) (combine args s) (full_index args i).
Proof.
  induction args as [|a r IH]; intros [|d s] i H Hi; simpl in H; try discriminate.
  - inv Hi. split; auto. constructor.
  - rewrite shape_slice_cons in Hi. destruct a; cbn [app] in Hi.
    + destruct (IH s i) as [H1 H2]; [lia|auto|]. split; auto. cbn [full_index combine]. constructor; auto. reflexivity.
    + inversion Hi as [|? x ? i' Hx Hi']; subst. destruct (IH s i') as [H1 H2]; [lia|auto|].
      split; [simpl; lia|]. cbn [full_index combine]. constructor; auto.
    + inversion Hi as [|? x ? i' Hx Hi']; subst. destruct (IH s i') as [H1 H2]; [lia|auto|].
      split; [simpl; lia|]. cbn [full_index combine]. constructor; auto.
    + inversion Hi as [|? x ? i' Hx Hi']; subst. destruct (IH s i') as [H1 H2]; [lia|auto|].
      split; [simpl; lia|]. cbn [full_index combine]. constructor; auto.
Qed.
Lemma slice_onto args : forall s j, length args = length s ->
  Forall2 (fun ad x => selects (fst ad) (snd ad) x) (combine args s) j ->
  exists i, in_bounds (shape_slice s args) i /\ full_index args i = j.
Proof.
  induction args as [|a r IH]; intros [|d s] j H Hj; simpl in H; try discriminate.
  - inv Hj. exists []. split; auto. constructor.
  - cbn [combine] in Hj. inversion Hj as [|? x ? j' H1 H2]; subst. cbn [fst snd] in H1.
    destruct (IH s j') as [i [Hi E]]; [lia|auto|]. rewrite shape_slice_cons.
    destruct a; cbn [app selects] in *.
    + exists i. split; auto. simpl. congruence.
    + exists (x :: i). split; [constructor; auto|]. simpl. congruence.
    + exists (x :: i). split; [constructor; auto|]. simpl. congruence.
    + exists (x :: i). split; [constructor; auto|]. simpl. congruence.
Qed.
Lemma selects_within args : forall s j, args_within args s ->
  Forall2 (fun ad x => selects (fst ad) (snd ad) x) (combine args s) j -> in_bounds s j.
Proof.
  induction args as [|a r IH]; intros s j Hw Hj; inv Hw; cbn [combine] in Hj; inv Hj; constructor.
  - auto.
  - apply IH; auto.
Qed.

Lemma slice_denotes (r : aref) (args : list sarg) : length args = length (r_shape r) -> fst (r_base r) <> O ->
  map (fun d => (dmin d, dext d)) (r_shape (ref_slice r args)) = asked args (r_shape r) /\
  (forall i, length i = kept args ->
     ref_ptr (ref_slice r args) i = elem (r_base r) (r_shape r) (full_index args i)) /\
  (forall i, in_bounds (r_shape (ref_slice r args)) i -> length i = kept args) /\
  (args_within args (r_shape r) -> forall i, in_bounds (r_shape (ref_slice r args)) i ->
     in_bounds (r_shape r) (full_index args i)) /\
  (forall j, Forall2 (fun ad x => selects (fst ad) (snd ad) x) (combine args (r_shape r)) j <->
     exists i, in_bounds (r_shape (ref_slice r args)) i /\ full_index args i = j).
Proof.
  intros Hl Hb. unfold ref_slice, make_array_ref_at. cbn [r_shape r_base].
  split; [apply slice_asked; auto|]. split; [|split; [|split]].
  - intros i Hi. rewrite elem_ref. cbn [r_shape r_base]. rewrite pointer_add_block by auto.
    unfold elem, ptr_off. cbn [fst snd]. f_equal. rewrite flat_offset_spec.
    rewrite <- (slice_offset args (r_shape r) i) by auto. ring.
  - intros i Hi. apply (slice_in_bounds args (r_shape r)); auto.
  - intros Hw i Hi. eapply selects_within; eauto. apply slice_in_bounds; auto.
  - intros j. split.
    + apply slice_onto; auto.
    + intros [i [Hi <-]]. apply slice_in_bounds; auto.
Qed.

(** ** Composition of slices *)

Lemma kept_merge a1 : forall a2, length a2 = kept a1 -> kept (merge_args a1 a2) = kept a2.
Proof.
  induction a1 as [|a r IH]; intros a2 H; simpl in *.
  - destruct a2; [auto|discriminate].
  - destruct a; simpl; [apply IH; auto|..]; destruct a2 as [|b a2]; try discriminate; simpl in H;
      destruct b; simpl; rewrite IH by lia; auto.
Qed.
Lemma slice_slice a1 : forall s a2, length a1 = length s -> length a2 = kept a1 ->
  shape_slice (shape_slice s a1) a2 = shape_slice s (merge_args a1 a2) /\
  offset s (mins_of_intervals a1 s) + offset (shape_slice s a1) (mins_of_intervals a2 (shape_slice s a1)) =
  offset s (mins_of_intervals (merge_args a1 a2) s).
Proof.
  unfold mins_of_intervals. induction a1 as [|a r IH]; intros [|d s] a2 H H2; simpl in H; try discriminate.
  - destruct a2; [split; reflexivity|discriminate].
  - rewrite shape_slice_cons. cbn [kept] in H2. destruct a.
    + cbn [app merge_args]. rewrite shape_slice_cons. cbn [app map2 offset min_of_range].
      destruct (IH s a2) as [E1 E2]; auto. split; auto. rewrite <- E2. ring.
    + destruct a2 as [|b a2]; [discriminate|]. destruct (IH s a2) as [E1 E2]; [lia|simpl in H2; lia|].
      cbn [app merge_args]. destruct b; rewrite !shape_slice_cons; cbn [map2 offset min_of_range app range_with_stride dmin dstr];
        rewrite E1; (split; [reflexivity|]); rewrite <- E2; ring.
    + destruct a2 as [|b a2]; [discriminate|]. destruct (IH s a2) as [E1 E2]; [lia|simpl in H2; lia|].
      cbn [app merge_args]. destruct b; rewrite !shape_slice_cons; cbn [map2 offset min_of_range app range_with_stride dmin dstr];
        rewrite E1; (split; [reflexivity|]); rewrite <- E2; ring.
    + destruct a2 as [|b a2]; [discriminate|]. destruct (IH s a2) as [E1 E2]; [lia|simpl in H2; lia|].
      cbn [app merge_args]. destruct b; rewrite !shape_slice_cons; cbn [map2 offset min_of_range app range_with_stride dmin dstr];
        rewrite E1; (split; [reflexivity|]); rewrite <- E2; ring.
Qed.
Lemma full_index_merge a1 : forall a2 i, length a2 = kept a1 -> length i = kept a2 ->
  full_index a1 (full_index a2 i) = full_index (merge_args a1 a2) i.
Proof.
  induction a1 as [|a r IH]; intros a2 i H Hi; simpl in *; auto.
  destruct a; [rewrite IH; auto|..]; (destruct a2 as [|b a2]; [discriminate|]); simpl in H;
    (destruct b; cbn [kept] in Hi;
      [cbn [full_index]; f_equal; apply IH; lia
      |destruct i; [discriminate|]; cbn [full_index]; f_equal; apply IH; simpl in *; lia..]).
Qed.

Lemma slices_compose (r : aref) (a1 a2 : list sarg) :
  length a1 = length (r_shape r) -> length a2 = kept a1 -> fst (r_base r) <> O \/ is_null (r_base r) = true ->
  ref_slice (ref_slice r a1) a2 = ref_slice r (merge_args a1 a2) /\
  (forall i, length i = kept a2 -> full_index a1 (full_index a2 i) = full_index (merge_args a1 a2) i).
Proof.
  intros H1 H2 Hb. split; [|intros; apply full_index_merge; auto].
  destruct (slice_slice a1 (r_shape r) a2 H1 H2) as [E1 E2].
  unfold ref_slice, make_array_ref_at. cbn [r_shape r_base]. rewrite E1. f_equal.
  rewrite !flat_offset_spec. destruct Hb as [Hb|Hb].
  - rewrite (pointer_add_block (r_base r)) by auto. rewrite !pointer_add_block by (simpl; auto). unfold ptr_off. cbn [fst snd]. f_equal. rewrite <- E2. ring.
  - unfold pointer_add. rewrite Hb, Hb. auto.
Qed.

(** ** transpose and reorder *)

Lemma get_dims_map (s : shape) order r d0 : get_dims s order = Some r -> r = map (fun k => nth k s d0) order.
Proof.
  rewrite get_dims_spec. intros H. induction H as [|k d o r H1 H2 IH]; simpl; auto.
  f_equal; auto. symmetry. apply nth_error_nth. auto.
Qed.
Lemma offset_terms s i : length i = length s ->
  offset s i = fold_right Z.add 0 (map (fun k => (nth k i 0 - dmin (nth k s (mkD 0 0 0))) * dstr (nth k s (mkD 0 0 0))) (seq 0 (length s))).
Proof.
  revert i. induction s as [|d s IH]; intros [|x i] H; simpl in H; try discriminate; auto.
  cbn [offset length seq map fold_right nth]. rewrite IH by lia. rewrite <- seq_shift, map_map. auto.
Qed.
Lemma offset_map_terms s (order : list nat) (i : list Z) d0 :
  offset (map (fun k => nth k s d0) order) (map (fun k => nth k i 0) order) =
  fold_right Z.add 0 (map (fun k => (nth k i 0 - dmin (nth k s d0)) * dstr (nth k s d0)) order).
Proof. induction order as [|k o IH]; simpl; auto. rewrite IH. auto. Qed.
Lemma fold_add_perm a b : Permutation a b -> fold_right Z.add 0 a = fold_right Z.add 0 b.
Proof. induction 1; simpl; lia. Qed.

Lemma transpose_perm_offset s order s' : Permutation order (seq 0 (length s)) -> get_dims s order = Some s' ->
  forall i, length i = length s -> offset s' (map (fun k => nth k i 0) order) = offset s i.
Proof.
  intros Hp Hg i Hi. rewrite (get_dims_map _ _ _ (mkD 0 0 0) Hg).
  rewrite offset_map_terms, offset_terms by auto. apply fold_add_perm. apply Permutation_map. auto.
Qed.

Lemma nth_firstn_eq {A} n : forall (l : list A) k d, (k < n)%nat -> nth k (firstn n l) d = nth k l d.
Proof.
  induction n; intros l k d H; [lia|]. destruct l; simpl; [destruct k; auto|].
  destruct k; auto. apply IHn. lia.
Qed.
Lemma get_dims_firstn s order n : Forall (fun k => (k < n)%nat) order -> get_dims (firstn n s) order = get_dims s order.
Proof.
  intros H. induction H as [|k o Hk H IH]; auto.
  change (get_dims (firstn n s) (k :: o)) with
    (match nth_error (firstn n s) k, get_dims (firstn n s) o with Some d, Some l => Some (d :: l) | _, _ => None end).
  change (get_dims s (k :: o)) with
    (match nth_error s k, get_dims s o with Some d, Some l => Some (d :: l) | _, _ => None end).
  rewrite IH. replace (nth_error (firstn n s) k) with (nth_error s k); auto.
  clear -Hk. revert s k Hk. induction n; intros s k Hk; [lia|]. destruct s; simpl; auto. destruct k; simpl; auto.
  apply IHn. lia.
Qed.
Lemma offset_app a b i j : length i = length a -> offset (a ++ b) (i ++ j) = offset a i + offset b j.
Proof.
  revert i. induction a as [|d a IH]; intros [|x i] H; simpl in H; try discriminate; auto.
  cbn [app offset]. rewrite IH by lia. ring.
Qed.

(** Transposing the first [n] dims *)
Lemma shape_transpose_offset s order : (length order <= length s)%nat -> Permutation order (seq 0 (length order)) ->
  exists s', transpose order s = Some s' /\ length s' = length s /\
    forall i, length i = length s ->
      offset s' (map (fun k => nth k i 0) order ++ skipn (length order) i) = offset s i.
Proof.
  intros Hn Hp. set (n := length order) in *.
  pose proof (is_perm_bound order n Hp) as Hb.
  destruct (get_dims_total (firstn n s) order) as [r Hr].
  { rewrite firstn_length_le by auto. auto. }
  pose proof Hr as Hr'. rewrite get_dims_firstn in Hr' by auto.
  exists (r ++ skipn n s). unfold transpose. rewrite Hr'. split; auto.
  assert (Hrl : length r = n).
  { apply get_dims_spec in Hr. apply Forall2_len in Hr. auto. }
  split; [rewrite app_length, skipn_length; lia|].
  intros i Hi. rewrite offset_app by (rewrite map_length; auto).
  pose proof (transpose_perm_offset (firstn n s) order r) as T.
  rewrite firstn_length_le in T by auto. specialize (T Hp Hr (firstn n i)).
  rewrite firstn_length_le in T by lia. specialize (T eq_refl).
  rewrite <- (firstn_skipn n s) at 2. transitivity (offset (firstn n s ++ skipn n s) (firstn n i ++ skipn n i)); [|rewrite (firstn_skipn n i); auto].
  rewrite offset_app by (rewrite !firstn_length_le; lia).
  rewrite <- T. f_equal. f_equal. apply map_ext_in. intros k Hk. symmetry. apply nth_firstn_eq.
  rewrite Forall_forall in Hb. auto.
Qed.

Lemma factorial_S n : (1 <= n)%nat -> factorial (S n) = Z.of_nat (S n) * factorial n.
Proof. intros H. destruct n; [lia|]. reflexivity. Qed.
Lemma vproduct_app a b : vproduct (a ++ b) = vproduct a * vproduct b.
Proof. induction a; cbn [app vproduct]; [ring|]. rewrite IHa. ring. Qed.
Lemma product_seq n : vproduct (map (fun i => Z.of_nat i + 2) (seq 0 n)) = factorial (n + 1).
Proof.
  induction n as [|n IH]; [reflexivity|].
  rewrite seq_S, map_app, vproduct_app. rewrite IH. cbn [map vproduct plus].
  replace (S n + 1)%nat with (S (n + 1)) by lia. rewrite factorial_S by lia.
  replace (Z.of_nat (S (n + 1))) with (Z.of_nat n + 2) by lia. ring.
Qed.
Lemma permutation_accepted n l : Permutation l (seq 0 n) -> permutation_check n l = true.
Proof.
  intros H. unfold permutation_check.
  rewrite (Permutation_length H), seq_length, Nat.eqb_refl.
  rewrite (vproduct_perm _ _ (Permutation_map (fun i => Z.of_nat i + 2) H)), product_seq, Z.eqb_refl.
  rewrite andb_true_r. cbn [andb]. apply vall_map. apply is_perm_bound in H.
  eapply Forall_impl; [|exact H]. simpl. intros a Ha. apply Nat.ltb_lt. auto.
Qed.

Fixpoint all_lists (k n : nat) : list (list nat) :=
  match k with
  | O => [[]]
  | S k' => flat_map (fun l => map (fun x => x :: l) (seq 0 n)) (all_lists k' n)
  end.
Lemma all_lists_In k n : forall l, length l = k -> Forall (fun i => (i < n)%nat) l -> In l (all_lists k n).
Proof.
  induction k; intros l Hl Hb; destruct l as [|x l]; simpl in *; try discriminate; auto.
  inv Hb. apply in_flat_map. exists l. split; [apply IHk; auto|]. apply in_map_iff. exists x. split; auto. apply in_seq. lia.
Qed.
Fixpoint nodupb (l : list nat) : bool :=
  match l with [] => true | x :: r => negb (existsb (Nat.eqb x) r) && nodupb r end.
Lemma nodupb_NoDup l : nodupb l = true -> NoDup l.
Proof.
  induction l as [|x r IH]; simpl; intros H; constructor; apply andb_true_iff in H; destruct H as [H1 H2]; auto.
  intros Hx. apply negb_true_iff in H1. assert (existsb (Nat.eqb x) r = true); [|congruence].
  apply existsb_exists. exists x. split; auto. apply Nat.eqb_refl.
Qed.
Lemma nodup_perm_seq n l : length l = n -> Forall (fun i => (i < n)%nat) l -> NoDup l -> Permutation l (seq 0 n).
Proof.
  intros Hl Hb Hnd. apply NoDup_Permutation_bis; auto.
  - rewrite seq_length. lia.
  - intros x Hx. apply in_seq. rewrite Forall_forall in Hb. specialize (Hb x Hx). lia.
Qed.
Lemma check_small n : (n <= 4)%nat ->
  forallb (fun l => implb (permutation_check n l) (nodupb l)) (all_lists n n) = true.
Proof. intros H. do 5 (destruct n as [|n]; [vm_compute; reflexivity|]). lia. Qed.
Lemma permutation_check_exact n l : (n <= 4)%nat -> (permutation_check n l = true <-> Permutation l (seq 0 n)).
Proof.
  intros Hn. split; [|apply permutation_accepted].
  intros H. pose proof H as H0. unfold permutation_check in H. apply andb_true_iff in H. destruct H as [H _].
  apply andb_true_iff in H. destruct H as [Hl Hb]. apply Nat.eqb_eq in Hl.
  apply vall_map in Hb.
  assert (Hb' : Forall (fun i => (i < n)%nat) l) by (eapply Forall_impl; [|exact Hb]; simpl; intros; apply Nat.ltb_lt; auto).
  pose proof (check_small n Hn) as C. rewrite forallb_forall in C.
  specialize (C l (all_lists_In n n l Hl Hb')). rewrite H0 in C. simpl in C.
  apply nodup_perm_seq; auto. apply nodupb_NoDup; auto.
Qed.
Definition bad_order (n : nat) : list nat := [1; 1; 2; 2; 3]%nat ++ seq 5 (n - 5).
Lemma bad_order_accepted n : (5 <= n)%nat -> permutation_check n (bad_order n) = true /\ ~ Permutation (bad_order n) (seq 0 n).
Proof.
  intros Hn. split.
  - unfold permutation_check, bad_order. rewrite app_length, seq_length.
    replace (length [1; 1; 2; 2; 3]%nat + (n - 5))%nat with n by (simpl; lia). rewrite Nat.eqb_refl. cbn [andb].
    apply andb_true_iff. split.
    + apply vall_map. rewrite Forall_forall. intros x Hx. apply Nat.ltb_lt. apply in_app_or in Hx.
      destruct Hx as [Hx|Hx]; [simpl in Hx; lia|]. apply in_seq in Hx. lia.
    + apply Z.eqb_eq. rewrite <- product_seq. replace n with (5 + (n - 5))%nat at 2 by lia.
      rewrite seq_app, !map_app, !vproduct_app. f_equal.
  - intros P. assert (H : In 0%nat (bad_order n)).
    { apply (Permutation_in _ (Permutation_sym P)). apply in_seq. lia. }
    unfold bad_order in H. apply in_app_or in H. destruct H as [H|H]; [simpl in H; lia|]. apply in_seq in H. lia.
Qed.

Definition known (s : shape) : Prop := Forall (fun d => ~ unknown_stride d) s.
Lemma get_dims_known s order r : known s -> get_dims s order = Some r -> known r.
Proof.
  intros Hk H. apply get_dims_spec in H. eapply Forall2_Forall_r; [exact H|].
  intros k d E. apply nth_error_In in E. unfold known in Hk. rewrite Forall_forall in Hk. auto.
Qed.
Lemma get_dims_perm s order r : Permutation order (seq 0 (length s)) -> get_dims s order = Some r -> Permutation r s.
Proof.
  intros Hp Hg. rewrite (get_dims_map _ _ _ (mkD 0 0 0) Hg).
  eapply perm_trans; [apply Permutation_map; exact Hp|].
  replace (map (fun k => nth k s (mkD 0 0 0)) (seq 0 (length s))) with s; auto.
  clear. induction s as [|d s IH]; auto. cbn [length seq map nth]. f_equal. rewrite <- seq_shift, map_map. auto.
Qed.

Lemma ref_transpose_relabels nd r order : known (r_shape r) -> Permutation order (seq 0 (length (r_shape r))) ->
  exists r', ref_transpose nd order r = Some (Ok r') /\
    r_base r' = r_base r /\
    (forall k d, nth_error order k = Some d -> nth_error (r_shape r') k = nth_error (r_shape r) d) /\
    (forall i, length i = length (r_shape r) ->
       (in_bounds (r_shape r) i <-> in_bounds (r_shape r') (map (fun k => nth k i 0) order)) /\
       elem (r_base r') (r_shape r') (map (fun k => nth k i 0) order) = elem (r_base r) (r_shape r) i).
Proof.
  intros Hk Hp. unfold ref_transpose. rewrite permutation_accepted by auto.
  destruct (get_dims_total (r_shape r) order (is_perm_bound _ _ Hp)) as [s' Hs].
  unfold transpose. rewrite Hs.
  rewrite (Permutation_length Hp), seq_length, skipn_all, app_nil_r. cbn [option_map].
  unfold reinterpret_shape, make_ref. cbn [r_shape r_base].
  rewrite resolve_known by (eapply get_dims_known; eauto).
  unfold is_subset_of. pose proof (get_dims_perm _ _ _ Hp Hs) as Hsp.
  rewrite (flat_min_perm _ _ Hsp), (flat_max_perm _ _ Hsp).
  replace (flat_min (r_shape r) >=? flat_min (r_shape r) + - 0) with true by lia.
  replace (flat_max (r_shape r) <=? flat_max (r_shape r) + - 0) with true by lia. cbn [andb assert_ bind].
  eexists. split; [reflexivity|]. cbn [r_base r_shape].
  split; [unfold ptr_off; destruct (r_base r); simpl; f_equal; lia|].
  split.
  - intros k d E. apply get_dims_spec in Hs. clear -Hs E. revert k E. induction Hs as [|a b o rr H1 H2 IH]; intros k E.
    + destruct k; discriminate.
    + destruct k; simpl in *; [inv E; auto|]. apply IH; auto.
  - intros i Hi. split.
    + apply in_bounds_pick; auto.
    + unfold elem, ptr_off. cbn [fst snd]. f_equal. rewrite (transpose_perm_offset _ _ _ Hp Hs) by auto. lia.
Qed.

Lemma get_dims_inverse s order inv r : Permutation order (seq 0 (length s)) -> Permutation inv (seq 0 (length s)) ->
  (forall k, (k < length s)%nat -> nth (nth k inv O) order O = k) ->
  get_dims s order = Some r -> get_dims r inv = Some s.
Proof.
  intros Ho Hi Hinv Hg. pose proof (get_dims_map _ _ _ (mkD 0 0 0) Hg) as Hr.
  assert (Hlen : length r = length s).
  { rewrite Hr, map_length, (Permutation_length Ho), seq_length. auto. }
  destruct (get_dims_total r inv) as [s' Hs].
  { rewrite Hlen. apply is_perm_bound; auto. }
  rewrite Hs. f_equal. rewrite (get_dims_map _ _ _ (mkD 0 0 0) Hs).
  apply nth_error_ext'. intros k. destruct (lt_dec k (length s)) as [Hk|Hk].
  - assert (Hki : nth_error inv k = Some (nth k inv O)).
    { apply nth_error_nth'. rewrite (Permutation_length Hi), seq_length. auto. }
    rewrite (map_nth_error _ _ _ Hki).
    assert (Hb : (nth k inv O < length s)%nat).
    { pose proof (is_perm_bound _ _ Hi) as B. rewrite Forall_forall in B. apply B. apply nth_error_In with k. auto. }
    assert (Hoi : nth_error order (nth k inv O) = Some k).
    { rewrite <- (Hinv k Hk) at 2. apply nth_error_nth'. rewrite (Permutation_length Ho), seq_length. auto. }
    symmetry. rewrite (nth_error_nth' s (mkD 0 0 0) Hk). f_equal. rewrite Hr.
    symmetry. apply nth_error_nth. rewrite (map_nth_error _ _ _ Hoi). auto.
  - rewrite (proj2 (nth_error_None _ _)); [symmetry; apply nth_error_None; lia|].
    rewrite map_length, (Permutation_length Hi), seq_length. lia.
Qed.
Lemma ref_transpose_inverse nd r order inv r' : known (r_shape r) ->
  Permutation order (seq 0 (length (r_shape r))) -> Permutation inv (seq 0 (length (r_shape r))) ->
  (forall k, (k < length (r_shape r))%nat -> nth (nth k inv O) order O = k) ->
  ref_transpose nd order r = Some (Ok r') -> ref_transpose nd inv r' = Some (Ok r).
Proof.
  intros Hk Ho Hi Hinv Ht.
  destruct (get_dims_total (r_shape r) order (is_perm_bound _ _ Ho)) as [s' Hs].
  assert (Hr' : r' = mkR (ptr_off (r_base r) 0) s').
  { revert Ht. unfold ref_transpose. rewrite permutation_accepted by auto. unfold transpose. rewrite Hs.
    rewrite (Permutation_length Ho), seq_length, skipn_all, app_nil_r. cbn [option_map].
    unfold reinterpret_shape, make_ref. cbn [r_shape r_base].
    rewrite resolve_known by (eapply get_dims_known; eauto).
    destruct (assert_ nd _); cbn [bind]; congruence. }
  assert (Hlen : length s' = length (r_shape r)).
  { apply get_dims_spec in Hs. apply Forall2_len in Hs. rewrite <- Hs, (Permutation_length Ho), seq_length. auto. }
  subst r'. unfold ref_transpose. cbn [r_shape]. rewrite Hlen, permutation_accepted by auto.
  unfold transpose. rewrite (get_dims_inverse _ _ _ _ Ho Hi Hinv Hs).
  rewrite (Permutation_length Hi), seq_length, <- Hlen, skipn_all, app_nil_r. cbn [option_map].
  unfold reinterpret_shape, make_ref. cbn [r_shape r_base]. rewrite resolve_known by auto.
  unfold is_subset_of. pose proof (get_dims_perm _ _ _ Ho Hs) as Hsp.
  rewrite (flat_min_perm _ _ Hsp), (flat_max_perm _ _ Hsp).
  replace (flat_min (r_shape r) >=? flat_min (r_shape r) + - 0) with true by lia.
  replace (flat_max (r_shape r) <=? flat_max (r_shape r) + - 0) with true by lia. cbn [andb assert_ bind].
  destruct r as [[b x] s]. unfold ptr_off. simpl. do 4 f_equal. lia.
Qed.

(** reorder: a selection of dims *)
Definition lo_term (d : dim) : Z := (dext d - 1) * cmin 0 (dstr d).
Definition hi_term (d : dim) : Z := (dext d - 1) * cmax 0 (dstr d).
Lemma flat_min_sum s : flat_min s = fold_right Z.add 0 (map lo_term s).
Proof. unfold flat_min. rewrite vsum_lsum. reflexivity. Qed.
Lemma flat_max_sum s : flat_max s = fold_right Z.add 0 (map hi_term s).
Proof. unfold flat_max. rewrite vsum_lsum. reflexivity. Qed.
Lemma fold_add_app a b : fold_right Z.add 0 (a ++ b) = fold_right Z.add 0 a + fold_right Z.add 0 b.
Proof. induction a; simpl; lia. Qed.
Lemma select_complete n order : NoDup order -> Forall (fun k => (k < n)%nat) order ->
  exists rest, Permutation (order ++ rest) (seq 0 n).
Proof.
  intros Hnd Hb. exists (filter (fun k => if in_dec Nat.eq_dec k order then false else true) (seq 0 n)).
  apply NoDup_Permutation.
  - apply NoDup_app; auto; [apply NoDup_filter, seq_NoDup|].
    intros x H1 H2. apply filter_In in H2. destruct H2 as [_ H2]. destruct (in_dec Nat.eq_dec x order); congruence.
  - apply seq_NoDup.
  - intros x. rewrite in_app_iff, filter_In. split.
    + intros [H|[H _]]; auto. apply in_seq. rewrite Forall_forall in Hb. specialize (Hb x H). lia.
    + intros H. destruct (in_dec Nat.eq_dec x order); auto.
Qed.
Lemma seq_nth_self (s : shape) d0 : map (fun k => nth k s d0) (seq 0 (length s)) = s.
Proof. induction s as [|d s IH]; auto. cbn [length seq map nth]. f_equal. rewrite <- seq_shift, map_map. auto. Qed.

Lemma reorder_selects nd r order : known (r_shape r) -> extents_ge 1 (r_shape r) -> NoDup order ->
  Forall (fun k => (k < length (r_shape r))%nat) order ->
  exists r', ref_reorder nd order r = Some (Ok r') /\
    r_base r' = r_base r /\
    Forall2 (fun k d => nth_error (r_shape r) k = Some d) order (r_shape r') /\
    (forall i j, length j = length (r_shape r) ->
       (forall k d, nth_error order k = Some d -> nth_error i k = Some (nth d j 0)) -> length i = length order ->
       (forall d, (d < length (r_shape r))%nat -> ~ In d order -> nth d j 0 = nth d (map dmin (r_shape r)) 0) ->
       elem (r_base r') (r_shape r') i = elem (r_base r) (r_shape r) j).
Proof.
  intros Hk He Hnd Hb. destruct (get_dims_total _ _ Hb) as [s' Hs].
  destruct (select_complete _ _ Hnd Hb) as [rest Hp].
  set (s := r_shape r) in *. set (d0 := mkD 0 0 0).
  pose proof (get_dims_map _ _ _ d0 Hs) as Hmap.
  assert (Hsplit : forall f : dim -> Z, fold_right Z.add 0 (map f s) =
            fold_right Z.add 0 (map f s') + fold_right Z.add 0 (map f (map (fun k => nth k s d0) rest))).
  { intros f. rewrite Hmap, <- fold_add_app, <- map_app, <- map_app. rewrite <- (seq_nth_self s d0) at 1.
    apply fold_add_perm. apply Permutation_map, Permutation_map, Permutation_sym. auto. }
  assert (Hrest : Forall (fun k => (k < length s)%nat) rest).
  { rewrite Forall_forall. intros x Hx. assert (In x (seq 0 (length s))).
    { apply (Permutation_in _ Hp). apply in_or_app; auto. } apply in_seq in H. lia. }
  assert (Hre : extents_ge 1 (map (fun k => nth k s d0) rest)).
  { unfold extents_ge. apply Forall_map. eapply Forall_impl; [|exact Hrest]. intros k Hk'. simpl.
    unfold extents_ge in He. rewrite Forall_forall in He. apply He. apply nth_In. auto. }
  assert (Hlo : fold_right Z.add 0 (map lo_term (map (fun k => nth k s d0) rest)) <= 0).
  { clear -Hre. induction Hre as [|d l H1 H2 IH]; simpl; [lia|]. unfold lo_term in *. rewrite cmin_min in *. nia. }
  assert (Hhi : 0 <= fold_right Z.add 0 (map hi_term (map (fun k => nth k s d0) rest))).
  { clear -Hre. induction Hre as [|d l H1 H2 IH]; simpl; [lia|]. unfold hi_term in *. rewrite cmax_max in *. nia. }
  unfold ref_reorder, reorder. fold s. rewrite Hs. cbn [option_map].
  unfold reinterpret_shape, make_ref. cbn [r_shape r_base].
  rewrite resolve_known by (eapply get_dims_known; eauto).
  fold s. unfold is_subset_of.
  replace (flat_min s' >=? flat_min s + - 0) with true by (rewrite !flat_min_sum, (Hsplit lo_term); lia).
  replace (flat_max s' <=? flat_max s + - 0) with true by (rewrite !flat_max_sum, (Hsplit hi_term); lia).
  cbn [andb assert_ bind].
  eexists. split; [reflexivity|]. cbn [r_base r_shape].
  split; [unfold ptr_off; destruct (r_base r); simpl; f_equal; lia|].
  split; [apply get_dims_spec; auto|].
  intros i j Hj Hij Hil Hout. unfold elem, ptr_off. cbn [fst snd]. f_equal.
  assert (E : offset s' i = offset s j); [|rewrite E; lia].
  rewrite (offset_terms s j) by auto.
  assert (Ei : i = map (fun d => nth d j 0) order).
  { apply nth_error_ext'. intros k. destruct (nth_error order k) as [d|] eqn:Ek.
    - rewrite (map_nth_error _ _ _ Ek). apply Hij. auto.
    - rewrite (proj2 (nth_error_None i k)); [symmetry; apply nth_error_None; rewrite map_length; apply nth_error_None; auto|].
      rewrite Hil. apply nth_error_None. auto. }
  rewrite Ei, Hmap, offset_map_terms. fold d0.
  rewrite <- (fold_add_perm _ _ (Permutation_map _ Hp)). rewrite map_app, fold_add_app.
  replace (fold_right Z.add 0 (map (fun k => (nth k j 0 - dmin (nth k s d0)) * dstr (nth k s d0)) rest)) with 0; [lia|].
  assert (Hno : forall k, In k rest -> ~ In k order).
  { intros k Hk1 Hk2. assert (ND : NoDup (order ++ rest)) by (eapply Permutation_NoDup; [apply Permutation_sym; exact Hp | apply seq_NoDup]).
    clear -ND Hk1 Hk2. induction order as [|a o IH]; [destruct Hk2|]. simpl in ND. inv ND. destruct Hk2 as [->|Hk2]; auto.
    apply H1. apply in_or_app; auto. }
  clear -Hno Hrest Hout. induction rest as [|k rest IH]; auto. cbn [map fold_right]. inv Hrest.
  rewrite <- IH; auto; [|intros; apply Hno; right; auto].
  rewrite (Hout k) by (auto; apply Hno; left; auto).
  assert (E : nth k (map dmin s) 0 = dmin (nth k s d0)).
  { change 0 with (dmin d0). apply map_nth. }
  rewrite E. ring.
Qed.

(** ** set_shape and reinterpret_shape *)

Lemma subset_inside new old off i : is_subset_of new old (- off) = true -> in_bounds new i ->
  flat_min old <= off + offset new i <= flat_max old.
Proof.
  unfold is_subset_of. intros H Hi. pose proof (offset_range new i Hi). lia.
Qed.
Lemma set_shape_inside r new off r' : ref_set_shape false r new off = Ok r' -> fst (r_base r) <> O ->
  r_shape r' = new /\
  forall i, in_bounds new i -> exists o, flat_min (r_shape r) <= o <= flat_max (r_shape r) /\
    elem (r_base r') new i = (fst (r_base r), snd (r_base r) + o).
Proof.
  unfold ref_set_shape. intros H Hb. destruct (is_resolved new); [|discriminate]. cbn [assert_ bind] in H.
  destruct (is_subset_of new (r_shape r) (- off)) eqn:E; [|discriminate]. inversion H; subst. split; auto.
  intros i Hi. exists (off + offset new i). split; [apply subset_inside; auto|].
  cbn [r_base]. rewrite pointer_add_block by auto. unfold elem, ptr_off. cbn [fst snd]. f_equal. lia.
Qed.
Lemma set_shape_accepts r new off : extents_ge 1 new -> known new ->
  (forall i, in_bounds new i -> flat_min (r_shape r) <= off + offset new i <= flat_max (r_shape r)) ->
  exists r', ref_set_shape false r new off = Ok r'.
Proof.
  intros He Hk H. unfold ref_set_shape. rewrite (proj2 (is_resolved_iff new) Hk). cbn [assert_ bind].
  destruct (flat_min_attained new He) as [a [Ha Ea]]. destruct (flat_max_attained new He) as [b [Hb Eb]].
  pose proof (H a Ha). pose proof (H b Hb). unfold is_subset_of.
  replace (flat_min new >=? flat_min (r_shape r) + - off) with true by lia.
  replace (flat_max new <=? flat_max (r_shape r) + - off) with true by lia. eexists. reflexivity.
Qed.
Lemma reinterpret_inside r new off r' : reinterpret_shape false r new off = Ok r' ->
  r_shape r' = resolve new /\
  forall i, in_bounds (r_shape r') i -> exists o, flat_min (r_shape r) <= o <= flat_max (r_shape r) /\
    elem (r_base r') (r_shape r') i = (fst (r_base r), snd (r_base r) + o).
Proof.
  unfold reinterpret_shape, make_ref. cbn [r_shape r_base]. intros H.
  destruct (is_subset_of (resolve new) (r_shape r) (- off)) eqn:E; [|discriminate]. cbn [assert_ bind] in H.
  inversion H; subst. split; auto. cbn [r_shape r_base].
  intros i Hi. exists (off + offset (resolve new) i). split; [apply subset_inside; auto|].
  unfold elem, ptr_off. cbn [fst snd]. f_equal. lia.
Qed.
Lemma reinterpret_accepts r new off : extents_ge 1 new -> known new ->
  (forall i, in_bounds new i -> flat_min (r_shape r) <= off + offset new i <= flat_max (r_shape r)) ->
  exists r', reinterpret_shape false r new off = Ok r'.
Proof.
  intros He Hk H. unfold reinterpret_shape, make_ref. cbn [r_shape r_base]. rewrite resolve_known by auto.
  destruct (flat_min_attained new He) as [a [Ha Ea]]. destruct (flat_max_attained new He) as [b [Hb Eb]].
  pose proof (H a Ha). pose proof (H b Hb). unfold is_subset_of.
  replace (flat_min new >=? flat_min (r_shape r) + - off) with true by lia.
  replace (flat_max new <=? flat_max (r_shape r) + - off) with true by lia. eexists. reflexivity.
Qed.

(** ** Crops *)

Lemma in_bounds3 x y c i j k : in_bounds [x; y; c] [i; j; k] <-> in_dim x i /\ in_dim y j /\ in_dim c k.
Proof.
  split.
  - intros H. inversion H as [|? ? ? ? H1 H2]; subst. inversion H2 as [|? ? ? ? H3 H4]; subst.
    inversion H4; subst. auto.
  - intros [H1 [H2 H3]]. repeat (constructor; auto).
Qed.
Lemma crop_shape base x y c x0 y0 x1 y1 origin : known [x; y; c] -> fst base <> O ->
  let cx0 := Z.max x0 (dmin x) in let cy0 := Z.max y0 (dmin y) in
  let cx1 := Z.min x1 (dmin x + dext x) in let cy1 := Z.min y1 (dmin y + dext y) in
  let r := crop base x y c x0 y0 x1 y1 origin in
  let ox := match origin with origin_crop => cx0 | origin_zero => 0 end in
  let oy := match origin with origin_crop => cy0 | origin_zero => 0 end in
  r_shape r = [mkD ox (cx1 - cx0) (dstr x); mkD oy (cy1 - cy0) (dstr y); c] /\
  r_base r = elem base [x; y; c] [cx0; cy0; dmin c].
Proof.
  intros Hk Hb cx0 cy0 cx1 cy1 r ox oy. inversion Hk as [|? ? Kx Hk1]; subst. inversion Hk1 as [|? ? Ky Hk2]; subst.
  inversion Hk2 as [|? ? Kc _]; subst.
  unfold r, crop. rewrite !cmax_max, !cmin_min. rewrite (is_null_block base) by auto.
  replace (dmax x + 1) with (dmin x + dext x) by (unfold dmax, imax, d_interval; simpl; lia).
  replace (dmax y + 1) with (dmin y + dext y) by (unfold dmax, imax, d_interval; simpl; lia).
  fold cx0 cy0 cx1 cy1. unfold make_ref. cbn [r_shape r_base].
  split.
  - unfold crop_image_shape. destruct origin; subst ox oy; apply resolve_known; repeat (constructor; auto).
  - destruct origin.
    + unfold elem, ptr_off. rewrite flat_offset_spec. auto.
    + rewrite pointer_add_block by auto. unfold crop_image_shape. rewrite !flat_offset_spec. unfold elem, ptr_off.
      cbn [fst snd offset dmin dstr]. f_equal. ring.
Qed.
Lemma crop_disjoint base x y c x0 y0 x1 y1 origin : known [x; y; c] -> fst base <> O -> 0 < dext c ->
  Z.min x1 (dmin x + dext x) < Z.max x0 (dmin x) -> Z.min y1 (dmin y + dext y) < Z.max y0 (dmin y) ->
  let s := r_shape (crop base x y c x0 y0 x1 y1 origin) in
  (exists dx dy, s = [dx; dy; c] /\ dext dx < 0 /\ dext dy < 0) /\ (forall i, ~ in_bounds s i) /\ 0 < size s /\ empty s = false.
Proof.
  intros Hk Hb Hc Hx Hy s. destruct (crop_shape base x y c x0 y0 x1 y1 origin Hk Hb) as [E _]. fold s in E.
  set (ex := Z.min x1 _ - Z.max x0 _) in E. set (ey := Z.min y1 _ - Z.max y0 _) in E.
  assert (Nx : ex < 0) by (unfold ex; lia). assert (Ny : ey < 0) by (unfold ey; lia). clearbody ex ey. rewrite E.
  assert (P : size [mkD (match origin with origin_zero => 0 | origin_crop => Z.max x0 (dmin x) end) ex (dstr x);
                    mkD (match origin with origin_zero => 0 | origin_crop => Z.max y0 (dmin y) end) ey (dstr y); c] = ex * (ey * dext c)).
  { unfold size, vproduct, extents. cbn. assert (0 < ex * (ey * dext c)) by nia.
    destruct (Z.ltb_spec (ex * (ey * (dext c * 1))) 0); nia. }
  split; [eexists _, _; split; [reflexivity|auto]|]. split.
  { intros i H. inversion H as [|? ? ? ? Hd _]; subst. unfold in_dim in Hd. cbn in Hd. lia. }
  unfold empty. rewrite P. split; [nia|]. apply Z.eqb_neq. nia.
Qed.
Lemma crop_denotes_crop base x y c x0 y0 x1 y1 : known [x; y; c] -> fst base <> O ->
  let r := crop base x y c x0 y0 x1 y1 origin_crop in
  forall i j k,
    (in_bounds (r_shape r) [i; j; k] <->
       in_bounds [x; y; c] [i; j; k] /\ x0 <= i < x1 /\ y0 <= j < y1) /\
    elem (r_base r) (r_shape r) [i; j; k] = elem base [x; y; c] [i; j; k].
Proof.
  intros Hk Hb r i j k. destruct (crop_shape base x y c x0 y0 x1 y1 origin_crop Hk Hb) as [E1 E2]. fold r in E1, E2.
  rewrite E1, E2. split.
  - rewrite !in_bounds3. unfold in_dim. cbn [dmin dext]. lia.
  - unfold elem. cbn [fst snd offset dmin dstr]. f_equal. ring.
Qed.
Lemma crop_denotes_zero base x y c x0 y0 x1 y1 : known [x; y; c] -> fst base <> O ->
  let r := crop base x y c x0 y0 x1 y1 origin_zero in
  let cx0 := Z.max x0 (dmin x) in let cy0 := Z.max y0 (dmin y) in
  forall i j k,
    (in_bounds (r_shape r) [i; j; k] <->
       in_bounds [x; y; c] [i + cx0; j + cy0; k] /\ cx0 <= i + cx0 < x1 /\ cy0 <= j + cy0 < y1) /\
    elem (r_base r) (r_shape r) [i; j; k] = elem base [x; y; c] [i + cx0; j + cy0; k].
Proof.
  intros Hk Hb r cx0 cy0 i j k. destruct (crop_shape base x y c x0 y0 x1 y1 origin_zero Hk Hb) as [E1 E2]. fold r in E1, E2.
  rewrite E1, E2. fold cx0 cy0. split.
  - rewrite !in_bounds3. unfold in_dim. cbn [dmin dext]. lia.
  - unfold elem. cbn [fst snd offset dmin dstr]. f_equal. ring.
Qed.
Lemma slice_channel_denotes base x y c ch : fst base <> O ->
  let r := slice_channel base x y c ch in
  r_shape r = [x; y] /\
  forall i j, elem (r_base r) (r_shape r) [i; j] = elem base [x; y; c] [i; j; ch].
Proof.
  intros Hb r. unfold r, slice_channel, make_array_ref_at. cbn [r_shape r_base].
  assert (E : shape_slice [x; y; c] [ADim x; ADim y; AIdx ch] = [x; y]).
  { rewrite !shape_slice_cons. simpl. destruct x, y; reflexivity. }
  rewrite E. split; auto. intros i j. rewrite pointer_add_block by auto. unfold elem, ptr_off.
  rewrite flat_offset_spec. cbn [mins_of_intervals map2 min_of_range fst snd offset]. f_equal. ring.
Qed.
