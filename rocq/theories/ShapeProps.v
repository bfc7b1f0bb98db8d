(** Final lemmas behind PropShape.v. *)
From Verif Require Import Tac Interval Shape Spec ShapeFacts ResolveFacts.
Import ListNotations.
Open Scope Z_scope.

Lemma offset_fold s i : offset s i = fold_right Z.add 0 (map2 (fun d x => (x - dmin d) * dstr d) s i).
Proof. revert i. induction s; destruct i; simpl; auto. rewrite IHs. reflexivity. Qed.

Lemma flat_offset_affine : forall (s : shape) (i : index), length i = length s ->
  flat_offset s i = fold_right Z.add 0 (map2 (fun d x => (x - dmin d) * dstr d) s i) /\
  flat_offset s (mins s) = 0 /\
  (forall v, length v = length s ->
     flat_offset s (map2 Z.add i v) =
     flat_offset s i + fold_right Z.add 0 (map2 (fun d x => x * dstr d) s v)).
Proof.
  intros s i Hi. rewrite !flat_offset_spec. split; [apply offset_fold|]. split; [apply offset_mins|].
  intros v Hv. rewrite !flat_offset_spec. apply offset_move; auto.
Qed.

Lemma flat_range_exact : forall s : shape, extents_ge 1 s ->
  (forall i, in_bounds s i -> flat_min s <= flat_offset s i <= flat_max s) /\
  (exists i, in_bounds s i /\ flat_offset s i = flat_min s) /\
  (exists i, in_bounds s i /\ flat_offset s i = flat_max s) /\
  flat_extent s = flat_max s - flat_min s + 1 /\ 1 <= flat_extent s.
Proof.
  intros s H. split; [|split; [|split]].
  - intros. rewrite flat_offset_spec. apply offset_range; auto.
  - destruct (flat_min_attained s H) as [i [? ?]]. exists i. rewrite flat_offset_spec. auto.
  - destruct (flat_max_attained s H) as [i [? ?]]. exists i. rewrite flat_offset_spec. auto.
  - apply flat_extent_nonempty, H.
Qed.

Lemma resolve_fills_unknown_only : forall s : shape,
  stride_budget s < 9223372036854775807 ->
  Forall2 (fun d d' =>
      dmin d' = dmin d /\ dext d' = dext d /\
      (~ unknown_stride d -> dstr d' = dstr d) /\
      (unknown_stride d -> 1 <= dstr d' < 9223372036854775807)) s (resolve s) /\
  is_resolved (resolve s) = true /\
  resolve (resolve s) = resolve s.
Proof.
  intros s B. split; [|split].
  - pose proof (resolve_spec s B) as H. revert H. generalize (resolve s). clear B.
    induction 1; constructor; auto.
    destruct H as [? [? [H1 ?]]]. repeat split; auto.
    + intro U. rewrite (H1 U). auto.
    + apply H3; auto.
    + apply H3; auto.
  - apply is_resolved_iff, resolved_all_known, B.
  - apply resolve_idempotent, B.
Qed.

Lemma resolve_injective_offset : forall s : shape,
  stride_budget s < 9223372036854775807 -> nested (known_dims s) ->
  forall i j, in_bounds (resolve s) i -> in_bounds (resolve s) j ->
    flat_offset (resolve s) i = flat_offset (resolve s) j -> i = j.
Proof. intros s B N i j. rewrite !flat_offset_spec. apply resolve_injective; auto. Qed.

Lemma resolve_not_nested_collides : exists s : shape,
  extents_ge 1 s /\ stride_budget s < 9223372036854775807 /\
  injective_layout (known_dims s) /\
  exists i j, in_bounds (resolve s) i /\ in_bounds (resolve s) j /\ i <> j /\
    flat_offset (resolve s) i = flat_offset (resolve s) j.
Proof.
  exists [mkD 0 2 2; mkD 0 2 3; mkD 0 2 unresolved].
  split; [repeat constructor; simpl; lia|]. split; [vm_compute; reflexivity|]. split.
  - cbn [known_dims filter unknown_strideb dstr negb unresolved index_min Z.eqb Pos.eqb].
    intros i j Hi Hj.
    assert (G : forall k, in_bounds [mkD 0 2 2; mkD 0 2 3] k ->
      exists x y, k = [x; y] /\ 0 <= x < 2 /\ 0 <= y < 2).
    { intros k Hk. destruct k as [|x [|y [|z k]]].
      - inversion Hk.
      - inversion Hk as [|? ? ? ? ? W]. inversion W.
      - inversion Hk as [|? ? ? ? U W]. inversion W as [|? ? ? ? U' W']. unfold in_dim in *. simpl in *.
        exists x, y. repeat split; lia.
      - inversion Hk as [|? ? ? ? U W]. inversion W as [|? ? ? ? U' W']. inversion W'. }
    destruct (G i Hi) as [x [y [-> ?]]]. destruct (G j Hj) as [x' [y' [-> ?]]].
    simpl. intro E. f_equal; [lia|]. f_equal. lia.
  - exists [1; 0; 1], [0; 1; 0].
    split; [repeat constructor; simpl; try lia; discriminate|].
    split; [repeat constructor; simpl; try lia; discriminate|]. split; [discriminate | reflexivity].
Qed.

Lemma known_all_unknown s : Forall unknown_stride s -> known_dims s = [].
Proof.
  unfold known_dims. induction 1; simpl; auto. apply unknown_strideb_iff in H. rewrite H. auto.
Qed.

Lemma unknown_extents_all s : extents_ge 1 s -> Forall unknown_stride s ->
  unknown_extents s = fold_right Z.mul 1 (map dext s).
Proof.
  intros H. unfold unknown_extents. induction H; intro U; simpl; auto. inv U.
  apply unknown_strideb_iff in H3. rewrite H3. cbn [map fold_right]. rewrite IHForall by auto.
  rewrite Z.max_r by auto. reflexivity.
Qed.

Lemma resolve_extents s : stride_budget s < index_max -> map dext (resolve s) = map dext s.
Proof.
  intro B. pose proof (resolve_spec s B) as H. revert H. generalize (resolve s). clear B.
  induction 1; simpl; auto. destruct H as [_ [E _]]. congruence.
Qed.
Lemma resolve_mins s : stride_budget s < index_max -> map dmin (resolve s) = map dmin s.
Proof.
  intro B. pose proof (resolve_spec s B) as H. revert H. generalize (resolve s). clear B.
  induction 1; simpl; auto. destruct H as [E _]. congruence.
Qed.

Lemma extents_ge_map k s s' : map dext s' = map dext s -> extents_ge k s -> extents_ge k s'.
Proof.
  intros E H. unfold extents_ge in *.
  assert (Forall (fun x => k <= x) (map dext s')) by (rewrite E; apply Forall_map; exact H).
  rewrite Forall_map in H0. exact H0.
Qed.

Lemma in_bounds_map s s' i : map dext s' = map dext s -> map dmin s' = map dmin s ->
  in_bounds s i -> in_bounds s' i.
Proof.
  intros E M H. revert s' E M. induction H as [|d x s i Hd Hs IH]; intros [|d' s'] E M; try discriminate.
  - constructor.
  - simpl in E, M. injection E as E1 E2. injection M as M1 M2. constructor.
    + unfold in_dim in *. lia.
    + apply IH; auto.
Qed.

Lemma dense_strides_nth p s k x : nth_error (dense_strides p s) k = Some x ->
  x = p * fold_right Z.mul 1 (map dext (firstn k s)).
Proof.
  revert p k. induction s as [|d s IH]; intros p [|k]; cbn [dense_strides nth_error firstn map fold_right]; try discriminate.
  - intro E. injection E as <-. lia.
  - intro E. apply IH in E. rewrite E. ring.
Qed.

Lemma tiles_fold_max ds n l : extents_ge 1 l -> tiles n l -> Permutation (known_dims ds) l ->
  max_known_span ds <= n.
Proof.
  intros H T P. pose proof (tiles_pos _ _ H T). unfold max_known_span.
  destruct (fold_max_attained (map (fun d => Z.abs (dstr d) * dext d) (known_dims ds))) as [E|E]; [lia|].
  apply in_map_iff in E. destruct E as [d [E Hd]]. rewrite <- E.
  assert (In d l) as Hl by (eapply Permutation_in; eauto).
  destruct (tiles_bound _ _ _ H T Hl) as [? _]. unfold span in *. lia.
Qed.

Lemma split_extents s : extents_ge 1 s ->
  fold_right Z.mul 1 (map dext s) = fold_right Z.mul 1 (map dext (known_dims s)) * unknown_extents s.
Proof.
  unfold known_dims. induction 1; [reflexivity|]. rewrite unknown_extents_cons. simpl filter.
  destruct (unknown_strideb x); simpl negb; cbn [map fold_right]; rewrite IHForall.
  - rewrite Z.max_r by auto. ring.
  - ring.
Qed.

Lemma fold_mul_perm a b : Permutation a b -> fold_right Z.mul 1 a = fold_right Z.mul 1 b.
Proof. induction 1; cbn [fold_right]; lia. Qed.

Lemma known_extents_ge k s : extents_ge k s -> extents_ge k (known_dims s).
Proof.
  intro H. unfold extents_ge in *. rewrite Forall_forall in *. intros x Hx. apply known_dims_In in Hx. apply H; tauto.
Qed.

Lemma tiling_budget s n l : extents_ge 1 s -> Permutation (known_dims s) l -> tiles n l ->
  fold_right Z.mul 1 (map dext s) = n * unknown_extents s /\ stride_budget s <= n * unknown_extents s.
Proof.
  intros H P T.
  assert (Hl : extents_ge 1 l) by (eapply Permutation_Forall; [exact P | apply known_extents_ge, H]).
  split.
  - rewrite split_extents by auto. rewrite (tiles_product _ _ T).
    rewrite (fold_mul_perm _ _ (Permutation_map dext P)). reflexivity.
  - unfold stride_budget. pose proof (tiles_fold_max _ _ _ Hl T P). pose proof (unknown_extents_ge1 s). nia.
Qed.

Lemma tiling_resolve_compact : forall (s : shape) n l, extents_ge 1 s ->
  Permutation (known_dims s) l -> tiles n l ->
  fold_right Z.mul 1 (map dext s) < 9223372036854775807 ->
  injective_layout (resolve s) /\
  flat_extent (resolve s) = size (resolve s) /\
  (forall o, flat_min (resolve s) <= o <= flat_max (resolve s) ->
     exists i, in_bounds (resolve s) i /\ flat_offset (resolve s) i = o).
Proof.
  intros s n l H P T B. destruct (tiling_budget s n l H P T) as [E1 E2]. rewrite E1 in B.
  destruct (resolve_tiles s n l H P T B) as [m [l' [P' [T' _]]]].
  assert (H' : extents_ge 1 (resolve s)).
  { eapply extents_ge_map; [apply resolve_extents; unfold index_max; lia | exact H]. }
  destruct (tiles_compact (resolve s) m l' H' P' T') as [I [F [S [_ O]]]].
  split; auto. split; [lia|]. intros o Ho. destruct (O o Ho) as [i ?]. exists i.
  rewrite flat_offset_spec. auto.
Qed.

Lemma default_layout_dense : forall s : shape, extents_ge 1 s -> Forall unknown_stride s ->
  fold_right Z.mul 1 (map dext s) < 9223372036854775807 ->
  (forall k d, nth_error (resolve s) k = Some d ->
     dstr d = fold_right Z.mul 1 (map dext (firstn k s))) /\
  flat_min (resolve s) = 0 /\
  flat_extent (resolve s) = size (resolve s) /\
  is_compact (resolve s) = true /\
  (forall o, 0 <= o < size (resolve s) <-> exists i, in_bounds s i /\ flat_offset (resolve s) i = o).
Proof.
  intros s H U B.
  assert (P : Permutation (known_dims s) []) by (rewrite known_all_unknown; auto).
  destruct (tiling_resolve_compact s 1 [] H P tiles_nil B) as [I [F O]].
  destruct (tiling_budget s 1 [] H P tiles_nil) as [E1 E2].
  assert (Bd : stride_budget s < index_max) by (unfold index_max; lia).
  assert (ST : map dstr (resolve s) = dense_strides 1 s) by (apply resolve_all_unknown; auto).
  assert (H' : extents_ge 1 (resolve s)).
  { eapply extents_ge_map; [apply resolve_extents; exact Bd | exact H]. }
  assert (M : flat_min (resolve s) = 0).
  { apply flat_min_nonneg. pose proof (resolve_spec s Bd) as R. revert R. generalize (resolve s).
    clear -U. intros r R. induction R; constructor.
    - inv U. destruct H as [_ [_ [_ H]]]. specialize (H H2). lia.
    - inv U. auto. }
  destruct (flat_extent_nonempty _ H') as [FE _].
  split; [|split; [exact M|split; [exact F|split]]].
  - intros k d Hk. apply (map_nth_error dstr) in Hk. rewrite ST in Hk. apply dense_strides_nth in Hk. rewrite Hk. ring.
  - unfold is_compact. lia.
  - intro o. split.
    + intro Ho. destruct (O o) as [i [Hi E]]; [lia|]. exists i. split; auto.
      eapply in_bounds_map; [| |exact Hi]; symmetry; [apply resolve_extents | apply resolve_mins]; exact Bd.
    + intros [i [Hi <-]]. rewrite flat_offset_spec. pose proof (offset_range (resolve s) i) as R.
      rewrite M in R. rewrite <- F, FE, M. assert (in_bounds (resolve s) i); [|lia].
      eapply in_bounds_map; [apply resolve_extents, Bd | apply resolve_mins, Bd | exact Hi].
Qed.

Lemma one_dense_dim_compact : forall (a b : shape) (d : dim),
  extents_ge 1 (a ++ d :: b) -> Forall unknown_stride (a ++ b) -> dstr d = 1 \/ dstr d = -1 ->
  fold_right Z.mul 1 (map dext (a ++ d :: b)) < 9223372036854775807 ->
  let s' := resolve (a ++ d :: b) in
  injective_layout s' /\ flat_extent s' = size s' /\
  (forall o, flat_min s' <= o <= flat_max s' -> exists i, in_bounds s' i /\ flat_offset s' i = o).
Proof.
  intros a b d H U D B. apply (tiling_resolve_compact _ (1 * dext d) [d]); auto.
  - apply Forall_app in U. destruct U as [Ua Ub].
    rewrite known_dims_app, (known_all_unknown a Ua). simpl.
    assert (unknown_strideb d = false) by (unfold unknown_strideb; lia).
    unfold known_dims. simpl. rewrite H0. simpl.
    fold (known_dims b). rewrite (known_all_unknown b Ub). auto.
  - apply tiles_cons; [constructor | lia].
Qed.

Lemma size_counts_indices : forall s : shape, extents_ge 0 s ->
  has_count (in_bounds s) (size s) /\ (empty s = true <-> forall i, ~ in_bounds s i).
Proof. intros s H. split; [apply size_counts, H | apply empty_iff, H]. Qed.

Lemma size_negative_extents : exists s : shape, size s > 0 /\ empty s = false /\ forall i, ~ in_bounds s i.
Proof.
  exists [mkD 0 (-2) 1; mkD 0 (-3) 1]. split; [reflexivity|]. split; [reflexivity|].
  intros i H. inv H. unfold in_dim in *. simpl in *. lia.
Qed.

Lemma not_one_to_one_collides : forall s : shape, extents_ge 1 s -> is_one_to_one s = false ->
  exists i j, in_bounds s i /\ in_bounds s j /\ i <> j /\ flat_offset s i = flat_offset s j.
Proof.
  intros s H E. destruct (not_one_to_one_collision s H E) as [i [j ?]]. exists i, j.
  rewrite !flat_offset_spec. auto.
Qed.

Lemma onto_is_compact : forall s : shape, extents_ge 1 s ->
  (forall o, flat_min s <= o <= flat_max s -> exists i, in_bounds s i /\ flat_offset s i = o) ->
  is_compact s = true.
Proof.
  intros s H O. apply onto_compact; auto. intros o Ho. destruct (O o Ho) as [i ?]. exists i.
  rewrite <- flat_offset_spec. auto.
Qed.

Lemma one_to_one_not_injective : exists s : shape, extents_ge 1 s /\ is_one_to_one s = true /\ ~ injective_layout s.
Proof.
  exists [mkD 0 4 4; mkD 0 4 4]. split; [repeat constructor; simpl; lia|]. split; [reflexivity|].
  intro I. assert (C : [0; 1] = [1; 0]); [|discriminate].
  apply I; [| |reflexivity]; repeat constructor; simpl; try lia; discriminate.
Qed.

Lemma compact_with_holes : exists s : shape, extents_ge 1 s /\ is_compact s = true /\
  exists o, flat_min s <= o <= flat_max s /\ forall i, in_bounds s i -> flat_offset s i <> o.
Proof.
  exists [mkD 0 4 2; mkD 0 4 2]. split; [repeat constructor; simpl; lia|]. split; [reflexivity|].
  exists 1. split; [cbn; lia|]. intros i H. inv H. inv H4. inv H5. rewrite !flat_offset_cons. cbn. lia.
Qed.

Lemma arg_in_range_iff d a : arg_nonempty a ->
  (arg_in_range d a = true <-> forall x, arg_contains a x -> in_dim d x).
Proof.
  destruct a; simpl; intro H; try contradiction.
  - unfold i_in_range, imax, d_interval, in_dim. simpl. split; intros; [lia|]. specialize (H0 x eq_refl). lia.
  - rewrite i_in_range_interval_iff by assumption. reflexivity.
  - rewrite i_in_range_interval_iff by assumption. reflexivity.
Qed.

Lemma arg_nonempty_ex a : arg_nonempty a -> exists x, arg_contains a x.
Proof.
  destruct a; simpl; intros H.
  - eauto.
  - exists (imin i). unfold in_interval. lia.
  - exists (dmin d). unfold in_dim. lia.
  - contradiction.
Qed.

Lemma args_nonempty_ex args : Forall arg_nonempty args -> exists i, Forall2 arg_contains args i.
Proof.
  induction 1; [eexists; constructor|]. destruct IHForall as [i ?]. destruct (arg_nonempty_ex _ H) as [y ?].
  exists (y :: i). constructor; auto.
Qed.

Lemma is_in_range_slices : forall (s : shape) (args : list sarg), length args = length s ->
  Forall arg_nonempty args ->
  (is_in_range s args = true <-> forall i, Forall2 arg_contains args i -> in_bounds s i).
Proof.
  unfold is_in_range. intros s. induction s as [|d s IH]; intros [|a args] Hl Hn; try discriminate.
  - split; [|reflexivity]. intros _ i Hi. inv Hi. constructor.
  - inv Hn. simpl map2. rewrite vall_cons, andb_true_iff, IH, arg_in_range_iff by (simpl in Hl; auto; lia).
    split.
    + intros [A B] i Hi. inv Hi. constructor; auto. apply B. auto.
    + intro G. split.
      * intros x Hx. destruct (args_nonempty_ex args H2) as [i Hi].
        assert (in_bounds (d :: s) (x :: i)) as I by (apply G; constructor; auto). inv I. auto.
      * intros i Hi. destruct (arg_nonempty_ex a H1) as [x Hx].
        assert (in_bounds (d :: s) (x :: i)) as I by (apply G; constructor; auto). inv I. auto.
Qed.

Lemma placeholder_not_in_range : exists d : dim, 1 <= dext d /\ is_in_range [d] [AAll] = false.
Proof. exists (mkD 3 4 1). split; [simpl; lia | reflexivity]. Qed.
