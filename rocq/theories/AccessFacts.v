(** Traversal of images by address; data(), empty() and bounds(); set_shape of arrays;
    make_move of an rvalue; compact copies. *)
From Coq Require Import ZArith List Bool Lia.
From Verif Require Import Tac Base Interval Shape Traverse Memory Ref Container Static Compact Spec SpecMem SpecStatic
  SpecContainer ShapeFacts ResolveFacts ShapeProps IntervalFacts TraverseFacts MemFacts RefFacts SliceFacts
  StaticFacts ContainerFacts ContainerWorld ContainerProps.
Import ListNotations.
Open Scope Z_scope.

Lemma chunky_pointers nd x y c base : 0 <= dext x -> 0 <= dext y -> 0 <= dext c -> dstr c = 1 ->
  is_null base = false \/ (forall i, ~ in_bounds [x; y; c] i) ->
  exists l, enumerates (in_bounds [x; y; c]) l /\ values_chunky nd x y c base = Ok (map (elem base [x; y; c]) l).
Proof.
  intros Hx Hy Hc H1 Hb. destruct (is_null base) eqn:E.
  - destruct Hb as [Hb|Hb]; [discriminate|]. exists []. split; [apply enumerates_nil; auto|].
    assert (He : empty [x; y; c] = true) by (apply empty_iff; auto; repeat constructor; auto).
    unfold values_chunky, values_in_order. rewrite E.
    destruct (dext c =? dstr x) eqn:Q.
    + match goal with |- context[empty ?s] => assert (He' : empty s = true) end.
      { apply empty_iff; [repeat constructor; simpl; nia|]. intros i Hi.
        inversion Hi as [|d1 a s1 i1 A1 B1]; subst. inversion B1 as [|d2 b s2 i2 A2 B2]; subst. unfold in_dim in *.
        simpl in A1. assert (0 < dext x /\ 0 < dext c) by nia.
        apply (Hb [dmin x; b; dmin c]). repeat constructor; unfold in_dim; try lia; assumption. }
      rewrite He'. reflexivity.
    + rewrite He. reflexivity.
  - destruct (chunky_value_visits x y c (snd base) Hx Hy Hc H1) as [l [Hl Hf]]. exists l. split; auto.
    unfold values_chunky, values_in_order. rewrite E. unfold chunky_for_each_value in Hf.
    destruct (dext c =? dstr x); rewrite Hf, map_map; f_equal; apply map_ext; intros i;
      unfold to_ptr, elem; simpl nth; rewrite flat_offset_spec; auto.
Qed.
Lemma chunky_null_rejected x y c : 1 <= dext x -> 1 <= dext y -> 1 <= dext c ->
  values_chunky false x y c null = AssertFail.
Proof.
  intros Hx Hy Hc. unfold values_chunky, values_in_order. change (is_null null) with true. cbv iota.
  assert (G : forall s, extents_ge 1 s -> (_ <- assert_ false (empty s);; Ok (@nil ptr)) = AssertFail).
  { intros s Hs. destruct (empty s) eqn:E; [|reflexivity]. exfalso.
    assert (H0 : extents_ge 0 s) by (apply (Forall_impl _ (fun d H => Z.le_trans 0 1 (dext d) Z.le_0_1 H) Hs)).
    apply (proj1 (empty_iff s H0) E (mins s)). apply mins_in_bounds; auto. }
  destruct (_ =? _); apply G; repeat constructor; simpl; nia.
Qed.

Lemma chunky_general_pointers x y c base : 0 <= dext x -> 0 <= dext y -> 0 <= dext c ->
  exists l, enumerates (in_bounds [x; y; c]) l /\
    values_chunky_general x y c base = Ok (map (elem base [x; y; c]) l).
Proof.
  intros Hx Hy Hc. destruct (chunky_general_visits x y c (snd base) Hx Hy Hc) as [l [Hl Hf]]. exists l. split; auto.
  unfold values_chunky_general. rewrite Hf. cbn [bind]. rewrite map_map. f_equal. apply map_ext. intros i.
  unfold to_ptr, elem. simpl nth. rewrite flat_offset_spec. auto.
Qed.

(** ** data(), empty(), bounds() *)
Lemma data_least r : fst (r_base r) <> O -> extents_ge 1 (r_shape r) ->
  (exists i, in_bounds (r_shape r) i /\ ref_data r = elem (r_base r) (r_shape r) i) /\
  forall i, in_bounds (r_shape r) i -> fst (elem (r_base r) (r_shape r) i) = fst (ref_data r) /\
    0 <= snd (elem (r_base r) (r_shape r) i) - snd (ref_data r) < flat_extent (r_shape r).
Proof.
  intros Hb Hs. unfold ref_data. rewrite pointer_add_block by auto. unfold ptr_off, elem. cbn [fst snd].
  destruct (flat_range_exact _ Hs) as [H1 [H2 [_ [H4 _]]]]. split.
  - destruct H2 as [i [Hi Ei]]. exists i. split; auto. rewrite <- Ei, flat_offset_spec. auto.
  - intros i Hi. split; auto. specialize (H1 i Hi). rewrite flat_offset_spec in H1. lia.
Qed.
Lemma data_null s : ref_data (mkR null s) = null.
Proof. reflexivity. Qed.
Lemma ref_empty_iff r : extents_ge 0 (r_shape r) ->
  (ref_empty r = true <-> r_base r = null \/ forall i, ~ in_bounds (r_shape r) i).
Proof.
  intros Hs. unfold ref_empty. destruct (is_null (r_base r)) eqn:E.
  - split; auto. intros _. left. unfold is_null, ptr_eqb in E. destruct (r_base r) as [k z]. simpl in E.
    apply andb_true_iff in E. destruct E as [E1 E2]. apply Nat.eqb_eq in E1. apply Z.eqb_eq in E2.
    unfold null. congruence.
  - rewrite (empty_iff _ Hs). split; auto. intros [H|H]; auto. rewrite H in E. discriminate.
Qed.
Lemma bounds_layout s : extents_ge 1 s -> fold_right Z.mul 1 (map dext s) < 9223372036854775807 ->
  Forall2 (fun d d' => dmin d' = dmin d /\ dext d' = dext d /\ unknown_stride d') s (bounds s) /\
  Forall2 (fun d d' => dmin d' = dmin d /\ dext d' = dext d) s (resolve (bounds s)) /\
  injective_layout (resolve (bounds s)) /\
  (forall o, 0 <= o < size s <-> exists i, in_bounds s i /\ flat_offset (resolve (bounds s)) i = o).
Proof.
  intros Hs Hv.
  assert (E : Forall2 (fun d d' => dmin d' = dmin d /\ dext d' = dext d /\ unknown_stride d') s (bounds s)).
  { clear. unfold bounds. induction s; constructor; auto. repeat split. }
  assert (Hb : forall i, in_bounds (bounds s) i <-> in_bounds s i).
  { clear -E. unfold in_bounds, in_dim. intros i. split; intros H; revert i H;
      induction E as [|d d' s0 s1 (A1 & A2 & A3) B IH]; intros i H; inversion H; subst; constructor; auto; lia. }
  assert (Hx : map dext (bounds s) = map dext s).
  { unfold bounds. rewrite map_map. reflexivity. }
  assert (Hu : Forall unknown_stride (bounds s)).
  { clear -E. induction E; constructor; auto. tauto. }
  assert (Hs' : extents_ge 1 (bounds s)).
  { clear -E Hs. unfold extents_ge in *. induction E as [|d d' s0 s1 (A1 & A2 & A3) B IH]; constructor;
      inversion Hs; subst; auto. lia. }
  destruct (default_layout_dense (bounds s) Hs' Hu) as [D1 [D2 [D3 [D4 D5]]]]; [rewrite Hx; auto|].
  split; auto.
  assert (Sz : size (resolve (bounds s)) = size s).
  { assert (X : map dext (resolve (bounds s)) = map dext s).
    { rewrite <- Hx. pose proof (resolve_ranges (bounds s)) as R. clear -R.
      induction R as [|? ? ? ? [A B] ? IH]; simpl; auto. congruence. }
    unfold size, extents. unfold extents in *. rewrite X. reflexivity. }
  split; [|split].
  - pose proof (resolve_ranges (bounds s)) as R. clear -R E. revert R. generalize (resolve (bounds s)).
    induction E as [|d d' s0 s1 (A1 & A2 & A3) B IH]; intros t R; inversion R as [|d1 d2 t1 t2 [Q1 Q2] Q3]; subst;
      constructor; auto. split; congruence.
  - refine (proj1 (tiling_resolve_compact (bounds s) 1 [] Hs' _ tiles_nil _)); [|rewrite Hx; auto].
    rewrite known_all_unknown; auto.
  - intros o. rewrite <- Sz. rewrite D5. split; intros [i [Hi Ho]]; exists i; (split; [apply Hb; auto|auto]).
Qed.

(** ** set_shape of an array *)
Section World.
Context {V : Type}.
Variable c : config V.
Hypothesis Hf : fair c.

Lemma array_set_shape w x a new off a' : reachable c w -> w_arr w x = Some a -> c_ndebug c = false ->
  arr_set_shape c a new off = Ok a' ->
  a_shape a' = new /\ a_buf a' = a_buf a /\ a_bufsize a' = a_bufsize a /\ a_busy a' = a_busy a /\ a_al a' = a_al a /\
  (a_base a <> null -> forall i, in_bounds new i -> exists k z b,
     a_buf a = (k, 0) /\ h_blk (w_heap w) k = Some b /\ 0 <= z < b_size b /\ elem (a_base a') new i = (k, z)).
Proof.
  intros R Ea Hnd. unfold arr_set_shape. rewrite Hnd.
  destruct (is_resolved new); [|discriminate]. cbn [assert_ bind].
  destruct (is_subset_of new (a_shape a) (- off)) eqn:E; [|discriminate]. cbn [assert_ bind].
  intros Q. inversion Q as [Q']. clear Q. subst a'. cbn. repeat (split; [reflexivity|]).
  intros Hb i Hi. destruct (reachable_inv c Hf w R) as [_ [Hv _]]. destruct (Hv x a Ea) as [_ [Hs [Hn|Hn]]].
  - destruct Hn as [[_ [Hn _]] _]. congruence.
  - destruct Hn as [Hp [k [b [Hk [Hin _]]]]]. destruct Hin as (K0 & K1 & K2 & K3 & K4 & K5 & _).
    pose proof (subset_inside _ _ _ _ E Hi) as S.
    exists k, (off + offset new i - flat_min (a_shape a)), b. split; [exact K1|]. split; [exact Hk|].
    rewrite K2. rewrite pointer_add_block by auto. unfold elem, ptr_off. cbn [fst snd].
    split; [|f_equal; lia].
    rewrite K3, K4. rewrite K3, K4 in K5. unfold flat_extent in *. destruct (_ <? 0); lia.
Qed.

(** ** make_move of an rvalue *)
Lemma make_move_rvalue_copies w y b al s f : reachable c w -> may_copy c w y -> w_arr w y = Some b -> denotes w y s f ->
  alloc_eq (w_next w) (blank al (c_shape0 c)) y b = true ->
  exists w' s', add w (make_move_rvalue c y (w_heap w) b s (w_next w) al) = Ok w' /\ same_shape s' s /\
    denotes w' (w_next w) s' f /\ denotes w' y s f /\ adds_objects w w' (w_next w) /\ unchanged w w' [w_next w].
Proof.
  intros R M E D Ha. destruct (copy_construct_world c Hf (reachable c) (reachable_inv c Hf) w (NewCopy y) y s f R M D (or_introl eq_refl))
    as (w' & s' & S & H). exists w', s'. split; auto.
  unfold make_move_rvalue. destruct D as [b' [Eb [Es _]]]. replace b' with b in * by congruence. rewrite Es.
  rewrite (proj2 (shape_eqb_eq s s) eq_refl), Ha. cbn [andb]. simpl in S. unfold get in S. rewrite E in S. exact S.
Qed.
Lemma make_move_rvalue_moves w y b t al s f : reachable c w -> w_arr w y = Some b -> denotes w y s f ->
  shape_arg c t -> within t s -> t <> s \/ alloc_eq (w_next w) (blank al (c_shape0 c)) y b = false ->
  exists w' t' g, add w (make_move_rvalue c y (w_heap w) b t (w_next w) al) = Ok w' /\ same_shape t' t /\
    denotes w' (w_next w) t' f /\ denotes w' y s g /\
    (forall i, ~ in_bounds t i -> g i = f i) /\ (forall i, in_bounds t i -> g i = c_mv c (f i)) /\
    unchanged w w' [w_next w; y].
Proof.
  intros R E D Ht Hw Hx. destruct (make_move_prop c (reachable c) (reachable_inv c Hf) w y t al s f R Ht D Hw) as (w' & t' & g & S & H).
  exists w', t', g. split; auto.
  unfold make_move_rvalue. destruct D as [b' [Eb [Es _]]]. replace b' with b in * by congruence. rewrite Es.
  assert (Q : shape_eqb s t && alloc_eq (w_next w) (blank al (c_shape0 c)) y b = false).
  { apply andb_false_iff. destruct Hx as [Hx|Hx]; [left|right; auto].
    destruct (shape_eqb s t) eqn:Z; auto. apply shape_eqb_eq in Z. congruence. }
  rewrite Q. simpl in S. unfold get in S. rewrite E in S. exact S.
Qed.

(** ** Compact copies *)
Lemma compact_shape ts s : Forall2 dim_fits ts s -> Forall (fun t => tstr t = -9) ts -> extents_ge 1 s ->
  volume s < 9223372036854775807 -> length s = length (c_shape0 c) ->
  exists r, make_compact (c_ndebug c) (combine ts s) = Ok r /\ Forall2 same_bounds s (map snd r) /\
    gapless (map snd r) /\ known_strides (map snd r) /\ shape_arg c (map snd r) /\ within (map snd r) s.
Proof.
  intros F T X Vo L.
  assert (Es : map snd (combine ts s) = s).
  { clear -F. induction F; simpl; auto. f_equal; auto. }
  destruct (make_compact_gapless (c_ndebug c) (combine ts s)) as (r & E & B & G & P & _).
  - clear -F. induction F; simpl; constructor; auto.
  - clear -F T. induction F; simpl; constructor; inversion T; subst; auto.
  - rewrite Es. auto.
  - rewrite Es. auto.
  - rewrite Es in B. exists r. split; auto. split; auto. split; auto.
    assert (K : known_strides (map snd r)).
    { clear -P. unfold known_strides. induction P; constructor; auto. unfold unknown_stride. lia. }
    split; auto.
    assert (SR : Forall2 same_range s (map snd r)).
    { clear -B. induction B as [|? ? ? ? [A1 A2] ? IH]; constructor; auto. split; auto. }
    pose proof (proj2 (ranges_extents 1 _ _ SR) X) as X1.
    pose proof (proj2 (ranges_extents 0 _ _ SR) (Forall_impl _ (fun d H => Z.le_trans 0 1 (dext d) Z.le_0_1 H) X)) as X0.
    split.
    + split; [rewrite <- L; symmetry; apply (Forall2_len _ _ _ B)|]. rewrite (resolve_known _ K).
      split; [exact X0|]. split; [exact K|]. split; [apply G|]. left. apply flat_range_exact in X1. lia.
    + intros i Hi. apply (ranges_in_bounds _ _ SR i). exact Hi.
Qed.
Lemma same_shape_known s' s : known_strides s -> same_shape s' s -> s' = s.
Proof.
  intros K H. revert K. unfold known_strides. induction H as [|d' d s' s (A1 & A2 & A3) B IH]; intros K; auto.
  inversion K as [|? ? K1 K2]; subst. f_equal; auto. destruct d, d'; cbn in *. f_equal; auto.
Qed.
Lemma compact_copy w y b ts al s f : reachable c w -> w_arr w y = Some b -> denotes w y s f ->
  Forall2 dim_fits ts s -> Forall (fun t => tstr t = -9) ts -> extents_ge 1 s ->
  volume s < 9223372036854775807 -> length s = length (c_shape0 c) ->
  exists w' t, add w (make_compact_copy c (w_next w) (w_heap w) (aref_of b) ts al) = Ok w' /\
    Forall2 same_bounds s t /\ gapless t /\ denotes w' (w_next w) t f /\ denotes w' y s f /\
    adds_objects w w' (w_next w) /\ unchanged w w' [w_next w].
Proof.
  intros R E D F T X Vo L. destruct (compact_shape ts s F T X Vo L) as (r & Er & B & G & K & A & W).
  destruct (make_copy_prop c (reachable c) (reachable_inv c Hf) w y (map snd r) al s f R A D W) as (w' & t & S & Q & H).
  apply same_shape_known in Q; auto. subst t. exists w', (map snd r). split; [|auto].
  destruct D as [b' [Eb [Es _]]]. replace b' with b in * by congruence.
  unfold make_compact_copy. cbn [aref_of r_shape]. rewrite Es, Er. cbn [bind].
  simpl in S. unfold get in S. rewrite E in S. exact S.
Qed.
Lemma compact_move w y b ts al s f : reachable c w -> w_arr w y = Some b -> denotes w y s f ->
  Forall2 dim_fits ts s -> Forall (fun t => tstr t = -9) ts -> extents_ge 1 s ->
  volume s < 9223372036854775807 -> length s = length (c_shape0 c) ->
  exists w' t, add w (make_compact_move c (w_next w) (w_heap w) (aref_of b) ts al) = Ok w' /\
    Forall2 same_bounds s t /\ gapless t /\ denotes w' (w_next w) t f /\
    denotes w' y s (fun i => c_mv c (f i)) /\ unchanged w w' [w_next w; y].
Proof.
  intros R E D F T X Vo L. destruct (compact_shape ts s F T X Vo L) as (r & Er & B & G & K & A & W).
  destruct (make_move_prop c (reachable c) (reachable_inv c Hf) w y (map snd r) al s f R A D W) as (w' & t & g & S & Q & H1 & H2 & H3 & H4 & H5).
  apply same_shape_known in Q; auto. subst t. exists w', (map snd r).
  split; [|split; [auto|split; [auto|split; [auto|split; [|auto]]]]].
  - destruct D as [b' [Eb [Es _]]]. replace b' with b in * by congruence.
    unfold make_compact_move. cbn [aref_of r_shape]. rewrite Es, Er. cbn [bind].
    simpl in S. unfold get in S. rewrite E in S. exact S.
  - destruct H2 as [a [Ea [Es Ha]]]. exists a. split; auto. split; auto. intros i Hi. rewrite <- H4; auto.
    assert (SR : Forall2 same_range s (map snd r)).
    { clear -B. induction B as [|? ? ? ? [A1 A2] ? IH]; constructor; auto. split; auto. }
    apply (ranges_in_bounds _ _ SR i). exact Hi.
Qed.

End World.
