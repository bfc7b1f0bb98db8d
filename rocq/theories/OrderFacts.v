(** The order in which value loops visit the elements, and how far loops are fused. *)
From Verif Require Import Tac Interval Shape Traverse Spec SpecOrder ShapeFacts ResolveFacts ShapeProps TraverseFacts.
Import ListNotations.
Open Scope Z_scope.

(** ** Fusing does not change the order *)
Lemma optimize_copy_list src dst : length src = length dst -> extents_ge 0 dst ->
  length (fst (optimize_copy_shapes src dst)) = length (snd (optimize_copy_shapes src dst)) /\
  sums (combine (fst (optimize_copy_shapes src dst)) (snd (optimize_copy_shapes src dst))) =
  sums (bubble_sort copy_ltb (combine src dst)).
Proof.
  intros L H.
  assert (G : length (fst (dynamic_optimize_copy_shapes src dst)) = length (snd (dynamic_optimize_copy_shapes src dst)) /\
  sums (combine (fst (dynamic_optimize_copy_shapes src dst)) (snd (dynamic_optimize_copy_shapes src dst))) =
  sums (bubble_sort copy_ltb (combine src dst))).
  { unfold dynamic_optimize_copy_shapes. cbn [fst snd]. split; [rewrite !map_length; auto|].
    assert (C : forall l : list (dim * dim), combine (map fst l) (map snd l) = l).
    { induction l as [|[a b] l IH]; simpl; congruence. }
    rewrite C, sums_pad.
    assert (F : ext_nonneg2 (combine src dst)).
    { unfold ext_nonneg2. clear -H L. revert src L. induction H; intros [|a src] L; simpl in *; try discriminate; constructor; auto. }
    assert (F' : ext_nonneg2 (bubble_sort copy_ltb (combine src dst))) by (eapply Permutation_Forall; [apply bubble_sort_perm|exact F]).
    destruct (bubble_sort copy_ltb (combine src dst)) as [|d r]; [reflexivity|].
    inversion F' as [|? ? F1 F2]. cbn [fuse2_dims]. rewrite sums_fuse2_from by assumption. reflexivity. }
  destruct src as [|a [|b src]], dst as [|a' [|b' dst]]; auto.
Qed.
Lemma copy_order_list ssrc src sdst dst : length ssrc = length sdst -> extents_ge 0 sdst ->
  for_each_value_copy ssrc src sdst dst =
  let l := bubble_sort copy_ltb (combine ssrc sdst) in
  map (fun i => [src + offset (map fst l) i; dst + offset (map snd l) i]) (box (map snd l)).
Proof.
  intros L H. destruct (optimize_copy_list ssrc sdst L H) as [L' E]. unfold for_each_value_copy.
  destruct (optimize_copy_shapes ssrc sdst) as [os od]. cbn [fst snd] in *. cbv zeta.
  rewrite fev_in_order2_spec by auto. rewrite sums_combine in E by auto. rewrite sums_box in E.
  apply (f_equal (map (fun o => [src + fst o; dst + snd o]))) in E. rewrite !map_map in E. exact E.
Qed.
Lemma value_order_list s base : extents_ge 0 s ->
  for_each_value s base = map (fun i => [base + offset (bubble_sort dim_ltb s) i]) (box (bubble_sort dim_ltb s)).
Proof.
  intros H. destruct (optimize_copy_list s s eq_refl H) as [_ E]. rewrite optimize_dup in E. cbn [fst snd] in E.
  unfold for_each_value. rewrite fev_in_order_spec. rewrite sums_combine in E by reflexivity.
  rewrite combine_dup in E. unfold bubble_sort in *. rewrite map_length in E.
  rewrite (bubble_sort_n_map dup dim_ltb copy_ltb) in E by reflexivity. rewrite sums_box, !map_map in E. cbn [dup fst snd] in E.
  rewrite map_id in E. apply (f_equal (map (fun o => [base + fst o]))) in E. rewrite !map_map in E. exact E.
Qed.

Lemma value_order : forall (s : shape) (base : Z), extents_ge 0 s ->
  exists (t : shape) (l : list index), Permutation s t /\ by_stride t /\ enumerates (in_bounds t) l /\ StronglySorted colex_lt l /\
    for_each_value s base = map (fun i => [base + offset t i]) l.
Proof.
  intros s base H. exists (bubble_sort dim_ltb s), (box (bubble_sort dim_ltb s)).
  destruct (bubble_sort_dims s) as [P S]. split; [exact P|]. split; [exact S|].
  split; [apply box_enumerates|]. split; [apply box_sorted|]. apply value_order_list, H.
Qed.
Lemma copy_order : forall (ssrc sdst : shape) (src dst : Z), length ssrc = length sdst -> extents_ge 0 sdst ->
  exists (t : list (dim * dim)) (l : list index), Permutation (combine ssrc sdst) t /\ by_stride (map snd t) /\
    enumerates (in_bounds (map snd t)) l /\ StronglySorted colex_lt l /\
    for_each_value_copy ssrc src sdst dst = map (fun i => [src + offset (map fst t) i; dst + offset (map snd t) i]) l.
Proof.
  intros ssrc sdst src dst L H. set (t := bubble_sort copy_ltb (combine ssrc sdst)). exists t, (box (map snd t)).
  destruct (bubble_sort_copy_dims (combine ssrc sdst)) as [P S]. fold t in P, S. split; [exact P|].
  split; [|split; [apply box_enumerates|split; [apply box_sorted|apply copy_order_list; auto]]].
  clear -S. unfold by_stride. induction S as [|a l S IH F]; [constructor|]. cbn [map]. constructor; auto.
  rewrite Forall_map. exact F.
Qed.

(** ** Memory order *)
Lemma nested_perm s t : Permutation s t -> nested s -> nested t.
Proof.
  intros P [A B]. split; [eapply Permutation_Forall; eauto|]. revert A B. induction P; intros A B; auto.
  - inv A. inv B. constructor; auto. eapply Permutation_Forall; eauto.
  - inversion B as [|? ? B1 B']; subst. inversion B' as [|? ? B2 B3]; subst. inversion B1 as [|? ? B4 B5]; subst.
    constructor; [constructor|constructor]; auto. intros G1 G2. specialize (B4 G2 G1). unfold nested2 in *. tauto.
  - apply IHP2; auto. eapply Permutation_Forall; eauto.
Qed.
Lemma colex_offset l : by_stride l -> forward l -> nested l -> forall c, 0 < c ->
  Forall (fun d => 1 < dext d -> c <= dstr d) l ->
  forall i j, in_bounds l i -> in_bounds l j -> colex_lt i j -> offset l i + c <= offset l j.
Proof.
  induction l as [|d l IH]; intros S F N c C G i j I J LT.
  - inversion I; subst. destruct LT.
  - inversion I as [|? x ? i' Ix I']; subst. inversion J as [|? y ? j' Jy J']; subst.
    inversion S as [|? ? S' Sd]; subst. inversion F as [|? ? Fd F']; subst. inversion G as [|? ? Gd G']; subst.
    destruct N as [N1 N2]. inversion N1 as [|? ? N1d N1']; subst. inversion N2 as [|? ? N2d N2']; subst.
    unfold in_dim in *. cbn [offset colex_lt] in *. destruct LT as [LT|[E LT]].
    + destruct (Z_lt_dec 1 (dext d)) as [W|W].
      * specialize (Fd W). specialize (Gd W).
        assert (X : offset l i' + dext d * dstr d <= offset l j').
        { apply IH; auto; [split; auto|apply Z.mul_pos_pos; lia|].
          rewrite Forall_forall in *. intros e He We. specialize (N2d e He W We). specialize (Sd e He). specialize (F' e He We).
          clear - N2d Sd F' Fd W We. unfold nested2 in N2d. rewrite !Z.abs_eq in N2d by lia. destruct N2d; [lia|nia]. }
        clear - X Ix Jy Fd Gd. nia.
      * assert (X : offset l i' + c <= offset l j') by (apply IH; auto; split; auto). replace y with x by lia. lia.
    + subst. specialize (Fd ltac:(lia)). specialize (Gd ltac:(lia)). clear - LT Gd Fd. nia.
Qed.

Lemma sorted_map_lt {A} (R : A -> A -> Prop) (f : A -> Z) l :
  (forall a b, In a l -> In b l -> R a b -> f a < f b) -> StronglySorted R l -> StronglySorted Z.lt (map f l).
Proof.
  intros H S. induction S as [|a l S IH F]; [constructor|]. cbn [map]. constructor.
  - apply IH. intros x y Hx Hy. apply H; right; auto.
  - rewrite Forall_map. rewrite Forall_forall in *. intros b Hb. apply H; [left; auto|right; auto|apply F, Hb].
Qed.
Lemma box_increasing t b : by_stride t -> forward t -> nested t -> StronglySorted Z.lt (map (fun i => b + offset t i) (box t)).
Proof.
  intros S F N. eapply sorted_map_lt; [|apply box_sorted]. intros i j Hi Hj LT. apply box_In in Hi. apply box_In in Hj.
  enough (offset t i + 1 <= offset t j) by lia. apply colex_offset; auto; [lia|].
  eapply Forall_impl; [|exact F]. cbv beta. intros d Hd W. specialize (Hd W). lia.
Qed.
Lemma concat_sing {A B} (f : A -> B) l : concat (map (fun x => [f x]) l) = map f l.
Proof. induction l; simpl; congruence. Qed.
Lemma value_increasing : forall (s : shape) (base : Z), extents_ge 0 s -> nested s -> forward s ->
  StronglySorted Z.lt (concat (for_each_value s base)).
Proof.
  intros s base E N F. rewrite value_order_list by auto. rewrite concat_sing.
  destruct (bubble_sort_dims s) as [P S]. apply box_increasing; [exact S| |eapply nested_perm; eauto].
  eapply Permutation_Forall; eauto.
Qed.
Lemma copy_increasing : forall (ssrc sdst : shape) (src dst : Z), length ssrc = length sdst ->
  extents_ge 0 sdst -> nested sdst -> forward sdst ->
  StronglySorted Z.lt (map (fun l => nth 1 l 0) (for_each_value_copy ssrc src sdst dst)).
Proof.
  intros ssrc sdst src dst L E N F. rewrite copy_order_list by auto. cbv zeta. rewrite map_map. cbn [nth].
  destruct (bubble_sort_copy_dims (combine ssrc sdst)) as [P S].
  set (t := bubble_sort copy_ltb (combine ssrc sdst)) in *.
  assert (P' : Permutation sdst (map snd t)).
  { rewrite <- (combine_snd ssrc sdst) at 1 by auto. apply Permutation_map, P. }
  apply box_increasing; [|eapply Permutation_Forall; eauto|eapply nested_perm; eauto].
  clear -S. unfold by_stride. induction S as [|a l S IH Fa]; [constructor|]. cbn [map]. constructor; auto. rewrite Forall_map. exact Fa.
Qed.

(** ** Fusing is complete *)
Lemma map_repeat {A B} (f : A -> B) x n : map f (repeat x n) = repeat (f x) n.
Proof. induction n; simpl; congruence. Qed.
Lemma no_neighbours_cons {A} (R : A -> A -> Prop) a l : no_neighbours R l ->
  match l with [] => True | b :: _ => ~ R a b end -> no_neighbours R (a :: l).
Proof.
  intros H X [|k] x y E1 E2.
  - cbn in E1, E2. injection E1 as <-. destruct l as [|b l]; [discriminate E2|]. cbn in E2. injection E2 as <-. exact X.
  - cbn [nth_error] in E1, E2. eapply H; eauto.
Qed.
Lemma fuse_from_head cur rest : exists d l, fuse_from cur rest = d :: l /\ dstr d = dstr cur.
Proof.
  revert cur. induction rest as [|d r IH]; intros cur; cbn [fuse_from]; [eauto|].
  destruct (can_fuse cur d); [|eauto]. destruct (IH (fuse cur d)) as [x [l [-> E]]]. exists x, l. auto.
Qed.
(** The first loop that is not fused into the one before keeps its stride *)
Lemma fuse_from_sorted rest : forall cur lo, lo <= dstr cur -> by_stride (cur :: rest) ->
  by_stride (fuse_from cur rest) /\ Forall (fun d => lo <= dstr d) (fuse_from cur rest).
Proof.
  induction rest as [|d r IH]; intros cur lo LO S; cbn [fuse_from].
  - split; [exact S|constructor; auto].
  - inversion S as [|? ? S' F]; subst. inversion F as [|? ? Fd Fr]; subst.
    destruct (can_fuse cur d) eqn:C.
    + apply (IH (fuse cur d)); [exact LO|]. constructor; [inversion S'; auto|exact Fr].
    + destruct (IH d (dstr cur) Fd S') as [I1 I2]. split; [constructor; auto|]. constructor; auto.
      eapply Forall_impl; [|exact I2]. cbv beta. intros; lia.
Qed.
Lemma fuse_from_stuck rest : forall cur, no_neighbours contiguous (fuse_from cur rest).
Proof.
  induction rest as [|d r IH]; intros cur; cbn [fuse_from].
  - intros [|k] a b _ E; [discriminate E|destruct k; discriminate E].
  - destruct (can_fuse cur d) eqn:C; [apply IH|]. apply no_neighbours_cons; [apply IH|].
    destruct (fuse_from_head d r) as [x [l [-> E]]]. unfold contiguous, can_fuse in *. rewrite E. lia.
Qed.
Lemma fused : forall s : shape, exists l k, optimize_shape s = l ++ repeat (mkD 0 1 0) k /\ by_stride l /\ no_neighbours contiguous l.
Proof.
  intros s.
  assert (G : exists l k, dynamic_optimize_shape s = l ++ repeat (mkD 0 1 0) k /\ by_stride l /\ no_neighbours contiguous l).
  { unfold dynamic_optimize_shape, pad_dims. exists (fuse_dims (bubble_sort dim_ltb s)). eexists. split; [reflexivity|].
    destruct (bubble_sort_dims s) as [_ S]. destruct (bubble_sort dim_ltb s) as [|d r]; cbn [fuse_dims].
    - split; [constructor|]. intros k a b E. destruct k; discriminate E.
    - split; [eapply fuse_from_sorted; [apply Z.le_refl|exact S]|apply fuse_from_stuck]. }
  destruct s as [|a [|b s]]; auto.
Qed.
Lemma fuse2_from_head cur rest : exists d l, fuse2_from cur rest = d :: l /\ dstr (fst d) = dstr (fst cur) /\ dstr (snd d) = dstr (snd cur).
Proof.
  revert cur. induction rest as [|d r IH]; intros cur; cbn [fuse2_from]; [eauto|].
  destruct (can_fuse2 cur d); [|eauto]. destruct (IH (fuse2 cur d)) as [x [l [-> E]]]. exists x, l. auto.
Qed.
Lemma fuse2_from_sorted rest : forall cur lo, lo <= dstr (snd cur) -> by_stride (map snd (cur :: rest)) ->
  by_stride (map snd (fuse2_from cur rest)) /\ Forall (fun d => lo <= dstr (snd d)) (fuse2_from cur rest).
Proof.
  induction rest as [|d r IH]; intros cur lo LO S; cbn [fuse2_from].
  - split; [exact S|constructor; auto].
  - cbn [map] in S. inversion S as [|? ? S' F]; subst. inversion F as [|? ? Fd Fr]; subst.
    destruct (can_fuse2 cur d) eqn:C.
    + apply (IH (fuse2 cur d)); [exact LO|]. cbn [map]. constructor; [inversion S'; auto|exact Fr].
    + destruct (IH d (dstr (snd cur)) Fd S') as [I1 I2]. split.
      * cbn [map]. constructor; auto. rewrite Forall_map. exact I2.
      * constructor; auto. eapply Forall_impl; [|exact I2]. cbv beta. intros; lia.
Qed.
Lemma fuse2_from_stuck rest : forall cur, no_neighbours contiguous2 (fuse2_from cur rest).
Proof.
  induction rest as [|d r IH]; intros cur; cbn [fuse2_from].
  - intros [|k] a b _ E; [discriminate E|destruct k; discriminate E].
  - destruct (can_fuse2 cur d) eqn:C; [apply IH|]. apply no_neighbours_cons; [apply IH|].
    destruct (fuse2_from_head d r) as [x [l [-> [E1 E2]]]]. unfold contiguous2, contiguous, can_fuse2, can_fuse in *. rewrite E1, E2. lia.
Qed.
Lemma fused2 : forall src dst : shape, length src = length dst -> exists l k,
  optimize_copy_shapes src dst = (map fst l ++ repeat (mkD 0 1 0) k, map snd l ++ repeat (mkD 0 1 0) k) /\
  by_stride (map snd l) /\ no_neighbours contiguous2 l.
Proof.
  intros src dst L.
  assert (G : exists l k, dynamic_optimize_copy_shapes src dst = (map fst l ++ repeat (mkD 0 1 0) k, map snd l ++ repeat (mkD 0 1 0) k) /\
    by_stride (map snd l) /\ no_neighbours contiguous2 l).
  { unfold dynamic_optimize_copy_shapes, pad2. set (l := fuse2_dims (bubble_sort copy_ltb (combine src dst))).
    exists l, (length src - length l)%nat. split.
    - generalize (length src - length l)%nat. intros k. rewrite !map_app, !map_repeat. reflexivity.
    - destruct (bubble_sort_copy_dims (combine src dst)) as [_ S].
      assert (S' : by_stride (map snd (bubble_sort copy_ltb (combine src dst)))).
      { clear -S. unfold by_stride. induction S as [|a l S IH Fa]; [constructor|]. cbn [map]. constructor; auto. rewrite Forall_map. exact Fa. }
      unfold l. destruct (bubble_sort copy_ltb (combine src dst)) as [|d r]; cbn [fuse2_dims].
      + split; [constructor|]. intros k a b E. destruct k; discriminate E.
      + split; [eapply fuse2_from_sorted; [apply Z.le_refl|exact S']|apply fuse2_from_stuck]. }
  destruct src as [|a [|b s]], dst as [|a' [|b' s']]; try discriminate L; auto.
Qed.

(** ** One loop *)
(** Innermost first: each stride is the size of what is inside *)
Inductive stacked : Z -> list dim -> Prop :=
| stacked_nil c : stacked c []
| stacked_cons c d l : dstr d = c -> stacked (c * dext d) l -> stacked c (d :: l).
Definition exts (l : list dim) : Z := fold_right Z.mul 1 (map dext l).

Lemma fuse_from_stacked rest : forall cur, stacked (dstr cur * dext cur) rest ->
  exists m, fuse_from cur rest = [mkD m (dext cur * exts rest) (dstr cur)].
Proof.
  induction rest as [|d r IH]; intros cur H; cbn [fuse_from].
  - exists (dmin cur). unfold exts. cbn [map fold_right]. rewrite Z.mul_1_r. destruct cur; reflexivity.
  - inversion H as [|? ? ? E S]; subst. unfold can_fuse. rewrite E, Z.eqb_refl.
    destruct (IH (fuse cur d)) as [m M].
    + unfold fuse. cbn [dstr dext]. rewrite <- Z.mul_assoc in S. exact S.
    + exists m. rewrite M. unfold fuse, exts. cbn [dstr dext map fold_right]. f_equal. f_equal. ring.
Qed.
Lemma exts_perm s t : Permutation s t -> exts s = exts t.
Proof. unfold exts. induction 1; cbn [map fold_right]; lia. Qed.
Lemma stacked_loop s t : s <> [] -> bubble_sort dim_ltb s = t -> stacked 1 t -> one_loop (exts s) (length s) (optimize_shape s).
Proof.
  intros N E S. pose proof (bubble_sort_perm dim_ltb s) as P. rewrite E in P. rewrite (exts_perm _ _ P).
  assert (G : one_loop (exts t) (length s) (dynamic_optimize_shape s)).
  { unfold dynamic_optimize_shape. rewrite E. destruct t as [|d r]; [apply Permutation_sym, Permutation_nil in P; contradiction|].
    inversion S as [|? ? ? E1 S1]; subst. cbn [fuse_dims]. destruct (fuse_from_stacked r d) as [m M].
    - rewrite E1. exact S1.
    - exists m. rewrite M, E1. unfold pad_dims, exts. cbn [length app]. reflexivity. }
  destruct s as [|a [|b s]]; exact G.
Qed.

(** A list sorted by the strict order is the only sorted one *)
Lemma sorted_unique {A} (key : A -> Z) l1 : StronglySorted (fun a b => key a < key b) l1 ->
  forall l2, StronglySorted (fun a b => key a <= key b) l2 -> Permutation l1 l2 -> l1 = l2.
Proof.
  induction 1 as [|a l1 S1 IH F1]; intros l2 S2 P; [apply Permutation_nil in P; congruence|].
  destruct l2 as [|b l2]; [apply Permutation_sym, Permutation_nil in P; discriminate P|].
  inversion S2 as [|? ? S2' F2]; subst. rewrite Forall_forall in F1, F2.
  assert (E : a = b).
  { assert (Ib : In b (a :: l1)) by (apply (Permutation_in b (Permutation_sym P)); left; auto).
    assert (Ia : In a (b :: l2)) by (apply (Permutation_in a P); left; auto).
    destruct Ib as [|Ib]; auto. destruct Ia as [|Ia]; auto. specialize (F1 b Ib). specialize (F2 a Ia). lia. }
  subst b. f_equal. apply IH; auto. eapply Permutation_cons_inv; eauto.
Qed.
Lemma bubble_inner_id l : forall d : dim, Forall (fun e => dstr d <= dstr e) l -> bubble_inner dim_ltb d l = (d, l).
Proof.
  induction l as [|e l IH]; intros d F; [reflexivity|]. inversion F as [|? ? H F']; subst. cbn [bubble_inner].
  unfold dim_ltb at 1. destruct (dstr e <? dstr d) eqn:L; [lia|]. rewrite IH by auto. reflexivity.
Qed.
(** A list that is sorted stays as it is *)
Lemma bubble_sort_id l : by_stride l -> bubble_sort dim_ltb l = l.
Proof.
  unfold bubble_sort. induction 1 as [|d l S IH F]; [reflexivity|]. cbn [length bubble_sort_n].
  rewrite bubble_inner_id by auto. rewrite IH. reflexivity.
Qed.
Lemma stacked_sorted l : forall c, 0 < c -> extents_ge 1 l -> stacked c l -> by_stride l /\ Forall (fun d => c <= dstr d) l.
Proof.
  induction l as [|d l IH]; intros c C E S; [split; constructor|]. inversion S as [|? ? ? E1 S1]; subst. inversion E as [|? ? Ed El]; subst.
  destruct (IH (dstr d * dext d) ltac:(nia) El S1) as [I1 I2].
  assert (F : Forall (fun e => dstr d <= dstr e) l) by (eapply Forall_impl; [|exact I2]; cbv beta; intros; nia).
  split; [constructor; auto|constructor; [lia|exact F]].
Qed.
Lemma stacked_strict l : forall c, 0 < c -> extents_ge 2 l -> stacked c l -> StronglySorted (fun a b => dstr a < dstr b) l /\ Forall (fun d => c <= dstr d) l.
Proof.
  induction l as [|d l IH]; intros c C E S; [split; constructor|]. inversion S as [|? ? ? E1 S1]; subst. inversion E as [|? ? Ed El]; subst.
  destruct (IH (dstr d * dext d) ltac:(nia) El S1) as [I1 I2].
  split; [constructor; auto; eapply Forall_impl; [|exact I2]; cbv beta; intros; nia|].
  constructor; [lia|]. eapply Forall_impl; [|exact I2]; cbv beta; intros; nia.
Qed.
Lemma stacked_snoc l : forall c d, stacked c l -> dstr d = c * exts l -> stacked c (l ++ [d]).
Proof.
  induction l as [|e l IH]; intros c d S E.
  - constructor; [unfold exts in E; cbn in E; lia|constructor].
  - inversion S as [|? ? ? E1 S1]; subst. cbn [app]. constructor; auto. apply IH; auto. rewrite E. unfold exts. cbn [map fold_right]. ring.
Qed.
Lemma tiles_stacked n l : tiles n l -> Forall (fun d => 0 <= dstr d) l -> stacked 1 (rev l) /\ n = exts l.
Proof.
  induction 1 as [|n d l T IH E]; intros F; [split; [constructor|reflexivity]|]. inversion F as [|? ? Fd Fl]; subst.
  destruct (IH Fl) as [S N]. cbn [rev]. split.
  - apply stacked_snoc; auto. rewrite <- (exts_perm l (rev l)) by apply Permutation_rev. lia.
  - rewrite N. unfold exts. cbn [map fold_right]. ring.
Qed.

Lemma one_loop_values n r l b : 0 <= n -> one_loop n r l -> for_each_value_in_order l b = map (fun k => [b + k]) (zseq 0 (Z.to_nat n)).
Proof.
  intros N [m ->]. rewrite fev_in_order_spec. generalize (r - 1)%nat. intros k.
  assert (B : forall k, box (repeat (mkD 0 1 0) k) = [repeat 0 k]).
  { induction k0 as [|k0 IH]; [reflexivity|]. cbn [repeat box]. rewrite IH. reflexivity. }
  assert (O : forall k, offset (repeat (mkD 0 1 0) k) (repeat 0 k) = 0).
  { induction k0 as [|k0 IH]; [reflexivity|]. cbn [repeat offset dmin dstr]. rewrite IH. reflexivity. }
  cbn [box]. rewrite B. cbn [flat_map]. rewrite app_nil_r, map_map. unfold dim_list. cbn [dmin dext].
  change (zseq m (Z.to_nat n)) with (zseq (0 + m) (Z.to_nat n)). rewrite zseq_shift, map_map. apply map_ext. intros x. cbn [offset dmin dstr]. rewrite O. f_equal. ring.
Qed.
Lemma compact_loop : forall (s l : shape) (n base : Z), s <> [] -> extents_ge 2 s -> Permutation s l -> tiles n l ->
  Forall (fun d => 0 <= dstr d) s ->
  one_loop n (length s) (optimize_shape s) /\ for_each_value s base = map (fun k => [base + k]) (zseq 0 (Z.to_nat n)).
Proof.
  intros s l n base N E P T F.
  assert (El : extents_ge 2 l) by (eapply Permutation_Forall; eauto).
  assert (Fl : Forall (fun d => 0 <= dstr d) l) by (eapply Permutation_Forall; eauto).
  destruct (tiles_stacked n l T Fl) as [S X].
  assert (Er : extents_ge 2 (rev l)) by (eapply Permutation_Forall; [apply Permutation_rev|exact El]).
  destruct (stacked_strict _ 1 ltac:(lia) Er S) as [St _]. destruct (bubble_sort_dims s) as [Pb Sb].
  assert (R : rev l = bubble_sort dim_ltb s).
  { apply (sorted_unique dstr); auto. etransitivity; [symmetry; apply Permutation_rev|]. etransitivity; [symmetry; exact P|exact Pb]. }
  assert (O : one_loop n (length s) (optimize_shape s)).
  { rewrite X, <- (exts_perm s l) by auto. apply stacked_loop with (t := rev l); auto. }
  split; [exact O|]. eapply one_loop_values; [|exact O]. rewrite X. clear - El. unfold exts.
  induction El; cbn [map fold_right]; lia || nia.
Qed.
Lemma dense_stacked s : forall c t, map dstr t = dense_strides c s -> map dext t = map dext s -> stacked c t.
Proof.
  induction s as [|d s IH]; intros c [|e t] H1 H2; try discriminate; [constructor|]. cbn [dense_strides map] in *.
  injection H1 as A1 B1. injection H2 as A2 B2. constructor; auto. apply IH; auto. rewrite A2. exact B1.
Qed.
Lemma default_loop : forall (s : shape) (base : Z), s <> [] -> extents_ge 1 s -> Forall unknown_stride s ->
  fold_right Z.mul 1 (map dext s) < 9223372036854775807 ->
  one_loop (fold_right Z.mul 1 (map dext s)) (length s) (optimize_shape (resolve s)) /\
  for_each_value (resolve s) base = map (fun k => [base + k]) (zseq 0 (Z.to_nat (fold_right Z.mul 1 (map dext s)))).
Proof.
  intros s base N E U B.
  assert (P : Permutation (known_dims s) []) by (rewrite known_all_unknown; auto).
  destruct (tiling_budget s 1 [] E P tiles_nil) as [E1 E2].
  assert (Bd : stride_budget s < index_max) by (unfold index_max; lia).
  assert (ST : map dstr (resolve s) = dense_strides 1 s) by (apply resolve_all_unknown; auto).
  pose proof (resolve_extents s Bd) as X.
  assert (S : stacked 1 (resolve s)) by (eapply dense_stacked; eauto).
  assert (E' : extents_ge 1 (resolve s)) by (eapply extents_ge_map; [exact X|exact E]).
  assert (L : length (resolve s) = length s) by (rewrite <- (map_length dext (resolve s)), X; apply map_length).
  assert (O : one_loop (fold_right Z.mul 1 (map dext s)) (length s) (optimize_shape (resolve s))).
  { rewrite <- X, <- L. apply stacked_loop with (t := resolve s); auto.
    - intros Z. rewrite Z in L. destruct s; [contradiction|discriminate L].
    - apply bubble_sort_id. apply (stacked_sorted _ 1); auto. lia. }
  split; [exact O|]. eapply one_loop_values; [|exact O]. clear - E. induction E; cbn [map fold_right]; lia || nia.
Qed.
(** Copying between equal shapes needs as few loops as visiting one *)
Lemma copy_same_shape : forall (s : shape), optimize_copy_shapes s s = (optimize_shape s, optimize_shape s).
Proof. exact optimize_dup. Qed.
