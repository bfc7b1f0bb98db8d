(** Facts about loops over the tiles of an array of any rank. *)
From Coq Require Import Sorted Permutation.
From Verif Require Import Tac Interval Shape Traverse Memory Ref Spec SpecMem SpecContainer Static SpecStatic Container Ein SpecEin
  ZOrder SpecZ Matrix Tiling SpecMatrix
  ShapeFacts IntervalFacts ResolveFacts ShapeProps TraverseFacts MemFacts RefFacts SliceFacts ContainerFacts
  TileFacts MatrixFacts MatrixZ MatrixOrder.
Import ListNotations.
Open Scope Z_scope.

(** ** One dimension *)
Definition argb (a : sarg) (x : Z) : bool := match a with AInt i => containsb x i | AAll => true | _ => false end.
Definition good_arg (a : sarg) (d : dim) : Prop :=
  match a with AInt i => 0 <= iext i /\ forall x, in_interval i x -> in_dim d x | AAll => 0 <= dext d | _ => False end.
Definition count1 (sp : splitter) (d : dim) (x : Z) : nat := match sp with SStatic N => tile_count N d x | _ => 1%nat end.
Definition args_count (x : Z) (l : list sarg) : nat := length (filter (fun a => argb a x) l).
Lemma args_count_ints x l : args_count x (map AInt l) = count_in x l.
Proof. unfold args_count, count_in. induction l as [|a l IH]; cbn; [auto|]. destruct (containsb x a); cbn; auto. Qed.
Lemma split_along_ok nd sp d : splits sp d -> exists l, split_along nd sp d = Ok l /\ Forall (fun a => good_arg a d) l /\
  (forall x, in_dim d x -> args_count x l = count1 sp d x).
Proof.
  destruct sp as [N|n|]; cbn [splits split_along count1]; intro H.
  - destruct (static_tiles nd N (d_interval d)) as (r & l & E & F & _ & _ & K & _ & T); [exact H|]. rewrite E. cbn [bind]. rewrite F.
    exists (map AInt l). split; [reflexivity|]. split.
    + rewrite Forall_map. eapply Forall_impl; [|exact K]. cbn. intros p [Q1 Q2]. split; [lia|]. exact Q2.
    + intros x Hx. rewrite args_count_ints, (T x (dstr d)) by exact Hx. destruct d; reflexivity.
  - destruct (dynamic_tiles n (d_interval d)) as (l & E & _ & K & _ & T); [lia|cbn; lia|]. rewrite E.
    exists (map AInt l). split; [reflexivity|]. split.
    + rewrite Forall_map. eapply Forall_impl; [|exact K]. cbn. intros p [Q1 Q2]. split; [lia|]. exact Q2.
    + intros x Hx. rewrite args_count_ints. apply T. exact Hx.
  - exists [AAll]. split; [reflexivity|]. split; [repeat constructor; auto|]. reflexivity.
Qed.

(** ** A tile *)
Lemma good_slice args ds : Forall2 good_arg args ds -> length args = length ds /\ kept args = length ds /\
  args_within args ds /\ extents_ge 0 (shape_slice ds args) /\
  (forall i, length i = length ds -> full_index args i = i) /\
  (forall i, in_bounds ds i -> (in_bounds (shape_slice ds args) i <-> Forall2 (fun a x => argb a x = true) args i)).
Proof.
  induction 1 as [|a d args ds G F (L & K & W & X & Fu & In_)].
  - split; [reflexivity|]. split; [reflexivity|]. split; [constructor|]. split; [constructor|].
    split; [intros [|]; [reflexivity|discriminate]|]. intros i Hi. inv Hi. split; intros; constructor.
  - assert (Q : shape_slice (d :: ds) (a :: args) = range_with_stride a d :: shape_slice ds args).
    { rewrite shape_slice_cons. destruct a; try contradiction; reflexivity. }
    split; [cbn; lia|]. split; [destruct a; try contradiction; cbn; lia|]. split.
    { constructor; auto. destruct a; cbn in *; try tauto. }
    split. { rewrite Q. constructor; auto. destruct a; cbn in *; tauto. }
    split. { intros [|x i] Hi; [discriminate|]. destruct a; try contradiction; cbn; rewrite Fu by (cbn in Hi; lia); reflexivity. }
    intros i Hi. inversion Hi as [|? x ? i' Hx Hi']; subst. rewrite Q. 
    assert (P : in_dim (range_with_stride a d) x <-> argb a x = true).
    { destruct a; cbn [good_arg range_with_stride argb] in *; try tauto. rewrite containsb_spec. reflexivity. }
    split; intro H; inv H; constructor; try tauto; apply In_; auto.
Qed.
Section Tiling.
Context {V : Type}.
Implicit Types (h : heap V) (C : aref) (u : list Z -> V -> V).

Lemma fold_update u l k (w : V) : NoDup l ->
  fold_left (fun w i => if list_eq_dec Z.eq_dec k i then u i w else w) l w = if in_dec (list_eq_dec Z.eq_dec) k l then u k w else w.
Proof.
  intro N. revert w. induction l as [|i l IH]; intro w; [reflexivity|]. inv N. cbn [fold_left]. rewrite IH by auto.
  destruct (list_eq_dec Z.eq_dec k i) as [->|Ne].
  - destruct (in_dec _ i l); [contradiction|]. destruct (in_dec _ i (i :: l)) as [|Q]; [auto|]. exfalso. apply Q. left. auto.
  - destruct (in_dec _ k l) as [I|I], (in_dec _ k (i :: l)) as [I'|I']; auto.
    + exfalso. apply I'. right. auto.
    + destruct I' as [->|I']; [congruence|contradiction].
Qed.
(** The elements of C that are in the tile are updated *)
Lemma view_refines C h0 u args : injective_layout (r_shape C) -> Forall2 good_arg args (r_shape C) ->
  refines C h0 (update_view u (ref_slice C args))
    (fun i w => if in_dec (list_eq_dec Z.eq_dec) i (box (shape_slice (r_shape C) args)) then u i w else w).
Proof.
  intros Inj G. destruct (good_slice _ _ G) as (L & K & W & X & Fu & In_).
  assert (Sh : r_shape (ref_slice C args) = shape_slice (r_shape C) args) by reflexivity.
  assert (Sub : forall i, In i (box (shape_slice (r_shape C) args)) -> in_bounds (r_shape C) i).
  { intros i Hi. apply box_In in Hi. pose proof (slice_in_bounds args (r_shape C) i L Hi) as [Li Se].
    rewrite Fu in Se by lia. eapply selects_within; eauto. }
  unfold update_view. rewrite Sh. eapply refines_ext;
    [|apply (refines_for C h0 (box (shape_slice (r_shape C) args)) _ _
        (fun i k w => if list_eq_dec Z.eq_dec k i then u i w else w)); [apply fei_box; auto|]].
  - cbn beta. intros k w _. apply fold_update. apply box_NoDup.
  - intros i Hi. pose proof (Sub i Hi) as Ci. apply refines_update; auto. intros h g (U & S & O).
    assert (Nz : fst (r_base C) <> 0%nat).
    { apply (peek_block h (elem (r_base C) (r_shape C) i) (Live (g i))). apply (S i Ci). }
    destruct (slice_denotes C args L Nz) as (_ & P & _).
    assert (Ei : ref_ptr (ref_slice C args) i = ref_ptr C i).
    { pose proof (slice_in_bounds args (r_shape C) i L (proj1 (box_In _ _) Hi)) as [Li _].
      rewrite P by auto. rewrite Fu by lia. rewrite elem_ref. reflexivity. }
    unfold ref_at. rewrite Ei, elem_ref. rewrite (proj2 (load_holds _ _ _) (S i Ci)). reflexivity.
Qed.

Fixpoint indicator (args : list sarg) (i : list Z) : nat :=
  match args, i with a :: r, x :: i' => (if argb a x then 1 else 0) * indicator r i' | _, _ => 1 end%nat.
Lemma indicator_spec args : forall i, length args = length i ->
  indicator args i = (if forallb (fun p => argb (fst p) (snd p)) (combine args i) then 1 else 0)%nat.
Proof.
  induction args as [|a r IH]; intros [|x i] L; cbn in L; try discriminate; [reflexivity|]. cbn [indicator combine forallb fst snd].
  rewrite IH by lia. destruct (argb a x); cbn [andb]; [lia|reflexivity].
Qed.
Lemma forallb_combine args : forall i, length args = length i ->
  (forallb (fun p => argb (fst p) (snd p)) (combine args i) = true <-> Forall2 (fun a x => argb a x = true) args i).
Proof.
  induction args as [|a r IH]; intros [|x i] L; cbn in L; try discriminate; [split; constructor|]. cbn [combine forallb fst snd].
  rewrite andb_true_iff, IH by lia. split; [intros [? ?]; constructor; auto|intro H; inv H; auto].
Qed.
Lemma tile_refines C h0 u args : injective_layout (r_shape C) -> Forall2 good_arg args (r_shape C) ->
  refines C h0 (update_view u (ref_slice C args)) (fun i w => Nat.iter (indicator args i) (u i) w).
Proof.
  intros Inj G. eapply refines_ext; [|apply view_refines; auto]. cbn beta. intros i w Hi.
  destruct (good_slice _ _ G) as (L & K & W & X & Fu & In_). pose proof (Forall2_len _ _ _ Hi) as Li.
  rewrite indicator_spec by lia. destruct (in_dec _ _ _) as [I|I].
  - apply box_In in I. apply In_ in I; auto. apply forallb_combine in I; [|lia]. rewrite I. reflexivity.
  - destruct (forallb _ _) eqn:E; [|reflexivity]. exfalso. apply I. apply box_In. apply In_; auto. apply forallb_combine; [lia|auto].
Qed.

(** ** The nest of loops *)
Lemma iter_add {S} (f : S -> S) a b s : Nat.iter a f (Nat.iter b f s) = Nat.iter (a + b) f s.
Proof. induction a as [|a IH]; [reflexivity|]. cbn. f_equal. exact IH. Qed.
Lemma fold_iter {A S} (f : S -> S) (c : A -> nat) l s :
  fold_left (fun s a => Nat.iter (c a) f s) l s = Nat.iter (fold_right (fun a n => c a + n) 0 l)%nat f s.
Proof.
  revert s. induction l as [|a l IH]; intro s; cbn [fold_left fold_right]; [reflexivity|].
  rewrite IH, iter_add. f_equal. lia.
Qed.
Lemma sum_args K m x l : fold_right (fun a n => K * ((if argb a x then 1 else 0) * m) + n)%nat 0%nat l = (K * args_count x l * m)%nat.
Proof.
  unfold args_count. induction l as [|a l IH]; cbn [fold_right filter length]; [lia|]. rewrite IH. destruct (argb a x); cbn [length]; lia.
Qed.
Lemma nest_refines C h0 nd u sps ds : Forall2 splits sps ds -> forall pre body (K : list Z -> nat),
  r_shape C = pre ++ ds ->
  (forall args, Forall2 good_arg args ds -> refines C h0 (body args)
     (fun p w => Nat.iter (K p * indicator args (skipn (length pre) p)) (u p) w)) ->
  refines C h0 (for_tiles_nd nd sps ds body)
    (fun p w => Nat.iter (K p * visits sps ds (skipn (length pre) p)) (u p) w).
Proof.
  induction 1 as [|sp d sps ds Sp F IH]; intros pre body K SC H.
  - cbn [for_tiles_nd visits]. apply (H []). constructor.
  - destruct (split_along_ok nd sp d Sp) as (l & El & Fl & Cl).
    pose proof (IH (pre ++ [d]) (fun rest s => for_in (split_along nd sp d) (fun s a => body (a :: rest) s) s)
      (fun p => (K p * count1 sp d (nth (length pre) p 0%Z))%nat)) as Q. cbn [for_tiles_nd]. rewrite app_length in Q. cbn [length] in Q.
    assert (Sk : forall p, in_bounds (r_shape C) p -> skipn (length pre) p = nth (length pre) p 0%Z :: skipn (length pre + 1) p /\
               in_dim d (nth (length pre) p 0%Z)).
    { intros p Hp. rewrite SC in Hp. apply Forall2_app_inv_l in Hp. destruct Hp as (p1 & p2 & H1 & H2 & ->).
      pose proof (Forall2_len _ _ _ H1) as L1. inversion H2 as [|? x ? i' Hx Hi']; subst. rewrite L1.
      rewrite app_nth2, Nat.sub_diag by lia. cbn [nth]. split; [|auto].
      rewrite skipn_app, skipn_all, Nat.sub_diag. cbn [skipn app]. rewrite skipn_app.
      rewrite skipn_all2 by lia. replace (length p1 + 1 - length p1)%nat with 1%nat by lia. reflexivity. }
    eapply refines_ext; [|apply Q].
    + cbn beta. intros p w Hp. destruct (Sk p Hp) as [E _]. rewrite E. f_equal. destruct sp; cbn [visits count1]; lia.
    + rewrite <- app_assoc. exact SC.
    + intros rest Gr. eapply refines_ext; [|apply (refines_for C h0 l _ (fun s a => body (a :: rest) s)
          (fun a p w => Nat.iter (K p * indicator (a :: rest) (skipn (length pre) p)) (u p) w) El)].
      * cbn beta. intros p w Hp. destruct (Sk p Hp) as [E Dx]. rewrite fold_iter. f_equal.
        rewrite E. cbn [indicator]. rewrite sum_args. rewrite Cl by auto. reflexivity.
      * intros a Ha. apply H. constructor; auto. rewrite Forall_forall in Fl. auto.
Qed.
Lemma tiled_refines C h0 nd u sps : injective_layout (r_shape C) -> Forall2 splits sps (r_shape C) ->
  refines C h0 (update_tiled nd sps u C) (fun i w => Nat.iter (visits sps (r_shape C) i) (u i) w).
Proof.
  intros Inj F. unfold update_tiled.
  eapply refines_ext; [|apply (nest_refines C h0 nd u sps (r_shape C) F [] _ (fun _ => 1%nat)); [reflexivity|]].
  - cbn beta. intros i w _. cbn [length skipn]. f_equal. lia.
  - intros args G. eapply refines_ext; [|apply tile_refines; auto]. cbn beta. intros p w _. cbn [length skipn]. f_equal. lia.
Qed.
Lemma untiled_refines C h0 u : injective_layout (r_shape C) -> extents_ge 0 (r_shape C) ->
  refines C h0 (update_view u C) u.
Proof.
  intros Inj X. unfold update_view. eapply refines_ext;
    [|apply (refines_for C h0 (box (r_shape C)) _ _ (fun i k w => if list_eq_dec Z.eq_dec k i then u i w else w)); [apply fei_box; auto|]].
  - cbn beta. intros k w Hk. rewrite fold_update by apply box_NoDup. destruct (in_dec _ _ _) as [|Q]; [auto|]. exfalso. apply Q. apply box_In. auto.
  - intros i Hi. apply box_In in Hi. apply refines_update; auto. intros h g (U & S & O).
    unfold ref_at. rewrite elem_ref. rewrite (proj2 (load_holds _ _ _) (S i Hi)). reflexivity.
Qed.

(** ** Results *)
Lemma visits_pos sps : forall ds i, (1 <= visits sps ds i)%nat.
Proof.
  induction sps as [|sp sps IH]; intros [|d ds] [|x i]; cbn [visits]; try lia; destruct sp; try lia; try apply IH.
  pose proof (tile_count_pos N d x). specialize (IH ds i). nia.
Qed.
Lemma visits_even sps ds : Forall2 splits_evenly sps ds -> forall i, visits sps ds i = 1%nat.
Proof.
  induction 1 as [|sp d sps ds S F IH]; intros [|x i]; cbn [visits]; auto; destruct sp; auto.
  rewrite IH. cbn in S. rewrite tile_count_even by auto. reflexivity.
Qed.
Lemma tiled_update_counts C nd u sps h g : injective_layout (r_shape C) -> Forall2 splits sps (r_shape C) ->
  usable_heap h -> shows h C g ->
  exists h', update_tiled nd sps u C h = Ok h' /\
    shows h' C (fun i => Nat.iter (visits sps (r_shape C) i) (u i) (g i)) /\
    (forall p, ~ is_elem (r_base C) (r_shape C) p -> peek h' p = peek h p).
Proof.
  intros Inj F U S. destruct (tiled_refines C h nd u sps Inj F h g) as (h' & E & _ & S' & O').
  - split; auto.
  - exists h'. auto.
Qed.
Lemma splits_extents sps ds : Forall2 splits sps ds -> extents_ge 0 ds.
Proof. induction 1 as [|sp d sps ds S F IH]; constructor; auto. destruct sp; cbn in S; lia. Qed.
Lemma iter_idempotent {S} (f : S -> S) n s : (forall s, f (f s) = f s) -> (1 <= n)%nat -> Nat.iter n f s = f s.
Proof.
  intros H Hn. destruct n as [|n]; [lia|]. clear Hn. induction n as [|n IH]; [reflexivity|].
  change (f (Nat.iter (Datatypes.S n) f s) = f s). rewrite IH. apply H.
Qed.
Lemma tiled_as_untiled C nd u sps h g : injective_layout (r_shape C) -> Forall2 splits sps (r_shape C) ->
  usable_heap h -> shows h C g ->
  (forall i w, in_bounds (r_shape C) i -> u i (u i w) = u i w) \/ Forall2 splits_evenly sps (r_shape C) ->
  exists h1 h2, update_tiled nd sps u C h = Ok h1 /\ update_view u C h = Ok h2 /\
    shows h1 C (fun i => u i (g i)) /\ shows h2 C (fun i => u i (g i)) /\
    (forall p, ~ is_elem (r_base C) (r_shape C) p -> peek h1 p = peek h p /\ peek h2 p = peek h p).
Proof.
  intros Inj F U S Id. destruct (tiled_update_counts C nd u sps h g Inj F U S) as (h1 & E1 & S1 & O1).
  destruct (untiled_refines C h u Inj (splits_extents _ _ F) h g) as (h2 & E2 & _ & S2 & O2).
  { split; auto. }
  exists h1, h2. split; [exact E1|]. split; [exact E2|]. split; [|split; [exact S2|intros p Hp; split; auto]].
  intros i Hi. specialize (S1 i Hi). cbn beta in S1.
  replace (Nat.iter (visits sps (r_shape C) i) (u i) (g i)) with (u i (g i)) in S1; [exact S1|].
  destruct Id as [Id|Ev].
  - symmetry. apply iter_idempotent; [|apply visits_pos]. intro w. apply Id. auto.
  - rewrite visits_even by auto. reflexivity.
Qed.
(** If some dimension is not split evenly, some element is in several tiles *)
Lemma overlap_exists sps ds : Forall2 splits sps ds -> extents_ge 1 ds -> ~ Forall2 splits_evenly sps ds ->
  exists i, in_bounds ds i /\ (2 <= visits sps ds i)%nat.
Proof.
  induction 1 as [|sp d sps ds S F IH]; intros X N; [exfalso; apply N; constructor|]. inv X.
  assert (D : splits_evenly sp d \/ ~ splits_evenly sp d).
  { destruct sp; cbn; try tauto. destruct (Z.eq_dec (dext d mod N0) 0); auto. }
  destruct D as [D|D].
  - destruct IH as (i & Hi & V2); auto.
    exists (dmin d :: i). split; [constructor; auto; unfold in_dim; lia|]. destruct sp; cbn [visits]; auto.
    pose proof (tile_count_pos N0 d (dmin d)). nia.
  - destruct sp as [N0|n|]; cbn [splits_evenly] in D; try tauto. cbn [splits] in S.
    assert (exists i, in_bounds ds i) as [i Hi].
    { clear -H2. induction H2 as [|d' ds H _ [i IH]]; [exists []; constructor|]. exists (dmin d' :: i). constructor; auto. unfold in_dim; lia. }
    exists (dmin d + dext d - N0 :: i).
    pose proof (Z.mod_pos_bound (dext d) N0 ltac:(lia)) as Mb. pose proof (Z.div_mod (dext d) N0 ltac:(lia)) as Dm.
    split; [constructor; auto; unfold in_dim; lia|]. cbn [visits]. pose proof (visits_pos sps ds i).
    assert (tile_count N0 d (dmin d + dext d - N0) = 2%nat); [|lia]. unfold tile_count.
    replace (dext d mod N0 =? 0) with false by lia. replace (dmin d + dext d - N0 <? dmin d + dext d - N0) with false by lia.
    replace (dmin d + N0 * (dext d / N0) <=? dmin d + dext d - N0) with false by nia. reflexivity.
Qed.
Lemma tiled_small C u sps h : length sps = length (r_shape C) -> extents_ge 1 (r_shape C) ->
  Forall2 (fun sp d => match sp with SStatic N => 1 <= N | SDynamic n => 1 <= n | SAll => True end) sps (r_shape C) ->
  ~ Forall2 splits sps (r_shape C) -> update_tiled false sps u C h = AssertFail.
Proof.
  intros L X. unfold update_tiled. revert X L. generalize (fun args h => update_view u (ref_slice C args) h).
  generalize (r_shape C). intro ds. intros body X L G. revert X body h. clear L.
  assert (A : forall sps ds, Forall2 (fun sp d => match sp with SStatic N => 1 <= N | SDynamic n => 1 <= n | SAll => True end) sps ds ->
     extents_ge 1 ds -> forall body (h : heap V), (forall a s, body a s = AssertFail) -> for_tiles_nd false sps ds body h = AssertFail).
  { clear. induction 1 as [|sp d sps ds S F IH]; intros X body h H; cbn [for_tiles_nd]; [apply H|]. inv X. apply IH; auto.
    intros rest s. unfold for_in. assert (Q : splits sp d \/ ~ splits sp d).
    { destruct sp as [N0|n|]; cbn [splits]; lia. }
    destruct Q as [Q|Q].
    - destruct (split_along_ok false sp d Q) as (l & El & Fl & Cl). rewrite El. cbn [bind]. destruct l as [|a l].
      + specialize (Cl (dmin d)). unfold in_dim, args_count in Cl. cbn in Cl. specialize (Cl ltac:(lia)).
        destruct sp; cbn in Cl; try discriminate. pose proof (tile_count_pos N d (dmin d)). lia.
      + cbn [foldM]. rewrite H. reflexivity.
    - destruct sp as [N0|n|]; cbn [splits] in Q; cbn beta iota in *; try lia. cbn [split_along]. rewrite split_small by (cbn [d_interval iext]; lia). reflexivity. }
  induction G as [|sp d sps ds S F IH]; intros X body h N; [exfalso; apply N; constructor|]. inv X. cbn [for_tiles_nd].
  assert (Q : splits sp d \/ ~ splits sp d).
  { destruct sp as [N0|n|]; cbn [splits]; lia. }
  destruct Q as [Q|Q].
  - apply IH; auto.
  - apply A; auto. intros rest s. unfold for_in.
    destruct sp as [N0|n|]; cbn [splits] in Q; cbn beta iota in *; try lia. cbn [split_along]. rewrite split_small by (cbn [d_interval iext]; lia). reflexivity.
Qed.
End Tiling.
