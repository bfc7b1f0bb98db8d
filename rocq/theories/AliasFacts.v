(** The order of value traversals in memory, and copies between views that share elements (C65). *)
From Verif Require Import Tac Interval Shape Traverse Memory Ref Spec SpecMem SpecAlias ShapeFacts ResolveFacts TraverseFacts MemFacts RefFacts.
From Coq Require Import Sorted Permutation.
Import ListNotations.
Open Scope Z_scope.

(** ** Value traversals go up in memory *)

Definition gap (g : Z) (a b : Z * Z) : Prop := snd a + g <= snd b.

Definition nested_pairs (l : list (dim * dim)) : Prop :=
  ForallOrdPairs (fun a b => 1 < dext (snd a) -> 1 < dext (snd b) -> nested2 (snd a) (snd b)) l.

Lemma sums_sorted l : StronglySorted (fun a b => dstr (snd a) <= dstr (snd b)) l ->
  Forall (fun p => 1 < dext (snd p) -> 0 < dstr (snd p)) l -> nested_pairs l ->
  forall g, 0 < g -> (forall p, In p l -> 1 < dext (snd p) -> g <= dstr (snd p)) -> StronglySorted (gap g) (sums l).
Proof.
  induction l as [|p r IH]; intros Hs Hp Hn g Hg Hl.
  - cbn [sums]. repeat constructor.
  - inv Hs. inv Hp. inv Hn. cbn [sums]. rename H1 into Hs, H2 into Hps, H3 into Hpos, H4 into Hposr, H5 into Hnp, H6 into Hnr.
    destruct (Z_le_gt_dec (dext (snd p)) 0) as [E|E].
    { assert (Ec : contrib p = []) by (unfold contrib, dim_list; replace (Z.to_nat (dext (snd p))) with O by lia; reflexivity).
      rewrite Ec. clear. induction (sums r); simpl; auto. constructor. }
    destruct (Z.eq_dec (dext (snd p)) 1) as [E1|E1].
    { assert (Ec : contrib p = [((dmin (snd p) - dmin (fst p)) * dstr (fst p), 0)]).
      { unfold contrib, dim_list. rewrite E1. change (Z.to_nat 1) with 1%nat. cbn [zseq map]. f_equal. f_equal. ring. }
      rewrite Ec. cbn [map].
      assert (HI : StronglySorted (gap g) (sums r)) by (apply IH; auto; intros q Hq; apply Hl; right; auto).
      apply (StronglySorted_flat_map (gap g)); auto.
      - intros. repeat constructor.
      - intros a b x y Hab [<-|[]] [<-|[]]. unfold gap, padd in *. cbn [snd]. lia. }
    assert (Hsp : 0 < dstr (snd p)) by (apply Hpos; lia).
    assert (Hgp : g <= dstr (snd p)) by (apply Hl; [left; auto|lia]).
    assert (HI : StronglySorted (gap (dext (snd p) * dstr (snd p))) (sums r)).
    { apply IH; auto; [nia|]. intros q Hq Eq. rewrite Forall_forall in Hnp, Hps, Hposr.
      pose proof (Hposr q Hq Eq) as Hsq. pose proof (Hps q Hq) as Hle. cbn beta in Hle.
      assert (Ep : 1 < dext (snd p)) by lia.
      destruct (Hnp q Hq Ep Eq) as [H|H]; rewrite !Z.abs_eq in H by lia; [exact H|]. exfalso. nia. }
    apply (StronglySorted_flat_map (gap (dext (snd p) * dstr (snd p)))); auto.
    + intros o Ho. unfold contrib. rewrite map_map. apply (StronglySorted_map Z.lt); [apply zseq_sorted|].
      intros x y Hxy. unfold gap, padd. cbn [snd]. nia.
    + intros a b x y Hab Hx Hy. unfold contrib in Hx, Hy. rewrite map_map in Hx, Hy.
      apply in_map_iff in Hx, Hy. destruct Hx as [u [<- Hu]], Hy as [v [<- Hv]].
      unfold dim_list in Hu, Hv. apply zseq_In in Hu, Hv. unfold gap, padd in *. cbn [snd]. nia.
Qed.

Lemma nested_pairs_perm l l' : Permutation l l' -> nested_pairs l -> nested_pairs l'.
Proof.
  unfold nested_pairs. induction 1; intros Hn; auto.
  - inv Hn. constructor; auto. eapply Permutation_Forall; eauto.
  - inversion_clear Hn as [|? ? Fy Fr]. inversion_clear Fy as [|? ? Hyx Fy']. inversion_clear Fr as [|? ? Fx Fl].
    constructor; [constructor; auto|constructor; auto].
    intros Ha Hb. destruct (Hyx Hb Ha) as [G|G]; [right|left]; exact G.
Qed.
Lemma nested_combine src : forall dst, length src = length dst -> nested dst -> nested_pairs (combine src dst).
Proof.
  intros dst Hl [_ Hn]. revert src Hl. induction Hn as [|d r Hd Hr IH]; intros [|a src] Hl; simpl in *; try discriminate;
    constructor.
  - apply Forall_forall. intros [x y] Hxy. apply in_combine_r in Hxy. rewrite Forall_forall in Hd. cbn [snd]. auto.
  - apply IH. lia.
Qed.
Lemma ascending_combine src : forall dst, length src = length dst -> ascending dst ->
  Forall (fun p : dim * dim => 1 < dext (snd p) -> 0 < dstr (snd p)) (combine src dst).
Proof.
  unfold ascending. induction src as [|a src IH]; intros [|d dst] Hl H; simpl in *; try discriminate; constructor; inv H; auto.
Qed.
Lemma combine_map_fst_snd {A B} (l : list (A * B)) : combine (map fst l) (map snd l) = l.
Proof. induction l as [|[a b] l IH]; simpl; congruence. Qed.

(** The offsets in the order in which copies visit them *)
Lemma copy_sums_sorted src dst : length src = length dst -> extents_ge 0 dst -> nested dst -> ascending dst ->
  StronglySorted (fun a b => snd a < snd b)
    (sums (combine (fst (optimize_copy_shapes src dst)) (snd (optimize_copy_shapes src dst)))).
Proof.
  intros Hl He Hn Ha.
  assert (W : forall l : list (Z * Z), StronglySorted (gap 1) l -> StronglySorted (fun a b => snd a < snd b) l).
  { induction 1; constructor; auto. eapply Forall_impl; [|exact H0]. unfold gap. intros; simpl in *; lia. }
  pose proof (nested_combine src dst Hl Hn) as Hnp. pose proof (ascending_combine src dst Hl Ha) as Hap.
  assert (G : StronglySorted (fun a b => snd a < snd b)
    (sums (combine (fst (dynamic_optimize_copy_shapes src dst)) (snd (dynamic_optimize_copy_shapes src dst))))).
  { unfold dynamic_optimize_copy_shapes. cbn [fst snd]. rewrite combine_map_fst_snd, sums_pad.
    destruct (bubble_sort_copy_dims (combine src dst)) as [P S].
    pose proof (nested_pairs_perm _ _ P Hnp) as Hnp'. pose proof (Permutation_Forall P Hap) as Hap'.
    assert (Hext : Forall (fun p : dim * dim => 0 <= dext (snd p)) (bubble_sort copy_ltb (combine src dst))).
    { eapply Permutation_Forall; [exact P|]. clear -Hl He. revert src Hl. induction He; intros [|a src] Hl; simpl in *;
        try discriminate; constructor; auto. }
    assert (G : sums (fuse2_dims (bubble_sort copy_ltb (combine src dst))) = sums (bubble_sort copy_ltb (combine src dst))).
    { destruct (bubble_sort copy_ltb (combine src dst)) as [|d r]; [reflexivity|]. inv Hext.
      cbn [fuse2_dims]. apply sums_fuse2_from; auto. }
    rewrite G. apply W. apply sums_sorted; auto; [lia|].
    intros p Hp Hd. rewrite Forall_forall in Hap'. specialize (Hap' p Hp Hd). cbn beta in Hap'. lia. }
  destruct src as [|a [|b src]], dst as [|a' [|b' dst]]; auto.
Qed.

(** The values of a shape are visited in the order of their addresses *)
Lemma for_each_value_ascends s base : extents_ge 0 s -> nested s -> ascending s ->
  exists l, enumerates (in_bounds s) l /\
    for_each_value s base = map (fun i => [base + offset s i]) l /\
    StronglySorted (fun i j => offset s i < offset s j) l.
Proof.
  intros He Hn Ha. destruct (for_each_value_visits s base He) as [l [Hen Hl]].
  assert (E : for_each_value s base = map (fun i => [base + offset s i]) l).
  { rewrite Hl. apply map_ext. intros i. rewrite flat_offset_spec. auto. }
  exists l. split; auto. split; auto.
  pose proof (copy_sums_sorted s s eq_refl He Hn Ha) as Hs. rewrite optimize_dup in Hs. cbn [fst snd] in Hs.
  rewrite sums_combine in Hs by auto.
  unfold for_each_value in E. rewrite fev_in_order_spec in E.
  assert (E' : map (fun i => offset (optimize_shape s) i) (box (optimize_shape s)) = map (offset s) l).
  { pose proof (f_equal (map (fun q => nth 0 q 0 - base)) E) as F. rewrite !map_map in F. cbn [nth] in F.
    etransitivity; [|etransitivity; [exact F|]]; apply map_ext; intros; cbn beta; ring. }
  assert (Hs' : StronglySorted Z.lt (map (offset s) l)).
  { rewrite <- E'. clear -Hs. induction (box (optimize_shape s)) as [|x r IH]; simpl in *; [constructor|]. inv Hs.
    constructor; auto. rewrite Forall_forall in *. intros y Hy. apply in_map_iff in Hy. destruct Hy as [i [<- Hi]].
    apply (H2 (offset (optimize_shape s) i, offset (optimize_shape s) i)). apply in_map_iff. exists i; auto. }
  clear -Hs'. induction l as [|x r IH]; simpl in *; [constructor|]. inv Hs'. constructor; auto.
  rewrite Forall_forall in *. intros y Hy. apply H2. apply in_map. auto.
Qed.

(** ** Copies in a given order *)

Section Copy.
Context {V : Type}.
Implicit Types (h : heap V).

Definition now (d : V) h (p : ptr) : cell V := match peek h p with Some c => c | None => Live d end.

(** No assignment reads what an earlier one has written *)
Lemma fold_copy_ordered (d : V) l : forall h, ForallOrdPairs (fun ab cd => fst cd <> snd ab) l ->
  (forall ab, In ab l -> alive h (fst ab) /\ alive h (snd ab)) ->
  foldM copy_assign l h = Ok (upds h (map (fun ab => (snd ab, now d h (fst ab))) l)).
Proof.
  induction l as [|ab r IH]; intros h Ho Ha; [reflexivity|]. inv Ho.
  destruct (Ha ab (or_introl eq_refl)) as [[v Hv] [v' Hv']].
  cbn [foldM map upds]. unfold copy_assign at 1. rewrite (proj2 (load_holds h (fst ab) v) Hv). cbn [bind].
  rewrite (store_ok h (snd ab) v) by (exists v'; auto). cbn [bind].
  assert (En : now d h (fst ab) = Live v) by (unfold now; rewrite Hv; auto). rewrite En.
  assert (Hup : forall p, alive h p -> alive (upd h (snd ab) (Live v)) p).
  { intros p [w Hw]. destruct (ptr_eqb (snd ab) p) eqn:E.
    - apply ptr_eqb_eq in E. subst p. exists v. unfold holds. apply peek_upd_same. unfold holds in Hv'. congruence.
    - exists w. unfold holds. rewrite peek_upd_other; [exact Hw|]. intros C. subst p.
      rewrite (proj2 (ptr_eqb_eq _ _) eq_refl) in E. discriminate. }
  rewrite IH; auto.
  - f_equal. f_equal. apply map_ext_in. intros cd Hcd. f_equal. unfold now. rewrite peek_upd_other; auto.
    rewrite Forall_forall in H1. intros C. apply (H1 cd Hcd). auto.
  - intros cd Hcd. destruct (Ha cd (or_intror Hcd)) as [H3 H4]. split; apply Hup; auto.
Qed.

(** A step that does not change the values of the two it copies between *)
Lemma fold_copy_place (d : V) l h : NoDup (map snd l) ->
  (forall ab, In ab l -> alive h (fst ab) /\ alive h (snd ab)) ->
  (forall ab cd, In ab l -> In cd l -> fst ab = snd cd -> fst ab = snd ab) ->
  foldM copy_assign l h = Ok (upds h (map (fun ab => (snd ab, now d h (fst ab))) l)).
Proof.
  intros Hnd Ha Hdis. apply fold_copy_ordered; auto.
  revert Ha Hdis. induction l as [|ab r IH]; intros Ha Hdis; [constructor|]. simpl in Hnd. inv Hnd. constructor.
  - apply Forall_forall. intros cd Hcd C. apply H1. apply in_map_iff. exists cd. split; auto.
    rewrite <- C. symmetry. apply (Hdis cd ab); [right; auto|left; auto|]. rewrite C. auto.
  - apply IH; auto.
    + intros; apply Ha; right; auto.
    + intros x y Hx Hy. apply Hdis; right; auto.
Qed.

Definition pair_at (src dst : aref) (i : list Z) : ptr * ptr :=
  (elem (r_base src) (r_shape src) i, elem (r_base dst) (r_shape dst) i).

Lemma copy_via nd h src dst : length (r_shape src) = length (r_shape dst) ->
  extents_ge 0 (r_shape dst) -> within (r_shape dst) (r_shape src) -> injective_layout (r_shape dst) ->
  (forall i, in_bounds (r_shape dst) i -> alive h (elem (r_base src) (r_shape src) i)) ->
  (forall i, in_bounds (r_shape dst) i -> alive h (elem (r_base dst) (r_shape dst) i)) ->
  (forall d l, enumerates (in_bounds (r_shape dst)) l ->
     values_copy nd (r_shape src) (r_base src) (r_shape dst) (r_base dst) = Ok (map (pair_at src dst) l) ->
     NoDup (map snd (map (pair_at src dst) l)) ->
     (forall ab, In ab (map (pair_at src dst) l) -> alive h (fst ab) /\ alive h (snd ab)) ->
     foldM copy_assign (map (pair_at src dst) l) h =
     Ok (upds h (map (fun ab => (snd ab, now d h (fst ab))) (map (pair_at src dst) l)))) ->
  exists h', copy nd h src dst = Ok h' /\
    (forall i, in_bounds (r_shape dst) i ->
       peek h' (elem (r_base dst) (r_shape dst) i) = peek h (elem (r_base src) (r_shape src) i)) /\
    only_changes (is_elem (r_base dst) (r_shape dst)) h h'.
Proof.
  intros Hl Hd Hw Hi Has Had Hf. unfold copy. destruct (empty (r_shape dst)) eqn:E.
  - exists h. split; auto. split; [|apply only_changes_refl].
    intros i Hin. destruct (empty_no_index _ Hd E i Hin).
  - rewrite (proj2 (in_range_corners _ _ Hl (not_empty_ge1 _ Hd E)) Hw). cbn [assert_ bind].
    destruct (values_copy_spec nd (r_shape src) (r_base src) (r_shape dst) (r_base dst) Hl Hd) as [l [Hen Hv]].
    { destruct (alive_base h (r_base src) (r_shape src) _ Hd Has) as [H1|H1]; [|right; auto].
      destruct (alive_base h (r_base dst) (r_shape dst) _ Hd Had) as [H2|H2]; [|right; auto]. left; auto. }
    assert (Hne : exists i, in_bounds (r_shape dst) i).
    { exists (map dmin (r_shape dst)). apply mins_in_bounds. apply not_empty_ge1; auto. }
    destruct Hne as [i0 Hi0]. destruct (Has i0 Hi0) as [d _].
    change (fun i => (elem (r_base src) (r_shape src) i, elem (r_base dst) (r_shape dst) i))
      with (pair_at src dst) in Hv.
    set (ps := map (pair_at src dst) l) in *.
    assert (Hnd : NoDup (map snd ps)).
    { unfold ps. rewrite map_map. unfold pair_at. cbn [snd]. apply NoDup_map_elem; auto. }
    assert (HIn : forall ab, In ab ps -> exists i, in_bounds (r_shape dst) i /\ ab = pair_at src dst i).
    { intros ab Hab. apply in_map_iff in Hab. destruct Hab as [i [<- Hin]]. exists i. split; auto. apply Hen; auto. }
    assert (Hal : forall ab, In ab ps -> alive h (fst ab) /\ alive h (snd ab)).
    { intros ab Hab. destruct (HIn ab Hab) as [i [Hin ->]]. split; cbn [pair_at fst snd]; auto. }
    rewrite Hv. cbn [bind]. pose proof (Hf d l Hen Hv Hnd Hal) as F. fold ps in F. rewrite F.
    eexists. split; [reflexivity|]. split.
    + intros i Hin. destruct (Has i Hin) as [v Hvv]. rewrite Hvv. apply peek_upds_in.
      * rewrite map_map. cbn [fst]. auto.
      * apply in_map_iff. exists (pair_at src dst i). unfold now. cbn [pair_at fst snd]. rewrite Hvv. split; auto.
        apply (in_map (pair_at src dst)). apply Hen; auto.
      * destruct (Had i Hin) as [w Hw']. unfold holds in Hw'. congruence.
    + apply upds_only_changes. intros p Hp. rewrite map_map in Hp. cbn [fst] in Hp. apply in_map_iff in Hp.
      destruct Hp as [ab [<- Hab]]. destruct (HIn ab Hab) as [i [Hin ->]]. exists i; auto.
Qed.

(** Two views that share elements only at equal indices *)
Lemma copy_place nd h src dst : length (r_shape src) = length (r_shape dst) ->
  extents_ge 0 (r_shape dst) -> within (r_shape dst) (r_shape src) -> injective_layout (r_shape dst) ->
  (forall i, in_bounds (r_shape dst) i -> alive h (elem (r_base src) (r_shape src) i)) ->
  (forall i, in_bounds (r_shape dst) i -> alive h (elem (r_base dst) (r_shape dst) i)) ->
  (forall i j, in_bounds (r_shape dst) i -> in_bounds (r_shape dst) j ->
     elem (r_base src) (r_shape src) i = elem (r_base dst) (r_shape dst) j -> i = j) ->
  exists h', copy nd h src dst = Ok h' /\
    (forall i, in_bounds (r_shape dst) i ->
       peek h' (elem (r_base dst) (r_shape dst) i) = peek h (elem (r_base src) (r_shape src) i)) /\
    only_changes (is_elem (r_base dst) (r_shape dst)) h h'.
Proof.
  intros Hl Hd Hw Hi Has Had Hsep. apply copy_via; auto.
  intros d l Hen Hv Hnd Hal. apply fold_copy_place; auto.
  intros ab cd Hab Hcd. apply in_map_iff in Hab, Hcd. destruct Hab as [i [<- Hi']], Hcd as [j [<- Hj']].
  cbn [pair_at fst snd]. intros E. apply Hen in Hi', Hj'. rewrite (Hsep i j Hi' Hj' E) at 2. exact E.
Qed.
(** Copying a view to itself changes nothing *)
Lemma copy_self nd h r : extents_ge 0 (r_shape r) -> injective_layout (r_shape r) ->
  (forall i, in_bounds (r_shape r) i -> alive h (elem (r_base r) (r_shape r) i)) ->
  exists h', copy nd h r r = Ok h' /\ (forall p, peek h' p = peek h p) /\ only_changes (fun _ => False) h h'.
Proof.
  intros Hd Hi Ha. destruct (copy_place nd h r r) as [h' [E [Hc Ho]]]; auto.
  - intros i Hi'. auto.
  - intros i j Hi' Hj' E. apply Hi; auto. unfold elem in E. inv E. lia.
  - exists h'. split; auto.
    assert (Hp : forall p, peek h' p = peek h p).
    { intros p. destruct Ho as [Ho _].
      destruct (existsb (fun i => ptr_eqb (elem (r_base r) (r_shape r) i) p) (box (r_shape r))) eqn:X.
      - apply existsb_exists in X. destruct X as [i [Hin X]]. apply box_In in Hin. apply ptr_eqb_eq in X. subst p. auto.
      - apply Ho. intros [i [Hin ->]]. assert (C : existsb (fun j => ptr_eqb (elem (r_base r) (r_shape r) j)
          (elem (r_base r) (r_shape r) i)) (box (r_shape r)) = true).
        { apply existsb_exists. exists i. split; [apply box_In; auto|]. apply ptr_eqb_eq. auto. }
        congruence. }
    split; auto. destruct Ho as [_ [H1 H2]]. split; auto.
Qed.

(** The pairs of a copy, in the order of the addresses of the destination *)
Lemma values_copy_sorted nd src dst l : length (r_shape src) = length (r_shape dst) ->
  extents_ge 0 (r_shape dst) -> nested (r_shape dst) -> ascending (r_shape dst) ->
  values_copy nd (r_shape src) (r_base src) (r_shape dst) (r_base dst) = Ok (map (pair_at src dst) l) ->
  StronglySorted (fun i j => offset (r_shape dst) i < offset (r_shape dst) j) l.
Proof.
  intros Hl Hd Hn Ha Hv. unfold values_copy in Hv.
  pose proof (copy_sums_sorted (r_shape src) (r_shape dst) Hl Hd Hn Ha) as Hs.
  destruct (optimize_copy_sums (r_shape src) (r_shape dst) Hl Hd) as [Hlo _].
  destruct (optimize_copy_shapes (r_shape src) (r_shape dst)) as [os od]. cbn [fst snd] in *.
  rewrite sums_combine in Hs by auto. unfold values_in_order2 in Hv.
  assert (R : forall (f : list Z -> Z) (g : list Z -> Z) (la lb : list (list Z)), map f la = map g lb ->
    StronglySorted (fun i j => f i < f j) la -> StronglySorted (fun i j => g i < g j) lb).
  { clear. intros f g la. induction la as [|x la IH]; intros [|y lb] E S; simpl in *; try discriminate; [constructor|].
    inv S. injection E as E0 E. constructor; [apply IH; auto|]. rewrite Forall_forall in *. intros z Hz.
    assert (In (g z) (map f la)) by (rewrite E; apply in_map; auto). apply in_map_iff in H. destruct H as [w [Ew Hw]].
    rewrite <- Ew, <- E0. apply H2. auto. }
  destruct (is_null (r_base src) || is_null (r_base dst)) eqn:N.
  - destruct (assert_ nd (empty od)) as [[]| |]; simpl in Hv; try discriminate. injection Hv as Hv.
    destruct l; [constructor|discriminate].
  - injection Hv as Hv. rewrite fev_in_order2_spec in Hv by auto. rewrite map_map in Hv.
    apply (R (offset od) (offset (r_shape dst)) (box od)).
    + pose proof (f_equal (map (fun q => snd (snd q) - snd (r_base dst))) Hv) as F. rewrite !map_map in F.
      unfold to_ptr2, pair_at, elem in F. cbn [nth fst snd] in F.
      etransitivity; [|etransitivity; [exact F|]]; apply map_ext; intros; cbn beta; ring.
    + clear -Hs. induction (box od) as [|x r IH]; simpl in *; [constructor|]. inv Hs.
      constructor; auto. rewrite Forall_forall in *. intros i Hi.
      apply (H2 (offset os i, offset od i)). apply in_map_iff. exists i; auto.
Qed.

Lemma copy_down nd h src dst : length (r_shape src) = length (r_shape dst) ->
  extents_ge 0 (r_shape dst) -> within (r_shape dst) (r_shape src) -> injective_layout (r_shape dst) ->
  nested (r_shape dst) -> ascending (r_shape dst) ->
  (forall i, in_bounds (r_shape dst) i -> alive h (elem (r_base src) (r_shape src) i)) ->
  (forall i, in_bounds (r_shape dst) i -> alive h (elem (r_base dst) (r_shape dst) i)) ->
  moves_down (r_base src) (r_shape src) (r_base dst) (r_shape dst) ->
  exists h', copy nd h src dst = Ok h' /\
    (forall i, in_bounds (r_shape dst) i ->
       peek h' (elem (r_base dst) (r_shape dst) i) = peek h (elem (r_base src) (r_shape src) i)) /\
    only_changes (is_elem (r_base dst) (r_shape dst)) h h'.
Proof.
  intros Hl Hd Hw Hi Hn Ha Has Had Hm. apply copy_via; auto.
  intros d l Hen Hv Hnd Hal. apply fold_copy_ordered; auto.
  pose proof (values_copy_sorted nd src dst l Hl Hd Hn Ha Hv) as Hs.
  assert (Hin : forall i, In i l -> in_bounds (r_shape dst) i) by (intros; apply Hen; auto).
  clear -Hs Hin Hm. induction Hs as [|x r Hs IH Hx]; simpl; [constructor|]. constructor.
  - apply Forall_forall. intros ab Hab. apply in_map_iff in Hab. destruct Hab as [j [<- Hj]]. cbn [pair_at fst snd].
    intros C. rewrite Forall_forall in Hx. specialize (Hx j Hj).
    assert (Hb : fst (r_base src) = fst (r_base dst)) by (unfold elem in C; injection C; auto).
    specialize (Hm Hb j (Hin j (or_intror Hj))). rewrite C in Hm. unfold elem in Hm. cbn [snd] in Hm. lia.
  - apply IH. intros; apply Hin; right; auto.
Qed.

(** ** Shifted copies in one dimension *)

Lemma values_copy_1 nd ds src dd dst : is_null src = false -> is_null dst = false ->
  values_copy nd [ds] src [dd] dst =
  Ok (map (fun x => (elem src [ds] [x], elem dst [dd] [x])) (zseq (dmin dd) (Z.to_nat (dext dd)))).
Proof.
  intros H1 H2. unfold values_copy, values_in_order2. cbn [optimize_copy_shapes]. rewrite H1, H2. cbn [orb].
  rewrite fev_in_order2_spec by auto. rewrite map_map. f_equal. cbn [box flat_map]. rewrite app_nil_r, map_map.
  unfold dim_list. apply map_ext. intros x. unfold to_ptr2, elem. cbn [nth fst snd]. reflexivity.
Qed.

Lemma foldM_app {A B} (f : B -> A -> outcome B) la lb : forall b,
  foldM f (la ++ lb) b = (b' <- foldM f la b ;; foldM f lb b').
Proof. induction la as [|a la IH]; intros b; simpl; auto. destruct (f b a); simpl; auto. Qed.
Lemma only_changes_more (P Q : ptr -> Prop) h h' : (forall p, P p -> Q p) -> only_changes P h h' -> only_changes Q h h'.
Proof. intros H [H1 [H2 H3]]. split; [|split]; auto. Qed.
Lemma only_changes_then (P : ptr -> Prop) h1 h2 h3 : only_changes P h1 h2 -> only_changes P h2 h3 -> only_changes P h1 h3.
Proof.
  intros [A1 [A2 A3]] [B1 [B2 B3]]. split; [|split].
  - intros p Hp. rewrite B1, A1; auto.
  - congruence.
  - intros k. rewrite B3, A3. auto.
Qed.

(** The loop of [copy] writes [at_ (x + k)] from [at_ x], for x = m, m+1, ... *)
Lemma smear (at_ : Z -> ptr) (k m : Z) : (forall x y, at_ x = at_ y -> x = y) -> 0 < k -> forall n h,
  (forall x, m <= x < m + Z.of_nat n -> alive h (at_ x) /\ alive h (at_ (x + k))) ->
  exists h', foldM copy_assign (map (fun x => (at_ x, at_ (x + k))) (zseq m n)) h = Ok h' /\
    (forall x, m <= x < m + Z.of_nat n -> peek h' (at_ (x + k)) = peek h (at_ (m + (x - m) mod k))) /\
    (forall p, alive h p -> alive h' p) /\
    only_changes (fun p => exists x, m <= x < m + Z.of_nat n /\ p = at_ (x + k)) h h'.
Proof.
  intros Hinj Hk n. induction n as [|n IH]; intros h Ha.
  - exists h. split; [reflexivity|]. split; [intros; lia|]. split; [auto|apply only_changes_refl].
  - destruct (IH h) as [h1 [E1 [Hv [Hal Hc]]]]; [intros; apply Ha; lia|].
    destruct (Ha (m + Z.of_nat n)) as [Hs Hd]; [lia|].
    set (x := m + Z.of_nat n) in *.
    destruct (Hal _ Hs) as [v Hsv]. destruct (Hal _ Hd) as [w Hdw].
    replace (zseq m (S n)) with (zseq m n ++ [x]).
    2:{ replace (S n) with (n + 1)%nat by lia. rewrite zseq_app. reflexivity. }
    rewrite map_app, foldM_app, E1. cbn [bind map foldM]. unfold copy_assign.
    cbn [fst snd]. rewrite (proj2 (load_holds h1 _ v) Hsv). cbn [bind]. rewrite store_ok by (exists w; auto). cbn [bind].
    eexists. split; [reflexivity|].
    assert (Hnew : peek (upd h1 (at_ (x + k)) (Live v)) (at_ (x + k)) = Some (Live v)).
    { apply peek_upd_same. unfold holds in Hdw. congruence. }
    (* the value read is that of the start of the cycle *)
    assert (Hval : Some (Live v) = peek h (at_ (m + (x - m) mod k))).
    { rewrite <- Hsv. destruct (Z_lt_ge_dec (x - m) k) as [L|G].
      - rewrite Z.mod_small by lia. replace (m + (x - m)) with x by lia.
        destruct Hc as [Hc _]. apply Hc. intros [y [Hy E]]. apply Hinj in E. lia.
      - replace x with ((x - k) + k) at 1 by lia. rewrite Hv by lia. f_equal. f_equal. f_equal.
        replace (x - m) with ((x - k - m) + 1 * k) by lia. rewrite Z.mod_add by lia. auto. }
    split; [|split].
    + intros y Hy. destruct (Z.eq_dec y x) as [->|N].
      * rewrite Hnew. exact Hval.
      * rewrite peek_upd_other by (intros C; apply Hinj in C; lia). apply Hv. lia.
    + intros p Hp. destruct (ptr_eqb (at_ (x + k)) p) eqn:E.
      * apply ptr_eqb_eq in E. subst p. exists v. exact Hnew.
      * destruct (Hal p Hp) as [u Hu]. exists u. unfold holds. rewrite peek_upd_other; auto. intros C.
        rewrite (proj2 (ptr_eqb_eq _ _) C) in E. discriminate.
    + change (upd h1 (at_ (x + k)) (Live v)) with (upds h1 [(at_ (x + k), Live v)]).
      eapply only_changes_then.
      * eapply only_changes_more; [|exact Hc]. intros p [y [Hy Ey]]. exists y. split; auto. lia.
      * apply upds_only_changes. intros p [<-|[]]. exists x. split; auto. lia.
Qed.

Lemma in_bounds_1 d i : in_bounds [d] i <-> exists x, i = [x] /\ in_dim d x.
Proof.
  split.
  - intros H. inv H. inv H4. exists y. auto.
  - intros [x [-> H]]. repeat constructor; apply H.
Qed.

Lemma copy_shifted nd h src ds dst dd k : 0 <= dext dd -> within [dd] [ds] ->
  shifted src ds dst dd k ->
  (forall x, in_dim dd x -> alive h (elem src [ds] [x]) /\ alive h (elem dst [dd] [x])) ->
  exists h', copy nd h (mkR src [ds]) (mkR dst [dd]) = Ok h' /\
    (forall x, in_dim dd x ->
       peek h' (elem dst [dd] [x]) =
       peek h (elem src [ds] [if 0 <? k then dmin dd + (x - dmin dd) mod k else x])) /\
    only_changes (is_elem dst [dd]) h h'.
Proof.
  intros Hd Hw [Est [Es Hsh]] Ha.
  assert (Hge : extents_ge 0 [dd]) by (repeat constructor; auto).
  assert (Hinj : forall x y, elem src [ds] [x] = elem src [ds] [y] -> x = y).
  { intros x y E. unfold elem in E. injection E as E. cbn [offset] in E. nia. }
  destruct (Z.ltb_spec 0 k) as [Hk|Hk].
  - unfold copy. cbn [r_shape r_base]. destruct (empty [dd]) eqn:E.
    + exists h. split; auto. split; [|apply only_changes_refl].
      intros x Hx. destruct (empty_no_index _ Hge E [x]). apply in_bounds_1. eauto.
    + assert (Hlen : length [ds] = length [dd]) by reflexivity.
      rewrite (proj2 (in_range_corners _ _ Hlen (not_empty_ge1 _ Hge E)) Hw). cbn [assert_ bind].
      pose proof (not_empty_ge1 _ Hge E) as Hg1. inv Hg1.
      assert (Hx0 : in_dim dd (dmin dd)) by (unfold in_dim; lia).
      destruct (Ha _ Hx0) as [A1 A2].
      rewrite values_copy_1 by (apply is_null_block; [exact (alive_block _ _ A1) || exact (alive_block _ _ A2)]).
      cbn [bind].
      rewrite (map_ext _ (fun x => (elem src [ds] [x], elem src [ds] [x + k]))).
      2:{ intros x. rewrite Hsh. auto. }
      destruct (smear (fun x => elem src [ds] [x]) k (dmin dd) Hinj Hk (Z.to_nat (dext dd)) h) as [h' [F [Hv [_ Hc]]]].
      { intros x Hx. rewrite <- Hsh. apply Ha. unfold in_dim. lia. }
      exists h'. split; [exact F|]. split.
      * intros x Hx. rewrite Hsh. apply Hv. unfold in_dim in Hx. lia.
      * eapply only_changes_more; [|exact Hc]. intros p [x [Hx ->]]. exists [x]. split.
        -- apply in_bounds_1. exists x. split; auto. unfold in_dim. lia.
        -- symmetry. apply Hsh.
  - destruct (copy_via nd h (mkR src [ds]) (mkR dst [dd])) as [h' [E [Hv Hc]]]; cbn [r_shape r_base] in *; auto.
    + intros i j Hi Hj Eo. apply in_bounds_1 in Hi, Hj. destruct Hi as [x [-> Hx]], Hj as [y [-> Hy]].
      cbn [offset] in Eo. f_equal. nia.
    + intros i Hi. apply in_bounds_1 in Hi. destruct Hi as [x [-> Hx]]. apply Ha. auto.
    + intros i Hi. apply in_bounds_1 in Hi. destruct Hi as [x [-> Hx]]. apply Ha. auto.
    + intros d l Hen Hvl Hnd Hal. apply fold_copy_ordered; auto.
      destruct l as [|i0 l0]; [constructor|].
      assert (Hx0 : in_bounds [dd] i0) by (apply Hen; left; auto).
      apply in_bounds_1 in Hx0. destruct Hx0 as [x0 [-> Hx0]]. destruct (Ha _ Hx0) as [A1 A2].
      rewrite values_copy_1 in Hvl by (apply is_null_block; [exact (alive_block _ _ A1) || exact (alive_block _ _ A2)]).
      injection Hvl as Hvl. change (pair_at (mkR src [ds]) (mkR dst [dd]) [x0] :: map (pair_at (mkR src [ds]) (mkR dst [dd])) l0)
        with (map (pair_at (mkR src [ds]) (mkR dst [dd])) ([x0] :: l0)) in Hvl. rewrite <- Hvl.
      pose proof (zseq_sorted (dmin dd) (Z.to_nat (dext dd))) as Hs. revert Hs. clear -Hinj Hsh Hk.
      generalize (zseq (dmin dd) (Z.to_nat (dext dd))). induction 1 as [|x r Hs IH Hx]; simpl; constructor; auto.
      apply Forall_forall. intros ab Hab. apply in_map_iff in Hab. destruct Hab as [y [<- Hy]]. cbn [fst snd].
      rewrite Hsh. intros C. apply Hinj in C. rewrite Forall_forall in Hx. specialize (Hx y Hy). lia.
    + exists h'. split; [exact E|]. split; auto. intros x Hx. apply Hv. apply in_bounds_1. eauto.
Qed.

Lemma copy_down_nested nd h src dst : length (r_shape src) = length (r_shape dst) ->
  extents_ge 0 (r_shape dst) -> within (r_shape dst) (r_shape src) ->
  nested (r_shape dst) -> ascending (r_shape dst) ->
  (forall i, in_bounds (r_shape dst) i -> alive h (elem (r_base src) (r_shape src) i)) ->
  (forall i, in_bounds (r_shape dst) i -> alive h (elem (r_base dst) (r_shape dst) i)) ->
  moves_down (r_base src) (r_shape src) (r_base dst) (r_shape dst) ->
  exists h', copy nd h src dst = Ok h' /\
    (forall i, in_bounds (r_shape dst) i ->
       peek h' (elem (r_base dst) (r_shape dst) i) = peek h (elem (r_base src) (r_shape src) i)) /\
    only_changes (is_elem (r_base dst) (r_shape dst)) h h'.
Proof. intros. apply copy_down; auto. apply nested_injective; auto. Qed.
End Copy.
