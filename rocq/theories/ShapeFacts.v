(** Basic facts about sums, offsets and flat ranges (C01-C03, C08-C10). *)
From Verif Require Import Tac Interval Shape Spec.
Import ListNotations.
Open Scope Z_scope.

(** ** List helpers *)

Lemma map2_length {A B C} (f : A -> B -> C) la lb :
  length la = length lb -> length (map2 f la lb) = length la.
Proof. revert lb. induction la as [|a la IH]; destruct lb; simpl; intros; try lia. rewrite IH; lia. Qed.

Lemma list4_ind {A} (P : list A -> Prop) :
  P [] -> (forall a, P [a]) -> (forall a b, P [a; b]) -> (forall a b c, P [a; b; c]) ->
  (forall a b c d l, P l -> P (a :: b :: c :: d :: l)) -> forall l, P l.
Proof.
  intros H0 H1 H2 H3 H4. fix IH 1.
  intros [|a [|b [|c [|d l]]]]; [exact H0 | apply H1 | apply H2 | apply H3 | apply H4, IH].
Qed.

Lemma Forall2_len {A B} (R : A -> B -> Prop) la lb : Forall2 R la lb -> length la = length lb.
Proof. induction 1; simpl; auto. Qed.

Definition lsum (l : list Z) : Z := fold_right Z.add 0 l.

Lemma vsum_lsum l : vsum l = lsum l.
Proof. induction l using list4_ind; simpl; unfold lsum in *; simpl; lia. Qed.

Lemma vsum_cons x l : vsum (x :: l) = x + vsum l.
Proof. rewrite !vsum_lsum. reflexivity. Qed.

Lemma vsum_app a b : vsum (a ++ b) = vsum a + vsum b.
Proof. induction a; simpl app; rewrite ?vsum_cons; [reflexivity | lia]. Qed.

Lemma vall_cons b l : vall (b :: l) = b && vall l.
Proof.
  unfold vall. simpl map. rewrite vsum_cons.
  assert (H : 0 <= vsum (map (fun b0 : bool => if b0 then 0 else 1) l)).
  { induction l; [reflexivity|]. simpl map. rewrite vsum_cons. destruct a; lia. }
  destruct b; lia.
Qed.

Lemma vall_true l : vall l = true <-> Forall (fun b => b = true) l.
Proof.
  induction l.
  - split; [constructor | reflexivity].
  - rewrite vall_cons. rewrite andb_true_iff, IHl. split.
    + intros [? ?]; constructor; auto.
    + intros H; inv H; auto.
Qed.

Lemma vall_map {A} (f : A -> bool) l : vall (map f l) = true <-> Forall (fun x => f x = true) l.
Proof. rewrite vall_true, Forall_map. reflexivity. Qed.

(** ** Offsets *)

Lemma flat_offset_cons d s x i : flat_offset (d :: s) (x :: i) = (x - dmin d) * dstr d + flat_offset s i.
Proof. unfold flat_offset. simpl map2. rewrite vsum_cons. reflexivity. Qed.

Lemma flat_offset_spec s i : flat_offset s i = offset s i.
Proof.
  revert i. induction s as [|d s IH]; intros [|x i]; try reflexivity.
  rewrite flat_offset_cons, IH. reflexivity.
Qed.

Lemma offset_mins s : offset s (map dmin s) = 0.
Proof. induction s as [|d s IH]; simpl; [reflexivity|]. rewrite IH. lia. Qed.

Lemma offset_move s i v : length i = length s -> length v = length s ->
  offset s (map2 Z.add i v) = offset s i + lsum (map2 (fun d x => x * dstr d) s v).
Proof.
  revert i v. induction s as [|d s IH]; intros [|x i] [|y v] Hi Hv; simpl in *; try lia.
  rewrite IH by lia. unfold lsum. simpl. lia.
Qed.

Lemma in_bounds_length s i : in_bounds s i -> length i = length s.
Proof. intro H. symmetry. exact (Forall2_len _ _ _ H). Qed.

Lemma in_bounds_ext_pos s i : in_bounds s i -> extents_ge 1 s.
Proof. intro H. induction H; constructor; auto. unfold in_dim in *. lia. Qed.

Lemma mins_in_bounds s : extents_ge 1 s -> in_bounds s (map dmin s).
Proof. intro H. induction H; simpl; constructor; auto. unfold in_dim. lia. Qed.

Lemma flat_min_cons d s : flat_min (d :: s) = (dext d - 1) * cmin 0 (dstr d) + flat_min s.
Proof. unfold flat_min. simpl map. apply vsum_cons. Qed.
Lemma flat_max_cons d s : flat_max (d :: s) = (dext d - 1) * cmax 0 (dstr d) + flat_max s.
Proof. unfold flat_max. simpl map. apply vsum_cons. Qed.

Lemma dim_offset_range d x : in_dim d x ->
  (dext d - 1) * cmin 0 (dstr d) <= (x - dmin d) * dstr d <= (dext d - 1) * cmax 0 (dstr d).
Proof.
  unfold in_dim, cmin, cmax. intros.
  destruct (Z.ltb_spec (dstr d) 0); destruct (Z.ltb_spec 0 (dstr d)); nia.
Qed.

Lemma offset_range s i : in_bounds s i -> flat_min s <= offset s i <= flat_max s.
Proof.
  intro H. induction H.
  - cbn. lia.
  - rewrite flat_min_cons, flat_max_cons. simpl offset. pose proof (dim_offset_range _ _ H). lia.
Qed.

Lemma flat_min_attained s : extents_ge 1 s -> exists i, in_bounds s i /\ offset s i = flat_min s.
Proof.
  intro H. induction H as [|d s Hd Hs [i [Hi Ho]]].
  - exists []. split; [constructor | reflexivity].
  - exists ((if dstr d <? 0 then dmin d + dext d - 1 else dmin d) :: i). split.
    + constructor; auto. unfold in_dim. destruct (dstr d <? 0); lia.
    + simpl. rewrite flat_min_cons, Ho. unfold cmin. destruct (Z.ltb_spec (dstr d) 0); nia.
Qed.

Lemma flat_max_attained s : extents_ge 1 s -> exists i, in_bounds s i /\ offset s i = flat_max s.
Proof.
  intro H. induction H as [|d s Hd Hs [i [Hi Ho]]].
  - exists []. split; [constructor | reflexivity].
  - exists ((if 0 <? dstr d then dmin d + dext d - 1 else dmin d) :: i). split.
    + constructor; auto. unfold in_dim. destruct (0 <? dstr d); lia.
    + simpl. rewrite flat_max_cons, Ho. unfold cmax. destruct (Z.ltb_spec 0 (dstr d)); nia.
Qed.

Lemma flat_min_le_0 s : extents_ge 1 s -> flat_min s <= 0.
Proof. intro H. pose proof (offset_range _ _ (mins_in_bounds _ H)). rewrite offset_mins in *. lia. Qed.
Lemma flat_max_ge_0 s : extents_ge 1 s -> 0 <= flat_max s.
Proof. intro H. pose proof (offset_range _ _ (mins_in_bounds _ H)). rewrite offset_mins in *. lia. Qed.

Lemma flat_extent_nonempty s : extents_ge 1 s ->
  flat_extent s = flat_max s - flat_min s + 1 /\ 1 <= flat_extent s.
Proof.
  intro H. pose proof (flat_min_le_0 _ H). pose proof (flat_max_ge_0 _ H).
  unfold flat_extent. ifs; lia.
Qed.

(** ** Counting indices *)

Lemma zseq_In lo n x : In x (zseq lo n) <-> lo <= x < lo + Z.of_nat n.
Proof.
  revert lo. induction n as [|n IH]; intro lo; simpl zseq.
  - simpl. lia.
  - simpl In. rewrite IH. lia.
Qed.

Lemma zseq_length lo n : length (zseq lo n) = n.
Proof. revert lo. induction n; simpl; auto. Qed.

Lemma zseq_NoDup lo n : NoDup (zseq lo n).
Proof.
  revert lo. induction n; simpl; constructor; auto. rewrite zseq_In. lia.
Qed.

Lemma zseq_sorted lo n : StronglySorted Z.lt (zseq lo n).
Proof.
  revert lo. induction n; simpl; constructor; auto.
  apply Forall_forall. intros x H. rewrite zseq_In in H. lia.
Qed.

Lemma zseq_app lo n m : zseq lo (n + m) = zseq lo n ++ zseq (lo + Z.of_nat n) m.
Proof.
  revert lo. induction n as [|n IH]; intro lo.
  - cbn. f_equal. lia.
  - cbn [zseq plus app]. rewrite IH. do 3 f_equal. lia.
Qed.

Lemma zseq_shift lo n k : zseq (lo + k) n = map (fun x => x + k) (zseq lo n).
Proof. revert lo. induction n; intros; simpl; auto. rewrite <- IHn. do 2 f_equal. lia. Qed.

Definition dim_list (d : dim) : list Z := zseq (dmin d) (Z.to_nat (dext d)).

Lemma dim_list_In d x : In x (dim_list d) <-> in_dim d x.
Proof. unfold dim_list. rewrite zseq_In. unfold in_dim. lia. Qed.

(** All in-range indices, first dimension varying fastest. *)
Fixpoint box (s : list dim) : list (list Z) :=
  match s with
  | [] => [[]]
  | d :: s' => flat_map (fun i => map (fun x => x :: i) (dim_list d)) (box s')
  end.

Lemma box_In s i : In i (box s) <-> in_bounds s i.
Proof.
  revert i. induction s as [|d s IH]; intro i; simpl.
  - split.
    + intros [<-|[]]. constructor.
    + intro H; inv H; auto.
  - rewrite in_flat_map. split.
    + intros [j [Hj Hi]]. rewrite in_map_iff in Hi. destruct Hi as [x [<- Hx]].
      constructor; [apply dim_list_In, Hx | apply IH, Hj].
    + intro H. inv H. exists l'. split; [apply IH; assumption|].
      apply in_map_iff. exists y. split; [reflexivity | apply dim_list_In; assumption].
Qed.

Lemma NoDup_app {A} (l1 l2 : list A) :
  NoDup l1 -> NoDup l2 -> (forall x, In x l1 -> In x l2 -> False) -> NoDup (l1 ++ l2).
Proof.
  intros H1 H2 H. induction H1; simpl; auto. constructor.
  - rewrite in_app_iff. intros [?|?]; [auto | eapply H; [left; reflexivity | assumption]].
  - apply IHNoDup. intros y Hy. apply H. right; assumption.
Qed.

Lemma NoDup_flat_map {A B} (f : A -> list B) l :
  NoDup l -> (forall a, In a l -> NoDup (f a)) ->
  (forall a b x, In a l -> In b l -> In x (f a) -> In x (f b) -> a = b) -> NoDup (flat_map f l).
Proof.
  intros H Hf Hd. induction H; simpl; [constructor|]. apply NoDup_app.
  - apply Hf. left; reflexivity.
  - apply IHNoDup; intros; [apply Hf; right; assumption|]. eapply Hd; try (right; eassumption); eassumption.
  - intros y Hy1 Hy2. apply in_flat_map in Hy2. destruct Hy2 as [b [Hb Hyb]].
    assert (x = b) by (eapply Hd; [left; reflexivity | right; assumption | eassumption | assumption]).
    subst. contradiction.
Qed.

Lemma NoDup_map_inj {A B} (f : A -> B) l :
  (forall x y, In x l -> In y l -> f x = f y -> x = y) -> NoDup l -> NoDup (map f l).
Proof.
  intros Hf H. induction H; simpl; constructor.
  - rewrite in_map_iff. intros [y [Hy1 Hy2]]. apply Hf in Hy1; [subst; contradiction | right; auto | left; auto].
  - apply IHNoDup. intros; apply Hf; auto; right; assumption.
Qed.

Lemma box_NoDup s : NoDup (box s).
Proof.
  induction s as [|d s IH]; simpl.
  - constructor; [simpl; tauto | constructor].
  - apply NoDup_flat_map; auto.
    + intros a _. apply NoDup_map_inj; [intros; congruence | apply zseq_NoDup].
    + intros a b x _ _ Ha Hb. apply in_map_iff in Ha, Hb.
      destruct Ha as [? [<- _]], Hb as [? [E _]]. congruence.
Qed.

Lemma box_enumerates s : enumerates (in_bounds s) (box s).
Proof. split; [apply box_NoDup | apply box_In]. Qed.

Lemma flat_map_length_const {A B} (f : A -> list B) n l :
  (forall a, In a l -> length (f a) = n) -> length (flat_map f l) = (length l * n)%nat.
Proof.
  induction l; intros; simpl; auto. rewrite app_length, IHl, H; auto; [left; auto | intros; apply H; right; auto].
Qed.

Lemma box_length_cons d s : length (box (d :: s)) = (length (box s) * Z.to_nat (dext d))%nat.
Proof.
  simpl. apply flat_map_length_const. intros. rewrite map_length. unfold dim_list. apply zseq_length.
Qed.

Lemma size_box s : extents_ge 0 s -> size s = Z.of_nat (length (box s)).
Proof.
  intro H. unfold size.
  assert (E : vproduct (extents s) = Z.of_nat (length (box s))).
  { induction H; [reflexivity|]. rewrite box_length_cons.
    change (vproduct (extents (x :: l))) with (dext x * vproduct (extents l)). rewrite IHForall. lia. }
  rewrite E. destruct (Z.ltb_spec (Z.of_nat (length (box s))) 0); lia.
Qed.

Lemma enumerates_length {A} (P : A -> Prop) l1 l2 :
  enumerates P l1 -> enumerates P l2 -> length l1 = length l2.
Proof.
  intros [N1 H1] [N2 H2].
  apply Nat.le_antisymm; apply NoDup_incl_length; auto; intros x; rewrite H1, H2; auto.
Qed.

Lemma enumerates_perm {A} (P : A -> Prop) l1 l2 :
  enumerates P l1 -> enumerates P l2 -> Permutation l1 l2.
Proof.
  intros [N1 H1] [N2 H2]. apply NoDup_Permutation; auto. intro x. rewrite H1, H2. reflexivity.
Qed.

Lemma size_counts s : extents_ge 0 s -> has_count (in_bounds s) (size s).
Proof. intro H. exists (box s). split; [apply box_enumerates | symmetry; apply size_box, H]. Qed.

Lemma empty_iff s : extents_ge 0 s -> (empty s = true <-> forall i, ~ in_bounds s i).
Proof.
  intro H. unfold empty. rewrite size_box by assumption. rewrite Z.eqb_eq. split.
  - intros E i Hi. apply box_In in Hi. destruct (box s); simpl in *; [auto | lia].
  - intro E. destruct (box s) eqn:B; auto. exfalso. apply (E l). apply box_In. rewrite B. left; auto.
Qed.

Lemma size_pos s : extents_ge 1 s -> 1 <= size s.
Proof.
  intro H. assert (H0 : extents_ge 0 s) by (eapply Forall_impl; [|exact H]; simpl; intros; lia).
  rewrite size_box by assumption.
  assert (In (map dmin s) (box s)) by (apply box_In, mins_in_bounds, H).
  destruct (box s); [contradiction | simpl; lia].
Qed.

(** ** is_one_to_one, is_compact *)

(** A list longer than the range it maps into has a repetition. *)
Lemma pigeonhole {A} (f : A -> Z) (l : list A) lo hi :
  lo <= hi -> NoDup l -> (forall x, In x l -> lo <= f x <= hi) ->
  hi - lo + 1 < Z.of_nat (length l) ->
  exists x y, In x l /\ In y l /\ x <> y /\ f x = f y.
Proof.
  intros B N R L.
  destruct (ListDec.NoDup_dec Z.eq_dec (map f l)) as [D|D].
  - exfalso. assert (incl (map f l) (zseq lo (Z.to_nat (hi - lo + 1)))).
    { intros y Hy. apply in_map_iff in Hy. destruct Hy as [x [<- Hx]]. apply R in Hx. apply zseq_In. lia. }
    apply NoDup_incl_length in H; auto. rewrite map_length, zseq_length in H. lia.
  - clear R L. revert D. induction N; intro D.
    + destruct D. constructor.
    + destruct (in_dec Z.eq_dec (f x) (map f l)) as [I|I].
      * apply in_map_iff in I. destruct I as [y [E Hy]].
        exists x, y. repeat split; [left; auto | right; auto | intros ->; contradiction | congruence].
      * destruct IHN as [a [b [? [? [? ?]]]]].
        { intro D'. apply D. simpl. constructor; auto. }
        exists a, b. repeat split; try (right; assumption); auto.
Qed.

Lemma ge1_ge0 s : extents_ge 1 s -> extents_ge 0 s.
Proof. intro H. eapply Forall_impl; [|exact H]. simpl; intros; lia. Qed.

Lemma not_one_to_one_collision s : extents_ge 1 s -> is_one_to_one s = false ->
  exists i j, in_bounds s i /\ in_bounds s j /\ i <> j /\ offset s i = offset s j.
Proof.
  intros H E. unfold is_one_to_one in E.
  destruct (flat_extent_nonempty _ H) as [F _]. rewrite size_box in E by (apply ge1_ge0; auto).
  destruct (pigeonhole (offset s) (box s) (flat_min s) (flat_max s)) as [i [j [Hi [Hj [? ?]]]]].
  - pose proof (flat_min_le_0 _ H). pose proof (flat_max_ge_0 _ H). lia.
  - apply box_NoDup.
  - intros x Hx. apply offset_range, box_In, Hx.
  - lia.
  - exists i, j. rewrite <- !box_In. auto.
Qed.

Lemma onto_compact s : extents_ge 1 s ->
  (forall o, flat_min s <= o <= flat_max s -> exists i, in_bounds s i /\ offset s i = o) ->
  is_compact s = true.
Proof.
  intros H O. unfold is_compact.
  destruct (flat_extent_nonempty _ H) as [F _]. rewrite size_box by (apply ge1_ge0; auto).
  assert (incl (zseq (flat_min s) (Z.to_nat (flat_max s - flat_min s + 1))) (map (offset s) (box s))).
  { intros o Ho. apply zseq_In in Ho. destruct (O o) as [i [Hi <-]]; [lia|]. apply in_map, box_In, Hi. }
  apply NoDup_incl_length in H0; [|apply zseq_NoDup]. rewrite zseq_length, map_length in H0. lia.
Qed.

(** compact and injective together mean: a bijection onto the flat range *)
Lemma compact_injective_onto s : extents_ge 1 s -> injective_layout s -> is_compact s = true ->
  forall o, flat_min s <= o <= flat_max s -> exists i, in_bounds s i /\ offset s i = o.
Proof.
  intros H I C o Ho. unfold is_compact in C.
  destruct (flat_extent_nonempty _ H) as [F _]. rewrite size_box in C by (apply ge1_ge0; auto).
  assert (Hin : incl (zseq (flat_min s) (Z.to_nat (flat_max s - flat_min s + 1))) (map (offset s) (box s))).
  { apply NoDup_length_incl.
    - apply NoDup_map_inj; [|apply box_NoDup]. intros x y Hx Hy. apply I; apply box_In; assumption.
    - rewrite zseq_length, map_length. lia.
    - intros x Hx. apply in_map_iff in Hx. destruct Hx as [i [<- Hi]].
      pose proof (offset_range s i). rewrite box_In in Hi. apply zseq_In. lia. }
  assert (In o (map (offset s) (box s))) as Ho'.
  { apply Hin, zseq_In. lia. }
  apply in_map_iff in Ho'. destruct Ho' as [i [E Hi]]. exists i. rewrite <- box_In. auto.
Qed.

(** ** is_in_range *)

Lemma index_in_range_iff s i : length i = length s -> (index_in_range s i = true <-> in_bounds s i).
Proof.
  unfold index_in_range, is_in_range.
  revert i. induction s as [|d s IH]; intros [|x i] Hl; simpl in Hl; try lia; simpl map; simpl map2.
  - split; [constructor | reflexivity].
  - rewrite vall_cons, andb_true_iff, IH by lia. split.
    + intros [H1 H2]. constructor; auto. unfold in_dim. cbn in H1. unfold i_in_range, imax in H1. simpl in H1. lia.
    + intros H. inv H. split; auto. cbn. unfold in_dim in *. unfold i_in_range, imax; simpl. lia.
Qed.

Lemma i_in_range_interval_iff i a : 1 <= iext a ->
  (i_in_range_interval i a = true <-> forall x, in_interval a x -> in_interval i x).
Proof.
  intro H. unfold i_in_range_interval, imax, in_interval. split.
  - intros; lia.
  - intros Hx. pose proof (Hx (imin a)). pose proof (Hx (imin a + iext a - 1)). lia.
Qed.
