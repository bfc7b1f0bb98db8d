(** Facts about nests of loops over the dimensions of an array and over tiles of it. *)
From Coq Require Import Sorted Permutation.
From Verif Require Import Tac Interval Shape Traverse Memory Ref Spec SpecMem SpecEin
  Matrix SpecMatrix ShapeFacts IntervalFacts TraverseFacts MemFacts RefFacts SliceFacts EinFacts TileFacts MatrixFacts.
Import ListNotations.
Open Scope Z_scope.

Lemma nth_in_dim k : forall s p d, in_bounds s p -> nth_error s k = Some d -> in_dim d (nth k p 0).
Proof.
  induction k as [|k IH]; intros s p d H E; destruct H; cbn in *; try discriminate; [inv E; auto|eauto].
Qed.

Section Loops.
Context {V : Type}.
Implicit Types (h : heap V) (C : aref) (P : list Z -> bool).

(** The body of the loop handles the elements that have [x] at position [k] *)
Lemma refines_dim C h0 k d P T (body : heap V -> Z -> outcome (heap V)) : nth_error (r_shape C) k = Some d -> 0 <= dext d ->
  (forall x, in_dim d x -> refines C h0 (fun h => body h x) (fun p w => if P p && (nth k p 0 =? x) then T p w else w)) ->
  refines C h0 (for_in (for_dim d) body) (fun p w => if P p then T p w else w).
Proof.
  intros Hk X H.
  apply (refines_for_once C h0 (range (dmin d) (dext d)) _ _
    (fun x p w => if P p && (nth k p 0 =? x) then T p w else w) (fun p => nth k p 0)).
  - apply for_dim_range. auto.
  - apply range_NoDup.
  - intros x Hx. apply in_dim_range in Hx. auto.
  - intros p Hp. apply in_dim_range. eapply nth_in_dim; eauto.
  - intros p x w _ _ N. replace (nth k p 0 =? x) with false by lia. rewrite andb_false_r. reflexivity.
  - intros p w _. rewrite Z.eqb_refl, andb_true_r. reflexivity.
Qed.
(** The same over part of the dimension *)
Lemma refines_interval C h0 k v P T (body : heap V -> Z -> outcome (heap V)) : 0 <= iext v ->
  (forall x, in_interval v x -> refines C h0 (fun h => body h x) (fun p w => if P p && (nth k p 0 =? x) then T p w else w)) ->
  refines C h0 (for_in (for_interval v) body) (fun p w => if P p && containsb (nth k p 0) v then T p w else w).
Proof.
  intros X H. eapply refines_ext; [|apply (refines_for C h0 (range (imin v) (iext v)) _ _
    (fun x p w => if P p && (nth k p 0 =? x) then T p w else w)); [apply for_interval_range; auto|]].
  - cbn beta. intros p w _. destruct (P p) eqn:EP; cbn [andb].
    + destruct (containsb (nth k p 0) v) eqn:E.
      * apply containsb_spec, in_interval_range in E. rewrite (fold_once _ _ w (nth k p 0)); auto using range_NoDup.
        -- rewrite Z.eqb_refl. reflexivity.
        -- intros s x _ N. replace (nth k p 0 =? x) with false by lia. reflexivity.
      * apply fold_id. intros s x Hx. apply in_interval_range in Hx.
        destruct (Z.eqb_spec (nth k p 0) x) as [<-|]; [|reflexivity]. apply containsb_spec in Hx. congruence.
    + apply fold_id. reflexivity.
  - intros x Hx. apply in_interval_range in Hx. auto.
Qed.
(** A loop over pieces that cover the dimension, with a result that does not depend on what was
    there before *)
Lemma refines_pieces C h0 k d P (T : list Z -> V) l ol (body : heap V -> interval -> outcome (heap V)) : ol = Ok l ->
  nth_error (r_shape C) k = Some d -> (forall x, in_dim d x -> exists v, In v l /\ in_interval v x) ->
  (forall v, In v l -> refines C h0 (fun h => body h v) (fun p w => if P p && containsb (nth k p 0) v then T p else w)) ->
  refines C h0 (for_in ol body) (fun p w => if P p then T p else w).
Proof.
  intros E Hk Cov H. eapply refines_ext; [|apply (refines_for C h0 l _ _
    (fun v p w => if P p && containsb (nth k p 0) v then T p else w)); auto].
  cbn beta. intros p w Hp. destruct (P p) eqn:EP; cbn [andb].
  - destruct (Cov (nth k p 0)) as (v & Iv & Cv); [eapply nth_in_dim; eauto|]. apply containsb_spec in Cv. clear -Iv Cv.
    assert (Q : forall l, fold_left (fun w v => if containsb (nth k p 0) v then T p else w) l (T p) = T p).
    { clear. induction l as [|a l IH]; [reflexivity|]. cbn [fold_left]. destruct (containsb _ a); auto. }
    revert w. induction l as [|a l IH]; intro w; [destruct Iv|]. cbn [fold_left]. destruct Iv as [->|Iv].
    + rewrite Cv. apply Q.
    + apply IH. auto.
  - apply fold_id. reflexivity.
Qed.
(** A loop that accumulates *)
Lemma refines_acc {A} C h0 P l ol (step : A -> list Z -> V -> V) (body : heap V -> A -> outcome (heap V)) : ol = Ok l ->
  (forall a, In a l -> refines C h0 (fun h => body h a) (fun p w => if P p then step a p w else w)) ->
  refines C h0 (for_in ol body) (fun p w => if P p then fold_left (fun w a => step a p w) l w else w).
Proof.
  intros E H. eapply refines_ext; [|apply (refines_for C h0 l _ _ (fun a p w => if P p then step a p w else w)); auto].
  cbn beta. intros p w _. destruct (P p); [reflexivity|]. apply fold_id. reflexivity.
Qed.
(** One statement after another *)
Lemma refines_then C h0 P b1 b2 (T1 T2 : list Z -> V -> V) :
  refines C h0 b1 (fun p w => if P p then T1 p w else w) -> refines C h0 b2 (fun p w => if P p then T2 p w else w) ->
  refines C h0 (fun h => h1 <- b1 h ;; b2 h1) (fun p w => if P p then T2 p (T1 p w) else w).
Proof.
  intros H1 H2. eapply refines_ext; [|apply refines_seq; eassumption]. cbn beta. intros p w _. destruct (P p); reflexivity.
Qed.

Lemma refines_same C h0 (b1 b2 : heap V -> outcome (heap V)) T : (forall h, b1 h = b2 h) -> refines C h0 b1 T -> refines C h0 b2 T.
Proof. intros E R h g St. rewrite <- E. auto. Qed.

Lemma usable_changes (Q : ptr -> Prop) h h' : only_changes Q h h' -> usable_heap h -> usable_heap h'.
Proof.
  intros (_ & N & B) (U1 & U2 & U3). unfold usable_heap. rewrite N. split; [auto|]. split.
  - specialize (B 0%nat). rewrite U2 in B. destruct (h_blk h' 0%nat); [discriminate|auto].
  - intros k Hk. specialize (B k). rewrite U3 in B by auto. destruct (h_blk h' k); [discriminate|auto].
Qed.
(** Filling a slice *)
Lemma refines_fill C h0 nd args v P : injective_layout (r_shape C) -> length args = length (r_shape C) ->
  args_within args (r_shape C) -> extents_ge 0 (r_shape C) -> extents_ge 0 (shape_slice (r_shape C) args) ->
  (forall p, in_bounds (r_shape C) p ->
     (P p = true <-> Forall2 (fun ad x => selects (fst ad) (snd ad) x) (combine args (r_shape C)) p)) ->
  refines C h0 (fun h => fill nd h (ref_slice C args) v) (fun p w => if P p then v else w).
Proof.
  intros Inj L W X Xs HP h g (U & S & O).
  assert (Nz : (forall p, ~ in_bounds (r_shape C) p) \/ fst (r_base C) <> 0%nat).
  { destruct (box (r_shape C)) as [|p l] eqn:B.
    - left. intros p Hp. apply box_In in Hp. rewrite B in Hp. destruct Hp.
    - right. assert (Hp : in_bounds (r_shape C) p) by (apply box_In; rewrite B; left; auto).
      apply (peek_block h (elem (r_base C) (r_shape C) p) (Live (g p))). apply S. auto. }
  assert (Sub : forall i, in_bounds (r_shape (ref_slice C args)) i -> in_bounds (r_shape C) (full_index args i) /\
            elem (r_base (ref_slice C args)) (r_shape (ref_slice C args)) i = elem (r_base C) (r_shape C) (full_index args i)).
  { intros i Hi. pose proof (slice_in_bounds args (r_shape C) i L Hi) as [Li Se].
    pose proof (selects_within args (r_shape C) _ W Se) as Ib. split; [exact Ib|].
    destruct Nz as [Nz|Nz]; [destruct (Nz _ Ib)|]. destruct (slice_denotes C args L Nz) as (_ & Pt & _).
    rewrite <- elem_ref. apply Pt. auto. }
  destruct (fill_spec nd h (ref_slice C args) v) as (h' & E & H1 & H2).
  - exact Xs.
  - intros i Hi. destruct (Sub i Hi) as [I E]. rewrite E. eexists. apply S. auto.
  - exists h'. split; [exact E|]. split; [eapply usable_changes; eauto|]. split.
    + intros p Hp. destruct (P p) eqn:Ep.
      * apply HP in Ep; auto. destruct Nz as [Nz|Nz]; [destruct (Nz _ Hp)|].
        destruct (slice_denotes C args L Nz) as (_ & _ & _ & _ & Ex). apply Ex in Ep. destruct Ep as (i & Hi & <-).
        destruct (Sub i Hi) as [_ Ei]. rewrite <- Ei. apply H1. auto.
      * unfold holds. destruct H2 as (H2 & _). rewrite H2; [apply S; auto|]. intros (i & Hi & Ei).
        destruct (Sub i Hi) as [Ib E']. rewrite E' in Ei. apply elem_inj in Ei. apply Inj in Ei; auto. subst p.
        pose proof (slice_in_bounds args (r_shape C) i L Hi) as [_ Se]. apply HP in Se; auto. congruence.
    + intros p Hp. destruct H2 as (H2 & _). rewrite H2; [auto|]. intros (i & Hi & ->). apply Hp.
      destruct (Sub i Hi) as [Ib E']. rewrite E'. exists (full_index args i). auto.
Qed.
(** The element with index [i] of the slice *)
Lemma slice_ptr C h g h0 args i : mstate C h0 h g -> length args = length (r_shape C) -> length i = kept args ->
  in_bounds (r_shape C) (full_index args i) -> ref_ptr (ref_slice C args) i = ref_ptr C (full_index args i).
Proof.
  intros (U & S & O) L Li Ib.
  assert (Nz : fst (r_base C) <> 0%nat).
  { apply (peek_block h (elem (r_base C) (r_shape C) (full_index args i)) (Live (g (full_index args i)))). apply S. auto. }
  destruct (slice_denotes C args L Nz) as (_ & Pt & _). rewrite Pt by auto. rewrite elem_ref. reflexivity.
Qed.
(** The pieces of a split cover it *)
Lemma split_covers nd N d : 1 <= N <= dext d ->
  exists r l, split_static nd N (d_interval d) = Ok r /\ for_split (Some N) r = Ok l /\
    Forall (fun v => iext v = N /\ forall x, in_interval v x -> in_dim d x) l /\
    (forall x, in_dim d x -> exists v, In v l /\ in_interval v x).
Proof.
  intro H. destruct (static_tiles nd N (d_interval d) H) as (r & l & E1 & E2 & _ & _ & F & _ & Ct).
  exists r, l. split; [exact E1|]. split; [exact E2|]. split; [exact F|]. intros x Hx. specialize (Ct x 0 Hx). unfold count_in in Ct.
  destruct (filter (containsb x) l) as [|v r'] eqn:Ef.
  - cbn in Ct. unfold tile_count in Ct. destruct ((_ || _) || _); discriminate.
  - exists v. assert (I : In v (filter (containsb x) l)) by (rewrite Ef; left; auto). apply filter_In in I. rewrite containsb_spec in I. auto.
Qed.
End Loops.
