(** Facts about loops that update the elements of an array one by one. *)
From Coq Require Import Sorted Permutation.
From Verif Require Import Tac Interval Shape Traverse Memory Ref Spec SpecMem SpecContainer Static SpecStatic Container Ein SpecEin
  ZOrder SpecZ Matrix SpecMatrix
  ShapeFacts IntervalFacts ResolveFacts ShapeProps TraverseFacts MemFacts RefFacts SliceFacts ContainerFacts StaticFacts EinFacts EinSum EinMake EinUses
  ZOrderFacts.
Import ListNotations.
Open Scope Z_scope.

(** ** Folds *)
Lemma fold_id {A S} (f : S -> A -> S) l s : (forall s x, In x l -> f s x = s) -> fold_left f l s = s.
Proof.
  revert s. induction l as [|a l IH]; intros s H; cbn [fold_left]; [reflexivity|].
  rewrite H by (left; reflexivity). apply IH. intros; apply H; right; auto.
Qed.
Lemma fold_once {A S} (f : S -> A -> S) l s a : NoDup l -> In a l -> (forall s x, In x l -> x <> a -> f s x = s) ->
  fold_left f l s = f s a.
Proof.
  revert s. induction l as [|b l IH]; intros s N I H; [destruct I|]. apply NoDup_cons_iff in N. destruct N as [Ni N].
  cbn [fold_left]. destruct I as [->|I].
  - apply fold_id. intros s' x Hx. apply H; [right; auto|]. intros ->; auto.
  - rewrite (H s b); [|left; auto|intros ->; auto]. apply IH; auto. intros; apply H; [right|]; auto.
Qed.
Lemma fold_ext {A S} (f g : S -> A -> S) l s : (forall s x, In x l -> f s x = g s x) -> fold_left f l s = fold_left g l s.
Proof.
  revert s. induction l as [|b l IH]; intros s H; cbn [fold_left]; [reflexivity|].
  rewrite H by (left; auto). apply IH. intros; apply H; right; auto.
Qed.
Lemma fold_map {A B S} (f : S -> B -> S) (m : A -> B) l s : fold_left f (map m l) s = fold_left (fun s a => f s (m a)) l s.
Proof. revert s. induction l; intro s; cbn [map fold_left]; auto. Qed.

Lemma zseq_range lo n : zseq lo (Z.to_nat n) = range lo n.
Proof.
  unfold range. revert lo. induction (Z.to_nat n) as [|m IH]; intro lo; cbn [zseq seq map]; [reflexivity|].
  f_equal; [lia|]. rewrite IH, <- seq_shift, map_map. apply map_ext. intro; lia.
Qed.
Lemma range_NoDup lo n : NoDup (range lo n).
Proof. rewrite <- zseq_range. apply zseq_NoDup. Qed.
Lemma for_dim_range d : 0 <= dext d -> for_dim d = Ok (range (dmin d) (dext d)).
Proof. intro H. rewrite for_dim_ok by auto. unfold dim_list. rewrite zseq_range. auto. Qed.
Lemma for_interval_range i : 0 <= iext i -> for_interval i = Ok (range (imin i) (iext i)).
Proof. intro H. apply (for_dim_range (mkD (imin i) (iext i) 0)). auto. Qed.
Lemma in_dim_range d x : In x (range (dmin d) (dext d)) <-> in_dim d x.
Proof. apply range_In. Qed.
Lemma in_interval_range d x : In x (range (imin d) (iext d)) <-> in_interval d x.
Proof. apply range_In. Qed.

(** ** Element-wise updates *)
Section Refine.
Context {V : Type}.
Implicit Types (h : heap V) (C : aref).

Lemma usable_upd h p c : usable_heap h -> usable_heap (upd h p c).
Proof.
  intros (U1 & U2 & U3). unfold usable_heap, upd; cbn [h_next h_blk]. repeat split; auto.
  - destruct (Nat.eqb 0 (fst p)); rewrite ?U2; auto.
  - intros k Hk. destruct (Nat.eqb k (fst p)); rewrite U3; auto.
Qed.

(** C holds [g]; all else is as in [h0] *)
Definition mstate C h0 h (g : list Z -> V) : Prop :=
  usable_heap h /\ shows h C g /\ (forall p, ~ is_elem (r_base C) (r_shape C) p -> peek h p = peek h0 p).
(** [body] turns the element [w] at [i] into [T i w], and changes nothing else *)
Definition refines C h0 (body : heap V -> outcome (heap V)) (T : list Z -> V -> V) : Prop :=
  forall h g, mstate C h0 h g -> exists h', body h = Ok h' /\ mstate C h0 h' (fun i => T i (g i)).

Lemma mstate_ext C h0 h g g' : (forall i, in_bounds (r_shape C) i -> g i = g' i) -> mstate C h0 h g -> mstate C h0 h g'.
Proof. intros E (U & S & O). split; [exact U|]. split; [|exact O]. intros i Hi. rewrite <- E by auto. auto. Qed.
Lemma refines_ext C h0 body T T' : (forall i w, in_bounds (r_shape C) i -> T i w = T' i w) -> refines C h0 body T -> refines C h0 body T'.
Proof.
  intros E R h g H. destruct (R h g H) as (h' & B & H'). exists h'. split; [exact B|].
  eapply mstate_ext; [|exact H']. cbn beta. auto.
Qed.
Lemma refines_seq C h0 b1 b2 T1 T2 : refines C h0 b1 T1 -> refines C h0 b2 T2 ->
  refines C h0 (fun h => h1 <- b1 h ;; b2 h1) (fun i w => T2 i (T1 i w)).
Proof.
  intros R1 R2 h g H. destruct (R1 h g H) as (h1 & E1 & H1). destruct (R2 h1 _ H1) as (h2 & E2 & H2).
  exists h2. rewrite E1. auto.
Qed.
Lemma refines_fold {A} C h0 (l : list A) body T : (forall a, In a l -> refines C h0 (fun h => body h a) (T a)) ->
  refines C h0 (foldM body l) (fun i w => fold_left (fun w a => T a i w) l w).
Proof.
  intro H. induction l as [|a l IH].
  - intros h g S. exists h. split; [reflexivity|]. eapply mstate_ext; [|exact S]. reflexivity.
  - apply (refines_seq C h0 (fun h => body h a) (foldM body l) (T a) (fun i w => fold_left (fun w a => T a i w) l w)).
    + apply H. left. auto.
    + apply IH. intros. apply H. right. auto.
Qed.
Lemma refines_for {A} C h0 (l : list A) ol body T : ol = Ok l -> (forall a, In a l -> refines C h0 (fun h => body h a) (T a)) ->
  refines C h0 (for_in ol body) (fun i w => fold_left (fun w a => T a i w) l w).
Proof. intros -> H. apply refines_fold. auto. Qed.
(** A loop in which only one iteration touches each element *)
Lemma refines_for_once {A} C h0 (l : list A) ol body T (at_ : list Z -> A) (T' : list Z -> V -> V) : ol = Ok l ->
  NoDup l -> (forall a, In a l -> refines C h0 (fun h => body h a) (T a)) ->
  (forall i, in_bounds (r_shape C) i -> In (at_ i) l) ->
  (forall i a w, in_bounds (r_shape C) i -> In a l -> a <> at_ i -> T a i w = w) ->
  (forall i w, in_bounds (r_shape C) i -> T (at_ i) i w = T' i w) ->
  refines C h0 (for_in ol body) T'.
Proof.
  intros E N H I O Q. eapply refines_ext; [|eapply refines_for; eauto]. cbn beta. intros i w Hi.
  rewrite (fold_once _ l w (at_ i)); auto.
Qed.

(** One assignment *)
Lemma mstate_store C h0 h g i v : injective_layout (r_shape C) -> mstate C h0 h g -> in_bounds (r_shape C) i ->
  exists h', store h (ref_ptr C i) v = Ok h' /\
    mstate C h0 h' (fun k => if list_eq_dec Z.eq_dec k i then v else g k).
Proof.
  intros Inj (U & S & O) Hi. rewrite elem_ref. rewrite store_ok by (eexists; apply S; auto).
  eexists. split; [reflexivity|]. split; [apply usable_upd; auto|]. split.
  - intros k Hk. unfold holds. destruct (list_eq_dec Z.eq_dec k i) as [->|N].
    + apply peek_upd_same. rewrite (S i Hi). discriminate.
    + rewrite peek_upd_other; [apply S; auto|]. intro E. apply N. apply Inj; auto. symmetry. eapply elem_inj; eauto.
  - intros p Hp. rewrite peek_upd_other; [auto|]. intros <-. apply Hp. exists i. auto.
Qed.
Lemma refines_store C h0 i v : injective_layout (r_shape C) -> in_bounds (r_shape C) i ->
  refines C h0 (fun h => store h (ref_ptr C i) v) (fun k w => if list_eq_dec Z.eq_dec k i then v else w).
Proof. intros Inj Hi h g S. apply mstate_store; auto. Qed.
(** An assignment of something computed from the old value and from memory that is not changed *)
Lemma refines_update C h0 i (body : heap V -> outcome (heap V)) (u : V -> V) : injective_layout (r_shape C) -> in_bounds (r_shape C) i ->
  (forall h g, mstate C h0 h g -> body h = store h (ref_ptr C i) (u (g i))) ->
  refines C h0 body (fun k w => if list_eq_dec Z.eq_dec k i then u w else w).
Proof.
  intros Inj Hi H h g S. rewrite (H h g S). destruct (mstate_store C h0 h g i (u (g i)) Inj S Hi) as (h' & E & S').
  exists h'. split; [exact E|]. eapply mstate_ext; [|exact S']. intros k _. cbn beta.
  destruct (list_eq_dec Z.eq_dec k i) as [->|]; auto.
Qed.

(** The operands can be read *)
Lemma mstate_shows C h0 h g A f : mstate C h0 h g -> shows h0 A f ->
  (forall i, in_bounds (r_shape A) i -> ~ is_elem (r_base C) (r_shape C) (elem (r_base A) (r_shape A) i)) -> shows h A f.
Proof. intros (_ & _ & O) S Ap i Hi. unfold holds. rewrite O by (apply Ap; auto). apply S. auto. Qed.
Lemma shows_at h A f i : shows h A f -> in_bounds (r_shape A) i -> ref_at h A i = Ok (f i).
Proof. intros S Hi. unfold ref_at. rewrite elem_ref. apply load_holds. apply S. auto. Qed.

End Refine.
