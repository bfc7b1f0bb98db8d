(** Facts about the matrix products without tiles. *)
From Coq Require Import Sorted Permutation.
From Verif Require Import Tac Interval Shape Traverse Memory Ref Spec SpecMem SpecContainer Static SpecStatic Container Ein SpecEin
  ZOrder SpecZ Matrix SpecMatrix
  ShapeFacts IntervalFacts ResolveFacts ShapeProps TraverseFacts MemFacts RefFacts SliceFacts ContainerFacts StaticFacts EinFacts EinSum EinMake EinUses
  ZOrderFacts MatrixFacts.
Import ListNotations.
Open Scope Z_scope.

Lemma pair_dec_eq (i j i' j' : Z) : [i; j] = [i'; j'] <-> i = i' /\ j = j'.
Proof. split; [intro H; inv H; auto|intros [-> ->]; auto]. Qed.
Lemma in_bounds_pair a b i j : in_bounds [a; b] [i; j] <-> in_dim a i /\ in_dim b j.
Proof. split; [intro H; inv H; inv H5; auto|intros [? ?]; repeat constructor; auto; apply H || apply H0]. Qed.
Ltac eqs_ := repeat match goal with
  | |- context [list_eq_dec Z.eq_dec ?a ?b] => destruct (list_eq_dec Z.eq_dec a b) as [?E|?E]
  | E : [_; _] = [_; _] |- _ => inv E
  end; try congruence.

Section Matrix.
Context {V : Type} (zero : V) (add mul : V -> V -> V).
Implicit Types (h : heap V) (A B C : aref) (f g : list Z -> V).

Lemma mac_refines h0 A B C f g i j k : shows h0 A f -> shows h0 B g -> injective_layout (r_shape C) ->
  (forall i, in_bounds (r_shape A) i -> ~ is_elem (r_base C) (r_shape C) (elem (r_base A) (r_shape A) i)) ->
  (forall i, in_bounds (r_shape B) i -> ~ is_elem (r_base C) (r_shape C) (elem (r_base B) (r_shape B) i)) ->
  in_bounds (r_shape A) [i; k] -> in_bounds (r_shape B) [k; j] -> in_bounds (r_shape C) [i; j] ->
  refines C h0 (fun h => mac add mul A B C h i j k)
    (fun p w => if list_eq_dec Z.eq_dec p [i; j] then add w (mul (f [i; k]) (g [k; j])) else w).
Proof.
  intros SA SB Inj AA AB IA IB IC.
  apply (refines_update C h0 [i; j] _ (fun w => add w (mul (f [i; k]) (g [k; j])))); auto.
  intros h c S. unfold mac.
  rewrite (shows_at h A f) by (auto; eapply mstate_shows; eauto).
  rewrite (shows_at h B g) by (auto; eapply mstate_shows; eauto).
  destruct S as (_ & SC & _). rewrite (shows_at h C c) by auto. reflexivity.
Qed.

(** A row-column nest with a body for each pair *)
Lemma refines_nest C h0 ci cj body (T : Z -> Z -> V -> V) : r_shape C = [ci; cj] -> 0 <= dext ci -> 0 <= dext cj ->
  (forall i j, in_dim ci i -> in_dim cj j ->
     refines C h0 (fun h => body h i j) (fun p w => if list_eq_dec Z.eq_dec p [i; j] then T i j w else w)) ->
  refines C h0 (for_in (for_dim ci) (fun h i => for_in (for_dim cj) (fun h j => body h i j) h))
    (fun p w => T (nth 0 p 0) (nth 1 p 0) w).
Proof.
  intros SC Xi Xj H.
  apply (refines_for_once C h0 (range (dmin ci) (dext ci)) _ _
    (fun i p w => if Z.eq_dec (nth 0 p 0) i then T i (nth 1 p 0) w else w) (fun p => nth 0 p 0)).
  - apply for_dim_range. auto.
  - apply range_NoDup.
  - intros i Hi. apply in_dim_range in Hi.
    apply (refines_for_once C h0 (range (dmin cj) (dext cj)) _ _
      (fun j p w => if list_eq_dec Z.eq_dec p [i; j] then T i j w else w) (fun p => nth 1 p 0)).
    + apply for_dim_range. auto.
    + apply range_NoDup.
    + intros j Hj. apply in_dim_range in Hj. auto.
    + intros p Hp. rewrite SC in Hp. apply in_bounds_2 in Hp. destruct Hp as (u & v & -> & Iu & Iv). apply in_dim_range. auto.
    + intros p a w Hp Ha N. rewrite SC in Hp. apply in_bounds_2 in Hp. destruct Hp as (u & v & -> & Iu & Iv). cbn [nth] in *. eqs_.
    + intros p w Hp. rewrite SC in Hp. apply in_bounds_2 in Hp. destruct Hp as (u & v & -> & Iu & Iv). cbn [nth] in *.
      destruct (Z.eq_dec u i); eqs_.
  - intros p Hp. rewrite SC in Hp. apply in_bounds_2 in Hp. destruct Hp as (u & v & -> & Iu & Iv). apply in_dim_range. auto.
  - intros p a w Hp Ha N. destruct (Z.eq_dec (nth 0 p 0) a); congruence.
  - intros p w Hp. destruct (Z.eq_dec (nth 0 p 0) (nth 0 p 0)); congruence.
Qed.

Lemma refines_multiplies h C f g ks run (init : V -> V) :
  (exists w, shows h C w) -> usable_heap h -> (exists ci cj, r_shape C = [ci; cj]) ->
  refines C h run (fun p _ => inner_product zero add mul f g ks (nth 0 p 0) (nth 1 p 0)) -> multiplies zero add mul h (run h) C f g ks.
Proof.
  intros (w & Hw) U (ci & cj & SC) R. destruct (R h w) as (h' & E & _ & S & O).
  - split; [exact U|]. split; [exact Hw|auto].
  - exists h'. split; [exact E|]. split; [|exact O]. intros i j Hij. apply S in Hij. exact Hij.
Qed.

Lemma alive_shows h C : (forall i, in_bounds (r_shape C) i -> alive h (elem (r_base C) (r_shape C) i)) -> exists w, shows h C w.
Proof.
  intro H. exists (fun i => match peek h (elem (r_base C) (r_shape C) i) with Some (Live v) => v | _ => zero end).
  intros i Hi. destruct (H i Hi) as [v Hv]. unfold holds in *. rewrite Hv. auto.
Qed.

Section Setting.
Context (h0 : heap V) (A B C : aref) (f g : list Z -> V) (ai ak bk bj ci cj : dim).
Hypothesis (S : setting h0 A B C f g ai ak bk bj ci cj).

Lemma set_mac i j k : in_dim ci i -> in_dim cj j -> in_dim ak k ->
  refines C h0 (fun h => mac add mul A B C h i j k)
    (fun p w => if list_eq_dec Z.eq_dec p [i; j] then add w (mul (f [i; k]) (g [k; j])) else w).
Proof.
  intros Hi Hj Hk. destruct S as [SA SB SC _ (I1 & I2 & I3) (OA & OB & _ & Inj & PA & PB) _].
  apply mac_refines; auto; rewrite ?SA, ?SB, ?SC; apply in_bounds_pair; auto.
Qed.
Lemma set_zero i j : in_dim ci i -> in_dim cj j ->
  refines C h0 (fun h => set_elem C zero h i j) (fun p w => if list_eq_dec Z.eq_dec p [i; j] then zero else w).
Proof.
  intros Hi Hj. destruct S as [SA SB SC _ _ (_ & _ & _ & Inj & _) _]. unfold set_elem. apply refines_store; auto.
  rewrite SC. apply in_bounds_pair. auto.
Qed.
Lemma set_rows : row_dim C = ci.
Proof. unfold row_dim. rewrite (s_C _ _ _ _ _ _ _ _ _ _ _ _ S). reflexivity. Qed.
Lemma set_cols : col_dim C = cj.
Proof. unfold col_dim. rewrite (s_C _ _ _ _ _ _ _ _ _ _ _ _ S). reflexivity. Qed.
Lemma set_depth : col_dim A = ak.
Proof. unfold col_dim. rewrite (s_A _ _ _ _ _ _ _ _ _ _ _ _ S). reflexivity. Qed.

Let ks := range (dmin ak) (dext ak).
Lemma for_depth : for_dim ak = Ok ks.
Proof. apply for_dim_range. apply (s_ext _ _ _ _ _ _ _ _ _ _ _ _ S). Qed.
Lemma dot_fold p l w : fold_left (fun w k => add w (mul (f [nth 0 p 0; k]) (g [k; nth 1 p 0]))) l w =
  fold_left add (map (fun k => mul (f [nth 0 p 0; k]) (g [k; nth 1 p 0])) l) w.
Proof. rewrite fold_map. reflexivity. Qed.

Lemma conclude run : refines C h0 run (fun p _ => inner_product zero add mul f g ks (nth 0 p 0) (nth 1 p 0)) ->
  multiplies zero add mul h0 (run h0) C f g ks.
Proof.
  apply refines_multiplies; auto.
  - apply alive_shows. apply (s_op _ _ _ _ _ _ _ _ _ _ _ _ S).
  - apply (s_us _ _ _ _ _ _ _ _ _ _ _ _ S).
  - exists ci, cj. apply (s_C _ _ _ _ _ _ _ _ _ _ _ _ S).
Qed.

Lemma reduce_cols : multiplies zero add mul h0 (multiply_reduce_cols zero add mul A B C h0) C f g ks.
Proof.
  apply conclude. unfold multiply_reduce_cols. rewrite set_rows, set_cols, set_depth.
  destruct (s_ext _ _ _ _ _ _ _ _ _ _ _ _ S) as (X1 & X2 & X3). pose proof (s_C _ _ _ _ _ _ _ _ _ _ _ _ S) as SC.
  apply (refines_nest C h0 ci cj (fun h i j => h1 <- set_elem C zero h i j;; for_in (for_dim ak) (fun h k => mac add mul A B C h i j k) h1)
           (fun i j _ => inner_product zero add mul f g ks i j)); auto.
  intros i j Hi Hj. eapply refines_ext; [|apply refines_seq; [apply set_zero; auto|
    apply (refines_for C h0 ks (for_dim ak) (fun h k => mac add mul A B C h i j k)
      (fun k p w => if list_eq_dec Z.eq_dec p [i; j] then add w (mul (f [i; k]) (g [k; j])) else w) for_depth);
    intros k Hk; apply set_mac; auto; apply in_dim_range; auto]].
  cbn beta. intros p w Hp. eqs_.
  - unfold inner_product. rewrite <- (dot_fold [i; j]). apply fold_ext. intros s x _. reflexivity.
  - apply fold_id. intros; eqs_.
Qed.
Lemma zero_nest : refines C h0 (for_in (for_dim ci) (fun h i => for_in (for_dim cj) (fun h j => set_elem C zero h i j) h)) (fun p w => zero).
Proof.
  destruct (s_ext _ _ _ _ _ _ _ _ _ _ _ _ S) as (X1 & X2 & X3). pose proof (s_C _ _ _ _ _ _ _ _ _ _ _ _ S) as SC.
  apply (refines_nest C h0 ci cj (fun h i j => set_elem C zero h i j) (fun i j _ => zero)); auto. apply set_zero.
Qed.
Lemma reduce_matrix : multiplies zero add mul h0 (multiply_reduce_matrix zero add mul A B C h0) C f g ks.
Proof.
  apply conclude. unfold multiply_reduce_matrix. rewrite set_rows, set_cols, set_depth.
  destruct (s_ext _ _ _ _ _ _ _ _ _ _ _ _ S) as (X1 & X2 & X3). pose proof (s_C _ _ _ _ _ _ _ _ _ _ _ _ S) as SC.
  eapply refines_ext; [|apply refines_seq; [apply zero_nest|
    apply (refines_for C h0 ks (for_dim ak) _ (fun k p w => add w (mul (f [nth 0 p 0; k]) (g [k; nth 1 p 0]))) for_depth)]].
  - cbn beta. intros p w Hp. unfold inner_product. apply dot_fold.
  - intros k Hk. apply in_dim_range in Hk. fold (in_dim ak k) in Hk.
    apply (refines_nest C h0 ci cj (fun h i j => mac add mul A B C h i j k) (fun i j w => add w (mul (f [i; k]) (g [k; j])))); auto.
    intros i j Hi Hj. apply set_mac; auto.
Qed.
Lemma reduce_rows : multiplies zero add mul h0 (multiply_reduce_rows zero add mul A B C h0) C f g ks.
Proof.
  apply conclude. unfold multiply_reduce_rows. rewrite set_rows, set_cols, set_depth.
  destruct (s_ext _ _ _ _ _ _ _ _ _ _ _ _ S) as (X1 & X2 & X3). pose proof (s_C _ _ _ _ _ _ _ _ _ _ _ _ S) as SC.
  assert (Row : forall i body (T : Z -> V -> V), (forall j, in_dim cj j ->
      refines C h0 (fun h => body h j) (fun p w => if list_eq_dec Z.eq_dec p [i; j] then T j w else w)) ->
    refines C h0 (for_in (for_dim cj) body) (fun p w => if Z.eq_dec (nth 0 p 0) i then T (nth 1 p 0) w else w)).
  { intros i body T H.
    apply (refines_for_once C h0 (range (dmin cj) (dext cj)) _ _
      (fun j p w => if list_eq_dec Z.eq_dec p [i; j] then T j w else w) (fun p => nth 1 p 0)).
    - apply for_dim_range. auto.
    - apply range_NoDup.
    - intros j Hj. apply in_dim_range in Hj. auto.
    - intros p Hp. rewrite SC in Hp. apply in_bounds_2 in Hp. destruct Hp as (u & v & -> & Iu & Iv). apply in_dim_range. auto.
    - intros p a w Hp Ha N. rewrite SC in Hp. apply in_bounds_2 in Hp. destruct Hp as (u & v & -> & Iu & Iv). cbn [nth] in *. eqs_.
    - intros p w Hp. rewrite SC in Hp. apply in_bounds_2 in Hp. destruct Hp as (u & v & -> & Iu & Iv). cbn [nth] in *.
      destruct (Z.eq_dec u i); eqs_. }
  apply (refines_for_once C h0 (range (dmin ci) (dext ci)) _ _
    (fun i p w => if Z.eq_dec (nth 0 p 0) i then inner_product zero add mul f g ks (nth 0 p 0) (nth 1 p 0) else w) (fun p => nth 0 p 0)).
  - apply for_dim_range. auto.
  - apply range_NoDup.
  - intros i Hi. apply in_dim_range in Hi.
    eapply refines_ext; [|apply refines_seq; [apply (Row i _ (fun _ _ => zero)); intros j Hj; apply set_zero; auto|
      apply (refines_for C h0 ks (for_dim ak) _ (fun k p w => if Z.eq_dec (nth 0 p 0) i then add w (mul (f [i; k]) (g [k; nth 1 p 0])) else w) for_depth)]].
    + cbn beta. intros p w Hp. destruct (Z.eq_dec (nth 0 p 0) i) as [<-|N].
      * unfold inner_product. apply dot_fold.
      * apply fold_id. auto.
    + intros k Hk. apply in_dim_range in Hk. apply (Row i _ (fun j w => add w (mul (f [i; k]) (g [k; j])))).
      intros j Hj. apply set_mac; auto.
  - intros p Hp. rewrite SC in Hp. apply in_bounds_2 in Hp. destruct Hp as (u & v & -> & Iu & Iv). apply in_dim_range. auto.
  - intros p a w Hp Ha N. destruct (Z.eq_dec (nth 0 p 0) a); congruence.
  - intros p w Hp. destruct (Z.eq_dec (nth 0 p 0) (nth 0 p 0)); congruence.
Qed.

End Setting.
End Matrix.
