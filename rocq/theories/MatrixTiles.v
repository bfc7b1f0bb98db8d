(** Facts about the matrix products that work tile by tile. *)
From Coq Require Import Sorted Permutation.
From Verif Require Import Tac Interval Shape Traverse Memory Ref Spec SpecMem SpecContainer Static SpecStatic Container Ein SpecEin
  ZOrder SpecZ Matrix SpecMatrix
  ShapeFacts IntervalFacts ResolveFacts ShapeProps TraverseFacts MemFacts RefFacts SliceFacts ContainerFacts StaticFacts EinFacts EinSum EinMake EinUses
  ZOrderFacts MatrixFacts MatrixProd MatrixEin.
Import ListNotations.
Open Scope Z_scope.

Lemma static_pos x : 1 <= x -> is_static x = true /\ is_dynamic x = false.
Proof. intro H. unfold is_static, is_dynamic, dynamic. split; lia. Qed.
Lemma cindex_same nd t : 1 <= t -> cindex nd t t = Ok t.
Proof. intro H. unfold cindex. rewrite (proj1 (static_pos t H)), Z.eqb_refl. reflexivity. Qed.
Lemma cindex_dynamic nd x : cindex nd dynamic x = Ok x.
Proof. reflexivity. Qed.
Lemma accumulator_is nd N1 N2 buf a b s1 s2 : 1 <= N1 -> 1 <= N2 ->
  accumulator nd N1 N2 buf [mkD a N1 s1; mkD b N2 s2] = Ok (mkR buf [mkD a N1 N2; mkD b N2 1]).
Proof.
  intros H1 H2. unfold accumulator, tile_type, make_compact. cbn [combine map fst snd].
  assert (Nx : compact_next [mkDT dynamic N1 dynamic; mkDT dynamic N2 1] = N2).
  { unfold compact_next. cbn [map tstr text]. unfold static_abs. rewrite (proj2 (static_pos N2 H2)).
    change (dynamic =? 1) with false. change (1 =? 1) with true. cbn [variadic_max vany vall map negb]. unfold cmax, cabs, index_min.
    change (vany _) with false. change (vall _) with false. cbv iota. ifs; unfold dynamic in *; lia. }
  rewrite Nx. cbn [make_compact_from tmin text tstr dmin dext].
  change (is_static dynamic) with false. change (is_static 1) with true. cbv iota.
  unfold make_dim, default_stride. cbn [tmin text tstr]. rewrite (proj1 (static_pos N2 H2)).
  change (is_static 1) with true. cbv iota. rewrite !cindex_dynamic, !cindex_same by lia. cbn [bind map fst snd].
  unfold make_ref.
  assert (R : resolve [mkD a N1 N2; mkD b N2 1] = [mkD a N1 N2; mkD b N2 1]).
  { apply resolve_known. unfold unknown_stride. repeat constructor; cbn; lia. }
  cbn [combine map snd]. rewrite R. cbn [combine map snd]. rewrite R. reflexivity.
Qed.

(** The element is in the tile *)
Definition in_tile (io jo : interval) (p : list Z) : Prop := in_interval io (nth 0 p 0) /\ in_interval jo (nth 1 p 0).
Lemma in_tile_dec io jo p : {in_tile io jo p} + {~ in_tile io jo p}.
Proof.
  unfold in_tile, in_interval.
  destruct (Z_le_dec (imin io) (nth 0 p 0)); [|right; lia]. destruct (Z_lt_dec (nth 0 p 0) (imin io + iext io)); [|right; lia].
  destruct (Z_le_dec (imin jo) (nth 1 p 0)); [|right; lia]. destruct (Z_lt_dec (nth 1 p 0) (imin jo + iext jo)); [|right; lia].
  left. lia.
Qed.

Definition acc_of (N1 N2 : Z) (buf : ptr) (io jo : interval) : aref := mkR buf [mkD (imin io) N1 N2; mkD (imin jo) N2 1].
Lemma acc_injective N1 N2 buf io jo : 1 <= N1 -> 1 <= N2 -> injective_layout (r_shape (acc_of N1 N2 buf io jo)).
Proof.
  intros HN1 HN2. unfold acc_of. cbn [r_shape]. intros i j Hi Hj E.
  apply in_bounds_2 in Hi. destruct Hi as (a & b & -> & Ia & Ib). apply in_bounds_2 in Hj. destruct Hj as (c & d & -> & Ic & Id).
  unfold in_dim in *. cbn [dmin dext dstr offset] in *.
  assert (a = c) by nia. subst c. f_equal. f_equal. lia.
Qed.
Lemma acc_tile N1 N2 buf io jo i j : iext io = N1 -> iext jo = N2 ->
  in_bounds (r_shape (acc_of N1 N2 buf io jo)) [i; j] <-> in_interval io i /\ in_interval jo j.
Proof.
  intros E1 E2. unfold acc_of. cbn [r_shape]. rewrite in_bounds_pair. unfold in_dim, in_interval. rewrite E1, E2. cbn [dmin dext]. tauto.
Qed.


Section Matrix.
Context {V : Type} (zero : V) (add mul : V -> V -> V).
Implicit Types (h : heap V) (A B C : aref) (f g : list Z -> V).

(** ** The buffer *)
Lemma push_usable h n : usable_heap h -> usable_heap (fst (push_buffer zero h n)).
Proof.
  intros (U1 & U2 & U3). unfold push_buffer, usable_heap; cbn [fst h_next h_blk]. split; [lia|]. split.
  - destruct (Nat.eqb_spec 0 (h_next h)); [lia|auto].
  - intros k Hk. destruct (Nat.eqb_spec k (h_next h)); [lia|]. apply U3. lia.
Qed.
Lemma push_same h n p : fst p <> h_next h -> peek (fst (push_buffer zero h n)) p = peek h p.
Proof.
  intro H. unfold peek, push_buffer; cbn [fst h_blk]. destruct (fst p) as [|k]; [auto|].
  destruct (Nat.eqb_spec (S k) (h_next h)); [congruence|auto].
Qed.
Lemma push_new h n x : usable_heap h -> 0 <= x < n -> holds (fst (push_buffer zero h n)) (h_next h, x) zero.
Proof.
  intros (U1 & _ & _) Hx. unfold holds, peek, push_buffer; cbn [fst snd h_blk]. destruct (h_next h) as [|k]; [lia|].
  rewrite Nat.eqb_refl. cbn [b_size b_cell]. replace ((0 <=? x) && (x <? n)) with true; auto. symmetry. apply andb_true_iff. lia.
Qed.
Lemma alive_old h p : usable_heap h -> alive h p -> fst p <> h_next h.
Proof.
  intros (_ & _ & U3) [v Hv] E. unfold holds, peek in Hv. rewrite E in Hv. rewrite (U3 (h_next h)) in Hv by lia.
  destruct (h_next h); discriminate.
Qed.
Lemma pop_usable h p : usable_heap h -> usable_heap (pop_buffer h p).
Proof.
  intros (U1 & U2 & U3). unfold pop_buffer, usable_heap; cbn [h_next h_blk]. split; [auto|]. split.
  - destruct (Nat.eqb 0 (fst p)); auto.
  - intros k Hk. destruct (Nat.eqb k (fst p)); auto.
Qed.
Lemma pop_same h b p : fst p <> fst b -> peek (pop_buffer h b) p = peek h p.
Proof.
  intro H. unfold peek, pop_buffer; cbn [h_blk]. destruct (fst p) as [|k]; [auto|].
  destruct (Nat.eqb_spec (S k) (fst b)); [congruence|auto].
Qed.
Lemma pop_gone h b p : fst p = fst b -> peek (pop_buffer h b) p = None.
Proof.
  intro H. unfold peek, pop_buffer; cbn [h_blk]. destruct (fst p) as [|k]; [auto|]. rewrite <- H, Nat.eqb_refl. auto.
Qed.

(** A nest over part of the rows and columns *)
Lemma refines_nest_part C h0 ci cj io jo oli olj body (T : Z -> Z -> V -> V) : r_shape C = [ci; cj] ->
  0 <= iext io -> 0 <= iext jo -> (forall x, in_interval io x -> in_dim ci x) -> (forall x, in_interval jo x -> in_dim cj x) ->
  oli = Ok (range (imin io) (iext io)) -> olj = Ok (range (imin jo) (iext jo)) ->
  (forall i j, in_interval io i -> in_interval jo j ->
     refines C h0 (fun h => body h i j) (fun p w => if list_eq_dec Z.eq_dec p [i; j] then T i j w else w)) ->
  refines C h0 (for_in oli (fun h i => for_in olj (fun h j => body h i j) h))
    (fun p w => if in_tile_dec io jo p then T (nth 0 p 0) (nth 1 p 0) w else w).
Proof.
  intros SC Xi Xj Ii Ij Ei Ej H.
  eapply refines_ext; [|apply (refines_for C h0 _ oli _
    (fun i p w => fold_left (fun w j => if list_eq_dec Z.eq_dec p [i; j] then T i j w else w) (range (imin jo) (iext jo)) w) Ei)].
  - cbn beta. intros p w Hp. rewrite SC in Hp. apply in_bounds_2 in Hp. destruct Hp as (u & v & -> & Iu & Iv). cbn [nth].
    destruct (in_tile_dec io jo [u; v]) as [[Hu Hv]|N]; cbn [nth] in *.
    + rewrite (fold_once _ _ w u); [|apply range_NoDup|apply in_interval_range; auto|].
      * rewrite (fold_once _ _ w v); [|apply range_NoDup|apply in_interval_range; auto|].
        -- eqs_.
        -- intros s x _ Nx. eqs_.
      * intros s x _ Nx. apply fold_id. intros s' y _. eqs_.
    + apply fold_id. intros s x Hx. apply fold_id. intros s' y Hy. apply in_interval_range in Hx, Hy. eqs_.
      exfalso. apply N. split; cbn [nth]; auto.
  - intros i Hi. apply in_interval_range in Hi. apply (refines_for C h0 _ olj _ (fun j p w => if list_eq_dec Z.eq_dec p [i; j] then T i j w else w) Ej).
    intros j Hj. apply in_interval_range in Hj. auto.
Qed.

Section Setting.
Context (h0 : heap V) (A B C : aref) (f g : list Z -> V) (ai ak bk bj ci cj : dim) (N1 N2 : Z).
Hypothesis (Se : setting h0 A B C f g ai ak bk bj ci cj).
Hypothesis (HN1 : 1 <= N1) (HN2 : 1 <= N2).


(** What a kernel does before it stores the tile: it puts the sums into the accumulator *)
Definition sums_up (io jo : interval) (ks : list Z) (accumulate : aref -> heap V -> outcome (heap V)) : Prop :=
  forall h1 buf, usable_heap h1 -> shows h1 A f -> shows h1 B g ->
    (forall i, in_bounds (r_shape A) i -> fst (elem (r_base A) (r_shape A) i) <> fst buf) ->
    (forall i, in_bounds (r_shape B) i -> fst (elem (r_base B) (r_shape B) i) <> fst buf) ->
    refines (acc_of N1 N2 buf io jo) h1 (accumulate (acc_of N1 N2 buf io jo))
      (fun p w => fold_left add (map (fun k => mul (f [nth 0 p 0; k]) (g [k; nth 1 p 0])) ks) w).

(** The tile as a view *)
Lemma tile_shape io jo : fst (r_base C) <> O ->
  r_shape (tile_of C io jo) = [mkD (imin io) (iext io) (dstr ci); mkD (imin jo) (iext jo) (dstr cj)].
Proof. intros _. unfold tile_of, ref_slice, make_array_ref_at. cbn [r_shape]. rewrite (s_C _ _ _ _ _ _ _ _ _ _ _ _ Se). reflexivity. Qed.
Lemma tile_ptr io jo i j : fst (r_base C) <> O -> ref_ptr (tile_of C io jo) [i; j] = ref_ptr C [i; j].
Proof.
  intro Nz. unfold tile_of, ref_slice, make_array_ref_at, ref_ptr. cbn [r_base r_shape].
  rewrite pointer_add_block by auto. unfold ptr_off; cbn [fst snd]. rewrite !flat_offset_spec.
  rewrite (s_C _ _ _ _ _ _ _ _ _ _ _ _ Se). f_equal.
  unfold mins_of_intervals, shape_slice. cbn. lia.
Qed.

(** ** One tile *)
Lemma tile_kernel nd io jo ks accumulate store_ (op : V -> V -> V) : iext io = N1 -> iext jo = N2 ->
  (forall x, in_interval io x -> in_dim ci x) -> (forall x, in_interval jo x -> in_dim cj x) ->
  sums_up io jo ks accumulate ->
  (forall acc T h, store_ T acc h = for_in (Ok (range (imin io) (iext io))) (fun h i =>
     for_in (Ok (range (imin jo) (iext jo))) (fun h j => v <- ref_at h acc [i; j] ;;
       old <- ref_at h T [i; j] ;; store h (ref_ptr T [i; j]) (op old v)) h) h) ->
  refines C h0 (fun h =>
    let T := tile_of C io jo in
    let '(h1, buf) := push_buffer zero h (N1 * N2) in
    acc <- accumulator nd N1 N2 buf (r_shape T) ;;
    h2 <- accumulate acc h1 ;;
    h3 <- store_ T acc h2 ;;
    Ok (pop_buffer h3 buf))
  (fun p w => if in_tile_dec io jo p then op w (inner_product zero add mul f g ks (nth 0 p 0) (nth 1 p 0)) else w).
Proof.
  intros Ei Ej Ii Ij Acc Sto h c St.
  destruct Se as [SA SB SC (X1 & X2 & X3) (I1 & I2 & I3) (OA & OB & OC & Inj & PA & PB) U0].
  pose proof (mstate_shows C h0 h c A f St OA PA) as HA. pose proof (mstate_shows C h0 h c B g St OB PB) as HB.
  destruct St as (U & HC & Ou).
  assert (Nz : fst (r_base C) <> O%nat).
  { assert (Al : alive h (elem (r_base C) (r_shape C) [imin io; imin jo])).
    { eexists. apply HC. rewrite SC. apply in_bounds_pair. split; [apply Ii|apply Ij]; unfold in_interval; lia. }
    apply alive_block in Al. exact Al. }
  destruct (push_buffer zero h (N1 * N2)) as [h1 buf] eqn:Pu.
  assert (Eh1 : h1 = fst (push_buffer zero h (N1 * N2))) by (rewrite Pu; auto).
  assert (Eb : buf = (h_next h, 0)) by (unfold push_buffer in Pu; inv Pu; auto).
  clear Pu. cbv zeta. rewrite tile_shape by auto. rewrite Ei, Ej, accumulator_is by auto. cbn [bind].
  fold (acc_of N1 N2 buf io jo). set (acc := acc_of N1 N2 buf io jo).
  assert (U1 : usable_heap h1) by (rewrite Eh1; apply push_usable; auto).
  assert (Same : forall p, fst p <> fst buf -> peek h1 p = peek h p).
  { intros p Hp. rewrite Eh1. apply push_same. rewrite Eb in Hp. auto. }
  assert (Ap : forall R w, shows h R w -> forall i, in_bounds (r_shape R) i -> fst (elem (r_base R) (r_shape R) i) <> fst buf).
  { intros R w Hw i Hi. rewrite Eb. cbn [fst]. apply alive_old; auto. eexists. apply Hw. auto. }
  assert (HA1 : shows h1 A f) by (intros i Hi; unfold holds; rewrite Same by (eapply Ap; eauto); apply HA; auto).
  assert (HB1 : shows h1 B g) by (intros i Hi; unfold holds; rewrite Same by (eapply Ap; eauto); apply HB; auto).
  assert (Zr : shows h1 acc (fun _ => zero)).
  { intros p Hp. unfold acc, acc_of in *. cbn [r_base r_shape] in *. apply in_bounds_2 in Hp. destruct Hp as (u & v & -> & Iu & Iv).
    unfold elem. cbn [offset dmin dstr]. rewrite Eb, Eh1. cbn [fst snd]. apply push_new; auto.
    unfold in_dim in *. cbn [dmin dext] in *. nia. }
  destruct (Acc h1 buf U1 HA1 HB1 (Ap A f HA) (Ap B g HB) h1 (fun _ => zero)) as (h2 & E2 & U2 & V2 & O2).
  { split; [exact U1|]. split; [exact Zr|auto]. }
  fold acc in E2, V2, O2. rewrite E2. cbn [bind].
  assert (Blk : forall p, is_elem (r_base acc) (r_shape acc) p -> fst p = fst buf).
  { intros p (i & _ & ->). reflexivity. }
  assert (Same2 : forall p, fst p <> fst buf -> peek h2 p = peek h p).
  { intros p Hp. rewrite O2; [auto|]. intro Q. apply Hp. apply Blk. auto. }
  assert (HC2 : mstate C h2 h2 c).
  { split; [exact U2|]. split; [|auto]. intros i Hi. unfold holds. rewrite Same2 by (eapply Ap; eauto). apply HC. auto. }
  assert (R3 : refines C h2 (store_ (tile_of C io jo) acc)
    (fun p w => if in_tile_dec io jo p then op w (inner_product zero add mul f g ks (nth 0 p 0) (nth 1 p 0)) else w)).
  { intros h' c' St'. rewrite Sto. revert h' c' St'. apply (refines_nest_part C h2 ci cj io jo _ _ (fun h i j => v <- ref_at h acc [i; j] ;;
       old <- ref_at h (tile_of C io jo) [i; j] ;; store h (ref_ptr (tile_of C io jo) [i; j]) (op old v))
      (fun i j w => op w (inner_product zero add mul f g ks i j))); auto; try lia.
    intros i j Hi Hj.
    apply (refines_update C h2 [i; j] _ (fun w => op w (inner_product zero add mul f g ks i j))); auto.
    - rewrite SC. apply in_bounds_pair. auto.
    - intros h' c' St'. unfold ref_at at 1. rewrite elem_ref.
      rewrite (proj2 (load_holds _ _ (inner_product zero add mul f g ks i j))).
      + cbn [bind]. unfold ref_at. rewrite tile_ptr by auto. rewrite elem_ref. destruct St' as (_ & S' & _).
        rewrite (proj2 (load_holds _ _ (c' [i; j]))); [reflexivity|]. apply S'. rewrite SC. apply in_bounds_pair. auto.
      + destruct St' as (_ & _ & O'). unfold holds. rewrite O'.
        * apply (V2 [i; j]). apply acc_tile; auto.
        * intros (q & Hq & E). assert (fst (elem (r_base C) (r_shape C) q) = fst buf) by (rewrite <- E; reflexivity).
          eapply (Ap C c HC); eauto. }
  destruct (R3 h2 c HC2) as (h3 & E3 & U3 & V3 & O3). rewrite E3. cbn [bind]. eexists. split; [reflexivity|].
  split; [apply pop_usable; auto|]. split.
  - intros i Hi. unfold holds. rewrite pop_same by (eapply Ap; eauto). apply V3. auto.
  - intros p Hp. destruct (Nat.eq_dec (fst p) (fst buf)) as [E|N].
    + rewrite pop_gone by auto. rewrite <- Ou by auto. unfold peek. rewrite E, Eb. cbn [fst]. destruct U as (_ & _ & U).
      rewrite (U (h_next h)) by lia. destruct (h_next h); auto.
    + rewrite pop_same by auto. rewrite O3 by auto. rewrite Same2 by auto. auto.
Qed.

End Setting.
End Matrix.
