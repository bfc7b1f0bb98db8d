(** Facts about resampling: the images. *)
From Coq Require Import Sorted Permutation.
From Verif Require Import Tac Interval Shape Traverse Memory Ref Spec SpecMem Container SpecContainer Static SpecStatic Ein SpecEin
  Matrix SpecMatrix Conv Rational SpecRational Resample SpecResample
  ShapeFacts IntervalFacts ResolveFacts ShapeProps TraverseFacts MemFacts RefFacts SliceFacts ContainerFacts EinFacts EinSum EinMake EinUses
  TileFacts MatrixFacts MatrixProd MatrixEin LoopFacts RationalFacts ResampleFacts.
Import ListNotations.
Open Scope Z_scope.

(** ** Programs that only assign *)
Section Writes.
Context {V : Type}.
Implicit Types (h : heap V) (run : heap V -> outcome (heap V)).

Definition is_live (c : cell V) : Prop := exists v, c = Live v.
(** Objects of block [k] have new values *)
Definition writes (k : nat) h h' : Prop :=
  h_next h' = h_next h /\ (forall j, j <> k -> h_blk h' j = h_blk h j) /\
  match h_blk h k, h_blk h' k with
  | Some b, Some b' => b_owner b' = b_owner b /\ b_size b' = b_size b /\
      forall z, 0 <= z < b_size b -> is_live (b_cell b' z) <-> is_live (b_cell b z)
  | None, None => True
  | _, _ => False
  end.
Definition writes_in (k : nat) run : Prop := forall h h', run h = Ok h' -> writes k h h'.

Lemma writes_refl k h : writes k h h.
Proof. split; [auto|]. split; [auto|]. destruct (h_blk h k); [|auto]. split; [auto|]. split; [auto|]. tauto. Qed.
Lemma writes_trans k h h1 h2 : writes k h h1 -> writes k h1 h2 -> writes k h h2.
Proof.
  intros (N1 & A1 & B1) (N2 & A2 & B2). split; [congruence|]. split; [intros j Hj; rewrite A2, A1; auto|].
  destruct (h_blk h k), (h_blk h1 k), (h_blk h2 k); try contradiction; auto.
  destruct B1 as (O1 & S1 & L1), B2 as (O2 & S2 & L2). split; [congruence|]. split; [congruence|].
  intros z Hz. rewrite L2 by lia. auto.
Qed.
Lemma writes_store h p v h' : store h p v = Ok h' -> writes (fst p) h h'.
Proof.
  unfold store. destruct (peek h p) as [[|u]|] eqn:E; try discriminate. intro Q. inv Q. split; [reflexivity|].
  split; [intros j Hj; cbn [upd h_blk]; destruct (Nat.eqb_spec j (fst p)); congruence|].
  cbn [upd h_blk]. rewrite Nat.eqb_refl. unfold peek in E. destruct (fst p) as [|m] eqn:Ep; [discriminate|].
  destruct (h_blk h (S m)) as [b|]; [|discriminate]. cbn [b_owner b_size b_cell]. split; [auto|]. split; [auto|].
  intros z Hz. destruct (Z.eqb_spec z (snd p)) as [->|]; [|tauto].
  destruct ((0 <=? snd p) && (snd p <? b_size b)); [|discriminate]. inv E. rewrite H0. unfold is_live. split; intros _; eauto.
Qed.
Lemma writes_bind k (r : outcome (heap V)) run h h' : (forall h1, r = Ok h1 -> writes k h h1) -> writes_in k run ->
  (h1 <- r ;; run h1) = Ok h' -> writes k h h'.
Proof. intros A B E. destruct r as [h1| |]; try discriminate. cbn [bind] in E. eapply writes_trans; [apply A; auto|apply B; auto]. Qed.
Lemma writes_fold {A} k (body : heap V -> A -> outcome (heap V)) l : (forall a, writes_in k (fun h => body h a)) -> writes_in k (foldM body l).
Proof.
  intros H. induction l as [|a l IH]; intros h h' E; cbn [foldM] in E; [inv E; apply writes_refl|].
  apply (writes_bind k (body h a) (foldM body l)); auto. intros h1 E1. apply (H a). auto.
Qed.
Lemma writes_for {A} k ol (body : heap V -> A -> outcome (heap V)) : (forall a, writes_in k (fun h => body h a)) -> writes_in k (for_in ol body).
Proof. intros H h h' E. unfold for_in in E. destruct ol as [l| |]; try discriminate. cbn [bind] in E. eapply writes_fold; eauto. Qed.
Lemma writes_fold_in {A} k (body : heap V -> A -> outcome (heap V)) l : (forall a, In a l -> writes_in k (fun h => body h a)) -> writes_in k (foldM body l).
Proof.
  induction l as [|a l IH]; intros H h h' E; cbn [foldM] in E; [inv E; apply writes_refl|].
  apply (writes_bind k (body h a) (foldM body l)); auto.
  - intros h1 E1. apply (H a); [left; auto|auto].
  - apply IH. intros; apply H; right; auto.
Qed.
Lemma writes_ein nd f r out e : writes_in (fst (r_base r)) (fun h => ein_reduce nd f h r out e).
Proof.
  intros h h' E. unfold ein_reduce in E. destruct (ein_loop_shape nd r out e) as [s| |]; try discriminate. cbn [bind] in E.
  destruct (for_each_index_in_order s) as [l| |]; try discriminate. cbn [bind] in E. revert h h' E. apply (writes_fold (fst (r_base r))).
  intros i h h' E. unfold ein_assign in E. destruct (eval h e i) as [v| |]; try discriminate. cbn [bind] in E.
  destruct (ref_at h r (get_all out i)) as [o| |]; try discriminate. cbn [bind] in E. apply writes_store in E. exact E.
Qed.
Lemma writes_fill nd r v : writes_in (fst (r_base r)) (fun h => fill nd h r v).
Proof.
  intros h h' E. unfold fill, values, values_in_order in E. destruct (is_null (r_base r)).
  - destruct (assert_ nd (empty (optimize_shape (r_shape r)))); try discriminate. cbn [bind foldM] in E. inv E. apply writes_refl.
  - cbn [bind] in E. revert h h' E. apply (writes_fold_in (fst (r_base r))). intros p Hp h h' E.
    apply in_map_iff in Hp. destruct Hp as (z & <- & _). apply writes_store in E. exact E.
Qed.
Lemma slice_block r args : fst (r_base (ref_slice r args)) = fst (r_base r).
Proof. unfold ref_slice, make_array_ref_at. cbn [r_base]. unfold pointer_add. destruct (is_null (r_base r)); reflexivity. Qed.

Lemma writes_local k h h' : heap_ok h -> writes k h h' -> local h [k] h' [k].
Proof.
  intros (O1 & O2 & O3) (N & A & B). split.
  - split; [lia|]. split.
    + destruct (Nat.eq_dec k 0) as [->|Hk]; [rewrite O2 in B; destruct (h_blk h' 0%nat); [contradiction|auto]|]. rewrite A; auto.
    + intros j Hj. destruct (Nat.eq_dec k j) as [->|Hk].
      * rewrite (O3 j) in B by lia. destruct (h_blk h' j); [contradiction|auto].
      * rewrite A by auto. apply O3. lia.
  - split; [lia|]. split; [|split].
    + intros j Hj _. apply A. intro; subst; apply Hj; left; auto.
    + intros j Hj Hj'. contradiction.
    + auto.
Qed.
Lemma writes_valid (c : config V) x k h h' a : writes k h h' -> valid c x h a -> valid c x h' a.
Proof.
  intros (N & A & B) [S [M|(P & j & b & E & I & L)]]; split; auto. right. split; [auto|].
  destruct (Nat.eq_dec j k) as [->|Nj].
  - rewrite E in B. destruct (h_blk h' k) as [b'|] eqn:E'; [|contradiction]. destruct B as (B1 & B2 & B3). exists k, b'. split; [auto|].
    split.
    + unfold in_block in *. rewrite B1, B2. exact I.
    + intros z Hz. rewrite B2 in Hz. specialize (B3 z Hz). specialize (L z Hz). unfold is_live in B3. rewrite B3. exact L.
  - exists j, b. rewrite A by auto. auto.
Qed.
End Writes.

(** ** Rows *)
Lemma in_bounds3' x y c dx dy dc : in_bounds [dx; dy; dc] [x; y; c] <-> in_dim dx x /\ in_dim dy y /\ in_dim dc c.
Proof.
  split.
  - intro H. inversion_clear H as [|? ? ? ? A H']. inversion_clear H' as [|? ? ? ? B H]. inversion_clear H as [|? ? ? ? C _]. auto.
  - intros (A & B & C). constructor; [auto|]. constructor; [auto|]. constructor; [auto|constructor].
Qed.
Lemma in_bounds_3_inv dx dy dc i : in_bounds [dx; dy; dc] i -> exists x y c, i = [x; y; c] /\ in_dim dx x /\ in_dim dy y /\ in_dim dc c.
Proof.
  intro H. inversion_clear H as [|? x ? ? A H']. inversion_clear H' as [|? y ? ? B H]. inversion_clear H as [|? c ? ? C H'].
  inversion_clear H'. exists x, y, c. auto.
Qed.

Section Images.
Context {F : Type} (fl : floats F) (nd : bool).
Implicit Types h : heap F.

Lemma shows_block h r f i : shows h r f -> in_bounds (r_shape r) i -> fst (r_base r) <> O.
Proof. intros S Hi. apply (peek_block h (elem (r_base r) (r_shape r) i) (Live (f i))). apply S. auto. Qed.

Lemma row_elem O y ox oy oc x c : r_shape O = [ox; oy; oc] -> fst (r_base O) <> 0%nat ->
  elem (r_base (ref_slice O [AAll; AIdx y; AAll])) (r_shape (ref_slice O [AAll; AIdx y; AAll])) [x; c] = elem (r_base O) (r_shape O) [x; y; c].
Proof.
  intros S N. rewrite <- elem_ref. destruct (slice_denotes O [AAll; AIdx y; AAll]) as (_ & P & _); [rewrite S; auto|auto|].
  apply P. reflexivity.
Qed.
Lemma crop_elem I d ix iy ic x k c : r_shape I = [ix; iy; ic] -> fst (r_base I) <> 0%nat ->
  elem (r_base (ref_slice I [AAll; ADim d; AAll])) (r_shape (ref_slice I [AAll; ADim d; AAll])) [x; k; c] = elem (r_base I) (r_shape I) [x; k; c].
Proof.
  intros S N. rewrite <- elem_ref. destruct (slice_denotes I [AAll; ADim d; AAll]) as (_ & P & _); [rewrite S; auto|auto|].
  apply P. reflexivity.
Qed.
Lemma row_shape O y ox oy oc : r_shape O = [ox; oy; oc] -> r_shape (ref_slice O [AAll; AIdx y; AAll]) = [ox; oc].
Proof. intro S. unfold ref_slice, make_array_ref_at. cbn [r_shape]. rewrite S. destruct ox, oc. reflexivity. Qed.
Lemma crop_shape I d ix iy ic : r_shape I = [ix; iy; ic] ->
  r_shape (ref_slice I [AAll; ADim d; AAll]) = [ix; mkD (dmin d) (dext d) (dstr iy); ic].
Proof. intro S. unfold ref_slice, make_array_ref_at. cbn [r_shape]. rewrite S. destruct ix, ic. reflexivity. Qed.

(** One row of the output of [resample_y] *)
Lemma row_refines h0 I O K f g ix iy ic ox oy oc kd y : r_shape I = [ix; iy; ic] -> r_shape O = [ox; oy; oc] -> r_shape K = [kd] ->
  in_dim oy y -> 1 <= dext ox -> 1 <= dext oc -> 1 <= dext kd -> dmin ix = dmin ox -> dext ix = dext ox ->
  dmin ic <= dmin oc -> dmin oc + dext oc <= dmin ic + dext ic -> dstr oc <> 0 ->
  dmin iy <= dmin kd -> dmin kd + dext kd <= dmin iy + dext iy ->
  shows h0 I f -> shows h0 K (fun i => g (nth 0 i 0)) -> injective_layout (r_shape O) ->
  (forall i, in_bounds (r_shape I) i -> ~ is_elem (r_base O) (r_shape O) (elem (r_base I) (r_shape I) i)) ->
  (forall i, in_bounds (r_shape K) i -> ~ is_elem (r_base O) (r_shape O) (elem (r_base K) (r_shape K) i)) ->
  refines O h0 (fun h => ein_reduce nd (f_add fl) h (ref_slice O [AAll; AIdx y; AAll]) [0; 2]%nat
      (EBin (f_mul fl) (EArr (ref_slice I [AAll; ADim kd; AAll]) [0; 1; 2]%nat) (EArr K [1]%nat)))
    (fun p w => if nth 1 p 0 =? y
       then fold_left (f_add fl) (map (fun j => f_mul fl (f [nth 0 p 0; j; nth 2 p 0]) (g j)) (range (dmin kd) (dext kd))) w else w).
Proof.
  intros SI SO SK Hy X1 X2 X3 Ex1 Ex2 C1 C2 Nz K1 K2 VI VK Inj AI AK h w St.
  assert (VI' : shows h I f) by (eapply mstate_shows; eauto).
  assert (VK' : shows h K (fun i => g (nth 0 i 0))) by (eapply mstate_shows; eauto).
  destruct St as (U & SW & Ot). unfold in_dim in Hy.
  assert (BO : fst (r_base O) <> 0%nat).
  { eapply (shows_block h O w [dmin ox; y; dmin oc]); auto. rewrite SO. apply in_bounds3'. unfold in_dim. lia. }
  assert (BI : fst (r_base I) <> 0%nat).
  { eapply (shows_block h I f [dmin ix; dmin kd; dmin oc]); auto. rewrite SI. apply in_bounds3'. unfold in_dim. lia. }
  set (R := ref_slice O [AAll; AIdx y; AAll]). set (J := ref_slice I [AAll; ADim kd; AAll]).
  assert (SR : r_shape R = [ox; oc]) by (eapply row_shape; eauto).
  assert (SJ : r_shape J = [ix; mkD (dmin kd) (dext kd) (dstr iy); ic]) by (eapply crop_shape; eauto).
  assert (ER : forall x c, elem (r_base R) (r_shape R) [x; c] = elem (r_base O) (r_shape O) [x; y; c]) by (intros; eapply row_elem; eauto).
  assert (EJ : forall x j c, elem (r_base J) (r_shape J) [x; j; c] = elem (r_base I) (r_shape I) [x; j; c]) by (intros; eapply crop_elem; eauto).
  assert (IR : forall x c, in_dim ox x -> in_dim oc c -> in_bounds (r_shape O) [x; y; c]).
  { intros x c Hx Hc. rewrite SO. apply in_bounds3'. unfold in_dim. auto. }
  assert (IJ : forall x j c, in_dim ix x -> in_dim kd j -> in_dim ic c -> in_bounds (r_shape I) [x; j; c]).
  { intros x j c Hx Hj Hc. rewrite SI. apply in_bounds3'. unfold in_dim in *. split; [auto|]. split; [lia|auto]. }
  assert (Sub : forall p, is_elem (r_base R) (r_shape R) p -> is_elem (r_base O) (r_shape O) p).
  { intros p (i & Hi & ->). rewrite SR in Hi. apply in_bounds_2 in Hi. destruct Hi as (x & c & -> & Hx & Hc).
    rewrite ER. exists [x; y; c]. auto. }
  set (Bn := fun l : nat => if (l =? 0)%nat then (dmin ox, dext ox) else if (l =? 1)%nat then (dmin kd, dext kd) else
            if (l =? 2)%nat then (dmin oc, dext oc) else (0, 1)).
  set (e := EBin (f_mul fl) (EArr J [0; 1; 2]%nat) (EArr K [1]%nat)).
  destruct (loops_exist ([0; 2]%nat ++ labels e)) as [n L].
  destruct (ein_reduce_index nd (f_add fl) h R [0; 2]%nat e Bn n) as (h' & E & Oc & Fv); auto.
  - ranks_.
  - split; [|split; [|split]].
    + intro l. unfold Bn. labels_.
    + intros l d Ad. unfold Bn, span_is. ops_; labels_; auto.
    + intros l d Ad. unfold e in Ad. cbn [operands app] in Ad.
      assert (Q : (l = 0%nat /\ d = ix) \/ (l = 1%nat /\ (d = mkD (dmin kd) (dext kd) (dstr iy) \/ d = kd)) \/ (l = 2%nat /\ d = ic)) by (ops_; auto).
      assert (Rn : forall l' D, addressed [(R, [0; 2]%nat)] l' D -> (l' = 0%nat /\ D = ox) \/ (l' = 2%nat /\ D = oc)) by (intros l' D Ad'; ops_; auto).
      assert (Cj : addressed [(R, [0; 2]%nat)] 2%nat oc) by (exists R, [0; 2]%nat; rewrite SR; cbn; auto).
      unfold span_is, span_within. destruct Q as [[-> ->]|[[-> Q]|[-> ->]]]; cbn [Bn Nat.eqb fst snd].
      * left. auto.
      * left. destruct Q as [-> | ->]; auto.
      * right. split; [lia|]. split; [eauto|]. intros D HD. destruct (Rn _ _ HD) as [[? _]|[_ ->]]; congruence.
    + intros l N. unfold Bn. labels_; exfalso.
      * apply (N ox). exists R, [0; 2]%nat. rewrite SR. cbn. auto.
      * apply (N kd). exists K, [1]%nat. rewrite SK. cbn. auto 8.
      * apply (N oc). exists R, [0; 2]%nat. rewrite SR. cbn. auto.
  - intros r is_ o Io Ho. cbn [e operands app In] in Io.
    destruct Io as [Io|[Io|[Io|[]]]]; inv Io.
    + rewrite SR in Ho. apply in_bounds_2 in Ho. destruct Ho as (x & c & -> & Hx & Hc). rewrite ER. eexists. apply SW. auto.
    + rewrite SJ in Ho. apply in_bounds_3_inv in Ho. destruct Ho as (x & j & c & -> & Hx & Hj & Hc). rewrite EJ. eexists. apply VI'. auto.
    + eexists. apply VK'. auto.
  - intros r is_ o Io Ho. cbn [e operands app In] in Io. destruct Io as [Io|[Io|[]]]; inv Io; intro G; apply Sub in G.
    + rewrite SJ in Ho. apply in_bounds_3_inv in Ho. destruct Ho as (x & j & c & -> & Hx & Hj & Hc). rewrite EJ in G. revert G. apply AI. auto.
    + revert G. apply AK. auto.
  - intros a b Ha Hb Eab. rewrite SR in Ha, Hb. apply in_bounds_2 in Ha, Hb. destruct Ha as (x & c & -> & Hx & Hc), Hb as (x' & c' & -> & Hx' & Hc').
    assert (Q : [x; y; c] = [x'; y; c']); [|inv Q; auto]. apply Inj; auto. rewrite SO. rewrite SR in Eab. cbn [offset] in *. lia.
  - exists h'. split; [exact E|]. split; [eapply usable_only_changes; eauto|]. split.
    2:{ intros p Hp. destruct Oc as [Oc _]. rewrite Oc by auto. auto. }
    intros o Ho. rewrite SO in Ho. apply in_bounds_3_inv in Ho. destruct Ho as (x & y' & c & -> & Hx & Hy' & Hc). cbn [nth].
    destruct (Z.eqb_spec y' y) as [->|Ny].
    2:{ unfold holds. destruct Oc as [Oc _]. rewrite Oc; [apply SW; rewrite SO; apply in_bounds3'; auto|].
        intros (i & Hi & Ei). rewrite SR in Hi. apply in_bounds_2 in Hi. destruct Hi as (x2 & c2 & -> & Hx2 & Hc2).
        rewrite ER in Ei. apply elem_inj in Ei. apply Inj in Ei; auto; [inv Ei; congruence|]. rewrite SO. apply in_bounds3'. auto. }
    destruct (Fv [x; c] (w [x; y; c])) as (v' & Hv & Rw); [rewrite SR; apply in_bounds_pair; auto|rewrite ER; auto|].
    rewrite ER in Hv. unfold holds in *. rewrite Hv. do 2 f_equal.
    assert (Lk : (1 < n)%nat) by lt_.
    set (a := fun l : nat => if (l =? 0)%nat then x else if (l =? 2)%nat then c else 0).
    apply (reduces_line h (f_add fl) _ _ (w [x; y; c]) v' n a 1%nat (dmin kd) (dext kd) (fun j => f_mul fl (f [x; j; c]) (g j)) Rw Lk).
    + pose proof (env_line Bn n [0; 2]%nat [x; c] a 1%nat) as EL. apply EL; auto.
      * out_; lt_.
      * intros [?|[?|[]]]; congruence.
      * intros l _ N. unfold Bn, a. cbn [In]. labels_; auto.
      * unfold in_dim in *. out_; unfold Bn, a; labels_.
    + intros z Hz. unfold e. constructor; constructor.
      * rewrite env_of_values by (repeat constructor; lt_). cbn [map]. unfold set_at, a. cbn [Nat.eqb]. rewrite EJ. apply VI', IJ; unfold in_dim in *; lia.
      * rewrite env_of_values by (repeat constructor; lt_). cbn [map]. unfold set_at, a. cbn [Nat.eqb]. apply (VK' [z]).
        rewrite SK. repeat constructor; lia.
Qed.

(** All rows *)
Lemma fill_row_refines h0 O ox oy oc y v : r_shape O = [ox; oy; oc] -> in_dim oy y -> 1 <= dext ox -> 1 <= dext oc ->
  injective_layout (r_shape O) ->
  refines O h0 (fun h => fill nd h (ref_slice O [AAll; AIdx y; AAll]) v) (fun p w => if nth 1 p 0 =? y then v else w).
Proof.
  intros SO Hy X1 X2 Inj. apply refines_fill; auto.
  - rewrite SO. reflexivity.
  - rewrite SO. unfold args_within. constructor; [auto|]. constructor; [cbn; intros x ->; auto|]. constructor; [auto|constructor].
  - rewrite SO. unfold in_dim in Hy. repeat constructor; lia.
  - pose proof (row_shape O y ox oy oc SO) as E. unfold ref_slice, make_array_ref_at in E. cbn [r_shape] in E. rewrite E.
    repeat constructor; lia.
  - intros p Hp. rewrite SO in *. apply in_bounds_3_inv in Hp. destruct Hp as (x & y' & c & -> & Hx & Hy' & Hc). cbn [nth combine].
    rewrite Z.eqb_eq. split.
    + intros ->. constructor; [exact Hx|]. constructor; [reflexivity|]. constructor; [exact Hc|constructor].
    + intro H. inversion_clear H as [|? ? ? ? _ H']. inversion_clear H' as [|? ? ? ? H _]. exact H.
Qed.

Definition kernel_at h (ks : list arr) (lo y : Z) (w : Z -> F) (ilo n : Z) : Prop :=
  lo <= y /\ exists a, nth_error ks (Z.to_nat (y - lo)) = Some a /\ kernel_ok fl h a w ilo n.

Lemma resample_y_refines h0 I O ks lo f (w : Z -> Z -> F) ix iy ic ox oy oc : r_shape I = [ix; iy; ic] -> r_shape O = [ox; oy; oc] ->
  1 <= dext ox -> 1 <= dext oy -> 1 <= dext oc -> dmin ix = dmin ox -> dext ix = dext ox ->
  dmin ic <= dmin oc -> dmin oc + dext oc <= dmin ic + dext ic -> dstr oc <> 0 ->
  (forall y, in_dim oy y -> taps fl (w y) (dmin iy) (dext iy) <> [] /\ kernel_at h0 ks lo y (w y) (dmin iy) (dext iy)) ->
  shows h0 I f -> injective_layout (r_shape O) ->
  (forall i, in_bounds (r_shape I) i -> ~ is_elem (r_base O) (r_shape O) (elem (r_base I) (r_shape I) i)) ->
  (forall a i, In a ks -> in_bounds (a_shape a) i -> ~ is_elem (r_base O) (r_shape O) (elem (a_base a) (a_shape a) i)) ->
  refines O h0 (resample_y fl nd I O ks lo)
    (fun p _ => weighted fl (w (nth 1 p 0)) (dmin iy) (dext iy) (fun j => f [nth 0 p 0; j; nth 2 p 0])).
Proof.
  intros SI SO X1 X2 X3 Ex1 Ex2 C1 C2 Nz Hk VI Inj AI AK. unfold resample_y. unfold dim_of. rewrite SO. cbn [nth].
  apply (refines_dim O h0 1 oy (fun _ => true)
    (fun p _ => weighted fl (w (nth 1 p 0)) (dmin iy) (dext iy) (fun j => f [nth 0 p 0; j; nth 2 p 0]))); [rewrite SO; reflexivity|lia|].
  intros y Hy. destruct (Hk y Hy) as (Tp & Ly & a & Ea & Sa & Va). cbn [andb].
  destruct (window_bounds fl (w y) (dmin iy) (dext iy) Tp) as (_ & _ & B1 & B2).
  set (ft := first_tap fl (w y) (dmin iy) (dext iy)) in *. set (lt := last_tap fl (w y) (dmin iy) (dext iy)) in *.
  set (kd := mkD ft (lt - ft + 1) 1) in *. set (g := fun j => norm_kernel fl (w y) (dmin iy) (dext iy) [j]).
  apply (refines_same O h0 (fun h => h1 <- fill nd h (ref_slice O [AAll; AIdx y; AAll]) (f0 fl) ;;
    ein_reduce nd (f_add fl) h1 (ref_slice O [AAll; AIdx y; AAll]) [0; 2]%nat
      (EBin (f_mul fl) (EArr (ref_slice I [AAll; ADim kd; AAll]) [0; 1; 2]%nat) (EArr (aref_of a) [1]%nat)))).
  { intro h. rewrite Ea. replace (y <? lo) with false by lia. rewrite Sa. reflexivity. }
  eapply refines_ext; [|apply (refines_then O h0 (fun p => nth 1 p 0 =? y) _ _ (fun _ _ => f0 fl)
      (fun p v => fold_left (f_add fl) (map (fun j => f_mul fl (f [nth 0 p 0; j; nth 2 p 0]) (g j)) (range (dmin kd) (dext kd))) v));
      [eapply fill_row_refines; eauto|]].
  - cbn beta. intros p v Hp. destruct (Z.eqb_spec (nth 1 p 0) y) as [->|]; reflexivity.
  - apply (row_refines h0 I O (aref_of a) f g ix iy ic ox oy oc kd); unfold kd; cbn [dmin dext]; auto; try lia.
    + intros i Hi. apply AK; auto. eapply nth_error_In; eauto.
Qed.

Lemma resample_y_writes I O ks lo : writes_in (fst (r_base O)) (resample_y fl nd I O ks lo).
Proof.
  apply (writes_for (fst (r_base O))). intros y h h' E. destruct (nth_error ks (Z.to_nat (y - lo))) as [a|]; [|discriminate].
  destruct (y <? lo); [discriminate|]. rewrite <- (slice_block O [AAll; AIdx y; AAll]).
  eapply (writes_bind (fst (r_base (ref_slice O [AAll; AIdx y; AAll])))); [| |exact E].
  - intros h1 E1. eapply writes_fill; eauto.
  - apply writes_ein.
Qed.

(** ** Transposition *)
Lemma transpose_refines h0 S D f sx sy sc dx dy dc : r_shape S = [sx; sy; sc] -> r_shape D = [dx; dy; dc] ->
  extents_ge 1 [dx; dy; dc] -> dmin sx = dmin dy -> dext sx = dext dy -> dmin sy = dmin dx -> dext sy = dext dx ->
  dmin sc = dmin dc -> dext sc = dext dc ->
  shows h0 S f -> injective_layout (r_shape D) ->
  (forall i, in_bounds (r_shape S) i -> ~ is_elem (r_base D) (r_shape D) (elem (r_base S) (r_shape S) i)) ->
  refines D h0 (transpose_image nd S D) (fun p _ => f [nth 1 p 0; nth 0 p 0; nth 2 p 0]).
Proof.
  intros SS SD X E1 E2 E3 E4 E5 E6 VS Inj AS h w St. unfold transpose_image.
  assert (VS' : shows h S f) by (eapply mstate_shows; eauto).
  destruct St as (U & SW & Ot). inversion_clear X as [|? ? X1 X']. inversion_clear X' as [|? ? X2 X]. inversion_clear X as [|? ? X3 _].
  set (Bn := fun l : nat => if (l =? 0)%nat then (dmin dx, dext dx) else if (l =? 1)%nat then (dmin dy, dext dy) else
            if (l =? 2)%nat then (dmin dc, dext dc) else (0, 1)).
  set (e := EArr S [1; 0; 2]%nat : expr F).
  destruct (loops_exist ([0; 1; 2]%nat ++ labels e)) as [n L].
  destruct (ein_reduce_index nd (fun _ v => v) h D [0; 1; 2]%nat e Bn n) as (h' & E & Oc & Fv); auto.
  - ranks_.
  - split; [|split; [|split]].
    + intro l. unfold Bn. labels_.
    + intros l d Ad. unfold Bn, span_is. ops_; labels_; auto.
    + intros l d Ad. unfold e in Ad. cbn [operands app] in Ad. left. unfold Bn, span_is. ops_; labels_; auto.
    + intros l N. unfold Bn. labels_; exfalso.
      * apply (N dx). exists D, [0; 1; 2]%nat. rewrite SD. cbn. auto.
      * apply (N dy). exists D, [0; 1; 2]%nat. rewrite SD. cbn. auto.
      * apply (N dc). exists D, [0; 1; 2]%nat. rewrite SD. cbn. auto.
  - intros r is_ o Io Ho. cbn [e operands app In] in Io. destruct Io as [Io|[Io|[]]]; inv Io; eexists; [apply SW|apply VS']; auto.
  - intros r is_ o Io Ho. cbn [e operands app In] in Io. destruct Io as [Io|[]]; inv Io. apply AS. auto.
  - exists h'. split; [exact E|]. split; [eapply usable_only_changes; eauto|]. split.
    2:{ intros p Hp. destruct Oc as [Oc _]. rewrite Oc by auto. auto. }
    intros o Ho. destruct (Fv o (w o) Ho (SW o Ho)) as (v' & Hv & Rw). unfold holds in *. rewrite Hv. do 2 f_equal.
    rewrite SD in Ho. apply in_bounds_3_inv in Ho. destruct Ho as (x & y & c & -> & Hx & Hy & Hc). cbn [nth].
    set (a := fun l : nat => if (l =? 0)%nat then x else if (l =? 1)%nat then y else if (l =? 2)%nat then c else 0).
    apply (reduces_point h (fun _ v => v) _ _ (w [x; y; c]) v' (env_of n a) (f [y; x; c]) Rw).
    + apply env_point.
      * out_; lt_.
      * intros l _. unfold Bn, a. cbn [In]. labels_; auto.
      * unfold in_dim in *. out_; unfold Bn, a; labels_.
      * reflexivity.
    + unfold e. constructor. rewrite env_of_values by (repeat constructor; lt_). cbn [map]. unfold a. cbn [Nat.eqb]. apply VS'.
      rewrite SS. apply in_bounds3'. unfold in_dim in *. lia.
Qed.
Lemma transpose_writes S D : writes_in (V:=F) (fst (r_base D)) (transpose_image nd S D).
Proof. apply writes_ein. Qed.
End Images.
