(** Facts about the convolutions. *)
From Coq Require Import Sorted Permutation.
From Verif Require Import Tac Interval Shape Traverse Memory Ref Spec SpecMem SpecEin
  Matrix SpecMatrix Conv SpecConv ShapeFacts IntervalFacts TraverseFacts MemFacts RefFacts SliceFacts EinFacts TileFacts
  MatrixFacts MatrixProd MatrixOrder LoopFacts.
Import ListNotations.
Open Scope Z_scope.

Lemma fold_flat_map {A B S} (f : S -> B -> S) (g : A -> list B) l s :
  fold_left f (flat_map g l) s = fold_left (fun s a => fold_left f (g a) s) l s.
Proof. revert s. induction l as [|a l IH]; intro s; [reflexivity|]. cbn [flat_map fold_left]. rewrite fold_left_app. apply IH. Qed.
Lemma in_bounds_4 a b c d p : in_bounds [a; b; c; d] p ->
  exists w x y z, p = [w; x; y; z] /\ in_dim a w /\ in_dim b x /\ in_dim c y /\ in_dim d z.
Proof.
  intro H. inversion H as [|? w ? l1 H1 H2]; subst. inversion H2 as [|? x ? l2 H3 H4]; subst.
  inversion H4 as [|? y ? l3 H5 H6]; subst. inversion H6 as [|? z ? l4 H7 H8]; subst. inversion H8; subst.
  exists w, x, y, z. auto.
Qed.

Section Conv.
Context {V : Type} (zero : V) (add mul : V -> V -> V) (ltb : V -> V -> bool).
Context (h0 : heap V) (I F B O : aref) (f g b : list Z -> V) (dco dx dy dn fx fy fc : dim).
Hypothesis (Se : conv_setting h0 I F B O f g b dco dx dy dn fx fy fc).
Let cis := range (dmin fc) (dext fc).
Let dys := range (dmin fy) (dext fy).
Let dxs := range (dmin fx) (dext fx).
Notation S4 := (cs_out _ _ _ _ _ _ _ _ _ _ _ _ _ _ _ Se).

Lemma conv_dims : dim_of O 0 = dco /\ dim_of O 1 = dx /\ dim_of O 2 = dy /\ dim_of O 3 = dn /\
  dim_of F 1 = fx /\ dim_of F 2 = fy /\ dim_of F 3 = fc.
Proof. unfold dim_of. destruct Se as [-> (fco & ->) _ _ _ _ _ _ _ _]. cbn. auto 10. Qed.
Lemma conv_ext : 0 <= dext dco /\ 0 <= dext dx /\ 0 <= dext dy /\ 0 <= dext dn /\ 0 <= dext fx /\ 0 <= dext fy /\ 0 <= dext fc.
Proof.
  pose proof (cs_ext _ _ _ _ _ _ _ _ _ _ _ _ _ _ _ Se) as X. unfold extents_ge in X. rewrite Forall_forall in X.
  repeat split; apply X; cbn; auto 10.
Qed.
Lemma conv_out co x y n : in_dim dco co -> in_dim dx x -> in_dim dy y -> in_dim dn n -> in_bounds (r_shape O) [co; x; y; n].
Proof. intros. rewrite S4. repeat (constructor; auto). Qed.
Lemma conv_read h c R s : mstate O h0 h c -> R = I /\ s = f \/ R = F /\ s = g \/ R = B /\ s = b -> shows h R s.
Proof.
  intros St H. destruct (cs_shows _ _ _ _ _ _ _ _ _ _ _ _ _ _ _ Se) as (SI & SF & SB).
  pose proof (cs_apart _ _ _ _ _ _ _ _ _ _ _ _ _ _ _ Se R) as Ap.
  eapply mstate_shows; eauto; [|apply Ap; tauto]. destruct H as [[-> ->]|[[-> ->]|[-> ->]]]; auto.
Qed.

(** out[o] += ..., where [out] at [o] is the element [p] of the output *)
Lemma conv_mac_refines out o co x y n ci j i : in_dim dco co -> in_dim dx x -> in_dim dy y -> in_dim dn n ->
  in_dim fx i -> in_dim fy j -> in_dim fc ci ->
  (forall h c, mstate O h0 h c -> ref_ptr out o = ref_ptr O [co; x; y; n]) ->
  refines O h0 (fun h => conv_mac add mul I F out o co x y n ci j i h)
    (fun p w => if list_eq_dec Z.eq_dec p [co; x; y; n]
                then add w (mul (g [co; i; j; ci]) (f [ci; x + i; y + j; n])) else w).
Proof.
  intros Hc Hx Hy Hn Hi Hj Hk E.
  destruct (cs_reads _ _ _ _ _ _ _ _ _ _ _ _ _ _ _ Se co x y n i j ci) as (RF & RI).
  { repeat (constructor; auto). } { repeat (constructor; auto). }
  apply (refines_update O h0 _ _ (fun w => add w (mul (g [co; i; j; ci]) (f [ci; x + i; y + j; n])))).
  - apply (cs_inj _ _ _ _ _ _ _ _ _ _ _ _ _ _ _ Se).
  - apply conv_out; auto.
  - intros h c St. unfold conv_mac. rewrite (shows_at h F g) by (auto; eapply conv_read; eauto).
    rewrite (shows_at h I f) by (auto; eapply conv_read; eauto). cbn [bind]. unfold ref_at. rewrite (E h c St).
    fold (ref_at h O [co; x; y; n]). destruct St as (_ & S & _). rewrite (shows_at h O c) by (auto; apply conv_out; auto). reflexivity.
Qed.
Lemma apply_at_refines out o co x y n u : in_dim dco co -> in_dim dx x -> in_dim dy y -> in_dim dn n ->
  (forall h c, mstate O h0 h c -> ref_ptr out o = ref_ptr O [co; x; y; n]) ->
  refines O h0 (apply_at out u o) (fun p w => if list_eq_dec Z.eq_dec p [co; x; y; n] then u w else w).
Proof.
  intros Hc Hx Hy Hn E. apply refines_update.
  - apply (cs_inj _ _ _ _ _ _ _ _ _ _ _ _ _ _ _ Se).
  - apply conv_out; auto.
  - intros h c St. unfold apply_at, ref_at. rewrite (E h c St). fold (ref_at h O [co; x; y; n]).
    destruct St as (_ & S & _). rewrite (shows_at h O c) by (auto; apply conv_out; auto). reflexivity.
Qed.

(** Tests for the index *)
Lemma at_index (P : list Z -> bool) co x y n p (u : V -> V) w : in_bounds (r_shape O) p ->
  (P p = true <-> nth 0 p 0 = co /\ nth 1 p 0 = x /\ nth 2 p 0 = y /\ nth 3 p 0 = n) ->
  (if list_eq_dec Z.eq_dec p [co; x; y; n] then u w else w) = if P p then u w else w.
Proof.
  intros Hp HP. rewrite S4 in Hp. destruct (in_bounds_4 _ _ _ _ _ Hp) as (w' & x' & y' & z' & -> & _). cbn [nth] in HP.
  destruct (list_eq_dec Z.eq_dec _ _) as [E|E].
  - inv E. rewrite (proj2 HP) by auto. reflexivity.
  - destruct (P _) eqn:Ep; [|reflexivity]. exfalso. apply E. destruct HP as [HP _]. destruct (HP eq_refl) as (-> & -> & -> & ->). reflexivity.
Qed.
Definition step (ci j i : Z) (p : list Z) (w : V) : V :=
  add w (mul (g [nth 0 p 0; i; j; ci]) (f [ci; nth 1 p 0 + i; nth 2 p 0 + j; nth 3 p 0])).
Lemma steps_sum p : fold_left (fun w ci => fold_left (fun w j => fold_left (fun w i => step ci j i p w) dxs w) dys w) cis (b [nth 0 p 0]) =
  conv_sum add mul f g b cis dys dxs (nth 0 p 0) (nth 1 p 0) (nth 2 p 0) (nth 3 p 0).
Proof.
  unfold conv_sum, conv_terms. rewrite fold_flat_map. apply fold_ext. intros s ci _. rewrite fold_flat_map.
  apply fold_ext. intros s' j _. rewrite fold_map. reflexivity.
Qed.
Lemma for_cis : for_dim fc = Ok cis /\ for_dim fy = Ok dys /\ for_dim fx = Ok dxs.
Proof. destruct conv_ext as (? & ? & ? & ? & ? & ? & ?). repeat split; apply for_dim_range; auto. Qed.
(** The three loops over the filter *)
Lemma filter_loops (P : list Z -> bool) (body : heap V -> Z -> Z -> Z -> outcome (heap V)) :
  (forall ci j i, in_dim fc ci -> in_dim fy j -> in_dim fx i ->
     refines O h0 (fun h => body h ci j i) (fun p w => if P p then step ci j i p w else w)) ->
  refines O h0 (for_in (for_dim fc) (fun h ci => for_in (for_dim fy) (fun h j => for_in (for_dim fx) (fun h i => body h ci j i) h) h))
    (fun p w => if P p then fold_left (fun w ci => fold_left (fun w j => fold_left (fun w i => step ci j i p w) dxs w) dys w) cis w else w).
Proof.
  intro H. destruct for_cis as (E1 & E2 & E3).
  apply (refines_acc O h0 P cis (for_dim fc) (fun ci p w => fold_left (fun w j => fold_left (fun w i => step ci j i p w) dxs w) dys w)); [exact E1|].
  intros ci Hci. apply (refines_acc O h0 P dys (for_dim fy) (fun j p w => fold_left (fun w i => step ci j i p w) dxs w)); [exact E2|].
  intros j Hj. apply (refines_acc O h0 P dxs (for_dim fx) (fun i p w => step ci j i p w)); [exact E3|].
  intros i Hi. unfold cis, dys, dxs in *. rewrite in_dim_range in *. auto.
Qed.
Definition result (relu : V -> V) (p : list Z) : V :=
  relu (conv_sum add mul f g b cis dys dxs (nth 0 p 0) (nth 1 p 0) (nth 2 p 0) (nth 3 p 0)).

Lemma conclude_conv run (relu : V -> V) : refines O h0 run (fun p _ => result relu p) ->
  fills_with h0 (run h0) O (fun co x y n => relu (conv_sum add mul f g b cis dys dxs co x y n)).
Proof.
  intro R. destruct (alive_shows zero h0 O (cs_alive _ _ _ _ _ _ _ _ _ _ _ _ _ _ _ Se)) as (w & Hw).
  destruct (R h0 w) as (h' & E & _ & S & U).
  - split; [apply (cs_us _ _ _ _ _ _ _ _ _ _ _ _ _ _ _ Se)|]. auto.
  - exists h'. split; [exact E|]. split; [|exact U]. intros co x y n Hp. apply (S _ Hp).
Qed.

Lemma naive_refines : refines O h0 (conv2d_naive zero add mul ltb I F B O) (fun p _ => result (fun s => std_max ltb s zero) p).
Proof.
  unfold conv2d_naive. destruct conv_dims as (-> & -> & -> & -> & -> & -> & ->). destruct conv_ext as (X0 & X1 & X2 & X3 & _).
  apply (refines_dim O h0 3 dn (fun _ => true)); [rewrite S4; reflexivity|auto|]. intros n Hn.
  apply (refines_dim O h0 2 dy); [rewrite S4; reflexivity|auto|]. intros y Hy.
  apply (refines_dim O h0 1 dx); [rewrite S4; reflexivity|auto|]. intros x Hx.
  apply (refines_dim O h0 0 dco); [rewrite S4; reflexivity|auto|]. intros co Hco. cbn beta.
  match goal with |- refines _ _ _ (fun p _ => if @?P0 p then _ else _) => set (P := P0) end.
  assert (HP : forall p, P p = true <-> nth 0 p 0 = co /\ nth 1 p 0 = x /\ nth 2 p 0 = y /\ nth 3 p 0 = n).
  { intro p. unfold P. rewrite !andb_true_iff. lia. }
  apply (refines_same O h0 (fun h => h1 <- (b0 <- ref_at h B [co] ;; store h (ref_ptr O [co; x; y; n]) b0) ;;
    h2 <- for_in (for_dim fc) (fun h ci => for_in (for_dim fy) (fun h j => for_in (for_dim fx) (fun h i =>
            conv_mac add mul I F O [co; x; y; n] co x y n ci j i h) h) h) h1 ;;
    apply_at O (fun v => std_max ltb v zero) [co; x; y; n] h2)).
  { intro h. destruct (ref_at h B [co]); reflexivity. }
  eapply refines_ext; [|apply (refines_then O h0 P _ _ (fun p _ => b [nth 0 p 0])
    (fun p w => std_max ltb (fold_left (fun w ci => fold_left (fun w j => fold_left (fun w i => step ci j i p w) dxs w) dys w) cis w) zero))].
  - cbn beta. intros p w _. unfold P. destruct (_ && _); [|reflexivity]. unfold result. rewrite <- steps_sum. reflexivity.
  - eapply refines_ext; [|apply (refines_update O h0 [co; x; y; n] _ (fun _ => b [co]))].
    + cbn beta. intros p w Hp. rewrite (at_index P co x y n p (fun _ => b [co])) by auto.
      destruct (P p) eqn:Ep; [|reflexivity]. apply HP in Ep. destruct Ep as (-> & _). reflexivity.
    + apply (cs_inj _ _ _ _ _ _ _ _ _ _ _ _ _ _ _ Se).
    + apply conv_out; auto.
    + intros h c St. rewrite (shows_at h B b); [reflexivity|eapply conv_read; eauto|].
      apply (cs_bias _ _ _ _ _ _ _ _ _ _ _ _ _ _ _ Se). auto.
  - apply (refines_then O h0 P (for_in (for_dim fc) _) _ (fun p w => fold_left (fun w ci => fold_left (fun w j => fold_left (fun w i => step ci j i p w) dxs w) dys w) cis w) (fun _ w => std_max ltb w zero)).
    + apply filter_loops. intros ci j i Hci Hj Hi. eapply refines_ext; [|apply conv_mac_refines; auto].
      cbn beta. intros p w Hp. rewrite (at_index P co x y n p (fun w => add w _)) by auto.
      destruct (P p) eqn:Ep; [|reflexivity]. apply HP in Ep. unfold step. destruct Ep as (-> & -> & -> & ->). reflexivity.
    + eapply refines_ext; [|apply (apply_at_refines O [co; x; y; n] co x y n); auto]. cbn beta. intros p w Hp. apply (at_index P co x y n p (fun v => std_max ltb v zero)); auto.
Qed.

Lemma tiled_refines_conv nd N0 N1 : 1 <= N0 <= dext dco -> 1 <= N1 <= dext dx ->
  refines O h0 (conv2d_tiled zero add mul ltb nd N0 N1 I F B O) (fun p _ => result (fun s => std_max ltb zero s) p).
Proof.
  intros HN0 HN1.
  unfold conv2d_tiled. destruct conv_dims as (-> & -> & -> & -> & -> & -> & ->). destruct conv_ext as (X0 & X1 & X2 & X3 & _).
  destruct (split_covers nd N0 dco HN0) as (r0 & l0 & E0 & L0 & F0 & C0).
  destruct (split_covers nd N1 dx HN1) as (r1 & l1 & E1 & L1 & F1 & C1). rewrite Forall_forall in F0, F1.
  apply (refines_dim O h0 3 dn (fun _ => true)); [rewrite S4; reflexivity|auto|]. intros n Hn.
  apply (refines_dim O h0 2 dy); [rewrite S4; reflexivity|auto|]. intros y Hy. rewrite E1. cbn [bind].
  apply (refines_pieces O h0 1 dx _ _ l1); [exact L1|rewrite S4; reflexivity|exact C1|]. intros xo Hxo. rewrite E0. cbn [bind].
  apply (refines_pieces O h0 0 dco _ _ l0); [exact L0|rewrite S4; reflexivity|exact C0|]. intros coo Hcoo. cbn beta zeta.
  destruct (F0 coo Hcoo) as (Ec & Ic). destruct (F1 xo Hxo) as (Ex & Ix).
  set (tile := ref_slice O [AInt coo; AInt xo; AIdx y; AIdx n]).
  match goal with |- refines _ _ _ (fun p _ => if @?P0 p then _ else _) => set (P := P0) end.
  assert (HP : forall p, P p = true <-> in_interval coo (nth 0 p 0) /\ in_interval xo (nth 1 p 0) /\ nth 2 p 0 = y /\ nth 3 p 0 = n).
  { intro p. unfold P. rewrite !andb_true_iff, !containsb_spec, !Z.eqb_eq. intuition. }
  assert (Pt : forall h c co x, mstate O h0 h c -> in_interval coo co -> in_interval xo x -> ref_ptr tile [co; x] = ref_ptr O [co; x; y; n]).
  { intros h c co x St Hco Hx. unfold tile. apply (slice_ptr O h c h0 [AInt coo; AInt xo; AIdx y; AIdx n] [co; x] St).
    - rewrite S4. reflexivity.
    - reflexivity.
    - apply conv_out; auto. }
  (** Two loops over the tile *)
  assert (Lo : forall (body : heap V -> Z -> Z -> outcome (heap V)) (T : list Z -> V -> V),
    (forall x co, in_interval xo x -> in_interval coo co -> refines O h0 (fun h => body h x co)
       (fun p w => if list_eq_dec Z.eq_dec p [co; x; y; n] then T [co; x; y; n] w else w)) ->
    refines O h0 (for_in (for_interval xo) (fun h x => for_in (for_interval coo) (fun h co => body h x co) h))
      (fun p w => if P p then T p w else w)).
  { intros body T H. eapply refines_ext; [|apply (refines_interval O h0 1 xo
      (fun p => (nth 2 p 0 =? y) && (nth 3 p 0 =? n) && containsb (nth 0 p 0) coo) T); [lia|]].
    - cbn beta. intros p w _. unfold P. destruct (_ =? _), (_ =? _), (containsb _ _), (containsb _ _); reflexivity.
    - intros x Hx. eapply refines_ext; [|apply (refines_interval O h0 0 coo
        (fun p => (nth 2 p 0 =? y) && (nth 3 p 0 =? n) && (nth 1 p 0 =? x)) T); [lia|]].
      + cbn beta. intros p w _. destruct (_ =? _), (_ =? _), (_ =? _), (containsb _ _); reflexivity.
      + intros co Hco. eapply refines_ext; [|apply H; auto]. cbn beta. intros p w Hp.
        rewrite (at_index (fun p => (nth 2 p 0 =? y) && (nth 3 p 0 =? n) && (nth 1 p 0 =? x) && (nth 0 p 0 =? co)) co x y n p (T [co; x; y; n]) w Hp)
          by (rewrite !andb_true_iff; lia).
        rewrite S4 in Hp. destruct (in_bounds_4 _ _ _ _ _ Hp) as (w' & x' & y' & z' & -> & _). cbn [nth].
        destruct (Z.eqb_spec y' y), (Z.eqb_spec z' n), (Z.eqb_spec x' x), (Z.eqb_spec w' co); subst; reflexivity. }
  eapply refines_ext; [|apply (refines_then O h0 P _ _ (fun p _ => b [nth 0 p 0])
    (fun p w => std_max ltb zero (fold_left (fun w ci => fold_left (fun w j => fold_left (fun w i => step ci j i p w) dxs w) dys w) cis w)))].
  - cbn beta. intros p w _. unfold P. destruct (_ && _); [|reflexivity]. unfold result. rewrite <- steps_sum. reflexivity.
  - eapply refines_ext; [|apply (refines_interval O h0 0 coo
      (fun p => (nth 2 p 0 =? y) && (nth 3 p 0 =? n) && containsb (nth 1 p 0) xo) (fun p _ => b [nth 0 p 0])); [lia|]].
    + cbn beta. intros p w _. unfold P. destruct (_ =? _), (_ =? _), (containsb _ _), (containsb _ _); reflexivity.
    + intros co Hco.
      assert (Nz : (exists h c, mstate O h0 h c) -> fst (r_base O) <> 0%nat).
      { intros (h & c & (_ & S & _)). apply (peek_block h (elem (r_base O) (r_shape O) [co; imin xo; y; n]) (Live (c [co; imin xo; y; n]))).
        apply S. apply conv_out; auto. apply Ix. unfold in_interval. lia. }
      assert (R : refines O h0 (fun h => fill nd h (ref_slice O [AIdx co; AInt xo; AIdx y; AIdx n]) (b [co]))
        (fun p w => if (nth 2 p 0 =? y) && (nth 3 p 0 =? n) && containsb (nth 1 p 0) xo && (nth 0 p 0 =? co) then b [nth 0 p 0] else w)).
      { eapply refines_ext; [|apply (refines_fill O h0 nd [AIdx co; AInt xo; AIdx y; AIdx n] (b [co])
          (fun p => (nth 2 p 0 =? y) && (nth 3 p 0 =? n) && containsb (nth 1 p 0) xo && (nth 0 p 0 =? co)))].
        - cbn beta. intros p w _. destruct (Z.eqb_spec (nth 0 p 0) co) as [->|]; [reflexivity|]. rewrite !andb_false_r. reflexivity.
        - apply (cs_inj _ _ _ _ _ _ _ _ _ _ _ _ _ _ _ Se).
        - rewrite S4. reflexivity.
        - rewrite S4. unfold args_within. repeat apply Forall2_cons; try apply Forall2_nil; cbn [selects]; intros ? ?; subst; auto.
        - rewrite S4. repeat constructor; auto.
        - rewrite S4. cbn. repeat constructor; cbn; lia.
        - intros p Hp. rewrite S4 in *. destruct (in_bounds_4 _ _ _ _ _ Hp) as (w' & x' & y' & z' & -> & _). cbn [nth combine].
          rewrite !andb_true_iff, containsb_spec, !Z.eqb_eq. split.
          + intros [[[-> ->] Hx] ->]. repeat constructor; cbn; auto; apply Hx.
          + intro Q. inversion Q as [|? ? ? ? Q1 Q2]; subst. inversion Q2 as [|? ? ? ? Q3 Q4]; subst.
            inversion Q4 as [|? ? ? ? Q5 Q6]; subst. inversion Q6 as [|? ? ? ? Q7 Q8]; subst. cbn in *. auto. }
      intros h c St. rewrite (shows_at h B b); [|eapply conv_read; eauto|apply (cs_bias _ _ _ _ _ _ _ _ _ _ _ _ _ _ _ Se); auto].
      cbn [bind]. unfold tile. destruct (slices_compose O [AInt coo; AInt xo; AIdx y; AIdx n] [AIdx co; AAll]) as [Q _];
        [rewrite S4; reflexivity|reflexivity|left; eauto|]. rewrite Q. apply R. auto.
  - apply (refines_then O h0 P (for_in (for_dim fc) _) _ (fun p w => fold_left (fun w ci => fold_left (fun w j => fold_left (fun w i => step ci j i p w) dxs w) dys w) cis w) (fun _ w => std_max ltb zero w)).
    + apply filter_loops. intros ci j i Hci Hj Hi.
      apply (Lo (fun h x co => conv_mac add mul I F tile [co; x] co x y n ci j i h) (step ci j i)).
      intros x co Hx Hco. eapply refines_ext; [|apply conv_mac_refines; auto; intros; eapply Pt; eauto].
      cbn beta. intros p w Hp. destruct (list_eq_dec _ _ _); reflexivity.
    + apply (Lo (fun h x co => apply_at tile (fun v => std_max ltb zero v) [co; x] h) (fun _ w => std_max ltb zero w)).
      intros x co Hx Hco. apply apply_at_refines; auto. intros; eapply Pt; eauto.
Qed.

Lemma conv_naive : fills_with h0 (conv2d_naive zero add mul ltb I F B O h0) O
  (fun co x y n => let s := conv_sum add mul f g b cis dys dxs co x y n in if ltb s zero then zero else s).
Proof. apply (conclude_conv _ (fun s => std_max ltb s zero)). apply naive_refines. Qed.
Lemma conv_tiled nd N0 N1 : 1 <= N0 <= dext dco -> 1 <= N1 <= dext dx ->
  fills_with h0 (conv2d_tiled zero add mul ltb nd N0 N1 I F B O h0) O
  (fun co x y n => let s := conv_sum add mul f g b cis dys dxs co x y n in if ltb zero s then s else zero).
Proof. intros. apply (conclude_conv _ (fun s => std_max ltb zero s)). apply tiled_refines_conv; auto. Qed.
Lemma conv_same nd N0 N1 : 1 <= N0 <= dext dco -> 1 <= N1 <= dext dx ->
  (forall s, ltb s zero = false -> ltb zero s = false -> s = zero) ->
  (forall s, ltb s zero = true -> ltb zero s = true -> False) ->
  exists h1 h2, conv2d_naive zero add mul ltb I F B O h0 = Ok h1 /\ conv2d_tiled zero add mul ltb nd N0 N1 I F B O h0 = Ok h2 /\ forall p, peek h1 p = peek h2 p.
Proof.
  intros H0 H1 Q1 Q2. destruct conv_naive as (h1 & E1 & S1 & U1). destruct (conv_tiled nd N0 N1 H0 H1) as (h2 & E2 & S2 & U2).
  exists h1, h2. split; [exact E1|]. split; [exact E2|]. intro p.
  assert (D : is_elem (r_base O) (r_shape O) p \/ ~ is_elem (r_base O) (r_shape O) p).
  { destruct (in_dec ptr_dec p (map (elem (r_base O) (r_shape O)) (box (r_shape O)))) as [H|H]; [left|right].
    - apply in_map_iff in H. destruct H as (i & <- & Hi). exists i. split; [apply box_In; auto|auto].
    - intros (i & Hi & ->). apply H. apply in_map, box_In. auto. }
  destruct D as [(i & Hi & ->)|D]; [|rewrite U1, U2; auto].
  pose proof Hi as Hi'. rewrite S4 in Hi'. destruct (in_bounds_4 _ _ _ _ _ Hi') as (co & x & y & n & -> & _).
  rewrite (S1 _ _ _ _ Hi), (S2 _ _ _ _ Hi). cbv zeta.
  set (s := conv_sum add mul f g b cis dys dxs co x y n). clearbody s.
  destruct (ltb s zero) eqn:L1, (ltb zero s) eqn:L2; auto.
  - destruct (Q2 s L1 L2).
  - rewrite (Q1 s L1 L2). reflexivity.
Qed.
Lemma conv_small N0 N1 : 1 <= dext dn -> 1 <= dext dy -> 1 <= N0 -> 1 <= N1 -> dext dx < N1 \/ (N1 <= dext dx /\ dext dco < N0) ->
  conv2d_tiled zero add mul ltb false N0 N1 I F B O h0 = AssertFail.
Proof.
  intros Xn Xy HN0 HN1 H. unfold conv2d_tiled. destruct conv_dims as (-> & -> & -> & -> & -> & -> & ->).
  assert (Fst : forall d (body : heap V -> Z -> outcome (heap V)) h, 1 <= dext d -> (forall h x, body h x = AssertFail) ->
    for_in (for_dim d) body h = AssertFail).
  { intros d body h X Q. unfold for_in. rewrite for_dim_range by lia. unfold range. destruct (Z.to_nat (dext d)) as [|k] eqn:E; [lia|].
    cbn [seq map bind foldM]. rewrite Q. reflexivity. }
  apply Fst; auto. intros h n. apply Fst; auto. intros h' y. destruct H as [H|[H1 H]].
  - rewrite split_small by (cbn [d_interval iext]; lia). reflexivity.
  - destruct (split_covers false N1 dx) as (r1 & l1 & E1 & L1 & F1 & C1); [lia|]. rewrite E1. cbn [bind]. rewrite L1.
    destruct (C1 (dmin dx)) as (v & Iv & _); [unfold in_dim; lia|]. destruct l1 as [|v1 l1]; [destruct Iv|].
    unfold for_in at 1. cbn [bind foldM]. rewrite split_small by (cbn [d_interval iext]; lia). reflexivity.
Qed.
End Conv.
