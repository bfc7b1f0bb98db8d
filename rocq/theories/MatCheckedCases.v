(** Results about matrix products and convolutions in 64 bits, and concrete cases. *)
From Coq Require Import ZArith List Bool Lia Sorted.
From Verif Require Import Tac Interval Shape Memory Ref Static Ein ZOrder Matrix Conv Checked ViewChecked MatChecked
  Spec SpecMem SpecZ SpecStatic SpecEin SpecChecked SpecViewChecked SpecMatrix SpecMatChecked SpecConv
  CheckedFacts ViewCheckedFacts ZOrderFacts EinCases MatrixProd MatrixEin MatrixTiles MatrixZ MatrixOrder MatrixCases ConvFacts ConvCases
  MatCheckedFacts MatCheckedProd ConvCheckedFacts.
Import ListNotations.
Open Scope Z_scope.

Lemma k_z_visits (ext : list Z) : (0 < length ext)%nat -> Forall (fun e => 1 <= e <= 2 ^ 62) ext ->
  exists l, k_for_each_index_in_z_order ext = Ok l /\ enumerates (in_box ext) l /\ StronglySorted z_before l.
Proof. intros. rewrite k_z_order_ok. apply z_order_visits; auto. Qed.
Lemma k_z_huge (ext : list Z) : Exists (fun e => 2 ^ 62 < e) ext -> k_for_each_index_in_z_order ext = UB.
Proof.
  intro H. destruct ext as [|x r]; [reflexivity|]. unfold k_for_each_index_in_z_order.
  rewrite next_power_of_two_huge; [reflexivity|]. destruct (max_element_spec r x) as [M1 M2].
  rewrite Forall_forall in M2. inversion H as [? ? Hx|? ? Hr]; subst; [lia|].
  apply Exists_exists in Hr. destruct Hr as (e & He & Hl). specialize (M2 e He). lia.
Qed.

Section Products.
Context {V : Type} (zero : V) (add mul : V -> V -> V) (h : heap V) (A B C : aref) (f g : list Z -> V) (ai ak bk bj ci cj : dim).
Hypothesis (Se : setting h A B C f g ai ak bk bj ci cj) (Fi : matrices_fit A B C).
Notation product run := (multiplies zero add mul h run C f g (range (dmin ak) (dext ak))).

Lemma k_cols : product (k_multiply_reduce_cols zero add mul A B C h).
Proof. destruct Se as [SA SB SC X HI Op U]. rewrite (k_cols_same zero add mul A B C ai ak bk bj ci cj); auto. eapply reduce_cols; eauto. Qed.
Lemma k_rows : product (k_multiply_reduce_rows zero add mul A B C h).
Proof. destruct Se as [SA SB SC X HI Op U]. rewrite (k_rows_same zero add mul A B C ai ak bk bj ci cj); auto. eapply reduce_rows; eauto. Qed.
Lemma k_matrix : product (k_multiply_reduce_matrix zero add mul A B C h).
Proof. destruct Se as [SA SB SC X HI Op U]. rewrite (k_matrix_same zero add mul A B C ai ak bk bj ci cj); auto. eapply reduce_matrix; eauto. Qed.
Lemma k_ein nd i j k : i <> j -> i <> k -> j <> k -> spans ci ai -> spans cj bj -> same_bounds ak bk ->
  product (k_multiply_ein zero add mul nd i j k A B C h).
Proof.
  intros. destruct Se as [SA SB SC X HI Op U]. rewrite (k_ein_same zero add mul nd h A B C ai ak bk bj ci cj); auto.
  - eapply multiply_ein_ok; eauto.
  - repeat constructor; apply X.
Qed.
Section Tiles.
Context (N1 N2 : Z) (Hb : buffer_fits N1 N2).
Lemma k_tiles nd : tiles_fit N1 ci -> tiles_fit N2 cj -> product (k_multiply_reduce_tiles zero add mul nd N1 N2 A B C h).
Proof.
  intros T1 T2. pose proof (proj1 T1). pose proof (proj1 T2). destruct Se as [SA SB SC X HI Op U].
  rewrite (k_reduce_tiles_same zero add mul A B C ai ak bk bj ci cj); auto. eapply reduce_tiles; eauto.
Qed.
Lemma k_ein_tiles nd : tiles_fit N1 ci -> tiles_fit N2 cj -> same_bounds ak bk ->
  product (k_multiply_ein_reduce_tiles zero add mul nd N1 N2 A B C h).
Proof.
  intros T1 T2 Sb. pose proof (proj1 T1). pose proof (proj1 T2). destruct Se as [SA SB SC X HI Op U].
  rewrite (k_ein_tiles_same zero add mul A B C ai ak bk bj ci cj); auto; [|apply X]. eapply ein_reduce_tiles; eauto.
Qed.
Section Z.
Context (tile_k line : Z) (nd : bool).
Hypothesis (T1 : tiles_count N1 ci) (T2 : tiles_count N2 cj) (Bf : blocks_fit tile_k ak) (Pf : prefetch_fits line N1 N2 A B).
Lemma k_z_is : k_multiply_reduce_tiles_z_order zero add mul nd N1 N2 tile_k line A B C h =
  multiply_reduce_tiles_z_order zero add mul nd N1 N2 tile_k A B C h.
Proof.
  pose proof (proj1 T1). pose proof (proj1 T2). destruct Se as [SA SB SC X HI Op U].
  apply (k_z_same zero add mul A B C ai ak bk bj ci cj); auto.
Qed.
Lemma k_z_exact : 1 <= dext ak -> exists b r h',
  consecutive (dmin ak) (dmin ak + dext ak) (b :: r) /\ Forall (fun p => 1 <= iext p <= tile_k) (b :: r) /\
  Forall (fun p => iext p = tile_k) (removelast (b :: r)) /\
  k_multiply_reduce_tiles_z_order zero add mul nd N1 N2 tile_k line A B C h = Ok h' /\
  (forall i j, in_bounds (r_shape C) [i; j] -> holds h' (elem (r_base C) (r_shape C) [i; j])
     (fold_left add
        (flat_map (fun p => repeat (inner_product zero add mul f g (range (imin p) (iext p)) i j) (tile_count N1 ci i * tile_count N2 cj j)) r)
        (inner_product zero add mul f g (range (imin b) (iext b)) i j))) /\
  (forall p, ~ is_elem (r_base C) (r_shape C) p -> peek h' p = peek h p).
Proof.
  intro X. rewrite k_z_is. destruct T1 as (A1 & A2 & _), T2 as (B1 & B2 & _), Bf as (K1 & _).
  eapply z_order_exact; eauto. apply K1.
Qed.
Lemma k_z_even : (forall a b c, add a (add b c) = add (add a b) c) -> (forall a, add zero a = a) ->
  1 <= dext ak -> dext ci mod N1 = 0 -> dext cj mod N2 = 0 ->
  product (k_multiply_reduce_tiles_z_order zero add mul nd N1 N2 tile_k line A B C h).
Proof.
  intros As Un X M1 M2. rewrite k_z_is. destruct T1 as (A1 & A2 & _), T2 as (B1 & B2 & _), Bf as (K1 & _).
  eapply z_order_even; eauto. apply K1.
Qed.
End Z.
End Tiles.
End Products.

Section Conv.
Context {V : Type} (zero : V) (add mul : V -> V -> V) (ltb : V -> V -> bool) (h : heap V) (I F B O : aref)
    (f g b : list Z -> V) (dco dx dy dn fx fy fc : dim).
Hypothesis (Cs : conv_setting h I F B O f g b dco dx dy dn fx fy fc) (Fi : Forall (fun r => roomy (r_shape r)) [I; F; B; O]).
Lemma k_naive : fills_with h (k_conv2d_naive zero add mul ltb I F B O h) O (fun co x y n =>
    let s := conv_sum add mul f g b (range (dmin fc) (dext fc)) (range (dmin fy) (dext fy)) (range (dmin fx) (dext fx)) co x y n in
    if ltb s zero then zero else s).
Proof.
  inv Fi. inv H2. inv H4. inv H5. pose proof Cs as [SO [fco SF] X Rd Bi _ _ _ _ _].
  rewrite (k_naive_same zero add mul ltb I F B O dco dx dy dn fco fx fy fc); auto. eapply conv_naive; eauto.
Qed.
Lemma k_tiled nd tile_co tile_x : tiles_fit tile_co dco -> tiles_fit tile_x dx ->
  fills_with h (k_conv2d_tiled zero add mul ltb nd tile_co tile_x I F B O h) O (fun co x y n =>
    let s := conv_sum add mul f g b (range (dmin fc) (dext fc)) (range (dmin fy) (dext fy)) (range (dmin fx) (dext fx)) co x y n in
    if ltb zero s then s else zero).
Proof.
  intros T1 T2. inv Fi. inv H2. inv H4. inv H5. pose proof Cs as [SO [fco SF] X Rd Bi _ _ _ _ _].
  rewrite (k_tiled_same zero add mul ltb I F B O dco dx dy dn fco fx fy fc); auto. eapply conv_tiled; eauto; [apply T1|apply T2].
Qed.
End Conv.

(** ** Cases *)
(** [roomy], decided *)
Definition roomyb (s : list dim) : bool :=
  let ix x := (-9223372036854775808 <=? x) && (x <=? 9223372036854775807) in
  forallb (fun d => ix (dmin d) && ix (dext d) && ix (dstr d) && (0 <=? dext d) && ix (dmin d + dext d) && ix (dmin d + dext d - 1)
                    && negb (dstr d =? -9223372036854775808)) s && (reach s <=? 9223372036854775807).
Lemma roomyb_ok s : roomyb s = true -> roomy s.
Proof.
  unfold roomyb. rewrite andb_true_iff, forallb_forall. intros [H R]. apply Z.leb_le in R.
  assert (Q : Forall (fun d => is_dim d /\ (is_index (dmin d + dext d) /\ is_index (dmin d + dext d - 1)) /\ ~ unknown_stride d) s).
  { apply Forall_forall. intros d Hd. specialize (H d Hd). unfold is_dim, is_index, unknown_stride. lia. }
  split; [eapply Forall_impl; [|exact Q]; cbn beta; tauto|]. split; [|split; [|exact R]].
  - unfold ends_fit. eapply Forall_impl; [|exact Q]. cbn beta. tauto.
  - eapply Forall_impl; [|exact Q]. cbn beta. tauto.
Qed.
Lemma fit_M : matrices_fit tA tB tC /\ tiles_fit 2 (mkD 1 3 3) /\ tiles_fit 2 (mkD 0 3 1) /\ tiles_count 2 (mkD 1 3 3) /\
  tiles_count 2 (mkD 0 3 1) /\ buffer_fits 2 2 /\ blocks_fit 1 (mkD 0 2 1) /\ prefetch_fits 64 2 2 tA tB.
Proof.
  split; [split; [|split]; apply roomyb_ok; reflexivity|].
  unfold tiles_fit, tiles_count, buffer_fits, blocks_fit, prefetch_fits. cbn [dmin dext].
  do 6 (split; [lia|]). split; [lia|]. split; [lia|]. split; [lia|]. cbn [r_shape tA tB]. split; apply roomyb_ok; reflexivity.
Qed.
Lemma fit_C : Forall (fun r => roomy (r_shape r)) [cI; cF; cB; cO].
Proof. apply Forall_forall. intros r Hr. apply roomyb_ok. repeat (destruct Hr as [<-|Hr]; [reflexivity|]). destruct Hr. Qed.

(** The same matrices, but the last row is the last but one that index_t allows *)
Definition lA : aref := mkR (1%nat, 0) [mkD 9223372036854775804 3 2; mkD 0 2 1].
Definition lC : aref := mkR (3%nat, 0) [mkD 9223372036854775804 3 3; mkD 0 3 1].
Lemma last_rows : exists (h : heap Z) (A B C : aref) (f g : list Z -> Z) (ai ak bk bj ci cj : dim),
  setting h A B C f g ai ak bk bj ci cj /\ matrices_fit A B C /\ 2 <= dext ci /\ 2 <= dext cj /\ buffer_fits 2 2 /\
  multiplies 0 Z.add Z.mul h (k_multiply_reduce_cols 0 Z.add Z.mul A B C h) C f g (range (dmin ak) (dext ak)) /\
  forall nd, k_multiply_reduce_tiles 0 Z.add Z.mul nd 2 2 A B C h = UB.
Proof.
  assert (S : setting heapM lA tB lC (view_of heapM lA) (view_of heapM tB)
    (mkD 9223372036854775804 3 2) (mkD 0 2 1) (mkD 0 2 3) (mkD 0 3 1) (mkD 9223372036854775804 3 3) (mkD 0 3 1)).
  { constructor; try reflexivity.
    - cbn; lia.
    - unfold inside, in_dim; cbn; intuition lia.
    - apply operands_check; vm_compute; reflexivity.
    - apply heap3_usable. }
  assert (M : matrices_fit lA tB lC) by (split; [|split]; apply roomyb_ok; reflexivity).
  exists heapM, lA, tB, lC, (view_of heapM lA), (view_of heapM tB),
    (mkD 9223372036854775804 3 2), (mkD 0 2 1), (mkD 0 2 3), (mkD 0 3 1), (mkD 9223372036854775804 3 3), (mkD 0 3 1).
  split; [exact S|]. split; [exact M|]. split; [cbn; lia|]. split; [cbn; lia|]. split; [unfold buffer_fits; lia|].
  split; [eapply k_cols; eauto|]. intros [|]; vm_compute; reflexivity.
Qed.
(** The prefetch alone can overflow *)
Definition pA : aref := mkR (1%nat, 0) [mkD 1 3 2; mkD 9223372036854775804 2 1].
Definition pB : aref := mkR (2%nat, 0) [mkD 9223372036854775804 2 3; mkD 0 3 1].
Lemma prefetch_overflow : exists (h : heap Z) (A B C : aref) (f g : list Z -> Z) (ai ak bk bj ci cj : dim),
  setting h A B C f g ai ak bk bj ci cj /\ matrices_fit A B C /\ buffer_fits 3 3 /\ tiles_count 3 ci /\ tiles_count 3 cj /\ blocks_fit 1 ak /\
  multiplies 0 Z.add Z.mul h (k_multiply_reduce_tiles 0 Z.add Z.mul false 3 3 A B C h) C f g (range (dmin ak) (dext ak)) /\
  forall nd, k_multiply_reduce_tiles_z_order 0 Z.add Z.mul nd 3 3 1 64 A B C h = UB.
Proof.
  assert (S : setting heapM pA pB tC (view_of heapM pA) (view_of heapM pB)
    (mkD 1 3 2) (mkD 9223372036854775804 2 1) (mkD 9223372036854775804 2 3) (mkD 0 3 1) (mkD 1 3 3) (mkD 0 3 1)).
  { constructor; try reflexivity.
    - cbn; lia.
    - unfold inside, in_dim; cbn; intuition lia.
    - apply operands_check; vm_compute; reflexivity.
    - apply heap3_usable. }
  assert (M : matrices_fit pA pB tC) by (split; [|split]; apply roomyb_ok; reflexivity).
  exists heapM, pA, pB, tC, (view_of heapM pA), (view_of heapM pB),
    (mkD 1 3 2), (mkD 9223372036854775804 2 1), (mkD 9223372036854775804 2 3), (mkD 0 3 1), (mkD 1 3 3), (mkD 0 3 1).
  split; [exact S|]. split; [exact M|]. split; [unfold buffer_fits; lia|]. split; [unfold tiles_count; cbn; lia|].
  split; [unfold tiles_count; cbn; lia|]. split; [unfold blocks_fit; cbn; lia|].
  split; [eapply k_tiles; eauto; unfold buffer_fits, tiles_fit; cbn; lia|]. intros [|]; vm_compute; reflexivity.
Qed.
