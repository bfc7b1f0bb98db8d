(** The convolutions compute the same in 64 bits. *)
From Coq Require Import Sorted Permutation.
From Verif Require Import Tac Interval Shape Traverse Memory Ref Static Ein ZOrder Matrix Conv Checked Overflow ViewChecked ContChecked
  MatChecked Spec SpecMem SpecZ SpecStatic SpecEin SpecChecked SpecOverflow SpecViewChecked SpecMatrix SpecMatChecked SpecConv
  ShapeFacts IntervalFacts ResolveFacts TraverseFacts MemFacts RefFacts SliceFacts StaticFacts TileFacts
  CheckedFacts OverflowFacts EinFacts EinUses ViewCheckedFacts ZOrderFacts MatrixFacts MatrixProd MatCheckedFacts MatCheckedProd.
Import ListNotations.
Open Scope Z_scope.

Notation big := 9223372036854775807 (only parsing).

Lemma roomy_bounds s i : roomy s -> in_bounds s i -> Forall is_index i.
Proof.
  intros R I0. assert (G : forall t i, (forall d, In d t -> In d s) -> in_bounds t i -> Forall is_index i).
  { clear i I0. intros t i Sub I1. induction I1 as [|d x t i Hd _ IH]; [apply Forall_nil|apply Forall_cons].
    - eapply roomy_index; [exact R| |exact Hd]. apply Sub. left; auto.
    - apply IH. intros; apply Sub; right; auto. }
  eapply G; eauto.
Qed.

Section Conv.
Context {V : Type} (zero : V) (add mul : V -> V -> V) (ltb : V -> V -> bool).
Implicit Types (h : heap V).

Lemma k_fill_row nd h r d (v : V) : r_shape r = [d] -> roomy (r_shape r) -> k_fill nd h r v = fill nd h r v.
Proof.
  intros S R. unfold k_fill, fill. apply bind_same; [|reflexivity]. rewrite S in *. unfold k_values, values, values_in_order.
  cbn [k_optimize_shape optimize_shape bind]. destruct (is_null (r_base r)); [|reflexivity].
  unfold k_assert. destruct nd; [destruct (empty [d]); reflexivity|]. unfold k_empty, k_size, empty, size.
  destruct R as (D & _). inv D. destruct H1 as (_ & H1 & _ & X). unfold extents, vproduct. cbn [map fold_right k_product bind].
  rewrite chk_ok by (rewrite Z.mul_1_r; auto). reflexivity.
Qed.

Context (I F B O : aref) (dco dx dy dn fco fx fy fc : dim).
Hypothesis (SO : r_shape O = [dco; dx; dy; dn]) (SF : r_shape F = [fco; fx; fy; fc]).
Hypothesis (Hr : forall co x y n i j k, in_bounds [dco; dx; dy; dn] [co; x; y; n] -> in_bounds [fx; fy; fc] [i; j; k] ->
    in_bounds (r_shape F) [co; i; j; k] /\ in_bounds (r_shape I) [k; x + i; y + j; n]).
Hypothesis (Hb : forall co, in_dim dco co -> in_bounds (r_shape B) [co]).
Hypothesis (RI : roomy (r_shape I)) (RF : roomy (r_shape F)) (RB : roomy (r_shape B)) (RO : roomy (r_shape O)).

Lemma over_out {S} d (f g : S -> Z -> outcome S) s : In d [dco; dx; dy; dn] -> (forall s x, in_dim d x -> f s x = g s x) ->
  for_in (k_for_dim d) f s = for_in (for_dim d) g s.
Proof. rewrite <- SO. apply for_dim_same, RO. Qed.
Lemma over_filter {S} d (f g : S -> Z -> outcome S) s : In d [fco; fx; fy; fc] -> (forall s x, in_dim d x -> f s x = g s x) ->
  for_in (k_for_dim d) f s = for_in (for_dim d) g s.
Proof. rewrite <- SF. apply for_dim_same, RF. Qed.
Lemma k_conv_mac_same R o co x y n ci j i h : roomy (r_shape R) -> in_bounds (r_shape R) o ->
  in_dim dco co -> in_dim dx x -> in_dim dy y -> in_dim dn n -> in_dim fx i -> in_dim fy j -> in_dim fc ci ->
  k_conv_mac add mul I F R o co x y n ci j i h = conv_mac add mul I F R o co x y n ci j i h.
Proof.
  intros RR Io Hco Hx Hy Hn Hi Hj Hci. destruct (Hr co x y n i j ci) as [B1 B2]; [repeat (apply Forall2_cons; [assumption|]); apply Forall2_nil|repeat (apply Forall2_cons; [assumption|]); apply Forall2_nil|].
  pose proof (roomy_bounds _ _ RI B2) as Fi. inv Fi. inv H2. inv H4. unfold k_conv_mac, conv_mac.
  rewrite !chk_ok by auto. cbn [bind]. rewrite !k_at_same, k_ptr_at by auto. reflexivity.
Qed.
Lemma k_apply_same R f o h : roomy (r_shape R) -> in_bounds (r_shape R) o -> k_apply_at R f o h = @apply_at V R f o h.
Proof. intros RR Io. unfold k_apply_at, apply_at, ref_at. rewrite k_ptr_at by auto. reflexivity. Qed.

Lemma dims_O : dim_of O 0 = dco /\ dim_of O 1 = dx /\ dim_of O 2 = dy /\ dim_of O 3 = dn.
Proof. unfold dim_of. rewrite SO. auto. Qed.
Lemma dims_F : dim_of F 1 = fx /\ dim_of F 2 = fy /\ dim_of F 3 = fc.
Proof. unfold dim_of. rewrite SF. auto. Qed.
Ltac isin := cbn [In]; tauto.

Lemma k_naive_same h : k_conv2d_naive zero add mul ltb I F B O h = conv2d_naive zero add mul ltb I F B O h.
Proof.
  unfold k_conv2d_naive, conv2d_naive. destruct dims_O as (-> & -> & -> & ->), dims_F as (-> & -> & ->).
  apply over_out; [isin|]. intros h1 n Hn. apply over_out; [isin|]. intros h2 y Hy. apply over_out; [isin|]. intros h3 x Hx.
  apply over_out; [isin|]. intros h4 co Hco.
  assert (Io : in_bounds (r_shape O) [co; x; y; n]) by (rewrite SO; repeat (apply Forall2_cons; [assumption|]); apply Forall2_nil).
  rewrite k_at_same, k_ptr_at by auto. apply bind_same; [reflexivity|]. intro b. cbn [bind]. apply bind_same; [reflexivity|]. intro h5.
  apply bind_same.
  - apply over_filter; [isin|]. intros h6 ci Hci. apply over_filter; [isin|]. intros h7 j Hj. apply over_filter; [isin|]. intros h8 i Hi.
    apply k_conv_mac_same; auto.
  - intro h6. apply k_apply_same; auto.
Qed.

Lemma k_tiled_same nd tile_co tile_x h : tiles_fit tile_co dco -> tiles_fit tile_x dx ->
  k_conv2d_tiled zero add mul ltb nd tile_co tile_x I F B O h = conv2d_tiled zero add mul ltb nd tile_co tile_x I F B O h.
Proof.
  intros [C1 C2] [X1 X2]. unfold k_conv2d_tiled, conv2d_tiled. destruct dims_O as (-> & -> & -> & ->), dims_F as (-> & -> & ->).
  pose proof RO as RO'. rewrite SO in RO'.
  destruct (roomy_in dco _ RO') as (_ & _ & Jc); [isin|]. destruct (roomy_in dx _ RO') as (_ & _ & Jx); [isin|].
  destruct (k_static_tiles nd tile_x (d_interval dx) Jx X1 X2) as (rx & lx & E1 & E1' & G1 & G1' & _ & K1 & _).
  destruct (k_static_tiles nd tile_co (d_interval dco) Jc C1 C2) as (rc & lc & E2 & E2' & G2 & G2' & _ & K2 & _).
  rewrite Forall_forall in K1, K2.
  apply over_out; [isin|]. intros h1 n Hn. apply over_out; [isin|]. intros h2 y Hy. rewrite E1, E1'. cbn [bind].
  apply for_in_same; [congruence|]. intros l El h3 xo Hxo. rewrite G1' in El. inv El. destruct (K1 xo Hxo) as [Xe Xi].
  rewrite E2, E2'. cbn [bind].
  apply for_in_same; [congruence|]. intros l' El h4 coo Hcoo. rewrite G2' in El. inv El. destruct (K2 coo Hcoo) as [Ce Ci].
  assert (Jxo : is_interval xo) by (eapply sub_interval; [exact Jx|eauto|lia|exact Xi]).
  assert (Jco : is_interval coo) by (eapply sub_interval; [exact Jc|eauto|lia|exact Ci]).
  destruct (k_slice_same O [AInt coo; AInt xo; AIdx y; AIdx n] RO) as [-> RT].
  { rewrite SO. apply Forall2_cons; [eapply sub_part; [eauto|lia|exact Ci]|]. apply Forall2_cons; [eapply sub_part; [eauto|lia|exact Xi]|].
    apply Forall2_cons; [exact Hy|]. apply Forall2_cons; [exact Hn|]. apply Forall2_nil. }
  cbn [bind]. set (T := ref_slice O [AInt coo; AInt xo; AIdx y; AIdx n]) in *.
  assert (ST : r_shape T = [mkD (imin coo) (iext coo) (dstr dco); mkD (imin xo) (iext xo) (dstr dx)]).
  { unfold T, ref_slice, make_array_ref_at. cbn [r_shape]. rewrite SO. reflexivity. }
  assert (IT : forall co x, in_interval coo co -> in_interval xo x -> in_bounds (r_shape T) [co; x]).
  { intros co x Hco Hx. rewrite ST. apply in_bounds_pair. split; assumption. }
  apply bind_same; [|intro h5; apply bind_same; [|intro h6]].
  - apply for_interval_same; auto. intros h5 co Hco.
    destruct (k_slice_same T [AIdx co; AAll] RT) as [-> RR].
    { rewrite ST. apply Forall2_cons; [exact Hco|]. apply Forall2_cons; [exact Logic.I|]. apply Forall2_nil. }
    cbn [bind]. rewrite k_at_same by (auto; apply Hb, Ci, Hco). apply bind_same; [reflexivity|]. intro b.
    eapply k_fill_row; [|exact RR]. unfold ref_slice, make_array_ref_at. cbn [r_shape]. rewrite ST. reflexivity.
  - apply over_filter; [isin|]. intros h6 ci Hci. apply over_filter; [isin|]. intros h7 j Hj. apply over_filter; [isin|]. intros h8 i Hi.
    apply for_interval_same; auto. intros h9 x Hx. apply for_interval_same; auto. intros h10 co Hco.
    apply k_conv_mac_same; auto; [apply Ci, Hco|apply Xi, Hx].
  - apply for_interval_same; auto. intros h7 x Hx. apply for_interval_same; auto. intros h8 co Hco. apply k_apply_same; auto.
Qed.
End Conv.
