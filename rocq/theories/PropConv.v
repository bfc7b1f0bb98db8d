(** C50: convolutions. *)
From Coq Require Import ZArith List Bool.
From Verif Require Import Base Interval Shape Memory Ref Spec SpecMem SpecEin Conv SpecConv EinCases MatrixCases ConvCases ConvFacts.
Import ListNotations.
Open Scope Z_scope.

(** Each element of the output is the bias plus the sum of the products, or zero if that is
    less than zero.  All accesses are in range; nothing else is written. *)
Theorem C50_naive : forall (V : Type) (zero : V) (add mul : V -> V -> V) (ltb : V -> V -> bool) (h : heap V) (I F B O : aref)
    (f g b : list Z -> V) (dco dx dy dn fx fy fc : dim),
  conv_setting h I F B O f g b dco dx dy dn fx fy fc ->
  fills_with h (conv2d_naive zero add mul ltb I F B O h) O (fun co x y n =>
    let s := conv_sum add mul f g b (range (dmin fc) (dext fc)) (range (dmin fy) (dext fy)) (range (dmin fx) (dext fx)) co x y n in
    if ltb s zero then zero else s).
Proof. exact @conv_naive. Qed.
(** Tile by tile, also if tiles overlap: the same sums, added up in the same order *)
Theorem C50_tiled : forall (V : Type) (zero : V) (add mul : V -> V -> V) (ltb : V -> V -> bool) (h : heap V) (I F B O : aref)
    (f g b : list Z -> V) (dco dx dy dn fx fy fc : dim),
  conv_setting h I F B O f g b dco dx dy dn fx fy fc ->
  forall (nd : bool) (tile_co tile_x : Z), 1 <= tile_co <= dext dco -> 1 <= tile_x <= dext dx ->
  fills_with h (conv2d_tiled zero add mul ltb nd tile_co tile_x I F B O h) O (fun co x y n =>
    let s := conv_sum add mul f g b (range (dmin fc) (dext fc)) (range (dmin fy) (dext fy)) (range (dmin fx) (dext fx)) co x y n in
    if ltb zero s then s else zero).
Proof. exact @conv_tiled. Qed.
(** The two agree if any number is less than zero, zero, or greater. *)
Theorem C50_agree : forall (V : Type) (zero : V) (add mul : V -> V -> V) (ltb : V -> V -> bool) (h : heap V) (I F B O : aref)
    (f g b : list Z -> V) (dco dx dy dn fx fy fc : dim),
  conv_setting h I F B O f g b dco dx dy dn fx fy fc ->
  forall (nd : bool) (tile_co tile_x : Z), 1 <= tile_co <= dext dco -> 1 <= tile_x <= dext dx ->
  (forall s, ltb s zero = false -> ltb zero s = false -> s = zero) ->
  (forall s, ltb s zero = true -> ltb zero s = true -> False) ->
  exists h1 h2, conv2d_naive zero add mul ltb I F B O h = Ok h1 /\
    conv2d_tiled zero add mul ltb nd tile_co tile_x I F B O h = Ok h2 /\ forall p, peek h1 p = peek h2 p.
Proof. exact @conv_same. Qed.
(** For NaN they do not: [std::max(s, 0)] is NaN, [std::max(0, s)] is 0. *)
Theorem C50_nan_refuted : exists (add mul : Z -> Z -> Z) (ltb : Z -> Z -> bool) (h h1 h2 : heap Z) (I F B O : aref) (f g b : list Z -> Z)
    (dco dx dy dn fx fy fc : dim) (p : ptr),
  (forall a b, ltb a b = true -> ltb b a = false) /\ (forall a b c, ltb a b = true -> ltb b c = true -> ltb a c = true) /\
  conv_setting h I F B O f g b dco dx dy dn fx fy fc /\
  conv2d_naive 0 add mul ltb I F B O h = Ok h1 /\ conv2d_tiled 0 add mul ltb false 1 1 I F B O h = Ok h2 /\
  is_elem (r_base O) (r_shape O) p /\ peek h1 p <> peek h2 p.
Proof. exact conv_nan. Qed.
(** An output smaller than a tile is rejected. *)
Theorem C50_small_rejected : forall (V : Type) (zero : V) (add mul : V -> V -> V) (ltb : V -> V -> bool) (h : heap V) (I F B O : aref)
    (f g b : list Z -> V) (dco dx dy dn fx fy fc : dim),
  conv_setting h I F B O f g b dco dx dy dn fx fy fc ->
  forall tile_co tile_x : Z, 1 <= dext dn -> 1 <= dext dy -> 1 <= tile_co -> 1 <= tile_x ->
  dext dx < tile_x \/ (tile_x <= dext dx /\ dext dco < tile_co) ->
  conv2d_tiled zero add mul ltb false tile_co tile_x I F B O h = AssertFail.
Proof. exact @conv_small. Qed.
Example C50_example :
  conv_setting heapC cI cF cB cO (view_of heapC cI) (view_of heapC cF) (view_of heapC cB)
    (mkD 0 3 1) (mkD 5 3 3) (mkD 2 2 9) (mkD 7 1 18) (mkD 0 2 3) (mkD (-1) 2 6) (mkD 0 2 12) /\
  (forall s, (s <? 0) = false -> (0 <? s) = false -> s = 0) /\
  map (fun x => conv_sum Z.add Z.mul (view_of heapC cI) (view_of heapC cF) (view_of heapC cB) [0; 1] [-1; 0] [0; 1] x 5 2 7) [0; 1; 2]
    = [16; -9; 2] /\
  result_of (conv2d_naive 0 Z.add Z.mul Z.ltb cI cF cB cO heapC) cO =
    Ok [16; 0; 2; 15; 0; 6; 8; 0; 16; 21; 0; 8; 22; 0; 1; 14; 0; 3] /\
  result_of (conv2d_tiled 0 Z.add Z.mul Z.ltb false 2 2 cI cF cB cO heapC) cO =
    Ok [16; 0; 2; 15; 0; 6; 8; 0; 16; 21; 0; 8; 22; 0; 1; 14; 0; 3] /\
  conv2d_tiled 0 Z.add Z.mul Z.ltb false 4 2 cI cF cB cO heapC = AssertFail.
Proof.
  split; [exact setting_C|]. split; [intros s H1 H2; apply Z.ltb_ge in H1; apply Z.ltb_ge in H2; apply Z.le_antisymm; assumption|].
  split; [vm_compute; reflexivity|]. split; [vm_compute; reflexivity|]. split; vm_compute; reflexivity.
Qed.
Print Assumptions C50_naive.
Print Assumptions C50_tiled.
Print Assumptions C50_agree.
Print Assumptions C50_nan_refuted.
Print Assumptions C50_small_rejected.
