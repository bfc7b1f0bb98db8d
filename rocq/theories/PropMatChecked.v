(** C84, C85: matrix products, traversals in z-order and convolutions in 64 bits. *)
From Coq Require Import ZArith List Bool Sorted.
From Verif Require Import Base Interval Shape Memory Ref Spec SpecMem SpecZ SpecStatic SpecEin SpecViewChecked SpecMatrix SpecMatChecked SpecConv
  MatChecked EinCases MatrixCases ConvCases MatCheckedCases.
Import ListNotations.
Open Scope Z_scope.

(** ** C84: matrix products *)
(** If distances within each matrix fit in index_t, the products compute what they should. *)
Theorem C84_cols : forall (V : Type) (zero : V) (add mul : V -> V -> V) (h : heap V) (A B C : aref) (f g : list Z -> V)
    (ai ak bk bj ci cj : dim),
  setting h A B C f g ai ak bk bj ci cj -> matrices_fit A B C ->
  multiplies zero add mul h (k_multiply_reduce_cols zero add mul A B C h) C f g (range (dmin ak) (dext ak)).
Proof. exact @k_cols. Qed.
Theorem C84_rows : forall (V : Type) (zero : V) (add mul : V -> V -> V) (h : heap V) (A B C : aref) (f g : list Z -> V)
    (ai ak bk bj ci cj : dim),
  setting h A B C f g ai ak bk bj ci cj -> matrices_fit A B C ->
  multiplies zero add mul h (k_multiply_reduce_rows zero add mul A B C h) C f g (range (dmin ak) (dext ak)).
Proof. exact @k_rows. Qed.
Theorem C84_matrix : forall (V : Type) (zero : V) (add mul : V -> V -> V) (h : heap V) (A B C : aref) (f g : list Z -> V)
    (ai ak bk bj ci cj : dim),
  setting h A B C f g ai ak bk bj ci cj -> matrices_fit A B C ->
  multiplies zero add mul h (k_multiply_reduce_matrix zero add mul A B C h) C f g (range (dmin ak) (dext ak)).
Proof. exact @k_matrix. Qed.
(** As Einstein reductions *)
Theorem C84_ein : forall (V : Type) (zero : V) (add mul : V -> V -> V) (h : heap V) (A B C : aref) (f g : list Z -> V)
    (ai ak bk bj ci cj : dim),
  setting h A B C f g ai ak bk bj ci cj -> matrices_fit A B C ->
  forall (nd : bool) (i j k : nat), i <> j -> i <> k -> j <> k -> spans ci ai -> spans cj bj -> same_bounds ak bk ->
  multiplies zero add mul h (k_multiply_ein zero add mul nd i j k A B C h) C f g (range (dmin ak) (dext ak)).
Proof. exact @k_ein. Qed.
(** Tile by tile, if the ends of the tiles and the buffer fit *)
Theorem C84_tiles : forall (V : Type) (zero : V) (add mul : V -> V -> V) (h : heap V) (A B C : aref) (f g : list Z -> V)
    (ai ak bk bj ci cj : dim),
  setting h A B C f g ai ak bk bj ci cj -> matrices_fit A B C ->
  forall N1 N2 : Z, buffer_fits N1 N2 -> forall nd : bool, tiles_fit N1 ci -> tiles_fit N2 cj ->
  multiplies zero add mul h (k_multiply_reduce_tiles zero add mul nd N1 N2 A B C h) C f g (range (dmin ak) (dext ak)).
Proof. exact @k_tiles. Qed.
Theorem C84_ein_tiles : forall (V : Type) (zero : V) (add mul : V -> V -> V) (h : heap V) (A B C : aref) (f g : list Z -> V)
    (ai ak bk bj ci cj : dim),
  setting h A B C f g ai ak bk bj ci cj -> matrices_fit A B C ->
  forall N1 N2 : Z, buffer_fits N1 N2 -> forall nd : bool, tiles_fit N1 ci -> tiles_fit N2 cj -> same_bounds ak bk ->
  multiplies zero add mul h (k_multiply_ein_reduce_tiles zero add mul nd N1 N2 A B C h) C f g (range (dmin ak) (dext ak)).
Proof. exact @k_ein_tiles. Qed.
(** In z-order, with the prefetches, if also the tiles can be counted and the addresses of the
    prefetches fit: the sums of C46, wrong ones included *)
Theorem C84_z_order : forall (V : Type) (zero : V) (add mul : V -> V -> V) (h : heap V) (A B C : aref) (f g : list Z -> V)
    (ai ak bk bj ci cj : dim),
  setting h A B C f g ai ak bk bj ci cj -> matrices_fit A B C ->
  forall N1 N2 : Z, buffer_fits N1 N2 -> forall (tile_k line : Z) (nd : bool),
  tiles_count N1 ci -> tiles_count N2 cj -> blocks_fit tile_k ak -> prefetch_fits line N1 N2 A B ->
  1 <= dext ak -> exists b r h',
    consecutive (dmin ak) (dmin ak + dext ak) (b :: r) /\ Forall (fun p => 1 <= iext p <= tile_k) (b :: r) /\
    Forall (fun p => iext p = tile_k) (removelast (b :: r)) /\
    k_multiply_reduce_tiles_z_order zero add mul nd N1 N2 tile_k line A B C h = Ok h' /\
    (forall i j, in_bounds (r_shape C) [i; j] -> holds h' (elem (r_base C) (r_shape C) [i; j])
       (fold_left add
          (flat_map (fun p => repeat (inner_product zero add mul f g (range (imin p) (iext p)) i j) (tile_count N1 ci i * tile_count N2 cj j)) r)
          (inner_product zero add mul f g (range (imin b) (iext b)) i j))) /\
    (forall p, ~ is_elem (r_base C) (r_shape C) p -> peek h' p = peek h p).
Proof. exact @k_z_exact. Qed.
Theorem C84_z_order_even : forall (V : Type) (zero : V) (add mul : V -> V -> V) (h : heap V) (A B C : aref) (f g : list Z -> V)
    (ai ak bk bj ci cj : dim),
  setting h A B C f g ai ak bk bj ci cj -> matrices_fit A B C ->
  forall N1 N2 : Z, buffer_fits N1 N2 -> forall (tile_k line : Z) (nd : bool),
  tiles_count N1 ci -> tiles_count N2 cj -> blocks_fit tile_k ak -> prefetch_fits line N1 N2 A B ->
  (forall a b c, add a (add b c) = add (add a b) c) -> (forall a, add zero a = a) ->
  1 <= dext ak -> dext ci mod N1 = 0 -> dext cj mod N2 = 0 ->
  multiplies zero add mul h (k_multiply_reduce_tiles_z_order zero add mul nd N1 N2 tile_k line A B C h) C f g (range (dmin ak) (dext ak)).
Proof. exact @k_z_even. Qed.
(** Matrices may fit although their tiles do not: rows that end with the last index but one
    can be multiplied row by row, but not tile by tile. *)
Theorem C84_last_rows_refuted : exists (h : heap Z) (A B C : aref) (f g : list Z -> Z) (ai ak bk bj ci cj : dim),
  setting h A B C f g ai ak bk bj ci cj /\ matrices_fit A B C /\ 2 <= dext ci /\ 2 <= dext cj /\ buffer_fits 2 2 /\
  multiplies 0 Z.add Z.mul h (k_multiply_reduce_cols 0 Z.add Z.mul A B C h) C f g (range (dmin ak) (dext ak)) /\
  forall nd : bool, k_multiply_reduce_tiles 0 Z.add Z.mul nd 2 2 A B C h = UB.
Proof. exact last_rows. Qed.
(** Here only the addresses of the prefetches do not fit. *)
Theorem C84_prefetch_refuted : exists (h : heap Z) (A B C : aref) (f g : list Z -> Z) (ai ak bk bj ci cj : dim),
  setting h A B C f g ai ak bk bj ci cj /\ matrices_fit A B C /\ buffer_fits 3 3 /\ tiles_count 3 ci /\ tiles_count 3 cj /\ blocks_fit 1 ak /\
  multiplies 0 Z.add Z.mul h (k_multiply_reduce_tiles 0 Z.add Z.mul false 3 3 A B C h) C f g (range (dmin ak) (dext ak)) /\
  forall nd : bool, k_multiply_reduce_tiles_z_order 0 Z.add Z.mul nd 3 3 1 64 A B C h = UB.
Proof. exact prefetch_overflow. Qed.
(** The curve itself never overflows, up to 2^62; beyond that, next_power_of_two does. *)
Theorem C84_z_visits : forall ext : list Z, (0 < length ext)%nat -> Forall (fun e => 1 <= e <= 2 ^ 62) ext ->
  exists l, k_for_each_index_in_z_order ext = Ok l /\ enumerates (in_box ext) l /\ StronglySorted z_before l.
Proof. exact k_z_visits. Qed.
Theorem C84_z_huge : forall ext : list Z, Exists (fun e => 2 ^ 62 < e) ext -> k_for_each_index_in_z_order ext = UB.
Proof. exact k_z_huge. Qed.
Example C84_example :
  setting heapM tA tB tC (view_of heapM tA) (view_of heapM tB)
    (mkD 1 3 2) (mkD 0 2 1) (mkD 0 2 3) (mkD 0 3 1) (mkD 1 3 3) (mkD 0 3 1) /\
  spans (mkD 1 3 3) (mkD 1 3 2) /\ spans (mkD 0 3 1) (mkD 0 3 1) /\ same_bounds (mkD 0 2 1) (mkD 0 2 3) /\
  (matrices_fit tA tB tC /\ tiles_fit 2 (mkD 1 3 3) /\ tiles_fit 2 (mkD 0 3 1) /\ tiles_count 2 (mkD 1 3 3) /\
   tiles_count 2 (mkD 0 3 1) /\ buffer_fits 2 2 /\ blocks_fit 1 (mkD 0 2 1) /\ prefetch_fits 64 2 2 tA tB) /\
  result_of (k_multiply_reduce_cols 0 Z.add Z.mul tA tB tC heapM) tC = Ok [9; 19; 29; 12; 26; 40; 15; 33; 51] /\
  result_of (k_multiply_reduce_rows 0 Z.add Z.mul tA tB tC heapM) tC = Ok [9; 19; 29; 12; 26; 40; 15; 33; 51] /\
  result_of (k_multiply_reduce_matrix 0 Z.add Z.mul tA tB tC heapM) tC = Ok [9; 19; 29; 12; 26; 40; 15; 33; 51] /\
  result_of (k_multiply_ein 0 Z.add Z.mul false 2 0 1 tA tB tC heapM) tC = Ok [9; 19; 29; 12; 26; 40; 15; 33; 51] /\
  result_of (k_multiply_reduce_tiles 0 Z.add Z.mul false 2 2 tA tB tC heapM) tC = Ok [9; 19; 29; 12; 26; 40; 15; 33; 51] /\
  result_of (k_multiply_ein_reduce_tiles 0 Z.add Z.mul false 2 2 tA tB tC heapM) tC = Ok [9; 19; 29; 12; 26; 40; 15; 33; 51] /\
  result_of (k_multiply_reduce_tiles_z_order 0 Z.add Z.mul false 3 1 1 64 tA tB tC heapM) tC = Ok [9; 19; 29; 12; 26; 40; 15; 33; 51] /\
  result_of (k_multiply_reduce_tiles_z_order 0 Z.add Z.mul false 2 2 1 64 tA tB tC heapM) tC = Ok [9; 35; 29; 22; 86; 70; 15; 57; 51] /\
  k_for_each_index_in_z_order [3; 2] = Ok [[0; 0]; [1; 0]; [0; 1]; [1; 1]; [2; 0]; [2; 1]] /\
  k_for_each_index_in_z_order [3; 2 ^ 62 + 1] = UB.
Proof.
  split; [exact setting_M|]. split; [left; split; reflexivity|]. split; [left; split; reflexivity|]. split; [split; reflexivity|].
  split; [exact fit_M|]. do 9 (split; [vm_compute; reflexivity|]). vm_compute; reflexivity.
Qed.
Print Assumptions C84_cols.
Print Assumptions C84_rows.
Print Assumptions C84_matrix.
Print Assumptions C84_ein.
Print Assumptions C84_tiles.
Print Assumptions C84_ein_tiles.
Print Assumptions C84_z_order.
Print Assumptions C84_z_order_even.
Print Assumptions C84_last_rows_refuted.
Print Assumptions C84_prefetch_refuted.
Print Assumptions C84_z_visits.
Print Assumptions C84_z_huge.

(** ** C85: convolutions *)
(** If distances within each array fit in index_t, no index overflows, and the output is that
    of C50. *)
Theorem C85_naive : forall (V : Type) (zero : V) (add mul : V -> V -> V) (ltb : V -> V -> bool) (h : heap V) (I F B O : aref)
    (f g b : list Z -> V) (dco dx dy dn fx fy fc : dim),
  conv_setting h I F B O f g b dco dx dy dn fx fy fc -> Forall (fun r => roomy (r_shape r)) [I; F; B; O] ->
  fills_with h (k_conv2d_naive zero add mul ltb I F B O h) O (fun co x y n =>
    let s := conv_sum add mul f g b (range (dmin fc) (dext fc)) (range (dmin fy) (dext fy)) (range (dmin fx) (dext fx)) co x y n in
    if ltb s zero then zero else s).
Proof. exact @k_naive. Qed.
(** Tile by tile, if also the ends of the tiles fit *)
Theorem C85_tiled : forall (V : Type) (zero : V) (add mul : V -> V -> V) (ltb : V -> V -> bool) (h : heap V) (I F B O : aref)
    (f g b : list Z -> V) (dco dx dy dn fx fy fc : dim),
  conv_setting h I F B O f g b dco dx dy dn fx fy fc -> Forall (fun r => roomy (r_shape r)) [I; F; B; O] ->
  forall (nd : bool) (tile_co tile_x : Z), tiles_fit tile_co dco -> tiles_fit tile_x dx ->
  fills_with h (k_conv2d_tiled zero add mul ltb nd tile_co tile_x I F B O h) O (fun co x y n =>
    let s := conv_sum add mul f g b (range (dmin fc) (dext fc)) (range (dmin fy) (dext fy)) (range (dmin fx) (dext fx)) co x y n in
    if ltb zero s then s else zero).
Proof. exact @k_tiled. Qed.
Example C85_example :
  conv_setting heapC cI cF cB cO (view_of heapC cI) (view_of heapC cF) (view_of heapC cB)
    (mkD 0 3 1) (mkD 5 3 3) (mkD 2 2 9) (mkD 7 1 18) (mkD 0 2 3) (mkD (-1) 2 6) (mkD 0 2 12) /\
  Forall (fun r => roomy (r_shape r)) [cI; cF; cB; cO] /\ tiles_fit 2 (mkD 0 3 1) /\ tiles_fit 2 (mkD 5 3 3) /\
  result_of (k_conv2d_naive 0 Z.add Z.mul Z.ltb cI cF cB cO heapC) cO = Ok [16; 0; 2; 15; 0; 6; 8; 0; 16; 21; 0; 8; 22; 0; 1; 14; 0; 3] /\
  result_of (k_conv2d_tiled 0 Z.add Z.mul Z.ltb false 2 2 cI cF cB cO heapC) cO = Ok [16; 0; 2; 15; 0; 6; 8; 0; 16; 21; 0; 8; 22; 0; 1; 14; 0; 3].
Proof.
  split; [exact setting_C|]. split; [exact fit_C|]. split; [repeat split; discriminate|]. split; [repeat split; discriminate|].
  split; vm_compute; reflexivity.
Qed.
Print Assumptions C85_naive.
Print Assumptions C85_tiled.
