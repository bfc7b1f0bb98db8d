(** C46: tiles. *)
From Coq Require Import ZArith List Bool.
From Verif Require Import Base Interval Shape Memory Ref Spec SpecMem SpecStatic Container SpecEin Matrix Tiling SpecMatrix
  ContainerCases EinCases MatrixCases MatrixProd MatrixEin MatrixZ MatrixOrder TilingFacts.
Import ListNotations.
Open Scope Z_scope.

(** ** Arrays of any rank *)
(** Tile by tile, the update [u] is applied to each element once for each tile it is in, and
    nothing else is written. *)
Theorem C46_tiled_update : forall (V : Type) (C : aref) (nd : bool) (u : list Z -> V -> V) (sps : list splitter) (h : heap V) (g : list Z -> V),
  injective_layout (r_shape C) -> Forall2 splits sps (r_shape C) -> usable_heap h -> shows h C g ->
  exists h', update_tiled nd sps u C h = Ok h' /\
    shows h' C (fun i => Nat.iter (visits sps (r_shape C) i) (u i) (g i)) /\
    (forall p, ~ is_elem (r_base C) (r_shape C) p -> peek h' p = peek h p).
Proof. exact @tiled_update_counts. Qed.
(** Each element is in at least one tile. *)
Theorem C46_covers : forall (sps : list splitter) (ds : list dim) (i : list Z), (1 <= visits sps ds i)%nat.
Proof. exact visits_pos. Qed.
(** If repeating the update changes nothing, or no tiles overlap, the result is that of the
    loop that is not tiled. *)
Theorem C46_as_untiled : forall (V : Type) (C : aref) (nd : bool) (u : list Z -> V -> V) (sps : list splitter) (h : heap V) (g : list Z -> V),
  injective_layout (r_shape C) -> Forall2 splits sps (r_shape C) -> usable_heap h -> shows h C g ->
  (forall i w, in_bounds (r_shape C) i -> u i (u i w) = u i w) \/ Forall2 splits_evenly sps (r_shape C) ->
  exists h1 h2, update_tiled nd sps u C h = Ok h1 /\ update_view u C h = Ok h2 /\
    shows h1 C (fun i => u i (g i)) /\ shows h2 C (fun i => u i (g i)) /\
    (forall p, ~ is_elem (r_base C) (r_shape C) p -> peek h1 p = peek h p /\ peek h2 p = peek h p).
Proof. exact @tiled_as_untiled. Qed.
(** Otherwise some element is updated more than once. *)
Theorem C46_overlap : forall (sps : list splitter) (ds : list dim), Forall2 splits sps ds -> extents_ge 1 ds ->
  ~ Forall2 splits_evenly sps ds -> exists i, in_bounds ds i /\ (2 <= visits sps ds i)%nat.
Proof. exact overlap_exists. Qed.
(** Static tiles larger than the array are rejected. *)
Theorem C46_small_rejected : forall (V : Type) (C : aref) (u : list Z -> V -> V) (sps : list splitter) (h : heap V),
  length sps = length (r_shape C) -> extents_ge 1 (r_shape C) ->
  Forall2 (fun sp d => match sp with SStatic N => 1 <= N | SDynamic n => 1 <= n | SAll => True end) sps (r_shape C) ->
  ~ Forall2 splits sps (r_shape C) -> update_tiled false sps u C h = AssertFail.
Proof. exact @tiled_small. Qed.
Example C46_tiled_example :
  injective_layout (r_shape tT) /\ Forall2 splits [SStatic 2; SDynamic 3] (r_shape tT) /\ usable_heap heapT /\
  shows heapT tT (view_of heapT tT) /\ ~ Forall2 splits_evenly [SStatic 2; SDynamic 3] (r_shape tT) /\
  map (visits [SStatic 2; SDynamic 3] (r_shape tT)) [[5; -1]; [6; -1]; [7; 2]] = [1; 2; 1]%nat /\
  result_of (update_tiled false [SStatic 2; SDynamic 3] (fun i _ => 10 * nth 0 i 0 + nth 1 i 0) tT heapT) tT
    = Ok [49; 59; 69; 50; 60; 70; 51; 61; 71; 52; 62; 72] /\
  result_of (update_tiled false [SStatic 2; SDynamic 3] (fun _ w => w + 1) tT heapT) tT = Ok [1; 2; 1; 1; 2; 1; 1; 2; 1; 1; 2; 1] /\
  result_of (update_tiled false [SStatic 3; SStatic 2] (fun _ w => w + 1) tT heapT) tT = Ok [1; 1; 1; 1; 1; 1; 1; 1; 1; 1; 1; 1] /\
  update_tiled false [SDynamic 3; SStatic 5] (fun _ w => w + 1) tT heapT = AssertFail.
Proof.
  split; [apply (properb_ok (r_shape tT)); reflexivity|].
  split; [repeat constructor; discriminate|]. split; [apply heap3_usable|]. split; [apply viewb_ok; reflexivity|].
  split; [intro H; inversion H as [|? ? ? ? Q]; cbn in Q; discriminate|].
  split; [reflexivity|]. split; [vm_compute; reflexivity|]. split; [vm_compute; reflexivity|]. split; vm_compute; reflexivity.
Qed.

(** ** Products of matrices *)
(** The loops without tiles *)
Theorem C46_reduce_cols : forall (V : Type) (zero : V) (add mul : V -> V -> V) (h : heap V) (A B C : aref) (f g : list Z -> V)
    (ai ak bk bj ci cj : dim),
  setting h A B C f g ai ak bk bj ci cj ->
  multiplies zero add mul h (multiply_reduce_cols zero add mul A B C h) C f g (range (dmin ak) (dext ak)).
Proof. exact @reduce_cols. Qed.
Theorem C46_reduce_rows : forall (V : Type) (zero : V) (add mul : V -> V -> V) (h : heap V) (A B C : aref) (f g : list Z -> V)
    (ai ak bk bj ci cj : dim),
  setting h A B C f g ai ak bk bj ci cj ->
  multiplies zero add mul h (multiply_reduce_rows zero add mul A B C h) C f g (range (dmin ak) (dext ak)).
Proof. exact @reduce_rows. Qed.
Theorem C46_reduce_matrix : forall (V : Type) (zero : V) (add mul : V -> V -> V) (h : heap V) (A B C : aref) (f g : list Z -> V)
    (ai ak bk bj ci cj : dim),
  setting h A B C f g ai ak bk bj ci cj ->
  multiplies zero add mul h (multiply_reduce_matrix zero add mul A B C h) C f g (range (dmin ak) (dext ak)).
Proof. exact @reduce_matrix. Qed.
(** As Einstein reductions, in any order of the loops *)
Theorem C46_ein : forall (V : Type) (zero : V) (add mul : V -> V -> V) (nd : bool) (h : heap V) (A B C : aref) (f g : list Z -> V)
    (ai ak bk bj ci cj : dim) (i j k : nat),
  i <> j -> i <> k -> j <> k -> setting h A B C f g ai ak bk bj ci cj -> spans ci ai -> spans cj bj -> same_bounds ak bk ->
  multiplies zero add mul h (multiply_ein zero add mul nd i j k A B C h) C f g (range (dmin ak) (dext ak)).
Proof. exact @multiply_ein_ok. Qed.
(** In plain C *)
Theorem C46_plain : forall (V : Type) (zero : V) (add mul : V -> V -> V) (h : heap V) (pA pB pC : ptr) (M K N : Z) (f g : list Z -> V),
  0 <= M <= 2147483647 -> 0 <= K <= 2147483647 -> 0 <= N <= 2147483647 ->
  M * K <= 2147483648 -> K * N <= 2147483648 -> M * N <= 2147483648 ->
  operands_of h (flat_matrix pA M K) (flat_matrix pB K N) (flat_matrix pC M N) f g -> usable_heap h ->
  multiplies zero add mul h (multiply_ref zero add mul pA pB pC M K N h) (flat_matrix pC M N) f g (range 0 K).
Proof. exact @multiply_ref_ok. Qed.
(** For larger matrices its indices overflow. *)
Theorem C46_plain_overflow : forall (V : Type) (zero : V) (add mul : V -> V -> V) (h : heap V) (pA pB pC : ptr) (M K N : Z),
  1 <= M -> 1 <= K -> 1 <= N -> 2147483648 < M * K \/ 2147483648 < K * N \/ 2147483648 < M * N ->
  multiply_ref zero add mul pA pB pC M K N h = UB.
Proof. exact @multiply_ref_overflow. Qed.
(** Tile by tile: the same sums, added up in the same order *)
Theorem C46_reduce_tiles : forall (V : Type) (zero : V) (add mul : V -> V -> V) (h : heap V) (A B C : aref) (f g : list Z -> V)
    (ai ak bk bj ci cj : dim) (N1 N2 : Z),
  setting h A B C f g ai ak bk bj ci cj -> 1 <= N1 <= dext ci -> 1 <= N2 <= dext cj -> forall nd : bool,
  multiplies zero add mul h (multiply_reduce_tiles zero add mul nd N1 N2 A B C h) C f g (range (dmin ak) (dext ak)).
Proof. exact @reduce_tiles. Qed.
Theorem C46_ein_reduce_tiles : forall (V : Type) (zero : V) (add mul : V -> V -> V) (h : heap V) (A B C : aref) (f g : list Z -> V)
    (ai ak bk bj ci cj : dim) (N1 N2 : Z),
  setting h A B C f g ai ak bk bj ci cj -> 1 <= N1 <= dext ci -> 1 <= N2 <= dext cj -> forall nd : bool,
  same_bounds ak bk ->
  multiplies zero add mul h (multiply_ein_reduce_tiles zero add mul nd N1 N2 A B C h) C f g (range (dmin ak) (dext ak)).
Proof. exact @ein_reduce_tiles. Qed.
(** Matrices smaller than a tile are rejected. *)
Theorem C46_small_matrix : forall (V : Type) (N1 N2 : Z) (C : aref) (body : heap V -> interval -> interval -> outcome (heap V)) (h : heap V) (ci cj : dim),
  r_shape C = [ci; cj] -> 1 <= N1 -> dext ci < N1 \/ (N1 <= dext ci /\ dext cj < N2) ->
  for_tiles false N1 N2 C body h = AssertFail.
Proof. exact @small_tiles. Qed.
Example C46_product_example :
  setting heapM tA tB tC (view_of heapM tA) (view_of heapM tB)
    (mkD 1 3 2) (mkD 0 2 1) (mkD 0 2 3) (mkD 0 3 1) (mkD 1 3 3) (mkD 0 3 1) /\
  spans (mkD 1 3 3) (mkD 1 3 2) /\ spans (mkD 0 3 1) (mkD 0 3 1) /\ same_bounds (mkD 0 2 1) (mkD 0 2 3) /\
  result_of (multiply_reduce_cols 0 Z.add Z.mul tA tB tC heapM) tC = Ok [9; 19; 29; 12; 26; 40; 15; 33; 51] /\
  result_of (multiply_reduce_rows 0 Z.add Z.mul tA tB tC heapM) tC = Ok [9; 19; 29; 12; 26; 40; 15; 33; 51] /\
  result_of (multiply_reduce_matrix 0 Z.add Z.mul tA tB tC heapM) tC = Ok [9; 19; 29; 12; 26; 40; 15; 33; 51] /\
  result_of (multiply_ein 0 Z.add Z.mul false 2 0 1 tA tB tC heapM) tC = Ok [9; 19; 29; 12; 26; 40; 15; 33; 51] /\
  result_of (multiply_reduce_tiles 0 Z.add Z.mul false 2 2 tA tB tC heapM) tC = Ok [9; 19; 29; 12; 26; 40; 15; 33; 51] /\
  result_of (multiply_ein_reduce_tiles 0 Z.add Z.mul false 2 2 tA tB tC heapM) tC = Ok [9; 19; 29; 12; 26; 40; 15; 33; 51] /\
  operands_of heapM (flat_matrix (1%nat, 0) 3 2) (flat_matrix (2%nat, 0) 2 3) (flat_matrix (3%nat, 0) 3 3)
    (view_of heapM (flat_matrix (1%nat, 0) 3 2)) (view_of heapM (flat_matrix (2%nat, 0) 2 3)) /\ usable_heap heapM /\
  result_of (multiply_ref 0 Z.add Z.mul (1%nat, 0) (2%nat, 0) (3%nat, 0) 3 2 3 heapM) tC = Ok [9; 19; 29; 12; 26; 40; 15; 33; 51] /\
  multiply_reduce_tiles 0 Z.add Z.mul false 2 4 tA tB tC heapM = AssertFail.
Proof.
  split; [exact setting_M|]. split; [left; split; reflexivity|]. split; [left; split; reflexivity|]. split; [split; reflexivity|].
  do 6 (split; [vm_compute; reflexivity|]).
  split; [apply operands_check; vm_compute; reflexivity|]. split; [apply heap3_usable|].
  split; vm_compute; reflexivity.
Qed.

(** ** The product in z-order *)
(** The reduction is cut into blocks of [tile_k].  The sum over the first block is stored, the
    sums over later ones are added, once for each tile the element is in. *)
Theorem C46_z_order : forall (V : Type) (zero : V) (add mul : V -> V -> V) (h : heap V) (A B C : aref) (f g : list Z -> V)
    (ai ak bk bj ci cj : dim) (N1 N2 tile_k : Z) (nd : bool),
  setting h A B C f g ai ak bk bj ci cj -> 1 <= N1 <= dext ci -> 1 <= N2 <= dext cj -> 1 <= tile_k ->
  dext ci <= 2 ^ 62 -> dext cj <= 2 ^ 62 -> 1 <= dext ak ->
  exists b r h',
    consecutive (dmin ak) (dmin ak + dext ak) (b :: r) /\ Forall (fun p => 1 <= iext p <= tile_k) (b :: r) /\
    Forall (fun p => iext p = tile_k) (removelast (b :: r)) /\
    multiply_reduce_tiles_z_order zero add mul nd N1 N2 tile_k A B C h = Ok h' /\
    (forall i j, in_bounds (r_shape C) [i; j] -> holds h' (elem (r_base C) (r_shape C) [i; j])
       (fold_left add
          (flat_map (fun p => repeat (inner_product zero add mul f g (range (imin p) (iext p)) i j) (tile_count N1 ci i * tile_count N2 cj j)) r)
          (inner_product zero add mul f g (range (imin b) (iext b)) i j))) /\
    (forall p, ~ is_elem (r_base C) (r_shape C) p -> peek h' p = peek h p).
Proof. exact @z_order_exact. Qed.
(** It is the product if the reduction fits in one block... *)
Theorem C46_z_order_one_block : forall (V : Type) (zero : V) (add mul : V -> V -> V) (h : heap V) (A B C : aref) (f g : list Z -> V)
    (ai ak bk bj ci cj : dim) (N1 N2 tile_k : Z) (nd : bool),
  setting h A B C f g ai ak bk bj ci cj -> 1 <= N1 <= dext ci -> 1 <= N2 <= dext cj -> 1 <= tile_k ->
  dext ci <= 2 ^ 62 -> dext cj <= 2 ^ 62 -> 1 <= dext ak <= tile_k ->
  multiplies zero add mul h (multiply_reduce_tiles_z_order zero add mul nd N1 N2 tile_k A B C h) C f g (range (dmin ak) (dext ak)).
Proof. exact @z_order_one_block. Qed.
(** ... or if the tiles do not overlap and addition is associative. *)
Theorem C46_z_order_even : forall (V : Type) (zero : V) (add mul : V -> V -> V) (h : heap V) (A B C : aref) (f g : list Z -> V)
    (ai ak bk bj ci cj : dim) (N1 N2 tile_k : Z) (nd : bool),
  setting h A B C f g ai ak bk bj ci cj -> 1 <= N1 <= dext ci -> 1 <= N2 <= dext cj -> 1 <= tile_k ->
  dext ci <= 2 ^ 62 -> dext cj <= 2 ^ 62 ->
  (forall a b c, add a (add b c) = add (add a b) c) -> (forall a, add zero a = a) ->
  1 <= dext ak -> dext ci mod N1 = 0 -> dext cj mod N2 = 0 ->
  multiplies zero add mul h (multiply_reduce_tiles_z_order zero add mul nd N1 N2 tile_k A B C h) C f g (range (dmin ak) (dext ak)).
Proof. exact @z_order_even. Qed.
(** If there is nothing to sum up, the result is not set to zero but left as it is. *)
Theorem C46_z_order_unset : forall (V : Type) (zero : V) (add mul : V -> V -> V) (h : heap V) (A B C : aref) (f g : list Z -> V)
    (ai ak bk bj ci cj : dim) (N1 N2 tile_k : Z) (nd : bool),
  setting h A B C f g ai ak bk bj ci cj -> 1 <= tile_k -> dext ak = 0 ->
  multiply_reduce_tiles_z_order zero add mul nd N1 N2 tile_k A B C h = Ok h.
Proof. exact @z_order_empty. Qed.
(** With overlapping tiles and several blocks it is not the product. *)
Theorem C46_z_order_refuted : exists (h : heap Z) (A B C : aref) (f g : list Z -> Z) (ai ak bk bj ci cj : dim),
  setting h A B C f g ai ak bk bj ci cj /\ 2 <= dext ci /\ 2 <= dext cj /\ 1 <= dext ak /\
  ~ multiplies 0 Z.add Z.mul h (multiply_reduce_tiles_z_order 0 Z.add Z.mul true 2 2 1 A B C h) C f g (range (dmin ak) (dext ak)).
Proof. exact z_order_wrong. Qed.
Example C46_z_order_example :
  setting heapM tA tB tC (view_of heapM tA) (view_of heapM tB)
    (mkD 1 3 2) (mkD 0 2 1) (mkD 0 2 3) (mkD 0 3 1) (mkD 1 3 3) (mkD 0 3 1) /\
  map (fun i => tile_count 2 (mkD 1 3 3) i) [1; 2; 3] = [1; 2; 1]%nat /\
  result_of (multiply_reduce_tiles_z_order 0 Z.add Z.mul false 2 2 2 tA tB tC heapM) tC = Ok [9; 19; 29; 12; 26; 40; 15; 33; 51] /\
  result_of (multiply_reduce_tiles_z_order 0 Z.add Z.mul false 3 1 1 tA tB tC heapM) tC = Ok [9; 19; 29; 12; 26; 40; 15; 33; 51] /\
  result_of (multiply_reduce_tiles_z_order 0 Z.add Z.mul false 2 2 1 tA tB tC heapM) tC = Ok [9; 35; 29; 22; 86; 70; 15; 57; 51].
Proof.
  split; [exact setting_M|]. split; [reflexivity|]. split; [vm_compute; reflexivity|]. split; vm_compute; reflexivity.
Qed.
Print Assumptions C46_tiled_update.
Print Assumptions C46_covers.
Print Assumptions C46_as_untiled.
Print Assumptions C46_overlap.
Print Assumptions C46_small_rejected.
Print Assumptions C46_reduce_cols.
Print Assumptions C46_reduce_rows.
Print Assumptions C46_reduce_matrix.
Print Assumptions C46_ein.
Print Assumptions C46_plain.
Print Assumptions C46_plain_overflow.
Print Assumptions C46_reduce_tiles.
Print Assumptions C46_ein_reduce_tiles.
Print Assumptions C46_small_matrix.
Print Assumptions C46_z_order.
Print Assumptions C46_z_order_one_block.
Print Assumptions C46_z_order_even.
Print Assumptions C46_z_order_unset.
Print Assumptions C46_z_order_refuted.
