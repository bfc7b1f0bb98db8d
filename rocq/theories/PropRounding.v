(** C90: rounding errors of matrix products and convolutions. *)
From Coq Require Import ZArith QArith Qabs List Bool.
From Verif Require Import Base Interval Shape Memory Ref Spec SpecMem SpecStatic Container SpecEin Matrix SpecMatrix Conv SpecConv
  ShapeFacts ContainerCases EinCases MatrixCases ConvCases Rounding SpecRounding RoundingFacts RoundingProps RoundingCases.
Import ListNotations.
Local Open Scope Q_scope.

(** However a sum of products is computed, in any order and with fused operations, the error is
    bounded by the number of roundings in succession. *)
Theorem C90_any_order : forall (u e : Q) (rnd : Q -> Q), rounds u e rnd -> forall (t : sum_tree) (d m : nat),
  (depth t <= d)%nat -> (roundings t <= m)%nat -> Qabs (computed rnd t - meant t) <= error_bound u e d m (size t).
Proof. exact tree_error. Qed.
Theorem C90_gamma : forall (u e : Q) (rnd : Q -> Q), rounds u e rnd -> forall d : nat, inject_Z (Z.of_nat d) * u < 1 ->
  grow u d - 1 <= inject_Z (Z.of_nat d) * u / (1 - inject_Z (Z.of_nat d) * u).
Proof. exact grow_gamma. Qed.
(** Without rounding errors in integers the sum is exact. *)
Theorem C90_any_order_integers : forall (m : Z) (rnd : Q -> Q), keeps_integers m rnd -> forall t : sum_tree,
  integers t -> size t <= inject_Z m -> computed rnd t == meant t.
Proof. exact tree_exact. Qed.

(** The versions of the matrix product *)
Theorem C90_products : forall (u e : Q) (rnd : Q -> Q), rounds u e rnd ->
  forall (h : heap Q) (A B C : aref) (f g : list Z -> Q) (ai ak bk bj ci cj : dim), setting h A B C f g ai ak bk bj ci cj ->
  let K := Z.to_nat (dext ak) in
  let ok run := leaves h run C (near u e (S K) (2 * K) f g (range (dmin ak) (dext ak))) in
  ok (multiply_reduce_cols 0 (radd rnd) (rmul rnd) A B C h) /\ ok (multiply_reduce_rows 0 (radd rnd) (rmul rnd) A B C h) /\
  ok (multiply_reduce_matrix 0 (radd rnd) (rmul rnd) A B C h) /\
  (forall (nd : bool) (i j k : nat), i <> j -> i <> k -> j <> k -> spans ci ai -> spans cj bj -> same_bounds ak bk ->
     ok (multiply_ein 0 (radd rnd) (rmul rnd) nd i j k A B C h)) /\
  (forall (nd : bool) (N1 N2 : Z), (1 <= N1 <= dext ci)%Z -> (1 <= N2 <= dext cj)%Z ->
     ok (multiply_reduce_tiles 0 (radd rnd) (rmul rnd) nd N1 N2 A B C h) /\
     (same_bounds ak bk -> ok (multiply_ein_reduce_tiles 0 (radd rnd) (rmul rnd) nd N1 N2 A B C h))).
Proof. exact products_near. Qed.
Theorem C90_plain : forall (u e : Q) (rnd : Q -> Q), rounds u e rnd ->
  forall (h : heap Q) (pA pB pC : ptr) (M K N : Z) (f g : list Z -> Q),
  (0 <= M <= 2147483647)%Z -> (0 <= K <= 2147483647)%Z -> (0 <= N <= 2147483647)%Z ->
  (M * K <= 2147483648)%Z -> (K * N <= 2147483648)%Z -> (M * N <= 2147483648)%Z ->
  operands_of h (flat_matrix pA M K) (flat_matrix pB K N) (flat_matrix pC M N) f g -> usable_heap h ->
  leaves h (multiply_ref 0 (radd rnd) (rmul rnd) pA pB pC M K N h) (flat_matrix pC M N)
    (near u e (S (Z.to_nat K)) (2 * Z.to_nat K) f g (range 0 K)).
Proof. exact plain_near. Qed.
(** In blocks of [tile_k] the error grows with the size of a block and with the number of blocks,
    not with the length of the sum. *)
Theorem C90_z_order : forall (rnd : Q -> Q) (h : heap Q) (A B C : aref) (f g : list Z -> Q) (ai ak bk bj ci cj : dim) (N1 N2 tile_k : Z) (nd : bool),
  setting h A B C f g ai ak bk bj ci cj -> (1 <= N1 <= dext ci)%Z -> (1 <= N2 <= dext cj)%Z -> (1 <= tile_k)%Z ->
  (dext ci <= 2 ^ 62)%Z -> (dext cj <= 2 ^ 62)%Z -> (1 <= dext ak)%Z -> (dext ci mod N1 = 0)%Z -> (dext cj mod N2 = 0)%Z ->
  forall (u e : Q), rounds u e rnd ->
  let d := (S (Z.to_nat tile_k) + Z.to_nat ((dext ak - 1) / tile_k))%nat in
  let m := (2 * Z.to_nat (dext ak) + Z.to_nat ((dext ak - 1) / tile_k))%nat in
  leaves h (multiply_reduce_tiles_z_order 0 (radd rnd) (rmul rnd) nd N1 N2 tile_k A B C h) C
    (near u e d m f g (range (dmin ak) (dext ak))).
Proof. exact z_order_near. Qed.
(** Products of integers are exact if the sums of absolute values are numbers of the format. *)
Theorem C90_integers : forall (m : Z) (rnd : Q -> Q) (h : heap Q) (A B C : aref) (f g : list Z -> Q) (ai ak bk bj ci cj : dim),
  keeps_integers m rnd -> setting h A B C f g ai ak bk bj ci cj ->
  (forall i j k, in_bounds (r_shape C) [i; j] -> In k (range (dmin ak) (dext ak)) -> integer (f [i; k]) /\ integer (g [k; j])) ->
  (forall i j, in_bounds (r_shape C) [i; j] -> abs_product f g (range (dmin ak) (dext ak)) i j <= inject_Z m) ->
  let ok run := leaves h run C (fun i j v => v == product f g (range (dmin ak) (dext ak)) i j) in
  ok (multiply_reduce_cols 0 (radd rnd) (rmul rnd) A B C h) /\ ok (multiply_reduce_rows 0 (radd rnd) (rmul rnd) A B C h) /\
  ok (multiply_reduce_matrix 0 (radd rnd) (rmul rnd) A B C h) /\
  (forall (nd : bool) (i j k : nat), i <> j -> i <> k -> j <> k -> spans ci ai -> spans cj bj -> same_bounds ak bk ->
     ok (multiply_ein 0 (radd rnd) (rmul rnd) nd i j k A B C h)) /\
  (forall (nd : bool) (N1 N2 : Z), (1 <= N1 <= dext ci)%Z -> (1 <= N2 <= dext cj)%Z ->
     ok (multiply_reduce_tiles 0 (radd rnd) (rmul rnd) nd N1 N2 A B C h) /\
     (same_bounds ak bk -> ok (multiply_ein_reduce_tiles 0 (radd rnd) (rmul rnd) nd N1 N2 A B C h)) /\
     (forall tile_k, (1 <= tile_k)%Z -> (dext ci <= 2 ^ 62)%Z -> (dext cj <= 2 ^ 62)%Z -> (1 <= dext ak)%Z ->
        (dext ci mod N1 = 0)%Z -> (dext cj mod N2 = 0)%Z ->
        ok (multiply_reduce_tiles_z_order 0 (radd rnd) (rmul rnd) nd N1 N2 tile_k A B C h))).
Proof. exact products_integers. Qed.

(** Convolutions *)
Theorem C90_convolutions : forall (u e : Q) (rnd : Q -> Q), rounds u e rnd ->
  forall (h : heap Q) (I F B O : aref) (f g b : list Z -> Q) (dco dx dy dn fx fy fc : dim),
  conv_setting h I F B O f g b dco dx dy dn fx fy fc ->
  let N := (Z.to_nat (dext fc) * (Z.to_nat (dext fy) * Z.to_nat (dext fx)))%nat in
  let rc := range (dmin fc) (dext fc) in let ry := range (dmin fy) (dext fy) in let rx := range (dmin fx) (dext fx) in
  let ok run := exists h', run = Ok h' /\
    (forall co x y n, in_bounds (r_shape O) [co; x; y; n] -> exists v, holds h' (elem (r_base O) (r_shape O) [co; x; y; n]) v /\
       Qabs (v - relu (convolution f g b rc ry rx co x y n)) <= error_bound u e (S N) (2 * N) (abs_convolution f g b rc ry rx co x y n)) /\
    (forall p, ~ is_elem (r_base O) (r_shape O) p -> peek h' p = peek h p) in
  ok (conv2d_naive 0 (radd rnd) (rmul rnd) less I F B O h) /\
  (forall (nd : bool) (tile_co tile_x : Z), (1 <= tile_co <= dext dco)%Z -> (1 <= tile_x <= dext dx)%Z ->
     ok (conv2d_tiled 0 (radd rnd) (rmul rnd) less nd tile_co tile_x I F B O h)).
Proof. exact convolutions_near. Qed.

(** ** The checks in the main functions *)
(** The two convolutions always agree. *)
Theorem C90_check_convolutions : forall (rnd : Q -> Q) (tol : Q) (h : heap Q) (I F B O : aref) (f g b : list Z -> Q)
    (dco dx dy dn fx fy fc : dim) (nd : bool) (tile_co tile_x : Z),
  conv_setting h I F B O f g b dco dx dy dn fx fy fc -> (1 <= tile_co <= dext dco)%Z -> (1 <= tile_x <= dext dx)%Z -> 0 <= tol ->
  exists h1 h2, conv2d_naive 0 (radd rnd) (rmul rnd) less I F B O h = Ok h1 /\
    conv2d_tiled 0 (radd rnd) (rmul rnd) less nd tile_co tile_x I F B O h = Ok h2 /\
    forall co x y n v1 v2, in_bounds (r_shape O) [co; x; y; n] -> holds h1 (elem (r_base O) (r_shape O) [co; x; y; n]) v1 ->
      holds h2 (elem (r_base O) (r_shape O) [co; x; y; n]) v2 -> differs tol v1 v2 = false.
Proof. exact convolutions_same. Qed.
(** So does every version of the product that sums up in the order of the plain C one. *)
Theorem C90_check_same_order : forall (rnd : Q -> Q) (M K N : Z) (f g : list Z -> Q),
  (1 <= M <= 2147483647)%Z -> (1 <= K <= 2147483647)%Z -> (1 <= N <= 2147483647)%Z ->
  (M * K <= 2147483648)%Z -> (K * N <= 2147483648)%Z -> (M * N <= 2147483648)%Z ->
  forall (h : heap Q) (pA pB pC : ptr),
  operands_of h (flat_matrix pA M K) (flat_matrix pB K N) (flat_matrix pC M N) f g -> usable_heap h ->
  forall (h2 : heap Q) (A B C : aref) (ai ak bk bj ci cj : dim), setting h2 A B C f g ai ak bk bj ci cj ->
  dmin ci = 0%Z /\ dext ci = M -> dmin cj = 0%Z /\ dext cj = N ->
  forall (run : outcome (heap Q)) (tol : Q), multiplies 0 (radd rnd) (rmul rnd) h2 run C f g (range 0 K) -> 0 <= tol ->
  exists h1 h3, multiply_ref 0 (radd rnd) (rmul rnd) pA pB pC M K N h = Ok h1 /\ run = Ok h3 /\
    forall c_ref c, (forall i j, (0 <= i < M)%Z -> (0 <= j < N)%Z ->
       holds h1 (elem (r_base (flat_matrix pC M N)) (r_shape (flat_matrix pC M N)) [i; j]) (c_ref i j) /\
       holds h3 (elem (r_base C) (r_shape C) [i; j]) (c i j)) ->
    accepts tol M N c_ref c = true.
Proof. exact check_same. Qed.
(** The product in z-order passes if nothing is negative and the tolerance covers the errors. *)
Theorem C90_check_z_order : forall (u : Q) (rnd : Q -> Q), rounds u 0 rnd -> forall (M K N : Z) (f g : list Z -> Q),
  (1 <= M <= 2147483647)%Z -> (1 <= K <= 2147483647)%Z -> (1 <= N <= 2147483647)%Z ->
  (M * K <= 2147483648)%Z -> (K * N <= 2147483648)%Z -> (M * N <= 2147483648)%Z ->
  forall (h : heap Q) (pA pB pC : ptr),
  operands_of h (flat_matrix pA M K) (flat_matrix pB K N) (flat_matrix pC M N) f g -> usable_heap h ->
  forall (h2 : heap Q) (A B C : aref) (ai ak bk bj ci cj : dim), setting h2 A B C f g ai ak bk bj ci cj ->
  dmin ci = 0%Z /\ dext ci = M -> dmin cj = 0%Z /\ dext cj = N -> dmin ak = 0%Z /\ dext ak = K ->
  (forall i k, (0 <= i < M)%Z -> (0 <= k < K)%Z -> 0 <= f [i; k]) -> (forall k j, (0 <= k < K)%Z -> (0 <= j < N)%Z -> 0 <= g [k; j]) ->
  forall (N1 N2 tile_k : Z) (nd : bool),
  (1 <= N1 <= M)%Z -> (1 <= N2 <= N)%Z -> (1 <= tile_k)%Z -> (M mod N1 = 0)%Z -> (N mod N2 = 0)%Z ->
  forall tol : Q,
  let g1 := grow u (S (Z.to_nat K)) - 1 in
  let g2 := grow u (S (Z.to_nat tile_k) + Z.to_nat ((K - 1) / tile_k)) - 1 in
  g1 <= 1 -> g2 <= 1 -> 0 <= tol -> g1 + g2 <= tol * (1 - g2) ->
  exists h1 h3, multiply_ref 0 (radd rnd) (rmul rnd) pA pB pC M K N h = Ok h1 /\
    multiply_reduce_tiles_z_order 0 (radd rnd) (rmul rnd) nd N1 N2 tile_k A B C h2 = Ok h3 /\
    forall c_ref c, (forall i j, (0 <= i < M)%Z -> (0 <= j < N)%Z ->
       holds h1 (elem (r_base (flat_matrix pC M N)) (r_shape (flat_matrix pC M N)) [i; j]) (c_ref i j) /\
       holds h3 (elem (r_base C) (r_shape C) [i; j]) (c i j)) ->
    accepts tol M N c_ref c = true.
Proof. exact check_z_order. Qed.
(** With floats and blocks of 256, sums of main's 1536 products pass with a tolerance of 1.08e-4,
    and of up to 1408 with main's 1e-4. *)
Theorem C90_check_sizes : forall (K : Z) (tol : Q) (rnd : Q -> Q), rounds (1 # 16777216) 0 rnd -> (1 <= K)%Z ->
  ((K <= 1536)%Z /\ 108 # 1000000 <= tol) \/ ((K <= 1408)%Z /\ 1 # 10000 <= tol) ->
  let g1 := grow (1 # 16777216) (S (Z.to_nat K)) - 1 in
  let g2 := grow (1 # 16777216) (S (Z.to_nat 256) + Z.to_nat ((K - 1) / 256)) - 1 in
  g1 <= 1 /\ g2 <= 1 /\ 0 <= tol /\ g1 + g2 <= tol * (1 - g2).
Proof. exact main_sizes. Qed.
(** What main's relative error compares *)
Theorem C90_relative_error : forall tol a b : Q, 0 <= a -> 0 <= b -> 0 <= tol ->
  (differs tol a b = false <-> Qabs (a - b) <= tol * (if Qle_bool a b then b else a)).
Proof. exact differs_spec. Qed.
(** Of negative numbers it accepts any two. *)
Theorem C90_relative_error_negative : forall tol a b : Q, a < 0 -> b < 0 -> 0 <= tol -> differs tol a b = false.
Proof. exact differs_negative. Qed.
Theorem C90_relative_error_refuted : exists tol a b : Q, 0 <= tol /\ differs tol a b = false /\
  ~ Qabs (a - b) <= tol * Qabs a /\ ~ Qabs (a - b) <= tol * Qabs b.
Proof. exact relative_error_wrong. Qed.

(** Thirds, with 8 binary digits *)
Example C90_example :
  rounds (1 # 128) 0 (fl 8) /\ keeps_integers 255 (fl 8) /\ rounds (1 # 16777216) 0 (fl 25) /\
  setting (map_heap third heapM) zA zB zC (fun i => third (view_of heapM zA i)) (fun i => third (view_of heapM zB i))
    (mkD 0 3 2) (mkD 0 2 1) (mkD 0 2 3) (mkD 0 3 1) (mkD 0 3 3) (mkD 0 3 1) /\
  numbers (multiply_reduce_cols 0 (radd (fl 8)) (rmul (fl 8)) zA zB zC (map_heap third heapM)) zC =
    [255 # 256; 269 # 128; 103 # 32; 85 # 64; 369 # 128; 71 # 16; 213 # 128; 469 # 128; 181 # 32] /\
  numbers (multiply_reduce_tiles_z_order 0 (radd (fl 8)) (rmul (fl 8)) false 3 3 1 zA zB zC (map_heap third heapM)) zC =
    [255 # 256; 269 # 128; 103 # 32; 85 # 64; 369 # 128; 71 # 16; 213 # 128; 469 # 128; 181 # 32] /\
  map (fun p => Qred (product (fun i => third (view_of heapM zA i)) (fun i => third (view_of heapM zB i)) (range 0 2) (fst p) (snd p)))
    [(0, 0); (1, 0); (2, 2)]%Z = [1; 19 # 9; 17 # 3] /\
  accepts (1 # 10) 3 3 (fun i j => third (i + j)) (fun i j => third (i + j)) = true /\
  accepts (1 # 10) 3 3 (fun i j => third (i + j)) (fun i j => third (i + 2 * j)) = false /\
  differs (1 # 10000) (-1) (-1000) = false /\ differs (1 # 10000) 1 1000 = true.
Proof. exact rounding_case. Qed.
Example C90_example_integers :
  setting (map_heap inject_Z heapM) zA zB zC (fun i => inject_Z (view_of heapM zA i)) (fun i => inject_Z (view_of heapM zB i))
    (mkD 0 3 2) (mkD 0 2 1) (mkD 0 2 3) (mkD 0 3 1) (mkD 0 3 3) (mkD 0 3 1) /\
  (forall i j k, in_bounds (r_shape zC) [i; j] -> In k (range 0 2) ->
     integer (inject_Z (view_of heapM zA [i; k])) /\ integer (inject_Z (view_of heapM zB [k; j]))) /\
  (forall i j, in_bounds (r_shape zC) [i; j] ->
     abs_product (fun i => inject_Z (view_of heapM zA i)) (fun i => inject_Z (view_of heapM zB i)) (range 0 2) i j <= inject_Z 255) /\
  numbers (multiply_reduce_rows 0 (radd (fl 8)) (rmul (fl 8)) zA zB zC (map_heap inject_Z heapM)) zC = [9; 19; 29; 12; 26; 40; 15; 33; 51] /\
  numbers (multiply_reduce_rows 0 (radd (fl 3)) (rmul (fl 3)) zA zB zC (map_heap inject_Z heapM)) zC = [9; 18; 28; 12; 26; 40; 15; 32; 48].
Proof. exact integers_case. Qed.
Example C90_example_check :
  let f i := third (view_of heapM zA i) in let g i := third (view_of heapM zB i) in
  operands_of (map_heap third heapM) zA zB zC f g /\ usable_heap (map_heap third heapM) /\
  (forall i k, (0 <= i < 3)%Z -> (0 <= k < 2)%Z -> 0 <= f [i; k]) /\ (forall k j, (0 <= k < 2)%Z -> (0 <= j < 3)%Z -> 0 <= g [k; j]) /\
  (3 mod 3 = 0)%Z /\
  (let g1 := grow (1 # 128) (S (Z.to_nat 2)) - 1 in
   let g2 := grow (1 # 128) (S (Z.to_nat 1) + Z.to_nat ((2 - 1) / 1)) - 1 in
   g1 <= 1 /\ g2 <= 1 /\ g1 + g2 <= (1 # 20) * (1 - g2)) /\
  numbers (multiply_ref 0 (radd (fl 8)) (rmul (fl 8)) (1%nat, 0%Z) (2%nat, 0%Z) (3%nat, 0%Z) 3 2 3 (map_heap third heapM)) zC =
    [255 # 256; 269 # 128; 103 # 32; 85 # 64; 369 # 128; 71 # 16; 213 # 128; 469 # 128; 181 # 32] /\
  multiplies 0 (radd (fl 8)) (rmul (fl 8)) (map_heap third heapM)
    (multiply_reduce_cols 0 (radd (fl 8)) (rmul (fl 8)) zA zB zC (map_heap third heapM)) zC f g (range 0 2).
Proof. exact check_case. Qed.
Example C90_example_convolution :
  conv_setting (map_heap third heapC) cI cF cB cO (fun i => third (view_of heapC cI i)) (fun i => third (view_of heapC cF i)) (fun i => third (view_of heapC cB i))
    (mkD 0 3 1) (mkD 5 3 3) (mkD 2 2 9) (mkD 7 1 18) (mkD 0 2 3) (mkD (-1) 2 6) (mkD 0 2 12) /\
  (let l := numbers (conv2d_naive 0 (radd (fl 8)) (rmul (fl 8)) less cI cF cB cO (map_heap third heapC)) cO in
   firstn 4 l = [127 # 32; 0; 85 # 64; 247 # 64] /\
   numbers (conv2d_tiled 0 (radd (fl 8)) (rmul (fl 8)) less false 2 2 cI cF cB cO (map_heap third heapC)) cO = l).
Proof. exact convolution_case. Qed.
(** Two orders, one with fused operations *)
Example C90_example_orders :
  let t1 := Plus (Plus (Times (1 # 3) 5) (Times (1 # 7) 2)) (Times (1 # 3) 1) in
  let t2 := Fused (1 # 3) 1 (Fused (1 # 7) 2 (Times (1 # 3) 5)) in
  depth t1 = 3%nat /\ roundings t1 = 5%nat /\ depth t2 = 3%nat /\ roundings t2 = 3%nat /\
  meant t1 == meant t2 /\ size t1 == 16 # 7 /\ Qred (computed (fl 8) t1) = 73 # 32 /\ Qred (computed (fl 8) t2) = 291 # 128 /\
  integers (Plus (Times 3 4) (Given (-5 # 1))) /\ size (Plus (Times 3 4) (Given (-5 # 1))) <= inject_Z 255.
Proof. exact orders_case. Qed.

Print Assumptions C90_any_order.
Print Assumptions C90_gamma.
Print Assumptions C90_any_order_integers.
Print Assumptions C90_products.
Print Assumptions C90_plain.
Print Assumptions C90_z_order.
Print Assumptions C90_integers.
Print Assumptions C90_convolutions.
Print Assumptions C90_check_convolutions.
Print Assumptions C90_check_same_order.
Print Assumptions C90_check_z_order.
Print Assumptions C90_check_sizes.
Print Assumptions C90_relative_error.
Print Assumptions C90_relative_error_negative.
Print Assumptions C90_relative_error_refuted.
