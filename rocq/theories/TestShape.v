(** The model agrees with the library's tests of shapes: every assertion of test/shape.cpp, test/split.cpp, test/shuffle.cpp and
    test/sort.cpp (and the transposes of test/errors.cpp), computed in the model.  These are tests of the model, not proofs about it; each carries the name of
    the test. *)
From Coq Require Import ZArith List Bool.
From Verif Require Import Base Interval Shape Static Typed Traverse.
Import ListNotations.
Open Scope Z_scope.

(** The offsets a loop of the model visits *)
Definition offsets (s : shape) (r : outcome (list index)) : list Z := match r with Ok l => map (flat_offset s) l | _ => [] end.
Definition done {A : Type} (r : option A) (d : A) : A := match r with Some a => a | None => d end.
(** dim<>(min, extent), dim<>(extent): the stride is not known *)
Definition d2 (mn ex : Z) : dim := mkD mn ex unresolved.
Definition d1 (ex : Z) : dim := d2 0 ex.
Definition dense_T : dimT := mkDT (-9) (-9) 1.
Definition any_T : dimT := mkDT (-9) (-9) (-9).
Ltac ok := repeat split; vm_compute; reflexivity.

(** test/shape.cpp:24-30 *)
Example shape_scalar : flat_extent [] = 1 /\ size [] = 1 /\ flat_offset [] [] = 0 /\ length (bounds []) = 0%nat.
Proof. ok. Qed.
(** test/shape.cpp:32-48 *)
Example shape_1d : Forall (fun st => map (fun i => flat_offset [mkD 0 10 st] [i]) (zseq 0 10) = map (fun i => i * st) (zseq 0 10)) [1; 2; 10].
Proof. repeat constructor. Qed.
(** test/shape.cpp:50-59 *)
Example shape_2d : map (fun i => map (fun j => flat_offset [mkD 0 10 1; mkD 0 5 10] [j; i]) (zseq 0 10)) (zseq 0 5) =
  map (fun i => map (fun j => i * 10 + j) (zseq 0 10)) (zseq 0 5).
Proof. ok. Qed.
(** test/shape.cpp:61-83 *)
Example shape_2d_negative_stride :
  let s := [mkD 0 10 1; mkD 0 5 (-10)] in
  let l := flat_map (fun i => map (fun j => flat_offset s [j; i]) (zseq 0 10)) (zseq 0 5) in
  l = flat_map (fun i => map (fun j => i * -10 + j) (zseq 0 10)) (zseq 0 5) /\
  size s = 50 /\ flat_extent s = 50 /\ flat_min s = fold_left Z.min l 0 /\ flat_max s = fold_left Z.max l 0 /\
  strides (resolve [d1 10; d1 5; mkD 0 3 (-1)]) = [3; 30; -1].
Proof. ok. Qed.
(** test/shape.cpp:85-119 *)
Example make_dense_shape :
  resolve [mkD 0 10 1] = [mkD 0 10 1] /\ resolve [mkD 0 10 1; d1 5] = [mkD 0 10 1; mkD 0 5 10] /\
  resolve [mkD 0 10 1; d1 5; d1 20] = [mkD 0 10 1; mkD 0 5 10; mkD 0 20 50].
Proof. ok. Qed.

(** test/shape.cpp:121-137: extents 0, 1, ..., rank - 1 *)
Fixpoint known_dims (stride : Z) (n : nat) (d : Z) : shape :=
  match n with O => [] | S n => mkD 0 d stride :: known_dims (stride * Z.max 1 d) n (d + 1) end.
Example all_unknown_strides : Forall (fun n => resolve (map d1 (zseq 0 n)) = resolve (known_dims 1 n 0)) (seq 1 10).
Proof. repeat constructor. Qed.
(** test/shape.cpp:139-162: extents 1, ..., rank, and one of the strides is 1 *)
Definition one_dense (n known : nat) : shape :=
  resolve (map (fun k => if (k =? known)%nat then mkD 0 (Z.of_nat k + 1) 1 else d1 (Z.of_nat k + 1)) (seq 0 n)).
Definition one_dense_ok (n known : nat) : bool :=
  let s := one_dense n known in
  (size s =? factorial n) && (nth known (strides s) 0 =? 1) && is_compact s && is_one_to_one s.
Example one_dense_stride : forallb (fun n => forallb (one_dense_ok n) (seq 0 n)) (seq 1 10) = true.
Proof. vm_compute. reflexivity. Qed.
(** test/shape.cpp:178-207 *)
Example auto_strides :
  map (fun s => strides (resolve s))
    [ [mkD 3 5 unresolved]; [d1 5; d1 10]; [d1 1; d1 1; mkD 0 2 1]; [d1 1; mkD 0 2 1; d1 1]; [d1 1; d1 10; mkD 0 2 1];
      [d1 5; mkD 0 2 1; d1 1]; [d1 5; mkD 0 4 20; mkD 0 3 1]; [d1 5; mkD 0 4 15; mkD 0 3 1]; [d1 5; mkD 0 4 14; mkD 0 3 1] ] =
  [ [1]; [1; 5]; [2; 2; 1]; [2; 1; 2]; [2; 2; 1]; [2; 1; 10]; [3; 20; 1]; [3; 15; 1]; [56; 14; 1] ].
Proof. vm_compute. reflexivity. Qed.
(** test/shape.cpp:209-231 *)
Example bounds_ : bounds (resolve [d1 10; mkD (-2) 12 1]) = [d2 0 10; d2 (-2) 12].
Proof. ok. Qed.
(** test/shape.cpp:233-242 *)
Example broadcast_dim : map (fun i => map (fun j => flat_offset [mkD 0 10 1; mkD 0 1 0] [j; i]) (zseq 0 10)) (zseq 0 10) = repeat (zseq 0 10) 10.
Proof. ok. Qed.
(** test/shape.cpp:244-250 *)
Example clamp : map (fun i => clamp_to i (mkI 5 10)) (zseq (-10) 30) = map (fun i => Z.max (Z.min i 14) 5) (zseq (-10) 30).
Proof. ok. Qed.
(** test/shape.cpp:252-298, 326-372: for_all_indices and for_each_index *)
Example for_each_index_in_order :
  Forall (fun s => offsets (resolve s) (for_each_index (resolve s)) = zseq 0 (Z.to_nat (size s)))
    [ []; [mkD 0 20 1]; [mkD 0 10 1; d1 4]; [mkD 0 3 1; d1 5; d1 8] ].
Proof. repeat constructor. Qed.
(** test/shape.cpp:300-312, 374-386: the order is a permutation *)
Example for_each_index_3d_reordered :
  let s := resolve [d1 3; d1 5; mkD 0 8 1] in
  offsets s (done (for_each_index_loop_order [2; 0; 1]%nat s) UB) = zseq 0 120.
Proof. ok. Qed.
(** test/shape.cpp:314-324, 388-398: the order leaves a dimension out *)
Example for_each_index_2d_of_3d :
  let s := resolve [d1 3; d1 5; mkD 0 8 1] in
  match for_each_index_loop_order [0; 1]%nat s with
  | Some (Ok l) => map (fun i => flat_offset s (i ++ [0])) l = map (fun k => 8 * k) (zseq 0 15) /\ nth 0 (strides s) 0 = 8
  | _ => False
  end.
Proof. ok. Qed.
(** test/shape.cpp:400-412 *)
Example dim_is_in_range :
  let x := mkI 2 5 in
  forallb (i_in_range x) (zseq 2 5) = true /\ i_in_range x 1 = false /\ i_in_range x 8 = false /\
  i_in_range_interval x x = true /\ i_in_range_interval x (mkI 1 2) = false /\ i_in_range_interval x (mkI 8 2) = false.
Proof. ok. Qed.
(** test/shape.cpp:414-427 *)
Example shape_is_in_range_1d :
  let s := [d2 2 5] in
  forallb (fun i => is_in_range s [AIdx i]) (zseq 2 5) = true /\ is_in_range s [AIdx 1] = false /\ is_in_range s [AIdx 8] = false /\
  is_in_range s [ADim (d2 2 5)] = true /\ is_in_range s [AInt (mkI 0 2)] = false /\ is_in_range s [AInt (mkI 8 12)] = false.
Proof. ok. Qed.
(** test/shape.cpp:429-448 *)
Example shape_is_in_range_2d :
  let x := d2 2 5 in let y := d2 (-3) 6 in let s := [x; y] in
  forallb (fun i => forallb (fun j => is_in_range s [AIdx j; AIdx i]) (zseq 2 5)) (zseq (-3) 6) = true /\
  map (is_in_range s) [ [AIdx 1; AIdx 0]; [AIdx 2; AIdx (-4)]; [AIdx 8; AIdx 0]; [AIdx 2; AIdx 4]; [ADim x; ADim y];
                        [AIdx 1; ADim y]; [ADim x; AIdx (-4)] ] = [false; false; false; false; true; false; false].
Proof. ok. Qed.
(** test/shape.cpp:450-461 *)
Example dim_conversion :
  convert_dim_T false any_T (mkD 0 10 1) = Ok (mkD 0 10 1) /\ convert_dim_T false dense_T (d2 5 15) = Ok (mkD 5 15 1).
Proof. ok. Qed.
(** test/shape.cpp:463-475; the line in the comment asserts *)
Example dim_set_stride :
  set_stride_T false any_T (mkD 3 10 4) 5 = Ok (mkD 3 10 5) /\
  set_stride_T false (mkDT (-9) (-9) 4) (mkD 100 120 4) unresolved = Ok (mkD 100 120 4) /\
  set_stride_T false (mkDT (-9) (-9) 4) (mkD 100 120 4) 5 = AssertFail.
Proof. ok. Qed.
(** test/shape.cpp:477-500 *)
Example shape_conversion :
  let static_dense := [mkD 0 10 1; d2 1 5] in
  let dense2 := [dense_T; any_T] in let dense := [mkD 0 10 1; d2 1 5] in
  shape_from false [any_T; any_T] static_dense = Ok dense /\ shape_from false dense2 dense = Ok static_dense /\
  shape_from false dense2 [d2 0 10; d2 1 5] = Ok static_dense /\ is_compatible dense2 dense = true /\
  is_compatible dense2 [mkD 0 10 2; mkD 1 5 20] = false /\
  match convert_shape false [dense_T; any_T; any_T] dense with
  | Ok s => nth 2 s (mkD 7 7 7) = d2 0 1
  | _ => False
  end.
Proof. ok. Qed.
(** test/shape.cpp:502-517 *)
Example shape_transpose :
  let s := [mkD 0 3 1; d1 5; d1 8] in
  let t120 := done (transpose [1; 2; 0]%nat s) [] in
  extents t120 = [5; 8; 3] /\ extents (done (transpose [1; 0]%nat s) []) = [5; 3; 8] /\ extents (done (reorder [2; 0]%nat t120) []) = [3; 5].
Proof. ok. Qed.
(** test/errors.cpp:66-81: calls that should not compile.  The first does: array.h:1345 allows the permutations of the first dims. *)
Example shape_transpose_not_permutation :
  map (fun is_ => permutation_check (length is_) is_) [ [0]; [0; 0]; [0; 2]; [0; 0; 4]; [1; 2] ]%nat = [true; false; false; false; false].
Proof. ok. Qed.
(** test/shape.cpp:519-555 *)
Example shape_optimize :
  let dummy := mkD 0 1 0 in
  dynamic_optimize_shape [mkD 0 5 21; mkD 0 7 3; mkD 5 3 1] = [mkD 5 105 1; dummy; dummy] /\
  dynamic_optimize_shape [mkD 0 5 42; mkD 3 7 6; mkD 0 3 2] = [mkD 9 105 2; dummy; dummy] /\
  dynamic_optimize_shape [mkD 0 5 40; mkD 0 7 3; mkD 0 2 1] = [mkD 0 2 1; mkD 0 7 3; mkD 0 5 40] /\
  dynamic_optimize_shape [mkD 0 5 28; mkD 0 7 4; mkD 0 3 1] = [mkD 0 3 1; mkD 0 35 4; dummy] /\
  (let e := resolve (map d1 [1; 2; 3; 4; 5; 6; 7; 8; 9; 10]) in
   dynamic_optimize_shape e = mkD 0 3628800 1 :: repeat dummy 9 /\
   dynamic_optimize_shape (done (reorder [9; 5; 3; 7; 2; 8; 4; 6; 0; 1]%nat e) []) = mkD 0 3628800 1 :: repeat dummy 9) /\
  dynamic_optimize_shape (resolve [d2 0 2; d2 1 2]) = [mkD 2 4 1; dummy] /\
  dynamic_optimize_shape (resolve [d2 1 2; d2 1 2]) = [mkD 3 4 1; dummy].
Proof. ok. Qed.
(** test/shape.cpp:557-584 *)
Example shape_make_compact :
  make_compact false [(any_T, mkD 3 5 2)] = Ok [(dense_T, mkD 3 5 1)] /\
  make_compact false [(any_T, mkD 3 5 8); (any_T, mkD 1 4 1)] = Ok [(dense_T, mkD 3 5 1); (any_T, mkD 1 4 5)] /\
  make_compact false [(any_T, mkD 3 5 8); (dense_T, mkD 1 4 1)] = Ok [(any_T, mkD 3 5 4); (dense_T, mkD 1 4 1)] /\
  make_compact false [(any_T, mkD 5 3 8); (mkDT (-9) 4 1, mkD 2 4 1)] =
    Ok [(mkDT (-9) (-9) 4, mkD 5 3 4); (mkDT (-9) 4 1, mkD 2 4 1)] /\
  make_compact false [(any_T, d2 5 8); (mkDT (-9) (-9) 8, mkD 2 4 8)] = Ok [(any_T, mkD 5 8 1); (mkDT (-9) (-9) 8, mkD 2 4 8)] /\
  make_compact false [(mkDT 0 8 (-9), d2 0 8); (mkDT 0 4 8, mkD 0 4 8)] = Ok [(mkDT 0 8 (-9), mkD 0 8 1); (mkDT 0 4 8, mkD 0 4 8)].
Proof. ok. Qed.
(** test/shape.cpp:586-590 *)
Example shape_fixed_dense : fixed_dense_shape false [2; 3; 4; 5] =
  Ok [(mkDT 0 2 1, mkD 0 2 1); (mkDT 0 3 2, mkD 0 3 2); (mkDT 0 4 6, mkD 0 4 6); (mkDT 0 5 24, mkD 0 5 24)].
Proof. ok. Qed.
(** test/shape.cpp:592-615: how often each address is taken, against is_compact and is_one_to_one *)
Definition number_theory (s0 : shape) : bool :=
  let s := resolve s0 in
  let l := offsets s (for_each_index s) in
  let counts := map (fun a => length (filter (fun o => o - flat_min s =? a) l)) (zseq 0 (Z.to_nat (flat_extent s))) in
  Bool.eqb (is_compact s) (forallb (fun k => 1 <=? k)%nat counts) && Bool.eqb (is_one_to_one s) (forallb (fun k => k <=? 1)%nat counts).
Example shape_number_theory : map number_theory
  [ [d2 1 10; d2 3 5]; [d2 (-1) 10; mkD 3 5 (-1)]; [mkD (-2) 10 6; d2 3 5]; [mkD 0 4 4; mkD 0 4 2; mkD 0 4 1] ] = [true; true; true; true].
Proof. vm_compute. reflexivity. Qed.

(** test/split.cpp:22-53 *)
Definition pieces (inner : option Z) (r : outcome split_result) : list interval :=
  match r with Ok r => match split_loop inner 100 (sr_begin r) (sr_end r) with Ok l => l | _ => [] end | _ => [] end.
Example split_iterator_increment : pieces (Some 3) (split_static false 3 (mkI 0 10)) = [mkI 0 3; mkI 3 3; mkI 6 3; mkI 7 3].
Proof. ok. Qed.
(** test/split.cpp:55-80 *)
Definition sizes_ok (e : Z) : bool :=
  forallb (fun f => sr_size (split_dynamic (mkI 0 e) f) =? (e + f - 1) / f) [1; 2; 3; 4; 5] &&
  forallb (fun f => (e <? f) || match split_static false f (mkI 0 e) with Ok r => sr_size r =? (e + f - 1) / f | _ => false end) [1; 2; 3; 4; 5].
Example split_result_size : forallb sizes_ok (zseq 1 99) = true.
Proof. vm_compute. reflexivity. Qed.
(** test/split.cpp:83-142: the sizes of the tiles *)
Definition tile_sizes (s : shape) (xs ys : list interval) (arg : interval -> interval -> list sarg) : list Z :=
  flat_map (fun y => map (fun x => size (shape_slice s (arg x y))) xs) ys.
Example split_constant :
  let even := resolve [mkD 0 8 1; d1 9; d1 4] in let uneven := resolve [mkD 2 8 1; d2 1 9; d1 4] in
  let tile x y := [AInt x; AInt y; AAll] in
  tile_sizes even (pieces (Some 4) (split_static false 4 (mkI 0 8))) (pieces (Some 3) (split_static false 3 (mkI 0 9))) tile = repeat 48 6 /\
  tile_sizes uneven (pieces (Some 5) (split_static false 5 (mkI 2 8))) (pieces (Some 4) (split_static false 4 (mkI 1 9))) tile = repeat 80 6.
Proof. ok. Qed.
Example split_nonconstant :
  let even := resolve [mkD 0 4 1; d1 8; d1 9] in let uneven := resolve [mkD 2 8 1; d2 1 9; d1 4] in
  vsum (tile_sizes even (pieces None (Ok (split_dynamic (mkI 0 8) 4))) (pieces None (Ok (split_dynamic (mkI 0 9) 3))) (fun y z => [AAll; AInt y; AInt z])) = size even /\
  vsum (tile_sizes uneven (pieces None (Ok (split_dynamic (mkI 2 8) 5))) (pieces None (Ok (split_dynamic (mkI 0 4) 12))) (fun x z => [AInt x; AAll; AInt z])) = size uneven.
Proof. ok. Qed.

(** test/shuffle.cpp:26-99: unshuffle puts the elements back *)
Definition shuffle (is_ : list nat) (t : list nat) : list nat := map (fun i => nth i t 9%nat) is_.
Example shuffle_and_back :
  map (fun is_ => unshuffle is_ (shuffle is_ [0; 1; 2]%nat))
    [ [0]; [1]; [2]; [0; 1]; [0; 2]; [1; 0]; [1; 2]; [2; 0]; [2; 1];
      [0; 1; 2]; [0; 2; 1]; [1; 0; 2]; [1; 2; 0]; [2; 0; 1]; [2; 1; 0] ]%nat =
    [ [0]; [1]; [2]; [0; 1]; [0; 2]; [0; 1]; [1; 2]; [0; 2]; [1; 2];
      [0; 1; 2]; [0; 1; 2]; [0; 1; 2]; [0; 1; 2]; [0; 1; 2]; [0; 1; 2] ]%nat.
Proof. ok. Qed.
(** test/sort.cpp:23-40, with numbers from a linear congruential generator in place of [rand] *)
Fixpoint numbers (n : nat) (x : Z) : list Z := match n with O => [] | S n => let y := (x * 1103515245 + 12345) mod 2147483648 in y / 1000 mod 100 :: numbers n y end.
Fixpoint ascendsb (l : list Z) : bool := match l with a :: (b :: _) as r => (a <=? b) && ascendsb r | _ => true end.
Example sort : forallb (fun n =>
    let l := numbers n (Z.of_nat n) in let r := bubble_sort Z.ltb l in
    ascendsb r && forallb (fun v => (count_occ Z.eq_dec l v =? count_occ Z.eq_dec r v)%nat) l) (seq 0 30) = true.
Proof. vm_compute. reflexivity. Qed.
