(** The model agrees with the library's tests of images, matrices, allocators, orders, reductions and text: test/image.cpp,
    test/matrix.cpp, test/auto_allocator.cpp, test/z_order.cpp, test/readme.cpp, test/ein_reduce.cpp and
    absl/absl_test.cpp, computed in the model as in TestArrays.v, with smaller extents.  The discrete Fourier transform
    of test/ein_reduce.cpp and overload resolution have no counterpart. *)
From Coq Require Import ZArith List Bool String.
From Verif Require Import Base Interval Shape Static Typed Traverse Memory Ref Container Program ZOrder Ein EinOps Print TestShape TestArrays.
Import ListNotations.
Open Scope list_scope.
Open Scope Z_scope.

(** ** Images *)

(** image.h:36-60: planar and chunky shapes of a size *)
Definition planar (w h c : Z) : shape := [mkD 0 w 1; d1 h; d1 c].
Definition chunky (w h c : Z) : shape := [mkD 0 w c; d1 h; mkD 0 c 1].
Definition crop_of (r : aref) (x0 y0 x1 y1 : Z) (o : crop_origin) : aref :=
  match r_shape r with [x; y; c] => crop (r_base r) x y c x0 y0 x1 y1 o | _ => r end.
Definition slice_of (r : aref) (c : Z) : aref :=
  match r_shape r with [x; y; c'] => slice_channel (r_base r) x y c' c | _ => r end.
(** min x, max x, min y, max y *)
Definition ends (r : aref) (l : list Z) : bool :=
  match r_shape r with x :: y :: _ => list_eqb [dmin x; dmax x; dmin y; dmax y] l | _ => false end.
(** test/image.cpp:20-57 *)
Definition test_crop (s : shape) : bool :=
  after (ints 3) [new s; fill_pattern 0] (fun w => on w 0 (fun h base =>
    let crop_xy := crop_of base 2 1 9 7 origin_crop in
    let crop_zero_xy := crop_of base 3 2 8 6 origin_zero in
    let crop2_xy := crop_of crop_xy 4 3 8 6 origin_crop in
    let outside := crop_of base 5 4 105 7 origin_crop in
    ends crop_xy [2; 8; 1; 6] && holds h crop_xy pattern &&
    ends crop_zero_xy [0; 4; 0; 3] && holds h crop_zero_xy (fun i => pattern (shifted [3; 2; 0] i)) &&
    ends crop2_xy [4; 7; 3; 5] && holds h crop2_xy pattern &&
    ends outside [5; 9; 4; 6] && holds h outside pattern)).
Example image_crop : test_crop (planar 10 8 3) && test_crop (chunky 10 8 3) = true.
Proof. run. Qed.
(** test/image.cpp:59-80 *)
Definition test_slice (s : shape) (channels : Z) : bool :=
  after (ints 3) [new s; fill_pattern 0] (fun w => on w 0 (fun h base =>
    forallb (fun c =>
      let sl := slice_of base c in let cs := slice_of (crop_of base 2 1 6 5 origin_crop) c in
      (size (r_shape sl) =? 48) && holds h sl (fun i => pattern (i ++ [c])) &&
      (size (r_shape cs) =? 16) && holds h cs (fun i => pattern (i ++ [c]))) (zseq 0 (Z.to_nat channels)))).
Example image_slice : test_slice (planar 8 6 3) 3 && test_slice (chunky 8 6 3) 3 = true.
Proof. run. Qed.
(** test/image.cpp:82-156: copies between planar and chunky images *)
Example image_copy :
  forallb (fun c => forallb (fun src => forallb (fun dst =>
    after (ints 3) [new (src 4 3 c); fill_pattern 0; new (dst 4 3 c); CopyTo 0 1] (fun w => check_pattern w 1))
    [planar; chunky]) [planar; chunky]) [1; 2; 3; 4] = true.
Proof. run. Qed.
(** test/image.cpp:158-177: the padding is not written *)
Example image_chunky_padded :
  match w <- arun (ints 3) [new (chunky 4 3 4); fill_pattern 0; Run (NewValue (chunky 4 3 4) 5 0)] empty_world ;;
        a <- get w 0 ;; b <- get w 1 ;;
        let rgb := [mkD 0 4 4; d1 3; mkD 0 3 1] in
        h <- copy false (w_heap w) (make_ref (a_base a) rgb) (make_ref (a_base b) rgb) ;;
        Ok (holds h (make_ref (a_base b) rgb) pattern && holds h (ref_slice (aref_of b) [AAll; AAll; AIdx 3]) (fun _ => 5)) with
  | Ok b => b
  | _ => false
  end = true.
Proof. run. Qed.

(** ** Matrices, allocators *)

Definition mat (m n : Z) : shape := [d1 m; mkD 0 n 1].
(** test/matrix.cpp:20-33 *)
Example matrix_slice :
  after (ints 2) [Run (NewValue (mat 6 6) 0 0); Transform 0 (fun i => match i with [i; j] => i * 10 + j | _ => 0 end)] (fun w =>
    on w 0 (fun h m => forallb (fun i =>
      holds h (ref_slice m [AAll; AIdx i]) (fun j => nth 0 j 0 * 10 + i) && holds h (ref_slice m [AIdx i; AAll]) (fun j => i * 10 + nth 0 j 0)) (zseq 0 6))) = true.
Proof. run. Qed.
(** test/matrix.cpp:35-40 *)
Example matrix_transpose :
  after (ints 2) [new (mat 5 8); fill_pattern 0] (fun w => on w 0 (fun h m =>
    match ref_transpose false [1; 0]%nat m with
    | Some (Ok mt) => holds h mt (fun i => pattern (rev i)) && list_eqb (extents (r_shape mt)) [8; 5]
    | _ => false
    end)) = true.
Proof. run. Qed.
(** test/matrix.cpp:42-61 and test/auto_allocator.cpp:34-59; is the block of an array inside of it? *)
Definition is_auto (w : world Z) (x : nat) : bool :=
  match w_arr w x with
  | Some a => match h_blk (w_heap w) (fst (a_base a)) with Some b => owner_eqb (b_owner b) (Inline x) | None => false end
  | None => false
  end.
Definition test_auto (c : config Z) (s : shape) : bool :=
  let x0 i := nth 0 i 0 in
  after c [new s; Transform 0 x0; Run (NewCopy 0); new (c_shape0 c); Run (CopyAssign 2 0); Run (NewMove 0); new (c_shape0 c); Run (MoveAssign 4 2)]
    (fun w => forallb (fun x => is_auto w x && on w x (fun h r => holds h r x0)) [1; 3; 4]%nat).
Example auto_array :
  test_auto (ints_cap 32 3) [mkD 0 4 1; d1 3; d1 2] &&
  test_auto (mkC false false false false (fun a => a) 0 12 (mat 4 3) 0 (fun v => v)) (mat 4 3) = true.
Proof. run. Qed.
(** test/auto_allocator.cpp:60-64 *)
Example auto_array_bad_alloc : after (ints_cap 32 3) [new [mkD 0 4 1; d1 3; d1 5]] (fun w => negb (is_auto w 0)) = true.
Proof. run. Qed.

(** ** Orders *)

(** test/z_order.cpp:26-74: each index once *)
Fixpoint grid (es : list Z) : list index :=
  match es with [] => [[]] | e :: es => flat_map (fun i => map (fun x => x :: i) (zseq 0 (Z.to_nat e))) (grid es) end.
Definition z_ok (es : list Z) : bool :=
  match for_each_index_in_z_order es with
  | Ok l => (List.length l =? List.length (grid es))%nat && forallb (fun i => existsb (list_eqb i) l) (grid es)
  | _ => false
  end.
Example for_each_in_z_order_1d : z_ok [12] = true.
Proof. run. Qed.
Example for_each_in_z_order_2d : forallb (fun w => forallb (fun h => z_ok [w; h]) [1; 2; 3; 5; 8]) [1; 2; 3; 5; 8] = true.
Proof. run. Qed.
Example for_each_in_z_order_3d : forallb (fun w => forallb (fun h => forallb (fun d => z_ok [w; h; d]) [1; 3; 4]) [1; 3; 4]) [1; 3; 4] = true.
Proof. run. Qed.
(** test/z_order.cpp:76-94: the tiles of two splits *)
Definition range_of (l : list interval) : Z * (Z -> interval) := (Z.of_nat (List.length l), fun n => nth (Z.to_nat n) l (mkI 0 0)).
Definition split_z_ok (w h : Z) : bool :=
  let xs := pieces (Some 3) (split_static false 3 (mkI 0 w)) in let ys := pieces None (Ok (split_dynamic (mkI 0 h) 3)) in
  match for_each_in_z_order [range_of xs; range_of ys] with
  | Ok tiles =>
      (w * h <=? vsum (map (fun t => vproduct (map iext t)) tiles)) &&
      forallb (fun x => forallb (fun y => existsb (fun t => vall (map2 i_in_range t [x; y])) tiles) (zseq 0 (Z.to_nat h))) (zseq 0 (Z.to_nat w))
  | _ => false
  end.
Example split_z_order_2d : forallb (fun w => forallb (split_z_ok w) [1; 2; 3; 4; 5; 6; 7]) [3; 4; 5; 6; 7] = true.
Proof. run. Qed.
(** test/readme.cpp:69-97: the orders printed *)
Example readme :
  let s := resolve [d1 2; d1 2; d1 2] in
  for_each_index s = Ok [[0; 0; 0]; [1; 0; 0]; [0; 1; 0]; [1; 1; 0]; [0; 0; 1]; [1; 0; 1]; [0; 1; 1]; [1; 1; 1]] /\
  for_each_index_loop_order [2; 0; 1]%nat s =
    Some (Ok [[0; 0; 0]; [0; 0; 1]; [1; 0; 0]; [1; 0; 1]; [0; 1; 0]; [0; 1; 1]; [1; 1; 0]; [1; 1; 1]]).
Proof. ok. Qed.

(** ** Reductions: after [ops], does [f] hold of the heap and of the array [x] after ein_reduce? *)
Definition reduced (rank : nat) (ops : list (act Z)) (op : Z -> Z -> Z) (x : nat) (out : list nat) (e : world Z -> expr Z) (f : index -> Z) : bool :=
  after (ints rank) ops (fun w => on w x (fun h r =>
    match ein_reduce false op h r out (e w) with Ok h' => holds h' r f | _ => false end)).
(** The same for make_ein_sum: the shape of the result has the extents [ex] *)
Definition summed (rank : nat) (ops : list (act Z)) (out : list nat) (e : world Z -> expr Z) (ts : list dimT) (ex : list Z) (f : index -> Z) : bool :=
  after (ints rank) ops (fun w =>
    match make_ein_sum (ints (List.length out)) Z.add (w_next w) (w_heap w) 0 out (e w) ts 0 with
    | Ok (h', a) => list_eqb (extents (a_shape a)) ex && holds h' (aref_of a) f
    | _ => false
    end).
Definition ein (is_ : list nat) (x : nat) (w : world Z) : expr Z :=
  match w_arr w x with Some a => EArr (aref_of a) is_ | None => EFn (fun _ => 0) is_ end.
Definition times (a b : world Z -> expr Z) (w : world Z) : expr Z := EBin Z.mul (a w) (b w).
Definition plus (a b : world Z -> expr Z) (w : world Z) : expr Z := EBin Z.add (a w) (b w).
Definition set_ (_ v : Z) : Z := v.
Definition seeded (x : nat) (k : Z) : act Z := Transform x (fun i => pattern i + k).
Definition sum_to (n : nat) (f : Z -> Z) : Z := vsum (map f (zseq 0 n)).
Definition i : nat := 0.
Definition j : nat := 1.
Definition k : nat := 2.
Definition l : nat := 3.
Definition at2 (f : Z -> Z -> Z) (x : index) : Z := match x with [a; b] => f a b | _ => -1 end.
Definition at1 (f : Z -> Z) (x : index) : Z := match x with [a] => f a | _ => -1 end.
Definition p1 (a : Z) : Z := pattern [a].
Definition p2 (a b : Z) : Z := pattern [a; b].
Definition p3 (a b c : Z) : Z := pattern [a; b; c].

(** test/ein_reduce.cpp:26-69 *)
Example make_ein_sum_diag : summed 2 [new (mat 6 6); fill_pattern 0] [i] (ein [i; i] 0) [any_T] [6] (at1 (fun a => p2 a a)) = true.
Proof. run. Qed.
Example ein_reduce_diag :
  match w <- arun (ints 2) [new (mat 6 6); fill_pattern 0] empty_world ;; w' <- arun (ints 1) [new [d1 6]] w ;; Ok w' with
  | Ok w => on w 1 (fun h r => match ein_reduce false set_ h r [i] (ein [i; i] 0 w) with Ok h' => holds h' r (at1 (fun a => p2 a a)) | _ => false end)
  | _ => false
  end = true.
Proof. run. Qed.
Example make_ein_sum_trace : summed 2 [new (mat 6 6); fill_pattern 0] [] (ein [i; i] 0) [] [] (fun _ => sum_to 6 (fun a => p2 a a)) = true.
Proof. run. Qed.
(** test/ein_reduce.cpp:71-86 *)
Example make_ein_sum_dot :
  summed 1 [new [d1 9]; fill_pattern 0; new [d1 9]; seeded 1 2] [] (times (ein [i] 0) (ein [i] 1)) [] [] (fun _ => sum_to 9 (fun a => p1 a * (p1 a + 2))) = true.
Proof. run. Qed.
(** test/ein_reduce.cpp:88-122 *)
Example ein_reduce_transpose :
  reduced 2 [new (mat 3 5); fill_pattern 0; new (mat 5 3)] set_ 1 [i; j] (ein [j; i] 0) (at2 (fun a b => p2 b a)) &&
  summed 2 [new (mat 3 5); fill_pattern 0] [i; j] (ein [j; i] 0) [any_T; any_T] [5; 3] (at2 (fun a b => p2 b a)) = true.
Proof. run. Qed.
(** test/ein_reduce.cpp:124-142 *)
Example ein_reduce_dot_offset :
  match w <- arun (ints 1) [new [d1 9]; fill_pattern 0; new [d1 9]; seeded 1 2; new [d1 9]; seeded 2 6] empty_world ;; arun (ints 0) [new []] w with
  | Ok w => on w 3 (fun h r =>
      match ein_reduce false Z.add h r [] (times (plus (ein [i] 0) (ein [i] 1)) (ein [i] 2) w) with
      | Ok h' => holds h' r (fun _ => sum_to 9 (fun a => (p1 a + (p1 a + 2)) * (p1 a + 6)))
      | _ => false
      end)
  | _ => false
  end = true.
Proof. run. Qed.
(** test/ein_reduce.cpp:144-177 *)
Example ein_sum_cross :
  let x a b := p2 a b in let y a b := p2 a b + 3 in
  reduced 2 [new (mat 3 4); fill_pattern 0; new (mat 3 4); seeded 1 3; Run (NewValue (mat 3 4) 0 0)] Z.add 2 [i; l]
    (times (times (fun _ => EFn epsilon3 [i; j; k]) (ein [j; l] 0)) (ein [k; l] 1))
    (at2 (fun a n => if a =? 0 then x 1 n * y 2 n - x 2 n * y 1 n else if a =? 1 then x 2 n * y 0 n - x 0 n * y 2 n else x 0 n * y 1 n - x 1 n * y 0 n)) = true.
Proof. run. Qed.
(** test/ein_reduce.cpp:179-217 *)
Example make_ein_sum_outer :
  summed 1 [new [d1 6]; fill_pattern 0; new [d1 4]; seeded 1 8] [i; j] (times (ein [i] 0) (ein [j] 1)) [any_T; any_T] [6; 4] (at2 (fun a b => p1 a * (p1 b + 8))) = true.
Proof. run. Qed.
(** test/ein_reduce.cpp:219-261: the elements of the second test are chars cast to short *)
Example make_ein_sum_matrix_vector :
  match w <- arun (ints 2) [new (mat 4 5); fill_pattern 0] empty_world ;; arun (ints 1) [new [d1 5]; fill_pattern 1] w with
  | Ok w =>
      forallb (fun e => match make_ein_sum (ints 1) Z.add 2 (w_heap w) 0 [i] (e w) [any_T] 0 with
                        | Ok (h', a) => list_eqb (extents (a_shape a)) [4] && holds h' (aref_of a) (at1 (fun a => sum_to 5 (fun b => p2 a b * p1 b)))
                        | _ => false
                        end)
        [times (ein [i; j] 0) (ein [j] 1); times (fun w => EUn (fun v => v) (ein [i; j] 0 w)) (fun w => EUn (fun v => v) (ein [j] 1 w))]
  | _ => false
  end = true.
Proof. run. Qed.
Definition cube : list (act Z) := [new [d1 3; d1 4; d1 5]; fill_pattern 0].
(** test/ein_reduce.cpp:263-274 *)
Example ein_sum_sum_3d :
  match w <- arun (ints 3) cube empty_world ;; arun (ints 0) [new []] w with
  | Ok w => on w 1 (fun h r => match ein_reduce false Z.sub h r [] (ein [i; j; k] 0 w) with
                              | Ok h' => holds h' r (fun _ => - sum_to 3 (fun a => sum_to 4 (fun b => sum_to 5 (fun c => p3 a b c))))
                              | _ => false
                              end)
  | _ => false
  end = true.
Proof. run. Qed.
(** test/ein_reduce.cpp:276-290 *)
Example make_ein_sum_sum_2d :
  summed 3 cube [j] (ein [i; j; k] 0) [any_T] [4] (at1 (fun b => sum_to 3 (fun a => sum_to 5 (fun c => p3 a b c)))) = true.
Proof. run. Qed.
(** test/ein_reduce.cpp:292-325: the largest element of a plane is its last *)
Example ein_reduce_max_2d :
  match w <- arun (ints 3) cube empty_world ;; arun (ints 1) [Run (NewValue [mkD 0 4 1] (- 2 ^ 31) 0)] w with
  | Ok w => on w 1 (fun h r =>
      forallb (fun r' => match ein_reduce false set_ h r' [j] (EBin (max_of Z.ltb) (EArr r' [j]) (ein [i; j; k] 0 w)) with
                         | Ok h' => holds h' r (at1 (fun b => p3 2 b 4))
                         | _ => false
                         end) [r; fst (ein_carray j (r_base r) 4)])
  | _ => false
  end = true.
Proof. run. Qed.

(** ** Text, absl/absl_test.cpp:26-172 *)
Example absl_stringify_interval :
  map interval_text [mkD 0 1 1; mkD (-6) 11 1; mkD 3 1 1; mkD 4 6 1; mkD (-5) (-12) 1] =
    map Ok ["[0, 1)"; "[-6, 5)"; "[3, 4)"; "[4, 10)"; "[-5, -17)"]%string.
Proof. run. Qed.
Example absl_stringify_dim :
  map dim_text [d2 0 0; d1 640; d2 35 640; mkD 77 480 2; d2 3 0; d2 (-4) 5; mkD 10 11 (-1)] =
    ["dim(0, 0)"; "dim(0, 640)"; "dim(35, 640)"; "dim(77, 480, 2)"; "dim(3, 0)"; "dim(-4, 5)"; "dim(10, 11, -1)"]%string.
Proof. run. Qed.
Example absl_stringify_shape :
  let custom := [mkD 0 10 1; mkD 67 5 (-10); d2 (-11) 103] in
  map shape_text [ []; [d1 0]; [d1 0; d1 0; d1 0]; [mkD 0 0 1; d1 0]; [mkD 0 10 1; mkD 6 2 16];
                   match fixed_dense_shape false [640; 480; 3] with Ok s => map snd s | _ => [] end; custom; resolve custom ] =
    [ "shape<0>()"; "shape<1>(dim(0, 0))"; "shape<3>(dim(0, 0), dim(0, 0), dim(0, 0))"; "shape<2>(dim(0, 0, 1), dim(0, 0))";
      "shape<2>(dim(0, 10, 1), dim(6, 2, 16))"; "shape<3>(dim(0, 640, 1), dim(0, 480, 640), dim(0, 3, 307200))";
      "shape<3>(dim(0, 10, 1), dim(67, 5, -10), dim(-11, 103))"; "shape<3>(dim(0, 10, 1), dim(67, 5, -10), dim(-11, 103, 50))" ]%string.
Proof. run. Qed.
