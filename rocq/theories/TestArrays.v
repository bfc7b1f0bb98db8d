(** The model agrees with the library's tests of arrays and array_refs: test/array.cpp, test/array_ref.cpp,
    test/algorithm.cpp, test/image.cpp, test/matrix.cpp, test/auto_allocator.cpp and test/z_order.cpp, computed in the
    model.  These are tests of the model, not proofs about it; each carries the name of the test.  Extents in the tens
    are replaced by smaller ones; tests of overload resolution and of type conversions have no counterpart. *)
From Coq Require Import ZArith List Bool.
From Verif Require Import Base Interval Shape Static Typed Traverse Memory Ref Container Program ZOrder TestShape.
Import ListNotations.
Open Scope Z_scope.

(** ** Helpers, test/test.h:133-171 *)

Definition pattern (i : index) : Z := vsum (map (fun p => fst p * snd p) (combine i [1; 30; 1000; 10000; 1000000])).
Definition shifted (off i : index) : index := map (fun p => fst p + snd p) (combine i off).
(** Does every element of a view have the value [f] gives for its index? *)
Definition holds (h : heap Z) (r : aref) (f : index -> Z) : bool :=
  match for_each_index (r_shape r) with
  | Ok l => forallb (fun i => match ref_at h r i with Ok v => v =? f i | _ => false end) l
  | _ => false
  end.
(** An array of ints of the given rank: a moved from int keeps its value *)
Definition ints_cap (cap : Z) (rank : nat) : config Z :=
  mkC false false false false (fun a => a) 0 cap (repeat (mkD 0 0 unresolved) rank) 0 (fun v => v).
Definition ints : nat -> config Z := ints_cap (-1).
Definition after (c : config Z) (ops : list (act Z)) (f : world Z -> bool) : bool :=
  match arun c ops empty_world with Ok w => f w | _ => false end.
Definition on (w : world Z) (x : nat) (f : heap Z -> aref -> bool) : bool :=
  match w_arr w x with Some a => f (w_heap w) (aref_of a) | None => false end.
Definition all_are (w : world Z) (x : nat) (v : Z) : bool := on w x (fun h r => holds h r (fun _ => v)).
Definition check_pattern (w : world Z) (x : nat) : bool := on w x (fun h r => holds h r pattern).
Definition fill_pattern (x : nat) : act Z := Transform x pattern.
Definition test_eq (w : world Z) (x y : nat) : bool :=
  on w x (fun h a => on w y (fun _ b => match ref_eq false Z.eqb h a b with Ok r => r | _ => false end)).
Definition test_neq (w : world Z) (x y : nat) : bool :=
  on w x (fun h a => on w y (fun _ b => match ref_neq false Z.eqb h a b with Ok r => r | _ => false end)).
Definition test_equal (w : world Z) (x y : nat) : outcome bool :=
  match w_arr w x, w_arr w y with
  | Some a, Some b => equal false Z.eqb (w_heap w) (aref_of a) (aref_of b)
  | _, _ => UB
  end.
Definition isb (r : outcome bool) (b : bool) : bool := match r with Ok r => Bool.eqb r b | _ => false end.
Definition shape_is (w : world Z) (x : nat) (p : shape -> bool) : bool := on w x (fun _ r => p (r_shape r)).
Definition new (s : shape) : act Z := Run (New s 0).
Ltac run := vm_compute; reflexivity.

(** ** test/array.cpp *)

Definition sparse : shape := [mkD (-2) 5 2; mkD 4 10 20].
(** test/array.cpp:20-60; clear() twice *)
Example array_default_constructor :
  after (ints 1) [new [d1 10]] (fun w => all_are w 0 0) &&
  after (ints 2) [new [d1 7; d1 3]] (fun w => all_are w 0 0 && shape_is w 0 (fun s => list_eqb (extents s) [7; 3])) &&
  after (ints 3) [new [d1 5; d1 2; d1 3]] (fun w => all_are w 0 0) &&
  after (ints 2) [new sparse] (fun w => all_are w 0 0 && shape_is w 0 (fun s => list_eqb (extents s) [5; 10])) &&
  after (ints 2) [new sparse; Run (Clear 0); Run (Clear 0)] (fun w => on w 0 (fun _ r => ref_empty r)) = true.
Proof. run. Qed.
(** test/array.cpp:62-81 *)
Example array_construct_from_bounds :
  let src := [mkD (-1) 10 1; mkD 2 5 100] in
  after (ints 2) [new src; new (bounds src)] (fun w =>
    shape_is w 0 (fun s => negb (is_compact s)) && shape_is w 1 (fun d => is_compact d && list_eqb (mins d) (mins src) && list_eqb (extents d) (extents src))) = true.
Proof. run. Qed.
(** test/array.cpp:97-125 *)
Example array_fill_constructor :
  after (ints 1) [Run (NewValue [d1 10] 3 0)] (fun w => all_are w 0 3) &&
  after (ints 2) [Run (NewValue [d1 7; d1 3] 5 0)] (fun w => all_are w 0 5) &&
  after (ints 3) [Run (NewValue [d1 5; d1 2; d1 3] 7 0)] (fun w => all_are w 0 7) &&
  after (ints 2) [Run (NewValue sparse 13 0)] (fun w => all_are w 0 13) = true.
Proof. run. Qed.
(** test/array.cpp:127-154; 0 is a, 1 is b, 2 is c and the others are temporaries *)
Definition s3 : shape := [d1 2; d1 3; d1 2].
Definition assigns : list (act Z) :=
  [new s3; fill_pattern 0; new s3; fill_pattern 1; new (c_shape0 (ints 3)); new s3; Run (MoveAssign 2 3); fill_pattern 2].
Example array_assign :
  after (ints 3) assigns (fun w => test_eq w 0 1 && test_eq w 0 2) &&
  after (ints 3) (assigns ++ [new s3; Run (MoveAssign 2 4)]) (fun w => test_neq w 0 2) &&
  after (ints 3) (assigns ++ [new s3; Run (MoveAssign 2 4); fill_pattern 2]) (fun w => test_eq w 0 2) &&
  after (ints 3) (assigns ++ [new [d1 4; d1 3; d1 2]; Run (MoveAssign 2 4)]) (fun w => test_neq w 0 2) &&
  after (ints 3) (assigns ++ [new [d1 4; d1 3; d1 2]; Run (MoveAssign 2 4); new s3; fill_pattern 5; Run (CopyAssign 2 5); Run (Delete 5)])
    (fun w => test_eq w 0 2) = true.
Proof. run. Qed.
(** test/array.cpp:156-192 *)
Definition sparse2 : shape := resolve [mkD (-2) 5 2; d2 4 10].
Example array_fill_assign :
  let s0 k := c_shape0 (ints k) in
  after (ints 1) [new (s0 1%nat); Run (AssignValue 0 [d1 10] 3)] (fun w => all_are w 0 3) &&
  after (ints 2) [new (s0 2%nat); Run (AssignValue 0 [d1 7; d1 3] 5)] (fun w => all_are w 0 5) &&
  after (ints 3) [new (s0 3%nat); Run (AssignValue 0 [d1 5; d1 2; d1 3] 7)] (fun w => all_are w 0 7) &&
  (size sparse2 <? flat_extent sparse2) &&
  after (ints 2) [new (s0 2%nat); Run (AssignValue 0 sparse2 13)] (fun w => all_are w 0 13) = true.
Proof. run. Qed.
(** test/array.cpp:194-230 *)
Example array_scalar :
  let c := ints 0 in
  after c [new []] (fun w => all_are w 0 0) && after c [Run (NewValue [] 2 0)] (fun w => all_are w 0 2) &&
  after c [Run (NewValue [] 3 0); Run (NewValue [] 3 0); Run (NewMove 1); new []; Run (NewValue [] 3 0); Run (MoveAssign 3 4)]
    (fun w => test_eq w 0 2 && test_eq w 0 3) &&
  after c [Run (NewValue [] 3 0); new []; Run (NewValue [] 4 0); Run (MoveAssign 1 2)] (fun w => test_neq w 0 1) &&
  after c [Run (NewValue [] 3 0); new []; Run (NewValue [] 4 0); Run (MoveAssign 1 2); Run (Write 1 [] 3)] (fun w => test_eq w 0 1) &&
  after c [Run (NewValue [] 3 0); new []; Run (NewValue [] 3 0); Run (CopyAssign 1 2); Run (Delete 2)] (fun w => test_eq w 0 1) &&
  after c [new []; Run (AssignValue 0 [] 3)] (fun w => all_are w 0 3) = true.
Proof. run. Qed.
(** test/array.cpp:232-258: the storage of the array is filled with 7; assigning to the elements leaves the rest.  In
    the model the memory between the elements holds no object until one is created there. *)
Definition storage (w : world Z) (x : nat) : list (outcome Z) :=
  match w_arr w x with
  | Some a => map (fun k => load (w_heap w) (ptr_off (ref_data (aref_of a)) k)) (zseq 0 (Z.to_nat (flat_extent (a_shape a))))
  | None => []
  end.
Definition set_storage (w : world Z) (x : nat) (v : Z) : outcome (world Z) :=
  match w_arr w x with
  | Some a => h <- foldM (fun h k => let p := ptr_off (ref_data (aref_of a)) k in
                                     match store h p v with Ok h' => Ok h' | _ => construct_at h p v end)
                         (zseq 0 (Z.to_nat (flat_extent (a_shape a)))) (w_heap w) ;;
              Ok (mkW h (w_arr w) (w_next w))
  | None => UB
  end.
Example sparse_array :
  let s := resolve [mkD (-2) 5 2; d2 4 3] in
  match w <- arun (ints 2) [new s] empty_world ;; w <- set_storage w 0 7 ;; astep (ints 2) w (Run (AssignValue 0 s 3)) with
  | Ok w => all_are w 0 3 && (Z.of_nat (length (filter (fun r => match r with Ok v => v =? 7 | _ => false end) (storage w 0))) + size s =? flat_extent s)
  | _ => false
  end = true.
Proof. run. Qed.
(** test/array.cpp:260-279 *)
Example array_equality :
  let mk := [new s3; fill_pattern 0; new s3; fill_pattern 1; new [mkD 0 2 2; d1 3; d1 2]; fill_pattern 2] in
  after (ints 3) mk (fun w => test_eq w 0 1 && test_neq w 0 2 && isb (test_equal w 0 2) true) &&
  after (ints 3) (mk ++ [Run (Write 0 [1; 2; 1] 5)]) (fun w => test_neq w 0 1 && test_neq w 0 2 && isb (test_equal w 0 2) false) = true.
Proof. run. Qed.
(** test/array.cpp:281-325 *)
Example array_copy :
  let odd := [mkD 0 2 2; d1 3; d1 2] in
  after (ints 3) [new s3; fill_pattern 0; new s3; CopyTo 0 1; new odd; CopyTo 1 2; Run (MakeCopy 0 odd 0); Run (MakeCopy 0 s3 0);
                  new [d2 1 1; d2 1 2; d2 1 1]; CopyTo 0 5; Run (MakeCopy 0 (resolve s3) 0)]
    (fun w => forallb (check_pattern w) [1; 2; 3; 4; 5; 6]%nat && shape_is w 3 (fun s => shape_is w 2 (shape_eqb s)) &&
              shape_is w 4 (fun s => shape_is w 1 (shape_eqb s))) = true.
Proof. run. Qed.
(** test/array.cpp:327-350 *)
Example array_move :
  let odd := [mkD 0 2 2; d1 3; d1 2] in
  after (ints 3) [new s3; fill_pattern 0; new s3; MoveTo 0 1; new odd; MoveTo 1 2; Run (MakeMove 0 odd 0); Run (MakeMove 0 s3 0);
                  new [d1 2; d2 1 2; d1 2]; MoveTo 0 5]
    (fun w => forallb (check_pattern w) [1; 2; 3; 4; 5]%nat && shape_is w 3 (fun s => shape_is w 2 (shape_eqb s)) &&
              shape_is w 4 (fun s => shape_is w 1 (shape_eqb s))) = true.
Proof. run. Qed.
(** test/array.cpp:352-370: make_compact_copy and make_compact_move *)
Definition compact (s : shape) : shape := match make_compact false (map (fun d => (any_T, d)) s) with Ok l => map snd l | _ => [] end.
Example array_dense_copy_move :
  let s := [mkD (-3) 2 2; d1 3; d1 3] in
  let cs := compact (resolve s) in
  after (ints 3) [new s; fill_pattern 0; Run (MakeCopy 0 cs 0); Run (MakeMove 0 cs 0)] (fun w =>
    shape_is w 0 (fun s => negb (is_compact s)) && shape_is w 1 is_compact && check_pattern w 1 &&
    shape_is w 2 is_compact && check_pattern w 2) = true.
Proof. run. Qed.
(** test/array.cpp:372-379 *)
Example array_tricky_copy :
  after (ints 2) [new [mkD 0 4 6; mkD 0 6 1]; fill_pattern 0; new [mkD 0 4 6; mkD 0 3 2]; CopyTo 0 1] (fun w => check_pattern w 1) = true.
Proof. run. Qed.
(** test/array.cpp:381-424: for_each_value, the value of the counter at each element *)
Example array_for_each_value :
  after (ints 0) [new []; Generate 0 (fun _ => 3)] (fun w => all_are w 0 3) &&
  after (ints 3) [new [mkD 0 3 1; mkD 0 3 3; mkD 0 3 9]; Generate 0 Z.of_nat]
    (fun w => on w 0 (fun h r => holds h r (fun i => match i with [x; y; z] => x + 3 * y + 9 * z | _ => -1 end))) &&
  after (ints 3) [new [mkD 0 3 9; mkD 0 3 1; mkD 0 3 3]; Generate 0 Z.of_nat]
    (fun w => on w 0 (fun h r => holds h r (fun i => match i with [x; y; z] => y + 3 * z + 9 * x | _ => -1 end))) = true.
Proof. run. Qed.
(** test/array.cpp:426-438 *)
Example array_reshape_1d :
  let ops := [new [d2 (-1) 9]; fill_pattern 0; Run (Reshape 0 [d2 (-3) 12])] in
  after (ints 1) ops (fun w => on w 0 (fun h r => holds h (ref_slice r [AInt (mkI (-1) 9)]) pattern && (flat_extent (r_shape r) =? 12))) &&
  after (ints 1) (ops ++ [Run (Reshape 0 [d1 5])]) (fun w => on w 0 (fun h r => holds h r pattern && (flat_extent (r_shape r) =? 5))) = true.
Proof. run. Qed.
(** test/array.cpp:440-452 *)
Example array_reshape_3d :
  let ops := [new [d2 (-1) 3; d2 (-2) 3; d2 (-3) 5]; fill_pattern 0; Run (Reshape 0 [d2 (-2) 5; d2 (-3) 5; d2 (-4) 6])] in
  after (ints 3) ops (fun w => on w 0 (fun h r =>
    holds h (ref_slice r [AInt (mkI (-1) 3); AInt (mkI (-2) 3); AInt (mkI (-3) 5)]) pattern && (flat_extent (r_shape r) =? 150))) &&
  after (ints 3) (ops ++ [Run (Reshape 0 [d1 2; d1 1; d1 2])]) (fun w => on w 0 (fun h r => holds h r pattern && (flat_extent (r_shape r) =? 4))) = true.
Proof. run. Qed.
(** test/array.cpp:454-473 *)
Example array_negative_strides :
  let a := resolve [mkD 0 10 3; mkD 0 3 (-1)] in let b := resolve [mkD 0 20 (-1); d1 3] in
  strides b = [-1; 20] /\ strides (compact b) = [1; 20] /\ nth 1 (strides (compact a)) 0 = 10 /\
  after (ints 2) [new a; fill_pattern 0; Run (MakeCopy 0 (compact a) 0); new b; fill_pattern 2; Run (MakeCopy 2 (compact b) 0)]
    (fun w => forallb (check_pattern w) [0; 1; 2; 3]%nat) = true.
Proof. ok. Qed.
(** test/array.cpp:475-484 *)
Example array_move_reinterpret_shape :
  let s := resolve [d1 4; mkD 0 3 5; d1 1] in let flat := firstn 2 s in
  match w <- arun (ints 3) [new s; fill_pattern 0] empty_world ;; a <- get w 0 ;;
        ' (h, b, a') <- move_reinterpret_shape (ints 3) 1 (w_heap w) 0 a [] flat 0 ;;
        ' (h', a2, b') <- move_reinterpret_shape (ints 3) 2 h 1 b [] s 0 ;;
        Ok (holds h (aref_of b) pattern && holds h' (aref_of a2) pattern) with
  | Ok b => b
  | _ => false
  end = true.
Proof. run. Qed.

(** ** test/array_ref.cpp *)

(** int data[n]; data[i] = i; *)
Definition data (n : Z) : heap Z := mkH 2 (fun b => if (b =? 1)%nat then Some (mkB (Base 0) n (fun k => Live k)) else None).
Definition at0 : ptr := (1%nat, 0).
(** test/array_ref.cpp:22-37 *)
Example array_ref_indices :
  holds (data 100) (make_ref at0 [mkD 0 100 1]) (fun i => nth 0 i 0) && 
  holds (data 100) (make_ref at0 [mkD 0 20 1; d1 5]) (fun i => match i with [x; y] => y * 20 + x | _ => -1 end) = true.
Proof. run. Qed.
(** test/array_ref.cpp:80-96 *)
Example array_ref_copy :
  let evens := make_ref at0 [mkD 0 50 2] in
  holds (data 100) evens (fun i => 2 * nth 0 i 0) &&
  match make_copy (ints 1) 0 (data 100) evens (compact (r_shape evens)) 0, make_copy (ints 0) 0 (data 100) (make_ref (ptr_off at0 5) []) [] 0 with
  | Ok (h, a), Ok (h', b) => holds h (aref_of a) (fun i => 2 * nth 0 i 0) && holds h' (aref_of b) (fun _ => 5)
  | _, _ => false
  end = true.
Proof. run. Qed.
(** test/array_ref.cpp:98-113: the two lines in comments assert *)
Example array_ref_incompatible_shape :
  shape_from false [mkDT (-9) (-9) 1] (resolve [mkD 0 10 2]) = AssertFail /\
  shape_from false [mkDT (-9) 10 (-9); mkDT (-9) 2 (-9)] (resolve [d2 0 10; d2 0 3]) = AssertFail.
Proof. ok. Qed.
(** test/array_ref.cpp:115-126 *)
Example array_ref_empty :
  let null_ref := make_ref null [mkD 0 10 1] in
  ref_empty null_ref && match ref_set_shape false null_ref [mkD 3 3 1] 3 with Ok r => ref_empty r | _ => false end &&
  negb (ref_empty (make_ref at0 [])) && ref_empty (make_ref null []) = true.
Proof. run. Qed.
(** test/array_ref.cpp:191-207 *)
Example array_ref_explicit_conversion :
  match convert_shape false (repeat any_T 4) (resolve [d1 10; d1 20; d1 30]), convert_shape false (dense_T :: repeat any_T 4) (resolve [d1 5; d1 10; d1 20]) with
  | Ok s, Ok s' => (length s =? 4)%nat && (length s' =? 5)%nat && list_eqb (mins s) [0; 0; 0; 0] && list_eqb (extents s) [10; 20; 30; 1] &&
                   list_eqb (mins s') [0; 0; 0; 0; 0] && list_eqb (extents s') [5; 10; 20; 1; 1]
  | _, _ => false
  end = true.
Proof. run. Qed.
(** test/array_ref.cpp:221-264 *)
Example array_ref_crop_slice :
  match arun (ints 2) [new [mkD 0 8 1; d1 9]; fill_pattern 0] empty_world with
  | Ok w => on w 0 (fun h a =>
      let sl args := ref_slice a args in
      let is args s := shape_eqb (r_shape (sl args)) s in
      is [AIdx 3; AAll] [mkD 0 9 8] && is [AAll; AIdx 2] [mkD 0 8 1] && is [AInt (mkI 4 3); AIdx 5] [mkD 4 3 1] &&
      is [AIdx 6; AInt (mkI 4 3)] [mkD 4 3 8] && is [AInt (mkI 2 6); AInt (mkI 3 4)] [mkD 2 6 1; mkD 3 4 8] &&
      holds h (sl [AInt (mkI 2 6); AInt (mkI 3 4)]) pattern && is [AAll; AInt (mkI 3 4)] [mkD 0 8 1; mkD 3 4 8] &&
      holds h (sl [AAll; AInt (mkI 3 4)]) pattern && is [AInt (range 2 6); AInt (mkI 3 5)] [mkD 2 4 1; mkD 3 5 8] &&
      holds h (sl [AInt (range 2 6); AInt (mkI 3 5)]) pattern &&
      (* the patterns the test's comments ask for *)
      holds h (sl [AIdx 3; AAll]) (fun i => pattern (3 :: i)) && holds h (sl [AAll; AIdx 2]) (fun i => pattern (i ++ [2])))
  | _ => false
  end = true.
Proof. run. Qed.

(** ** test/algorithm.cpp, with numbers from a linear congruential generator in place of [rand] *)

Definition random (k : nat) : Z := nth k (numbers 100 17) 0.
(** test/algorithm.cpp:20-30 *)
Example algorithm_equal :
  let s := resolve [mkD 0 3 1; d1 4; mkD 0 2 15] in
  after (ints 3) [new s; Generate 0 random; Run (MakeCopy 0 (compact s) 0); Run (NewCopy 1); Fill 2 0]
    (fun w => test_neq w 0 1 && isb (test_equal w 0 1) true && isb (test_equal w 0 2) false) = true.
Proof. run. Qed.
(** test/algorithm.cpp:32-69: copy and move to crops *)
Example algorithm_copy_move :
  forallb (fun cm => forallb (fun cM => forallb (fun op =>
    let b := [d2 cm (5 - cm - cM); d2 cm (6 - cm - cM)] in
    after (ints 2) [new [d1 5; d1 6]; Generate 0 random; new b; op]
      (fun w => on w 0 (fun h a => on w 1 (fun _ b => isb (equal false Z.eqb h (ref_slice a (map (fun d => ADim d) (r_shape b))) b) true))))
    [CopyTo 0 1; MoveTo 0 1]) [0; 1]) [0; 1] = true.
Proof. run. Qed.
(** test/algorithm.cpp:71-100 *)
Example algorithm_scalar :
  after (ints 0) [new []; Generate 0 random; new []; CopyTo 0 1] (fun w => test_eq w 0 1) &&
  after (ints 0) [new []; Transform 0 (fun _ => 3)] (fun w => all_are w 0 3) = true.
Proof. run. Qed.
