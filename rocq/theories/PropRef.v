(** C16-C22, C27 (views), C41: element-wise algorithms, slices, transposition, reinterpretation,
    crops. *)
From Verif Require Import Tac Interval Shape Traverse Memory Ref Spec SpecMem ShapeFacts MemFacts RefFacts SliceFacts.
Import ListNotations.
Open Scope Z_scope.

(** The heap of the examples: block 1 holds 0..11, block 2 holds twelve times 100. *)
Definition ex_heap : heap Z :=
  mkH 3 (fun k => match k with
                  | 1%nat => Some (mkB (Base 0) 12 (fun x => Live x))
                  | 2%nat => Some (mkB (Base 0) 12 (fun _ => Live 100))
                  | _ => None
                  end).
Definition dump (h : outcome (heap Z)) (b : nat) : list (option (cell Z)) :=
  match h with Ok h => map (fun x => peek h (b, x)) (zseq 0 12) | _ => [] end.

(** C16 *)
Theorem C16_copy : forall (V : Type) (ndebug : bool) (h : heap V) (src dst : aref),
  length (r_shape src) = length (r_shape dst) ->
  extents_ge 0 (r_shape dst) -> within (r_shape dst) (r_shape src) -> injective_layout (r_shape dst) ->
  (forall i, in_bounds (r_shape dst) i -> alive h (elem (r_base src) (r_shape src) i)) ->
  (forall i, in_bounds (r_shape dst) i -> alive h (elem (r_base dst) (r_shape dst) i)) ->
  (forall i j, in_bounds (r_shape dst) i -> in_bounds (r_shape dst) j ->
     elem (r_base src) (r_shape src) i <> elem (r_base dst) (r_shape dst) j) ->
  exists h', copy ndebug h src dst = Ok h' /\
    (forall i, in_bounds (r_shape dst) i ->
       peek h' (elem (r_base dst) (r_shape dst) i) = peek h (elem (r_base src) (r_shape src) i)) /\
    only_changes (is_elem (r_base dst) (r_shape dst)) h h'.
Proof. exact @copy_spec. Qed.
Theorem C16_copy_rejects : forall (V : Type) (h : heap V) (src dst : aref),
  length (r_shape src) = length (r_shape dst) -> extents_ge 1 (r_shape dst) ->
  ~ within (r_shape dst) (r_shape src) -> copy false h src dst = AssertFail.
Proof. exact @copy_rejects. Qed.
Theorem C16_move : forall (V : Type) (ndebug : bool) (mv : V -> V) (h : heap V) (src dst : aref),
  length (r_shape src) = length (r_shape dst) ->
  extents_ge 0 (r_shape dst) -> within (r_shape dst) (r_shape src) ->
  injective_layout (r_shape dst) -> injective_layout (r_shape src) ->
  (forall i, in_bounds (r_shape dst) i -> alive h (elem (r_base src) (r_shape src) i)) ->
  (forall i, in_bounds (r_shape dst) i -> alive h (elem (r_base dst) (r_shape dst) i)) ->
  (forall i j, in_bounds (r_shape dst) i -> in_bounds (r_shape dst) j ->
     elem (r_base src) (r_shape src) i <> elem (r_base dst) (r_shape dst) j) ->
  exists h', move ndebug mv h src dst = Ok h' /\
    (forall i v, in_bounds (r_shape dst) i -> holds h (elem (r_base src) (r_shape src) i) v ->
       holds h' (elem (r_base dst) (r_shape dst) i) v /\
       holds h' (elem (r_base src) (r_shape src) i) (mv v)) /\
    only_changes (fun p => is_elem (r_base dst) (r_shape dst) p \/
                           exists i, in_bounds (r_shape dst) i /\ p = elem (r_base src) (r_shape src) i) h h'.
Proof. exact @move_spec. Qed.
(** A 2x2 part of a 3x4 array, copied into a transposed layout *)
Example C16_example :
  dump (copy false ex_heap (mkR (1%nat, 0) [mkD 0 3 1; mkD 0 4 3]) (mkR (2%nat, 1) [mkD 1 2 4; mkD 2 2 1])) 2 =
  [Some (Live 100); Some (Live 7); Some (Live 10); Some (Live 100); Some (Live 100); Some (Live 8); Some (Live 11);
   Some (Live 100); Some (Live 100); Some (Live 100); Some (Live 100); Some (Live 100)].
Proof. reflexivity. Qed.
Example C16_example_move :
  dump (move false (fun _ => -1) ex_heap (mkR (1%nat, 0) [mkD 0 3 1; mkD 0 4 3]) (mkR (2%nat, 1) [mkD 1 2 4; mkD 2 2 1])) 1 =
  [Some (Live 0); Some (Live 1); Some (Live 2); Some (Live 3); Some (Live 4); Some (Live 5); Some (Live 6);
   Some (Live (-1)); Some (Live (-1)); Some (Live 9); Some (Live (-1)); Some (Live (-1))].
Proof. reflexivity. Qed.
Example C16_example_rejects :
  copy false ex_heap (mkR (1%nat, 0) [mkD 0 3 1; mkD 0 4 3]) (mkR (2%nat, 1) [mkD 1 3 4; mkD 2 2 1]) = AssertFail.
Proof. reflexivity. Qed.
Print Assumptions C16_copy.
Print Assumptions C16_copy_rejects.
Print Assumptions C16_move.

(** C17 *)
Theorem C17_fill : forall (V : Type) (ndebug : bool) (h : heap V) (dst : aref) (v : V),
  extents_ge 0 (r_shape dst) ->
  (forall i, in_bounds (r_shape dst) i -> alive h (elem (r_base dst) (r_shape dst) i)) ->
  exists h', fill ndebug h dst v = Ok h' /\
    (forall i, in_bounds (r_shape dst) i -> holds h' (elem (r_base dst) (r_shape dst) i) v) /\
    only_changes (is_elem (r_base dst) (r_shape dst)) h h'.
Proof. exact @fill_spec. Qed.
Theorem C17_generate : forall (V : Type) (ndebug : bool) (h : heap V) (dst : aref) (g : nat -> V),
  extents_ge 0 (r_shape dst) -> injective_layout (r_shape dst) ->
  (forall i, in_bounds (r_shape dst) i -> alive h (elem (r_base dst) (r_shape dst) i)) ->
  exists h' l, generate ndebug h dst g = Ok (h', length l) /\ enumerates (in_bounds (r_shape dst)) l /\
    (forall k i, nth_error l k = Some i -> holds h' (elem (r_base dst) (r_shape dst) i) (g k)) /\
    only_changes (is_elem (r_base dst) (r_shape dst)) h h'.
Proof. exact @generate_spec. Qed.
Theorem C17_transform_index : forall (V : Type) (h : heap V) (dst : aref) (fn : index -> V),
  extents_ge 0 (r_shape dst) -> injective_layout (r_shape dst) ->
  (forall i, in_bounds (r_shape dst) i -> alive h (elem (r_base dst) (r_shape dst) i)) ->
  exists h', transform_index h dst fn = Ok h' /\
    (forall i, in_bounds (r_shape dst) i -> holds h' (elem (r_base dst) (r_shape dst) i) (fn i)) /\
    only_changes (is_elem (r_base dst) (r_shape dst)) h h'.
Proof. exact @transform_index_spec. Qed.
Example C17_example_fill : dump (fill false ex_heap (mkR (1%nat, 8) [mkD 1 2 (-5); mkD 0 3 1]) 50) 1 =
  [Some (Live 0); Some (Live 1); Some (Live 2); Some (Live 50); Some (Live 50); Some (Live 50); Some (Live 6);
   Some (Live 7); Some (Live 50); Some (Live 50); Some (Live 50); Some (Live 11)].
Proof. reflexivity. Qed.
Example C17_example_generate :
  exists h', generate false ex_heap (mkR (1%nat, 8) [mkD 1 2 (-5); mkD 0 3 1]) (fun k => 50 + Z.of_nat k) = Ok (h', 6%nat) /\
  dump (Ok h') 1 =
  [Some (Live 0); Some (Live 1); Some (Live 2); Some (Live 51); Some (Live 53); Some (Live 55); Some (Live 6);
   Some (Live 7); Some (Live 50); Some (Live 52); Some (Live 54); Some (Live 11)].
Proof. eexists. split; reflexivity. Qed.
Example C17_example_transform_index :
  dump (transform_index ex_heap (mkR (1%nat, 8) [mkD 1 2 (-5); mkD 0 3 1]) (fun i => 10 * nth 0 i 0 + nth 1 i 0)) 1 =
  [Some (Live 0); Some (Live 1); Some (Live 2); Some (Live 20); Some (Live 21); Some (Live 22); Some (Live 6);
   Some (Live 7); Some (Live 10); Some (Live 11); Some (Live 12); Some (Live 11)].
Proof. reflexivity. Qed.
Print Assumptions C17_fill.
Print Assumptions C17_generate.
Print Assumptions C17_transform_index.

(** C18 *)
Theorem C18_equal : forall (V : Type) (ndebug : bool) (eqb : V -> V -> bool) (h : heap V) (a b : aref),
  length (r_shape a) = length (r_shape b) ->
  extents_ge 0 (r_shape a) -> extents_ge 0 (r_shape b) ->
  (forall i, in_bounds (r_shape a) i -> alive h (elem (r_base a) (r_shape a) i)) ->
  (forall i, in_bounds (r_shape b) i -> alive h (elem (r_base b) (r_shape b) i)) ->
  exists r, equal ndebug eqb h a b = Ok r /\
    (r = true <-> map dmin (r_shape a) = map dmin (r_shape b) /\ map dext (r_shape a) = map dext (r_shape b) /\
       forall i x y, in_bounds (r_shape a) i -> holds h (elem (r_base a) (r_shape a) i) x ->
         holds h (elem (r_base b) (r_shape b) i) y -> eqb x y = true).
Proof. exact @equal_spec. Qed.
Theorem C18_operator_eq : forall (V : Type) (ndebug : bool) (eqb : V -> V -> bool) (h : heap V) (a b : aref),
  length (r_shape a) = length (r_shape b) ->
  extents_ge 0 (r_shape a) -> extents_ge 0 (r_shape b) ->
  (forall i, in_bounds (r_shape a) i -> alive h (elem (r_base a) (r_shape a) i)) ->
  (forall i, in_bounds (r_shape b) i -> alive h (elem (r_base b) (r_shape b) i)) ->
  exists r, ref_eq ndebug eqb h a b = Ok r /\ ref_neq ndebug eqb h a b = Ok (negb r) /\
    (r = true <-> r_shape a = r_shape b /\
       forall i x y, in_bounds (r_shape a) i -> holds h (elem (r_base a) (r_shape a) i) x ->
         holds h (elem (r_base b) (r_shape b) i) y -> eqb x y = true).
Proof. exact @ref_eq_spec. Qed.
Example C18_example :
  equal false Z.eqb ex_heap (mkR (2%nat, 1) [mkD 0 2 4; mkD 0 3 1]) (mkR (2%nat, 2) [mkD 0 2 1; mkD 0 3 3]) = Ok true /\
  ref_eq false Z.eqb ex_heap (mkR (2%nat, 1) [mkD 0 2 4; mkD 0 3 1]) (mkR (2%nat, 2) [mkD 0 2 1; mkD 0 3 3]) = Ok false /\
  equal false Z.eqb ex_heap (mkR (1%nat, 1) [mkD 0 2 4; mkD 0 3 1]) (mkR (1%nat, 2) [mkD 0 2 4; mkD 0 3 1]) = Ok false.
Proof. repeat split. Qed.
Print Assumptions C18_equal.
Print Assumptions C18_operator_eq.

(** C19 *)
Theorem C19_slice_denotes : forall (r : aref) (args : list sarg),
  length args = length (r_shape r) -> fst (r_base r) <> O ->
  map (fun d => (dmin d, dext d)) (r_shape (ref_slice r args)) = asked args (r_shape r) /\
  (forall i, length i = kept args ->
     ref_ptr (ref_slice r args) i = elem (r_base r) (r_shape r) (full_index args i)) /\
  (forall i, in_bounds (r_shape (ref_slice r args)) i -> length i = kept args) /\
  (args_within args (r_shape r) -> forall i, in_bounds (r_shape (ref_slice r args)) i ->
     in_bounds (r_shape r) (full_index args i)) /\
  (forall j, Forall2 (fun ad x => selects (fst ad) (snd ad) x) (combine args (r_shape r)) j <->
     exists i, in_bounds (r_shape (ref_slice r args)) i /\ full_index args i = j).
Proof. exact slice_denotes. Qed.
Example C19_example :
  ref_slice (mkR (1%nat, 0) [mkD 0 3 1; mkD 0 4 3; mkD 2 5 12]) [AInt (mkI 1 2); AIdx 3; AAll] =
  mkR (1%nat, 10) [mkD 1 2 1; mkD 2 5 12] /\
  full_index [AInt (mkI 1 2); AIdx 3; AAll] [2; 4] = [2; 3; 4] /\
  args_within [AInt (mkI 1 2); AIdx 3; AAll] [mkD 0 3 1; mkD 0 4 3; mkD 2 5 12].
Proof.
  split; [reflexivity|]. split; [reflexivity|].
  repeat constructor; unfold selects, in_interval, in_dim in *; simpl in *; lia.
Qed.
Print Assumptions C19_slice_denotes.

(** C20 *)
Theorem C20_slices_compose : forall (r : aref) (a1 a2 : list sarg),
  length a1 = length (r_shape r) -> length a2 = kept a1 -> fst (r_base r) <> O \/ is_null (r_base r) = true ->
  ref_slice (ref_slice r a1) a2 = ref_slice r (merge_args a1 a2) /\
  (forall i, length i = kept a2 -> full_index a1 (full_index a2 i) = full_index (merge_args a1 a2) i).
Proof. exact slices_compose. Qed.
Example C20_example :
  let r := mkR (1%nat, 0) [mkD 0 3 1; mkD 0 4 3; mkD 2 5 12] in
  ref_slice (ref_slice r [AInt (mkI 1 2); AIdx 3; AAll]) [AIdx 2; AInt (mkI 3 2)] = mkR (1%nat, 23) [mkD 3 2 12] /\
  ref_slice r [AIdx 2; AIdx 3; AInt (mkI 3 2)] = mkR (1%nat, 23) [mkD 3 2 12].
Proof. split; reflexivity. Qed.
Print Assumptions C20_slices_compose.

(** C21 *)
Theorem C21_transpose_relabels : forall (ndebug : bool) (r : aref) (order : list nat),
  Forall (fun d => ~ unknown_stride d) (r_shape r) -> Permutation order (seq 0 (length (r_shape r))) ->
  exists r', ref_transpose ndebug order r = Some (Ok r') /\
    r_base r' = r_base r /\
    (forall k d, nth_error order k = Some d -> nth_error (r_shape r') k = nth_error (r_shape r) d) /\
    (forall i, length i = length (r_shape r) ->
       (in_bounds (r_shape r) i <-> in_bounds (r_shape r') (map (fun k => nth k i 0) order)) /\
       elem (r_base r') (r_shape r') (map (fun k => nth k i 0) order) = elem (r_base r) (r_shape r) i).
Proof. exact ref_transpose_relabels. Qed.
Theorem C21_transpose_inverse : forall (ndebug : bool) (r : aref) (order inv : list nat) (r' : aref),
  Forall (fun d => ~ unknown_stride d) (r_shape r) ->
  Permutation order (seq 0 (length (r_shape r))) -> Permutation inv (seq 0 (length (r_shape r))) ->
  (forall k, (k < length (r_shape r))%nat -> nth (nth k inv O) order O = k) ->
  ref_transpose ndebug order r = Some (Ok r') -> ref_transpose ndebug inv r' = Some (Ok r).
Proof. exact ref_transpose_inverse. Qed.
(** A shape may also be transposed in its first dimensions only. *)
Theorem C21_transpose_shape : forall (s : shape) (order : list nat),
  (length order <= length s)%nat -> Permutation order (seq 0 (length order)) ->
  exists s', transpose order s = Some s' /\ length s' = length s /\
    forall i, length i = length s ->
      offset s' (map (fun k => nth k i 0) order ++ skipn (length order) i) = offset s i.
Proof. exact shape_transpose_offset. Qed.
(** reorder keeps the selected dimensions; the dropped coordinates stay at their minimum. *)
Theorem C21_reorder_selects : forall (ndebug : bool) (r : aref) (order : list nat),
  Forall (fun d => ~ unknown_stride d) (r_shape r) -> extents_ge 1 (r_shape r) -> NoDup order ->
  Forall (fun k => (k < length (r_shape r))%nat) order ->
  exists r', ref_reorder ndebug order r = Some (Ok r') /\
    r_base r' = r_base r /\
    Forall2 (fun k d => nth_error (r_shape r) k = Some d) order (r_shape r') /\
    (forall i j, length j = length (r_shape r) ->
       (forall k d, nth_error order k = Some d -> nth_error i k = Some (nth d j 0)) -> length i = length order ->
       (forall d, (d < length (r_shape r))%nat -> ~ In d order -> nth d j 0 = nth d (map dmin (r_shape r)) 0) ->
       elem (r_base r') (r_shape r') i = elem (r_base r) (r_shape r) j).
Proof. exact reorder_selects. Qed.
(** Dropping an empty dimension of an empty array trips the assertion. *)
Theorem C21_reorder_empty_refuted : exists (r : aref) (order : list nat),
  extents_ge 0 (r_shape r) /\ NoDup order /\ Forall (fun k => (k < length (r_shape r))%nat) order /\
  ref_reorder false order r = Some AssertFail.
Proof.
  exists (mkR (1%nat, 0) [mkD 0 3 1; mkD 0 0 3]), [0%nat].
  repeat split; repeat constructor; simpl; try lia; auto.
Qed.
Example C21_example :
  let r := mkR (1%nat, 7) [mkD 0 3 1; mkD 5 4 3; mkD 2 2 (-12)] in
  ref_transpose false [2; 0; 1]%nat r = Some (Ok (mkR (1%nat, 7) [mkD 2 2 (-12); mkD 0 3 1; mkD 5 4 3])) /\
  ref_transpose false [1; 2; 0]%nat (mkR (1%nat, 7) [mkD 2 2 (-12); mkD 0 3 1; mkD 5 4 3]) = Some (Ok r) /\
  transpose [1; 0]%nat (r_shape r) = Some [mkD 5 4 3; mkD 0 3 1; mkD 2 2 (-12)] /\
  ref_reorder false [2; 0]%nat r = Some (Ok (mkR (1%nat, 7) [mkD 2 2 (-12); mkD 0 3 1])).
Proof. repeat split; reflexivity. Qed.
Print Assumptions C21_transpose_relabels.
Print Assumptions C21_transpose_inverse.
Print Assumptions C21_transpose_shape.
Print Assumptions C21_reorder_selects.
Print Assumptions C21_reorder_empty_refuted.

(** C22 *)
Theorem C22_permutation_test_exact : forall (n : nat) (l : list nat), (n <= 4)%nat ->
  (permutation_check n l = true <-> Permutation l (seq 0 n)).
Proof. exact permutation_check_exact. Qed.
Theorem C22_permutations_accepted : forall (n : nat) (l : list nat),
  Permutation l (seq 0 n) -> permutation_check n l = true.
Proof. exact permutation_accepted. Qed.
(** At every rank from 5 on some list that is not a permutation passes the test. *)
Theorem C22_permutation_test_refuted : forall n : nat, (5 <= n)%nat ->
  exists l, permutation_check n l = true /\ ~ Permutation l (seq 0 n).
Proof. intros n Hn. exists (bad_order n). exact (bad_order_accepted n Hn). Qed.
(** The transpose that compiles loses two dimensions and repeats two others. *)
Theorem C22_bad_transpose_refuted : exists (r r' : aref) (order : list nat),
  length (r_shape r) = 5%nat /\ ref_transpose false order r = Some (Ok r') /\
  r_shape r' <> r_shape r /\ size (r_shape r') <> size (r_shape r) /\ ~ Permutation order (seq 0 5).
Proof.
  exists (mkR (1%nat, 0) [mkD 0 2 100; mkD 0 3 1; mkD 0 4 10; mkD 0 5 50; mkD 0 7 1000]).
  exists (mkR (1%nat, 0) [mkD 0 3 1; mkD 0 3 1; mkD 0 4 10; mkD 0 4 10; mkD 0 5 50]).
  exists [1; 1; 2; 2; 3]%nat. split; [reflexivity|]. split; [reflexivity|]. split; [discriminate|].
  split; [vm_compute; discriminate|]. apply (bad_order_accepted 5). apply le_n.
Qed.
Example C22_example : permutation_check 4 [2; 0; 3; 1]%nat = true /\ permutation_check 4 [2; 0; 3; 0]%nat = false /\
  permutation_check 5 [1; 1; 2; 2; 3]%nat = true.
Proof. repeat split. Qed.
Print Assumptions C22_permutation_test_exact.
Print Assumptions C22_permutations_accepted.
Print Assumptions C22_permutation_test_refuted.
Print Assumptions C22_bad_transpose_refuted.

(** C27: a passing check keeps every element of the new view in the old view's flat range; for
    non-empty shapes with known strides the check passes whenever that is the case. *)
Theorem C27_set_shape_inside : forall (r : aref) (new : shape) (off : Z) (r' : aref),
  ref_set_shape false r new off = Ok r' -> fst (r_base r) <> O ->
  r_shape r' = new /\
  forall i, in_bounds new i -> exists o, flat_min (r_shape r) <= o <= flat_max (r_shape r) /\
    elem (r_base r') new i = (fst (r_base r), snd (r_base r) + o).
Proof. exact set_shape_inside. Qed.
Theorem C27_set_shape_accepts : forall (r : aref) (new : shape) (off : Z),
  extents_ge 1 new -> Forall (fun d => ~ unknown_stride d) new ->
  (forall i, in_bounds new i -> flat_min (r_shape r) <= off + offset new i <= flat_max (r_shape r)) ->
  exists r', ref_set_shape false r new off = Ok r'.
Proof. exact set_shape_accepts. Qed.
Theorem C27_reinterpret_inside : forall (r : aref) (new : shape) (off : Z) (r' : aref),
  reinterpret_shape false r new off = Ok r' ->
  r_shape r' = resolve new /\
  forall i, in_bounds (r_shape r') i -> exists o, flat_min (r_shape r) <= o <= flat_max (r_shape r) /\
    elem (r_base r') (r_shape r') i = (fst (r_base r), snd (r_base r) + o).
Proof. exact reinterpret_inside. Qed.
Theorem C27_reinterpret_accepts : forall (r : aref) (new : shape) (off : Z),
  extents_ge 1 new -> Forall (fun d => ~ unknown_stride d) new ->
  (forall i, in_bounds new i -> flat_min (r_shape r) <= off + offset new i <= flat_max (r_shape r)) ->
  exists r', reinterpret_shape false r new off = Ok r'.
Proof. exact reinterpret_accepts. Qed.
Example C27_example :
  let r := mkR (1%nat, 0) [mkD 0 4 1; mkD 0 3 4] in
  ref_set_shape false r [mkD 1 3 1; mkD 0 2 4] 5 = Ok (mkR (1%nat, 5) [mkD 1 3 1; mkD 0 2 4]) /\
  ref_set_shape false r [mkD 1 3 1; mkD 0 2 4] 6 = AssertFail /\
  reinterpret_shape false r [mkD 0 12 unresolved] 0 = Ok (mkR (1%nat, 0) [mkD 0 12 1]) /\
  reinterpret_shape false r [mkD 0 12 unresolved] (-1) = AssertFail.
Proof. repeat split; reflexivity. Qed.
Print Assumptions C27_set_shape_inside.
Print Assumptions C27_set_shape_accepts.
Print Assumptions C27_reinterpret_inside.
Print Assumptions C27_reinterpret_accepts.

(** C41 *)
Theorem C41_crop : forall (base : ptr) (x y c : dim) (x0 y0 x1 y1 : Z),
  Forall (fun d => ~ unknown_stride d) [x; y; c] -> fst base <> O ->
  let r := crop base x y c x0 y0 x1 y1 origin_crop in
  forall i j k,
    (in_bounds (r_shape r) [i; j; k] <->
       in_bounds [x; y; c] [i; j; k] /\ x0 <= i < x1 /\ y0 <= j < y1) /\
    elem (r_base r) (r_shape r) [i; j; k] = elem base [x; y; c] [i; j; k].
Proof. exact crop_denotes_crop. Qed.
Theorem C41_crop_origin_zero : forall (base : ptr) (x y c : dim) (x0 y0 x1 y1 : Z),
  Forall (fun d => ~ unknown_stride d) [x; y; c] -> fst base <> O ->
  let r := crop base x y c x0 y0 x1 y1 origin_zero in
  let cx0 := Z.max x0 (dmin x) in let cy0 := Z.max y0 (dmin y) in
  forall i j k,
    (in_bounds (r_shape r) [i; j; k] <->
       in_bounds [x; y; c] [i + cx0; j + cy0; k] /\ cx0 <= i + cx0 < x1 /\ cy0 <= j + cy0 < y1) /\
    elem (r_base r) (r_shape r) [i; j; k] = elem base [x; y; c] [i + cx0; j + cy0; k].
Proof. exact crop_denotes_zero. Qed.
Theorem C41_slice_channel : forall (base : ptr) (x y c : dim) (ch : Z), fst base <> O ->
  let r := slice_channel base x y c ch in
  r_shape r = [x; y] /\
  forall i j, elem (r_base r) (r_shape r) [i; j] = elem base [x; y; c] [i; j; ch].
Proof. exact slice_channel_denotes. Qed.
(** A crop box apart from the image in x and in y: both extents are negative, and the size is not 0. *)
Theorem C41_disjoint_crop : forall (base : ptr) (x y c : dim) (x0 y0 x1 y1 : Z) (origin : crop_origin),
  Forall (fun d => ~ unknown_stride d) [x; y; c] -> fst base <> O -> 0 < dext c ->
  Z.min x1 (dmin x + dext x) < Z.max x0 (dmin x) -> Z.min y1 (dmin y + dext y) < Z.max y0 (dmin y) ->
  let s := r_shape (crop base x y c x0 y0 x1 y1 origin) in
  (exists dx dy, s = [dx; dy; c] /\ dext dx < 0 /\ dext dy < 0) /\ (forall i, ~ in_bounds s i) /\ 0 < size s /\ empty s = false.
Proof. exact crop_disjoint. Qed.
Print Assumptions C41_disjoint_crop.
(** A crop box beside and above the image *)
Theorem C41_disjoint_crop_refuted : exists (base : ptr) (x y c : dim) (x0 y0 x1 y1 : Z),
  extents_ge 1 [x; y; c] /\
  let s := r_shape (crop base x y c x0 y0 x1 y1 origin_crop) in
  (forall i, ~ in_bounds s i) /\ Exists (fun d => dext d < 0) s /\ size s > 0.
Proof.
  exists (1%nat, 0), (mkD 0 10 1), (mkD 0 10 10), (mkD 0 3 100), 15, 15, 20, 20.
  split; [repeat constructor; simpl; lia|].
  change (r_shape _) with [mkD 15 (-5) 1; mkD 15 (-5) 10; mkD 0 3 100].
  split; [|split].
  - intros i H. inversion H as [|? ? ? ? H1 H2]; subst. unfold in_dim in H1. simpl in H1. lia.
  - constructor 1. simpl. lia.
  - reflexivity.
Qed.
Example C41_example :
  let r := crop (1%nat, 0) (mkD 0 10 3) (mkD 0 10 30) (mkD 0 3 1) (-2) 4 5 20 origin_crop in
  r = mkR (1%nat, 120) [mkD 0 5 3; mkD 4 6 30; mkD 0 3 1].
Proof. reflexivity. Qed.
Print Assumptions C41_crop.
Print Assumptions C41_crop_origin_zero.
Print Assumptions C41_slice_channel.
Print Assumptions C41_disjoint_crop_refuted.
