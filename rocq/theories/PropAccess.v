(** C27 (set_shape of arrays), C33 (make_move of an rvalue), C42 (image traversals by address),
    C52 (data, empty, bounds, compact copies). *)
From Coq Require Import ZArith List Bool Lia.
From Verif Require Import Base Interval Shape Traverse Memory Ref Container Static Compact Spec SpecMem SpecStatic
  SpecContainer ContainerCases AccessFacts.
Import ListNotations.
Open Scope Z_scope.

(** ** C42: the addresses for_each_value passes on, for images in chunky layouts *)
Theorem C42_chunky_pointers : forall (nd : bool) (x y c : dim) (base : ptr),
  0 <= dext x -> 0 <= dext y -> 0 <= dext c -> dstr c = 1 ->
  is_null base = false \/ (forall i, ~ in_bounds [x; y; c] i) ->
  exists l, enumerates (in_bounds [x; y; c]) l /\ values_chunky nd x y c base = Ok (map (elem base [x; y; c]) l).
Proof. exact chunky_pointers. Qed.
Theorem C42_chunky_null_rejected : forall x y c : dim, 1 <= dext x -> 1 <= dext y -> 1 <= dext c ->
  values_chunky false x y c null = AssertFail.
Proof. exact chunky_null_rejected. Qed.
Theorem C42_chunky_general_pointers : forall (x y c : dim) (base : ptr),
  0 <= dext x -> 0 <= dext y -> 0 <= dext c ->
  exists l, enumerates (in_bounds [x; y; c]) l /\
    values_chunky_general x y c base = Ok (map (elem base [x; y; c]) l).
Proof. exact chunky_general_pointers. Qed.
Example C42_pointers_example :
  values_chunky false (mkD 1 2 3) (mkD 0 2 6) (mkD 0 3 1) (1%nat, 4) = Ok (map (fun k => (1%nat, k)) (zseq 4 12)) /\
  values_chunky false (mkD 1 2 4) (mkD 0 2 8) (mkD 0 3 1) (1%nat, 4) =
    Ok (map (fun k => (1%nat, k)) [4; 8; 12; 16; 5; 9; 13; 17; 6; 10; 14; 18]) /\
  values_chunky_general (mkD 1 2 4) (mkD 0 2 8) (mkD 0 3 1) (1%nat, 4) =
    Ok (map (fun k => (1%nat, k)) [4; 5; 6; 8; 9; 10; 12; 13; 14; 16; 17; 18]) /\
  values_chunky false (mkD 1 2 3) (mkD 0 0 6) (mkD 0 3 1) null = Ok [].
Proof. repeat split; vm_compute; reflexivity. Qed.
Print Assumptions C42_chunky_pointers.
Print Assumptions C42_chunky_null_rejected.
Print Assumptions C42_chunky_general_pointers.

(** ** C52: data, empty, bounds, compact copies *)
(** data() is the element with the least address, and all elements are in the flat_extent
    cells from there. *)
Theorem C52_data : forall r : aref, fst (r_base r) <> O -> extents_ge 1 (r_shape r) ->
  (exists i, in_bounds (r_shape r) i /\ ref_data r = elem (r_base r) (r_shape r) i) /\
  forall i, in_bounds (r_shape r) i -> fst (elem (r_base r) (r_shape r) i) = fst (ref_data r) /\
    0 <= snd (elem (r_base r) (r_shape r) i) - snd (ref_data r) < flat_extent (r_shape r).
Proof. exact data_least. Qed.
Theorem C52_data_null : forall s : shape, ref_data (mkR null s) = null.
Proof. exact data_null. Qed.
Theorem C52_empty : forall r : aref, extents_ge 0 (r_shape r) ->
  (ref_empty r = true <-> r_base r = null \/ forall i, ~ in_bounds (r_shape r) i).
Proof. exact ref_empty_iff. Qed.
(** bounds() keeps the bounds and forgets the strides; an array of that shape is compact. *)
Theorem C52_bounds : forall s : shape, extents_ge 1 s ->
  fold_right Z.mul 1 (map dext s) < 9223372036854775807 ->
  Forall2 (fun d d' => dmin d' = dmin d /\ dext d' = dext d /\ unknown_stride d') s (bounds s) /\
  Forall2 (fun d d' => dmin d' = dmin d /\ dext d' = dext d) s (resolve (bounds s)) /\
  injective_layout (resolve (bounds s)) /\
  (forall o, 0 <= o < size s <-> exists i, in_bounds s i /\ flat_offset (resolve (bounds s)) i = o).
Proof. exact bounds_layout. Qed.
Theorem C52_compact_copy : forall (V : Type) (c : config V), fair c ->
  forall (w : world V) (y : nat) (b : arr) (ts : list dimT) (al : nat) (s : list dim) (f : list Z -> V),
  reachable c w -> w_arr w y = Some b -> denotes w y s f ->
  Forall2 dim_fits ts s -> Forall (fun t => tstr t = -9) ts -> extents_ge 1 s ->
  volume s < 9223372036854775807 -> length s = length (c_shape0 c) ->
  exists w' t, add w (make_compact_copy c (w_next w) (w_heap w) (aref_of b) ts al) = Ok w' /\
    Forall2 same_bounds s t /\ gapless t /\ denotes w' (w_next w) t f /\ denotes w' y s f /\
    adds_objects w w' (w_next w) /\ unchanged w w' [w_next w].
Proof. exact (@compact_copy). Qed.
Theorem C52_compact_move : forall (V : Type) (c : config V), fair c ->
  forall (w : world V) (y : nat) (b : arr) (ts : list dimT) (al : nat) (s : list dim) (f : list Z -> V),
  reachable c w -> w_arr w y = Some b -> denotes w y s f ->
  Forall2 dim_fits ts s -> Forall (fun t => tstr t = -9) ts -> extents_ge 1 s ->
  volume s < 9223372036854775807 -> length s = length (c_shape0 c) ->
  exists w' t, add w (make_compact_move c (w_next w) (w_heap w) (aref_of b) ts al) = Ok w' /\
    Forall2 same_bounds s t /\ gapless t /\ denotes w' (w_next w) t f /\
    denotes w' y s (fun i => c_mv c (f i)) /\ unchanged w w' [w_next w; y].
Proof. exact (@compact_move). Qed.
Example C52_example :
  ref_data (mkR (1%nat, 20) [mkD 2 3 (-2); mkD 0 4 7]) = (1%nat, 16) /\
  ref_data (mkR null [mkD 2 3 (-2); mkD 0 4 7]) = null /\
  ref_empty (mkR (1%nat, 20) [mkD 2 3 (-2); mkD 0 0 7]) = true /\ ref_empty (mkR (1%nat, 20) [mkD 2 3 (-2)]) = false /\
  bounds [mkD 2 3 (-2); mkD 0 4 7] = [mkD 2 3 unresolved; mkD 0 4 unresolved] /\
  resolve (bounds [mkD 2 3 (-2); mkD 0 4 7]) = [mkD 2 3 1; mkD 0 4 3].
Proof. repeat split. Qed.
(** The array [pre] makes first has strides 1 and -7. *)
Definition dyn2 : list dimT := [mkDT (-9) (-9) (-9); mkDT (-9) (-9) (-9)].
Example C52_compact_example :
  let w := state debug2 pre in
  let s := [mkD 2 3 1; mkD (-1) 2 (-7)] in
  reachable debug2 w /\ Forall2 dim_fits dyn2 s /\ volume s = 6 /\ length s = length (c_shape0 debug2) /\
  match w_arr w 0%nat with
  | Some b =>
      a_shape b = s /\
      match add w (make_compact_copy debug2 (w_next w) (w_heap w) (aref_of b) dyn2 0) with
      | Ok w' => dims w' 2%nat = Some [mkD 2 3 1; mkD (-1) 2 3] /\ contents w' 2%nat = contents w 0%nat
      | _ => False
      end
  | None => False
  end.
Proof.
  cbv zeta. split; [apply state_reachable; [apply fair2; left; reflexivity|vm_compute; reflexivity]|].
  split; [repeat constructor; left; reflexivity|]. split; [reflexivity|]. split; [reflexivity|].
  vm_compute. auto.
Qed.
Print Assumptions C52_data.
Print Assumptions C52_data_null.
Print Assumptions C52_empty.
Print Assumptions C52_bounds.
Print Assumptions C52_compact_copy.
Print Assumptions C52_compact_move.

(** ** C27: set_shape of an array keeps its buffer, and accepts only what stays inside it *)
Theorem C27_array_set_shape : forall (V : Type) (c : config V), fair c ->
  forall (w : world V) (x : nat) (a : arr) (new : list dim) (off : Z) (a' : arr),
  reachable c w -> w_arr w x = Some a -> c_ndebug c = false -> arr_set_shape c a new off = Ok a' ->
  a_shape a' = new /\ a_buf a' = a_buf a /\ a_bufsize a' = a_bufsize a /\ a_busy a' = a_busy a /\ a_al a' = a_al a /\
  (a_base a <> null -> forall i, in_bounds new i -> exists k z b,
     a_buf a = (k, 0) /\ h_blk (w_heap w) k = Some b /\ 0 <= z < b_size b /\ elem (a_base a') new i = (k, z)).
Proof. exact (@array_set_shape). Qed.
Example C27_array_example :
  let w := state debug2 pre in
  reachable debug2 w /\
  match w_arr w 0%nat with
  | Some a =>
      a_base a <> null /\
      match arr_set_shape debug2 a [mkD 0 2 (-1); mkD 5 2 (-7)] 2 with
      | Ok a' => a_shape a' = [mkD 0 2 (-1); mkD 5 2 (-7)] /\ a_base a' = (fst (a_base a), 9)
      | _ => False
      end /\
      arr_set_shape debug2 a [mkD 0 2 (-1); mkD 5 2 (-7)] 0 = AssertFail
  | None => False
  end.
Proof.
  cbv zeta. split; [apply state_reachable; [apply fair2; left; reflexivity|vm_compute; reflexivity]|].
  vm_compute. repeat split. discriminate.
Qed.
Print Assumptions C27_array_set_shape.

(** ** C33: make_move of an rvalue *)
Theorem C33_make_move_rvalue : forall (V : Type) (c : config V), fair c ->
  forall (w : world V) (y : nat) (b : arr) (t : list dim) (al : nat) (s : list dim) (f : list Z -> V),
  reachable c w -> w_arr w y = Some b -> denotes w y s f -> shape_arg c t -> within t s ->
  t <> s \/ alloc_eq (w_next w) (blank al (c_shape0 c)) y b = false ->
  exists w' t' g, add w (make_move_rvalue c y (w_heap w) b t (w_next w) al) = Ok w' /\ same_shape t' t /\
    denotes w' (w_next w) t' f /\ denotes w' y s g /\
    (forall i, ~ in_bounds t i -> g i = f i) /\ (forall i, in_bounds t i -> g i = c_mv c (f i)) /\
    unchanged w w' [w_next w; y].
Proof. exact (@make_move_rvalue_moves). Qed.
(** With an equal shape and allocator, when nothing would have to be moved, the elements are
    copied to new memory instead. *)
Theorem C33_make_move_rvalue_copies : forall (V : Type) (c : config V), fair c ->
  forall (w : world V) (y : nat) (b : arr) (al : nat) (s : list dim) (f : list Z -> V),
  reachable c w -> may_copy c w y -> w_arr w y = Some b -> denotes w y s f ->
  alloc_eq (w_next w) (blank al (c_shape0 c)) y b = true ->
  exists w' s', add w (make_move_rvalue c y (w_heap w) b s (w_next w) al) = Ok w' /\ same_shape s' s /\
    denotes w' (w_next w) s' f /\ denotes w' y s f /\ adds_objects w w' (w_next w) /\ unchanged w w' [w_next w].
Proof. exact (@make_move_rvalue_copies). Qed.
Example C33_rvalue_example :
  let w := state debug2 pre in
  reachable debug2 w /\ may_copy debug2 w 0%nat /\
  match w_arr w 0%nat with
  | Some b =>
      alloc_eq (w_next w) (blank 0 (c_shape0 debug2)) 0%nat b = true /\
      alloc_eq (w_next w) (blank 1 (c_shape0 debug2)) 0%nat b = false /\
      match add w (make_move_rvalue debug2 0 (w_heap w) b (a_shape b) (w_next w) 0) with
      | Ok w' => live_count w' = 32%nat /\ contents w' 0%nat = contents w 0%nat /\ contents w' 2%nat = contents w 0%nat
      | _ => False
      end /\
      match add w (make_move_rvalue debug2 0 (w_heap w) b (a_shape b) (w_next w) 1) with
      | Ok w' => contents w' 0%nat = repeat (Some (-1)) 6 /\ contents w' 2%nat = contents w 0%nat
      | _ => False
      end
  | None => False
  end.
Proof.
  cbv zeta. split; [apply state_reachable; [apply fair2; left; reflexivity|vm_compute; reflexivity]|].
  split; [apply copyb_ok; vm_compute; reflexivity|]. vm_compute. auto 10.
Qed.
Print Assumptions C33_make_move_rvalue.
Print Assumptions C33_make_move_rvalue_copies.
