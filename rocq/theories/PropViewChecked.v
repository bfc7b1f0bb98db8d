(** C68: views and Einstein reductions in 64-bit arithmetic. *)
From Verif Require Import Tac Interval Shape Traverse Memory Ref Spec SpecMem Checked SpecChecked Ein SpecEin ShapeFacts EinFacts
  EinCases ViewChecked SpecViewChecked ViewCheckedFacts.
Import ListNotations.
Open Scope Z_scope.

(** ** Views *)
Theorem C68_element : forall (b : ptr) (s : shape) (i : index), roomy s -> in_bounds s i ->
  k_ref_ptr (mkR b s) i = Ok (elem b s i).
Proof. exact k_ptr_ok. Qed.
(** A chain of views computes in 64 bits, its result is again a view of this kind, and its
    elements are the elements of the original that it denotes. *)
Theorem C68_views : forall (ndebug : bool) (b : ptr) (s : shape) (vs : list view),
  roomy s -> fst b <> O -> views_fit s vs ->
  exists r, k_views ndebug (mkR b s) vs = Ok r /\ r_shape r = views_dims s vs /\ roomy (r_shape r) /\
    forall i, in_bounds (r_shape r) i -> in_bounds s (views_index s vs i) /\
      k_ref_ptr r i = Ok (elem b s (views_index s vs i)).
Proof. exact views_denote. Qed.
Theorem C68_set_shape : forall (ndebug : bool) (r : aref) (new : shape) (off : Z),
  roomy (r_shape r) -> roomy new -> is_index off -> reach (r_shape r) + Z.abs off <= 9223372036854775807 ->
  fst (r_base r) <> O -> extents_ge 1 new -> inside r new off ->
  exists r', k_ref_set_shape ndebug r new off = Ok r' /\ r_shape r' = new /\
    forall i, in_bounds new i -> k_ref_ptr r' i = Ok (fst (r_base r), snd (r_base r) + (off + offset new i)).
Proof. exact set_shape_fits. Qed.
Theorem C68_set_shape_rejects : forall (r : aref) (new : shape) (off : Z),
  roomy (r_shape r) -> roomy new -> is_index off -> reach (r_shape r) + Z.abs off <= 9223372036854775807 ->
  fst (r_base r) <> O -> ~ inside r new off -> k_ref_set_shape false r new off = AssertFail.
Proof. exact set_shape_rejects. Qed.
Theorem C68_reinterpret : forall (ndebug : bool) (r : aref) (new : shape) (off : Z),
  roomy (r_shape r) -> roomy new -> is_index off -> reach (r_shape r) + Z.abs off <= 9223372036854775807 ->
  extents_ge 1 new -> inside r new off ->
  exists r', k_reinterpret_shape ndebug r new off = Ok r' /\ r_shape r' = new /\
    forall i, in_bounds new i -> k_ref_ptr r' i = Ok (fst (r_base r), snd (r_base r) + (off + offset new i)).
Proof. exact reinterpret_fits. Qed.
Theorem C68_reinterpret_rejects : forall (r : aref) (new : shape) (off : Z),
  roomy (r_shape r) -> roomy new -> is_index off -> reach (r_shape r) + Z.abs off <= 9223372036854775807 ->
  ~ inside r new off -> k_reinterpret_shape false r new off = AssertFail.
Proof. exact reinterpret_rejects. Qed.
(** It is not enough that all elements asked for exist: the slice at 2^62 is empty, but its
    offset is 2^64. *)
Theorem C68_empty_slice_refuted : exists (r : aref) (args : list sarg),
  roomy (r_shape r) /\ args_within args (r_shape r) /\ k_ref_slice r args = UB.
Proof.
  exists (mkR (1%nat, 0) [mkD 0 10 4]), [AInt (mkI 4611686018427387904 0)].
  split; [repeat constructor; discriminate|]. split; [|reflexivity].
  constructor; [|constructor]. intros x [A B]. cbn in A, B. lia.
Qed.
(** Cropping to a window beside the image is not safe either: image.h:155-158 clamp the window
    on one side only, and the offset of its corner overflows. *)
Theorem C68_far_crop_refuted : exists (b : ptr) (x y c : dim) (x0 y0 x1 y1 : Z),
  roomy [x; y; c] /\ extents_ge 1 [x; y; c] /\ is_index x0 /\ x0 < x1 /\ is_index x1 /\
  y0 = dmin y /\ y1 = dmin y + dext y /\ k_crop b x y c x0 y0 x1 y1 origin_crop = UB.
Proof.
  exists (1%nat, 0), (mkD 0 640 3), (mkD 0 480 1920), (mkD 0 3 1), 4611686018427387904, 0, 4611686018427387914, 480.
  split; [repeat constructor; discriminate|]. split; [repeat constructor; discriminate|].
  repeat split; discriminate.
Qed.

(** ** Reductions *)
Theorem C68_reduction : forall (V : Type) (nd : bool) (f : V -> V -> V) (h : heap V) (r : aref) (out : list nat)
    (e : expr V) (B : nat -> span) (n : nat),
  ranks_match ((r, out) :: operands e) -> loops n (out ++ labels e) -> ranges r out (operands e) B ->
  Forall (fun o => roomy (r_shape (fst o))) ((r, out) :: operands e) ->
  operands_alive h ((r, out) :: operands e) -> operands_apart r (operands e) -> injective_layout (r_shape r) ->
  exists h', k_ein_reduce nd f h r out e = Ok h' /\ only_changes (is_elem (r_base r) (r_shape r)) h h' /\
    forall o old, in_bounds (r_shape r) o -> holds h (elem (r_base r) (r_shape r) o) old ->
      exists w, holds h' (elem (r_base r) (r_shape r) o) w /\
        reduces h f e (fun env => loop_index B n env /\ values_of out env = o) old w.
Proof. exact @k_reduction. Qed.
(** Whatever the arrays share, overflow plays no part. *)
Theorem C68_reduction_unbounded : forall (V : Type) (nd : bool) (f : V -> V -> V) (h : heap V) (r : aref) (out : list nat)
    (e : expr V) (B : nat -> span) (n : nat),
  ranks_match ((r, out) :: operands e) -> loops n (out ++ labels e) -> ranges r out (operands e) B ->
  Forall (fun o => roomy (r_shape (fst o))) ((r, out) :: operands e) ->
  k_ein_reduce nd f h r out e = ein_reduce nd f h r out e.
Proof. exact @k_ein_reduce_ok. Qed.

(** An image of 640 x 480 pixels with 3 channels: a crop, transposed, one channel of a row range *)
Definition ex_image : shape := [mkD 0 640 3; mkD 0 480 1920; mkD 0 3 1].
Definition ex_views : list view :=
  [VCrop 100 (-5) 200 50 origin_zero; VSlice [AAll; AInt (mkI 10 20); AAll]; VChannel 2; VTranspose [1; 0]%nat;
   VReorder [1%nat]; VSlice [AInt (mkI 5 10)]].
Example C68_example :
  roomy ex_image /\ views_fit ex_image ex_views /\ views_dims ex_image ex_views = [mkD 5 10 3] /\
  in_bounds (views_dims ex_image ex_views) [7] /\ views_index ex_image ex_views [7] = [107; 10; 2] /\
  k_views false (mkR (1%nat, 0) ex_image) ex_views = Ok (mkR (1%nat, 19517) [mkD 5 10 3]) /\
  k_ref_ptr (mkR (1%nat, 19517) [mkD 5 10 3]) [7] = Ok (1%nat, 19523).
Proof.
  split; [repeat constructor; discriminate|]. split.
  { cbn [views_fit ex_views ex_image view_fits view_dims]. unfold meets, is_index, crop_dim, crop_min. cbn.
    split; [lia|]. split; [repeat (constructor; [first [exact I|right; cbn; lia]|]); constructor|].
    split; [unfold in_dim; cbn; lia|]. split; [apply perm_swap|].
    split; [split; [repeat constructor; discriminate|split; repeat constructor; intros []]|].
    split; [|exact I]. constructor; [right; cbn; lia|constructor]. }
  repeat split; try reflexivity. repeat constructor; cbn; lia.
Qed.
(** A view of the whole address space *)
Example C68_example_extreme :
  let s := [mkD (-9223372036854775808) 3 4611686018427387903; mkD 9223372036854775806 1 (-9223372036854775807)] in
  roomy s /\ reach s = 9223372036854775806 /\
  views_fit s [VSlice [AInt (mkI (-9223372036854775807) 2); AAll]; VTranspose [1; 0]%nat] /\
  k_views false (mkR (1%nat, 0) s) [VSlice [AInt (mkI (-9223372036854775807) 2); AAll]; VTranspose [1; 0]%nat] =
    Ok (mkR (1%nat, 4611686018427387903) [mkD 9223372036854775806 1 (-9223372036854775807); mkD (-9223372036854775807) 2 4611686018427387903]).
Proof.
  cbv zeta. split; [repeat constructor; discriminate|]. split; [reflexivity|]. split; [|reflexivity].
  cbn [views_fit view_fits]. split; [|split; [|exact I]].
  - constructor; [right; cbn; lia|]. constructor; [exact I|constructor].
  - cbn. apply perm_swap.
Qed.
Example C68_example_set_shape :
  let r := mkR (1%nat, 0) [mkD 0 4 1; mkD 0 3 4] in
  roomy (r_shape r) /\ roomy [mkD 1 3 1; mkD 0 2 4] /\ inside r [mkD 1 3 1; mkD 0 2 4] 5 /\
  k_ref_set_shape false r [mkD 1 3 1; mkD 0 2 4] 5 = Ok (mkR (1%nat, 5) [mkD 1 3 1; mkD 0 2 4]) /\
  k_ref_set_shape false r [mkD 1 3 1; mkD 0 2 4] 6 = AssertFail /\
  k_reinterpret_shape false r [mkD 1 3 1; mkD 0 2 4] 5 = Ok (mkR (1%nat, 5) [mkD 1 3 1; mkD 0 2 4]) /\
  k_reinterpret_shape false r [mkD 1 3 1; mkD 0 2 4] (-1) = AssertFail.
Proof.
  cbv zeta. split; [repeat constructor; discriminate|]. split; [repeat constructor; discriminate|]. split.
  - intros i Hi. apply box_In in Hi. vm_compute in Hi. intuition (subst; vm_compute; try split; discriminate).
  - repeat split.
Qed.
(** A 2x4 result += 2x3 matrix * 3x4 matrix *)
Example C68_example_reduction :
  ranks_match ((mR, [2; 1]%nat) :: operands mul_expr) /\ loops 3 ([2; 1]%nat ++ labels mul_expr) /\
  ranges mR [2; 1]%nat (operands mul_expr) mul_span /\
  Forall (fun o => roomy (r_shape (fst o))) ((mR, [2; 1]%nat) :: operands mul_expr) /\
  operands_alive ex3 ((mR, [2; 1]%nat) :: operands mul_expr) /\ operands_apart mR (operands mul_expr) /\
  injective_layout (r_shape mR) /\
  dump3 (k_ein_reduce false Z.add ex3 mR [2; 1]%nat mul_expr) 3 =
    map (fun z => Some (Live z)) [114; 232; 332; 477; 550; 722; 768; 967].
Proof.
  split; [exact mul_ranks|]. split; [exact mul_loops|]. split; [exact mul_ranges|].
  split; [repeat constructor; discriminate|]. split; [exact mul_alive|].
  split; [exact mul_apart|]. split; [exact mul_inj|]. vm_compute. reflexivity.
Qed.
Print Assumptions C68_element.
Print Assumptions C68_views.
Print Assumptions C68_set_shape.
Print Assumptions C68_set_shape_rejects.
Print Assumptions C68_reinterpret.
Print Assumptions C68_reinterpret_rejects.
Print Assumptions C68_empty_slice_refuted.
Print Assumptions C68_far_crop_refuted.
Print Assumptions C68_reduction.
Print Assumptions C68_reduction_unbounded.
