(** C69, C70: algorithms and arrays in 64-bit arithmetic. *)
From Verif Require Import Tac Interval Shape Traverse Memory Ref Spec SpecMem Checked SpecChecked SpecOverflow ViewChecked
  Container SpecContainer ContainerCases ContChecked SpecContChecked ContCheckedFacts ContCheckedCases
  ResolveFacts MemFacts ShapeFacts.
Import ListNotations.
Open Scope Z_scope.

(** ** C69: the algorithms *)
Definition ex_heap : heap Z :=
  mkH 3 (fun k => match k with
                  | 1%nat => Some (mkB (Base 0) 12 (fun x => Live x))
                  | 2%nat => Some (mkB (Base 0) 12 (fun _ => Live 100))
                  | _ => None
                  end).
Definition dump (h : outcome (heap Z)) (b : nat) : list (option (cell Z)) :=
  match h with Ok h => map (fun x => peek h (b, x)) (zseq 0 12) | _ => [] end.
Definition live (l : list Z) : list (option (cell Z)) := map (fun v => Some (Live v)) l.
Theorem C69_copy : forall (V : Type) (ndebug : bool) (h : heap V) (src dst : aref),
  tame (r_shape src) -> tame (r_shape dst) -> settled (r_shape src) -> settled (r_shape dst) ->
  length (r_shape src) = length (r_shape dst) -> within (r_shape dst) (r_shape src) -> injective_layout (r_shape dst) ->
  (forall i, in_bounds (r_shape dst) i -> alive h (elem (r_base src) (r_shape src) i)) ->
  (forall i, in_bounds (r_shape dst) i -> alive h (elem (r_base dst) (r_shape dst) i)) ->
  (forall i j, in_bounds (r_shape dst) i -> in_bounds (r_shape dst) j ->
     elem (r_base src) (r_shape src) i <> elem (r_base dst) (r_shape dst) j) ->
  exists h', k_copy ndebug h src dst = Ok h' /\
    (forall i, in_bounds (r_shape dst) i ->
       peek h' (elem (r_base dst) (r_shape dst) i) = peek h (elem (r_base src) (r_shape src) i)) /\
    only_changes (is_elem (r_base dst) (r_shape dst)) h h'.
Proof. exact @k_copy_spec. Qed.
Theorem C69_move : forall (V : Type) (ndebug : bool) (mv : V -> V) (h : heap V) (src dst : aref),
  tame (r_shape src) -> tame (r_shape dst) -> settled (r_shape src) -> settled (r_shape dst) ->
  length (r_shape src) = length (r_shape dst) -> within (r_shape dst) (r_shape src) ->
  injective_layout (r_shape dst) -> injective_layout (r_shape src) ->
  (forall i, in_bounds (r_shape dst) i -> alive h (elem (r_base src) (r_shape src) i)) ->
  (forall i, in_bounds (r_shape dst) i -> alive h (elem (r_base dst) (r_shape dst) i)) ->
  (forall i j, in_bounds (r_shape dst) i -> in_bounds (r_shape dst) j ->
     elem (r_base src) (r_shape src) i <> elem (r_base dst) (r_shape dst) j) ->
  exists h', k_move ndebug mv h src dst = Ok h' /\
    (forall i v, in_bounds (r_shape dst) i -> holds h (elem (r_base src) (r_shape src) i) v ->
       holds h' (elem (r_base dst) (r_shape dst) i) v /\
       holds h' (elem (r_base src) (r_shape src) i) (mv v)) /\
    only_changes (fun p => is_elem (r_base dst) (r_shape dst) p \/
                           exists i, in_bounds (r_shape dst) i /\ p = elem (r_base src) (r_shape src) i) h h'.
Proof. exact @k_move_spec. Qed.
Theorem C69_fill : forall (V : Type) (ndebug : bool) (h : heap V) (dst : aref) (v : V), tame (r_shape dst) -> settled (r_shape dst) ->
  (forall i, in_bounds (r_shape dst) i -> alive h (elem (r_base dst) (r_shape dst) i)) ->
  exists h', k_fill ndebug h dst v = Ok h' /\
    (forall i, in_bounds (r_shape dst) i -> holds h' (elem (r_base dst) (r_shape dst) i) v) /\
    only_changes (is_elem (r_base dst) (r_shape dst)) h h'.
Proof. exact @k_fill_spec. Qed.
Theorem C69_generate : forall (V : Type) (ndebug : bool) (h : heap V) (dst : aref) (g : nat -> V),
  tame (r_shape dst) -> settled (r_shape dst) -> injective_layout (r_shape dst) ->
  (forall i, in_bounds (r_shape dst) i -> alive h (elem (r_base dst) (r_shape dst) i)) ->
  exists h' l, k_generate ndebug h dst g = Ok (h', length l) /\ enumerates (in_bounds (r_shape dst)) l /\
    (forall k i, nth_error l k = Some i -> holds h' (elem (r_base dst) (r_shape dst) i) (g k)) /\
    only_changes (is_elem (r_base dst) (r_shape dst)) h h'.
Proof. exact @k_generate_spec. Qed.
Theorem C69_transform_index : forall (V : Type) (h : heap V) (dst : aref) (fn : index -> V),
  tame (r_shape dst) -> settled (r_shape dst) -> injective_layout (r_shape dst) ->
  (forall i, in_bounds (r_shape dst) i -> alive h (elem (r_base dst) (r_shape dst) i)) ->
  exists h', k_transform_index h dst fn = Ok h' /\
    (forall i, in_bounds (r_shape dst) i -> holds h' (elem (r_base dst) (r_shape dst) i) (fn i)) /\
    only_changes (is_elem (r_base dst) (r_shape dst)) h h'.
Proof. exact @k_transform_spec. Qed.
Theorem C69_equal : forall (V : Type) (ndebug : bool) (eqb : V -> V -> bool) (h : heap V) (a b : aref),
  tame (r_shape a) -> tame (r_shape b) -> settled (r_shape a) -> settled (r_shape b) ->
  length (r_shape a) = length (r_shape b) ->
  (forall i, in_bounds (r_shape a) i -> alive h (elem (r_base a) (r_shape a) i)) ->
  (forall i, in_bounds (r_shape b) i -> alive h (elem (r_base b) (r_shape b) i)) ->
  exists r, k_equal ndebug eqb h a b = Ok r /\
    (r = true <-> map dmin (r_shape a) = map dmin (r_shape b) /\ map dext (r_shape a) = map dext (r_shape b) /\
       forall i x y, in_bounds (r_shape a) i -> holds h (elem (r_base a) (r_shape a) i) x ->
         holds h (elem (r_base b) (r_shape b) i) y -> eqb x y = true).
Proof. exact @k_equal_spec. Qed.
Theorem C69_operator_eq : forall (V : Type) (ndebug : bool) (eqb : V -> V -> bool) (h : heap V) (a b : aref),
  tame (r_shape a) -> settled (r_shape a) -> length (r_shape a) = length (r_shape b) -> extents_ge 0 (r_shape b) ->
  (forall i, in_bounds (r_shape a) i -> alive h (elem (r_base a) (r_shape a) i)) ->
  (forall i, in_bounds (r_shape b) i -> alive h (elem (r_base b) (r_shape b) i)) ->
  exists r, k_ref_eq ndebug eqb h a b = Ok r /\ k_ref_neq ndebug eqb h a b = Ok (negb r) /\
    (r = true <-> r_shape a = r_shape b /\
       forall i x y, in_bounds (r_shape a) i -> holds h (elem (r_base a) (r_shape a) i) x ->
         holds h (elem (r_base b) (r_shape b) i) y -> eqb x y = true).
Proof. exact @k_ref_eq_spec. Qed.
Theorem C69_data : forall (b : ptr) (s : shape), tame s -> Forall (fun d => ~ unknown_stride d) s ->
  k_ref_data (mkR b s) = Ok (ref_data (mkR b s)).
Proof. exact k_data_tame. Qed.
(** A moved-from array has no strides, and [data] overflows. *)
Theorem C69_data_refuted : exists (ops : list (op Z)) (w : world Z) (a : arr),
  legal debug2 empty_world ops /\ Forall tame_shapes ops /\ run debug2 ops empty_world = Ok w /\
  w_arr w 0%nat = Some a /\ tame (a_shape a) /\ settled (a_shape a) /\ k_ref_data (aref_of a) = UB.
Proof. exact data_overflows. Qed.
(** A 2x2 part of a 3x4 array whose indices start at 10^15, and a transposed layout *)
Definition ex_src : aref := mkR (1%nat, 0) [mkD 1000000000000000 3 1; mkD (-666666666666666) 4 3].
Definition ex_dst : aref := mkR (2%nat, 1) [mkD 1000000000000001 2 4; mkD (-666666666666664) 2 1].
Example C69_example :
  tame (r_shape ex_src) /\ tame (r_shape ex_dst) /\ settled (r_shape ex_src) /\ settled (r_shape ex_dst) /\
  within (r_shape ex_dst) (r_shape ex_src) /\ injective_layout (r_shape ex_src) /\ injective_layout (r_shape ex_dst) /\
  (forall i, in_bounds (r_shape ex_src) i -> alive ex_heap (elem (r_base ex_src) (r_shape ex_src) i)) /\
  (forall i, in_bounds (r_shape ex_dst) i -> alive ex_heap (elem (r_base ex_dst) (r_shape ex_dst) i)) /\
  (forall i j, elem (r_base ex_src) (r_shape ex_src) i <> elem (r_base ex_dst) (r_shape ex_dst) j).
Proof.
  split; [apply tameb_ok; vm_compute; reflexivity|]. split; [apply tameb_ok; vm_compute; reflexivity|].
  split; [apply settledb_ok; vm_compute; reflexivity|]. split; [apply settledb_ok; vm_compute; reflexivity|].
  split; [apply within_ok; vm_compute; reflexivity|].
  split; [apply nested_injective, nestedb_ok; vm_compute; reflexivity|].
  split; [apply nested_injective, nestedb_ok; vm_compute; reflexivity|].
  split; [|split].
  - intros i Hi. apply box_In in Hi. vm_compute in Hi. intuition (subst; eexists; vm_compute; reflexivity).
  - intros i Hi. apply box_In in Hi. vm_compute in Hi. intuition (subst; eexists; vm_compute; reflexivity).
  - intros i j H. discriminate H.
Qed.
Example C69_example_copy : dump (k_copy false ex_heap ex_src ex_dst) 2 =
  live [100; 7; 10; 100; 100; 8; 11; 100; 100; 100; 100; 100].
Proof. vm_compute. reflexivity. Qed.
Example C69_example_move : dump (k_move false (fun _ => -1) ex_heap ex_src ex_dst) 1 =
  live [0; 1; 2; 3; 4; 5; 6; -1; -1; 9; -1; -1].
Proof. vm_compute. reflexivity. Qed.
Example C69_example_write :
  dump (k_fill false ex_heap ex_dst 50) 2 = live [100; 50; 50; 100; 100; 50; 50; 100; 100; 100; 100; 100] /\
  dump (' (h, _) <- k_generate false ex_heap ex_dst Z.of_nat ;; Ok h) 2 =
    live [100; 0; 1; 100; 100; 2; 3; 100; 100; 100; 100; 100] /\
  dump (k_transform_index ex_heap ex_dst (fun i => nth 1 i 0)) 2 =
    live [100; -666666666666664; -666666666666663; 100; 100; -666666666666664; -666666666666663; 100; 100; 100; 100; 100].
Proof. vm_compute. auto. Qed.
Example C69_example_equal :
  let part := mkR (1%nat, 7) [mkD 1000000000000001 2 1; mkD (-666666666666664) 2 3] in
  tame (r_shape part) /\ settled (r_shape part) /\
  (h <- k_copy false ex_heap ex_src ex_dst ;; k_equal false Z.eqb h part ex_dst) = Ok true /\
  k_equal false Z.eqb ex_heap part ex_dst = Ok false /\ k_ref_eq false Z.eqb ex_heap part part = Ok true /\
  k_ref_eq false Z.eqb ex_heap part (mkR (1%nat, 4) (r_shape part)) = Ok false.
Proof.
  cbv zeta. split; [apply tameb_ok; vm_compute; reflexivity|]. split; [apply settledb_ok; vm_compute; reflexivity|].
  vm_compute. auto.
Qed.
Example C69_example_data :
  let s := [mkD 1000000000000000 3 (-4); mkD 5 4 1] in
  tame s /\ Forall (fun d => ~ unknown_stride d) s /\ k_ref_data (mkR (1%nat, 8) s) = Ok (1%nat, 0).
Proof.
  cbv zeta. split; [apply tameb_ok; vm_compute; reflexivity|].
  split; [repeat constructor; unfold unknown_stride; cbn; discriminate|reflexivity].
Qed.
Print Assumptions C69_copy.
Print Assumptions C69_move.
Print Assumptions C69_fill.
Print Assumptions C69_generate.
Print Assumptions C69_transform_index.
Print Assumptions C69_equal.
Print Assumptions C69_operator_eq.
Print Assumptions C69_data.
Print Assumptions C69_data_refuted.

(** ** C70: arrays *)
(** One operation *)
Theorem C70_step : forall (V : Type) (c : config V) (w : world V) (o : op V),
  fair c -> tame (c_shape0 c) -> reachable c w -> tame_world w -> legal_op c w o -> tame_op w o ->
  exists w', k_step c w o = Ok w' /\ step c w o = Ok w' /\ tame_world w'.
Proof. exact @step_64. Qed.
(** A program, where no array that is read, written or reshaped lacks a stride (an empty dimension
    may) *)
Theorem C70_programs : forall (V : Type) (c : config V) (ops : list (op V)),
  fair c -> tame (c_shape0 c) -> legal c empty_world ops -> tame_ops c empty_world ops ->
  exists w, k_run c ops empty_world = Ok w /\ run c ops empty_world = Ok w.
Proof. exact @programs_64. Qed.
(** If the default shape has extent 0 in the dimensions without stride, this is no restriction. *)
Theorem C70_settled_programs : forall (V : Type) (c : config V) (ops : list (op V)),
  fair c -> tame (c_shape0 c) -> settled (c_shape0 c) -> legal c empty_world ops -> Forall tame_shapes ops ->
  exists w, k_run c ops empty_world = Ok w /\ run c ops empty_world = Ok w.
Proof. exact @settled_programs_64. Qed.
Theorem C70_set_shape : forall (V : Type) (c : config V) (a : arr) (new : shape) (off : Z),
  Forall is_dim new -> Forall is_dim (a_shape a) ->
  reach new <= 9223372036854775807 -> reach (a_shape a) + Z.abs off <= 9223372036854775807 ->
  k_arr_set_shape c a new off = arr_set_shape c a new off.
Proof. exact @arr_set_shape_64. Qed.
Theorem C70_move_reinterpret : forall (V : Type) (c : config V) (x : nat) (h : heap V) (y : nat) (b : arr) (old0 new : shape) (off : Z),
  tame (c_shape0 c) -> Forall is_dim new -> Forall is_dim (a_shape b) ->
  reach new <= 9223372036854775807 -> reach (a_shape b) + Z.abs off <= 9223372036854775807 ->
  k_move_reinterpret_shape c x h y b old0 new off = move_reinterpret_shape c x h y b old0 new off.
Proof. exact @move_reinterpret_64. Qed.
(** Reshaping a moved-from array whose type fixes some of the extents multiplies the placeholder
    for an unknown stride by an extent. *)
Theorem C70_reshape_refuted : exists (c : config Z) (ops : list (op Z)),
  fair c /\ tame (c_shape0 c) /\ legal c empty_world ops /\ Forall tame_shapes ops /\
  (exists w, run c ops empty_world = Ok w) /\ k_run c ops empty_world = UB.
Proof. exact reshape_overflows. Qed.
(** An array whose elements are 2048 consecutive values cannot be constructed if one min is 2^60. *)
Theorem C70_far_refuted : exists s : list dim, Forall is_dim s /\ ends_fit s /\ box_size s = 2048 /\ layout_budget s = 2048 /\
  reach s = 2047 /\ legal debug2 empty_world [New s 0] /\ (exists w, run debug2 [New s 0] empty_world = Ok w) /\
  k_run debug2 [New s 0] empty_world = UB.
Proof. exact far_overflows. Qed.
Example C70_example_programs :
  tame dyn2 /\ settled dyn2 /\ Forall tame_shapes (prog ++ cleanup) /\
  kind (k_run debug2 (prog ++ cleanup) empty_world) = 0%nat /\ kind (k_run auto2 (prog ++ cleanup) empty_world) = 0%nat.
Proof.
  split; [exact tame_dyn2|]. split; [exact settled_dyn2|]. split; [apply tame_shapesb_ok; vm_compute; reflexivity|].
  split; vm_compute; reflexivity.
Qed.
(** Planes of 1920x1080 pixels with a border of 8; a terabyte, far from the origin *)
Example C70_example_tame :
  tame [mkD (-8) 1936 unresolved; mkD (-8) 1096 unresolved; mkD 0 3 unresolved] /\
  tame [mkD (-8) 1936 3; mkD (-8) 1096 unresolved; mkD 0 3 1] /\
  tame [mkD 1000000 1048576 unresolved; mkD (-1000000) 1048576 unresolved].
Proof. split; [|split]; apply tameb_ok; vm_compute; reflexivity. Qed.
(** With a default shape that is not settled, but no moved-from array is used *)
Example C70_example_half :
  let ops := [New [mkD 0 3 unresolved; mkD 0 2 unresolved] 0; NewMove 0%nat; Write 1%nat [2; 1] 9;
              Reshape 1%nat [mkD 0 3 unresolved; mkD 0 4 unresolved]; Delete 0%nat; NewCopy 1%nat] in
  fair half /\ tame (c_shape0 half) /\ ~ settled (c_shape0 half) /\ legal half empty_world ops /\
  tame_ops half empty_world ops /\ kind (k_run half ops empty_world) = 0%nat.
Proof.
  cbv zeta. split; [exact fair_half|]. split; [apply tameb_ok; vm_compute; reflexivity|].
  split; [intros H; inversion H as [|d l X Y]; specialize (X eq_refl); discriminate X|].
  split; [apply legalb_ok; vm_compute; reflexivity|]. split; [apply tame_opsb_ok; vm_compute; reflexivity|].
  vm_compute. reflexivity.
Qed.
Example C70_example_step :
  let w := state debug2 pre in
  reachable debug2 w /\ tame_world w /\ legal_op debug2 w (MoveAssign 1%nat 0%nat) /\ tame_op w (MoveAssign 1%nat 0%nat).
Proof.
  cbv zeta. split; [apply state_reachable; [apply fair2; left; lia|vm_compute; reflexivity]|].
  split; [|split; [apply op_okb_ok; vm_compute; reflexivity|apply tame_opb_ok; vm_compute; reflexivity]].
  intros x a E. destruct x as [|[|x]].
  - vm_compute in E. injection E as <-. split; [apply tameb_ok; vm_compute; reflexivity|].
    intros _. apply settledb_ok; vm_compute; reflexivity.
  - vm_compute in E. injection E as <-. split; [apply tameb_ok; vm_compute; reflexivity|].
    intros _. apply settledb_ok; vm_compute; reflexivity.
  - vm_compute in E. discriminate E.
Qed.
Example C70_example_set_shape :
  let a := mkA 0 false (1%nat, 0) 12 (1%nat, 0) [mkD 0 4 1; mkD 0 3 4] in
  Forall is_dim (a_shape a) /\ reach (a_shape a) = 11 /\ Forall is_dim [mkD 0 4 (-1); mkD 0 3 (-4)] /\
  k_arr_set_shape debug2 a [mkD 0 4 (-1); mkD 0 3 (-4)] 11 = arr_set_shape debug2 a [mkD 0 4 (-1); mkD 0 3 (-4)] 11 /\
  kind (k_arr_set_shape debug2 a [mkD 0 4 (-1); mkD 0 3 (-4)] 11) = 0%nat /\
  k_arr_set_shape debug2 a [mkD 0 4 (-1); mkD 0 3 (-4)] 10 = AssertFail /\
  k_arr_set_shape debug2 a [mkD 0 4 1; mkD 0 3 4] (-9223372036854775808) = UB.
Proof.
  cbv zeta. split; [repeat constructor; cbn; lia|]. split; [reflexivity|]. split; [repeat constructor; cbn; lia|].
  vm_compute. auto.
Qed.
Print Assumptions C70_step.
Print Assumptions C70_programs.
Print Assumptions C70_settled_programs.
Print Assumptions C70_set_shape.
Print Assumptions C70_move_reinterpret.
Print Assumptions C70_reshape_refuted.
Print Assumptions C70_far_refuted.
