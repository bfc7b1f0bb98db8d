(** C65: the order of value traversals in memory, and copies between views that share elements. *)
From Verif Require Import Tac Interval Shape Traverse Memory Ref Spec SpecMem SpecAlias ShapeFacts ResolveFacts AliasFacts.
From Coq Require Import Sorted.
Import ListNotations.
Open Scope Z_scope.

(** The heap of the examples: block 1 holds 0..11 *)
Definition ex_heap : heap Z := mkH 2 (fun k => match k with 1%nat => Some (mkB (Base 0) 12 (fun x => Live x)) | _ => None end).
Definition dump (h : outcome (heap Z)) : list (option (cell Z)) :=
  match h with Ok h => map (fun x => peek h (1%nat, x)) (zseq 0 12) | _ => [] end.
Definition live (l : list Z) : list (option (cell Z)) := map (fun x => Some (Live x)) l.

Theorem C65_memory_order : forall (s : shape) (base : Z), extents_ge 0 s -> nested s -> ascending s ->
  exists l, enumerates (in_bounds s) l /\
    for_each_value s base = map (fun i => [base + offset s i]) l /\
    StronglySorted (fun i j => offset s i < offset s j) l.
Proof. exact for_each_value_ascends. Qed.
Theorem C65_copy_same_place : forall (V : Type) (ndebug : bool) (h : heap V) (src dst : aref),
  length (r_shape src) = length (r_shape dst) ->
  extents_ge 0 (r_shape dst) -> within (r_shape dst) (r_shape src) -> injective_layout (r_shape dst) ->
  (forall i, in_bounds (r_shape dst) i -> alive h (elem (r_base src) (r_shape src) i)) ->
  (forall i, in_bounds (r_shape dst) i -> alive h (elem (r_base dst) (r_shape dst) i)) ->
  (forall i j, in_bounds (r_shape dst) i -> in_bounds (r_shape dst) j ->
     elem (r_base src) (r_shape src) i = elem (r_base dst) (r_shape dst) j -> i = j) ->
  exists h', copy ndebug h src dst = Ok h' /\
    (forall i, in_bounds (r_shape dst) i ->
       peek h' (elem (r_base dst) (r_shape dst) i) = peek h (elem (r_base src) (r_shape src) i)) /\
    only_changes (is_elem (r_base dst) (r_shape dst)) h h'.
Proof. exact @copy_place. Qed.
Theorem C65_copy_self : forall (V : Type) (ndebug : bool) (h : heap V) (r : aref),
  extents_ge 0 (r_shape r) -> injective_layout (r_shape r) ->
  (forall i, in_bounds (r_shape r) i -> alive h (elem (r_base r) (r_shape r) i)) ->
  exists h', copy ndebug h r r = Ok h' /\ (forall p, peek h' p = peek h p) /\ only_changes (fun _ => False) h h'.
Proof. exact @copy_self. Qed.
Theorem C65_copy_down : forall (V : Type) (ndebug : bool) (h : heap V) (src dst : aref),
  length (r_shape src) = length (r_shape dst) ->
  extents_ge 0 (r_shape dst) -> within (r_shape dst) (r_shape src) ->
  nested (r_shape dst) -> ascending (r_shape dst) ->
  (forall i, in_bounds (r_shape dst) i -> alive h (elem (r_base src) (r_shape src) i)) ->
  (forall i, in_bounds (r_shape dst) i -> alive h (elem (r_base dst) (r_shape dst) i)) ->
  moves_down (r_base src) (r_shape src) (r_base dst) (r_shape dst) ->
  exists h', copy ndebug h src dst = Ok h' /\
    (forall i, in_bounds (r_shape dst) i ->
       peek h' (elem (r_base dst) (r_shape dst) i) = peek h (elem (r_base src) (r_shape src) i)) /\
    only_changes (is_elem (r_base dst) (r_shape dst)) h h'.
Proof. exact @copy_down_nested. Qed.
(** Copying towards lower indices moves the elements; copying [k] towards higher indices repeats
    the first [k] elements. *)
Theorem C65_copy_shifted : forall (V : Type) (ndebug : bool) (h : heap V) (src : ptr) (ds : dim) (dst : ptr) (dd : dim) (k : Z),
  0 <= dext dd -> within [dd] [ds] -> shifted src ds dst dd k ->
  (forall x, in_dim dd x -> alive h (elem src [ds] [x]) /\ alive h (elem dst [dd] [x])) ->
  exists h', copy ndebug h (mkR src [ds]) (mkR dst [dd]) = Ok h' /\
    (forall x, in_dim dd x ->
       peek h' (elem dst [dd] [x]) =
       peek h (elem src [ds] [if 0 <? k then dmin dd + (x - dmin dd) mod k else x])) /\
    only_changes (is_elem dst [dd]) h h'.
Proof. exact @copy_shifted. Qed.
(** So [copy] is not memmove *)
Theorem C65_memmove_refuted : exists (src dst : aref) (h' : heap Z) (i : index),
  r_shape src = r_shape dst /\ copy false ex_heap src dst = Ok h' /\ in_bounds (r_shape dst) i /\
  peek h' (elem (r_base dst) (r_shape dst) i) <> peek ex_heap (elem (r_base src) (r_shape src) i).
Proof.
  exists (mkR (1%nat, 0) [mkD 0 6 1]), (mkR (1%nat, 2) [mkD 0 6 1]). eexists. exists [3].
  split; [reflexivity|]. split; [reflexivity|]. split; [repeat constructor; discriminate|]. vm_compute. discriminate.
Qed.

Example C65_example_order : let s := [mkD 0 2 6; mkD 5 3 2; mkD (-1) 2 1] in
  extents_ge 0 s /\ nested s /\ ascending s /\
  for_each_value s 100 = map (fun x => [x]) (zseq 100 12).
Proof.
  cbn zeta. split; [repeat constructor; simpl; lia|]. split.
  - split; repeat constructor; cbn [dext dstr]; try lia; unfold nested2; cbn [dext dstr]; intros _ _; lia.
  - split; [repeat constructor; cbn [dext dstr]; lia|]. reflexivity.
Qed.
(** A view and the same view without its first row *)
Example C65_example_same_place :
  dump (copy false ex_heap (mkR (1%nat, 0) [mkD 0 4 1; mkD 0 3 4]) (mkR (1%nat, 4) [mkD 0 4 1; mkD 1 2 4])) =
  live [0; 1; 2; 3; 4; 5; 6; 7; 8; 9; 10; 11] /\
  forall i j, in_bounds [mkD 0 4 1; mkD 1 2 4] i -> in_bounds [mkD 0 4 1; mkD 1 2 4] j ->
    elem (1%nat, 0) [mkD 0 4 1; mkD 0 3 4] i = elem (1%nat, 4) [mkD 0 4 1; mkD 1 2 4] j -> i = j.
Proof.
  split; [reflexivity|]. intros i j Hi Hj E.
  destruct i as [|a [|b [|]]]; try solve [inv Hi; inv H4; try inv H6].
  destruct j as [|c [|d [|]]]; try solve [inv Hj; inv H4; try inv H6].
  inv Hi. inv H4. inv Hj. inv H7.
  unfold in_dim in *. cbn [dmin dext] in *. apply (f_equal snd) in E. unfold elem in E. cbn [offset snd dmin dstr] in E.
  assert (a = c /\ b = d) as [-> ->] by lia. reflexivity.
Qed.
(** The rows of a 4x3 image moved up by one row *)
Example C65_example_down : let src := mkR (1%nat, 4) [mkD 0 4 1; mkD 0 2 4] in let dst := mkR (1%nat, 0) [mkD 0 4 1; mkD 0 2 4] in
  moves_down (r_base src) (r_shape src) (r_base dst) (r_shape dst) /\ nested (r_shape dst) /\ ascending (r_shape dst) /\
  dump (copy false ex_heap src dst) = live [4; 5; 6; 7; 8; 9; 10; 11; 8; 9; 10; 11].
Proof.
  cbn zeta. cbn [r_base r_shape]. split; [|split; [|split]].
  - intros _ i _. unfold elem. cbn [snd]. lia.
  - split; repeat constructor; cbn [dext dstr]; try lia; unfold nested2; cbn [dext dstr]; intros _ _; lia.
  - repeat constructor; cbn [dext dstr]; lia.
  - reflexivity.
Qed.
(** Two indices up, and two down in a view with a negative stride *)
Example C65_example_up : shifted (1%nat, 0) (mkD 0 6 1) (1%nat, 2) (mkD 0 6 1) 2 /\
  dump (copy false ex_heap (mkR (1%nat, 0) [mkD 0 6 1]) (mkR (1%nat, 2) [mkD 0 6 1])) =
  live [0; 1; 0; 1; 0; 1; 0; 1; 8; 9; 10; 11].
Proof.
  split; [|reflexivity]. split; [reflexivity|]. split; [discriminate|]. intros i. unfold elem. cbn [fst snd offset dmin dstr].
  f_equal. lia.
Qed.
Example C65_example_back : shifted (1%nat, 9) (mkD 0 8 (-1)) (1%nat, 11) (mkD 0 8 (-1)) (-2) /\
  dump (copy false ex_heap (mkR (1%nat, 9) [mkD 0 8 (-1)]) (mkR (1%nat, 11) [mkD 0 8 (-1)])) =
  live [0; 1; 2; 3; 2; 3; 4; 5; 6; 7; 8; 9].
Proof.
  split; [|reflexivity]. split; [reflexivity|]. split; [discriminate|]. intros i. unfold elem. cbn [fst snd offset dmin dstr].
  f_equal. lia.
Qed.
Print Assumptions C65_memory_order.
Print Assumptions C65_copy_same_place.
Print Assumptions C65_copy_self.
Print Assumptions C65_copy_down.
Print Assumptions C65_copy_shifted.
Print Assumptions C65_memmove_refuted.
