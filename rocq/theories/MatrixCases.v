(** Concrete matrices: a 3x2 matrix with rows 1..3, a 2x3 matrix, and a 3x3 result, each in a
    block of its own. *)
From Coq Require Import ZArith List Bool Lia.
From Verif Require Import Tac Interval Shape Memory Ref Spec SpecMem SpecContainer Static SpecStatic Container Ein SpecEin Matrix SpecMatrix
  ShapeFacts MemFacts ContainerCases EinUses EinCases Tiling.
Import ListNotations.
Open Scope Z_scope.

Definition heapM : heap Z := heap3 [1; 2; 3; 4; 5; 6] [1; 2; 3; 4; 5; 6] [9; 9; 9; 9; 9; 9; 9; 9; 9].
Definition tA : aref := mkR (1%nat, 0) [mkD 1 3 2; mkD 0 2 1].
Definition tB : aref := mkR (2%nat, 0) [mkD 0 2 3; mkD 0 3 1].
Definition tC : aref := mkR (3%nat, 0) [mkD 1 3 3; mkD 0 3 1].
(** What is in memory *)
Definition view_of (h : heap Z) (r : aref) (i : list Z) : Z :=
  match peek h (elem (r_base r) (r_shape r) i) with Some (Live v) => v | _ => 0 end.
Definition viewb (h : heap Z) (r : aref) : bool := forallb (fun i => aliveb h (elem (r_base r) (r_shape r) i)) (box (r_shape r)).
Lemma viewb_ok h r : viewb h r = true -> shows h r (view_of h r) /\
  forall i, in_bounds (r_shape r) i -> alive h (elem (r_base r) (r_shape r) i).
Proof.
  unfold viewb. rewrite forallb_forall. intro H.
  assert (A : forall i, in_bounds (r_shape r) i -> alive h (elem (r_base r) (r_shape r) i)).
  { intros i Hi. apply aliveb_ok, H, box_In, Hi. }
  split; [|exact A]. intros i Hi. destruct (A i Hi) as [v Hv]. unfold view_of, holds in *. rewrite Hv. reflexivity.
Qed.
Lemma heap3_usable a b c : usable_heap (heap3 a b c).
Proof.
  split; [cbn; lia|]. split; [reflexivity|]. intros [|[|[|[|k]]]] H; cbn in H; try reflexivity; lia.
Qed.
Lemma operands_check h A B C : viewb h A = true -> viewb h B = true -> viewb h C = true -> properb (r_shape C) = true ->
  apartb C [(A, []); (B, [])] = true -> operands_of h A B C (view_of h A) (view_of h B).
Proof.
  intros HA HB HC P Ap. apply apartb_ok in Ap. split; [apply viewb_ok; auto|]. split; [apply viewb_ok; auto|].
  split; [apply viewb_ok; auto|]. split; [apply properb_ok; auto|].
  split; intros i Hi; [apply (Ap A [])|apply (Ap B [])]; cbn; auto.
Qed.
Lemma setting_M : setting heapM tA tB tC (view_of heapM tA) (view_of heapM tB)
  (mkD 1 3 2) (mkD 0 2 1) (mkD 0 2 3) (mkD 0 3 1) (mkD 1 3 3) (mkD 0 3 1).
Proof.
  constructor; try reflexivity.
  - cbn; lia.
  - unfold inside, in_dim; cbn; intuition lia.
  - apply operands_check; vm_compute; reflexivity.
  - apply heap3_usable.
Qed.
(** The elements of the result *)
Definition result_of (r : outcome (heap Z)) (C : aref) : outcome (list Z) :=
  match r with Ok h => Ok (map (view_of h C) (box (r_shape C))) | UB => UB | AssertFail => AssertFail end.
(** A 3x4 array *)
Definition heapT : heap Z := heap3 [0] [0] [0; 0; 0; 0; 0; 0; 0; 0; 0; 0; 0; 0].
Definition tT : aref := mkR (3%nat, 0) [mkD 5 3 1; mkD (-1) 4 3].
(** ** The product in z-order of these matrices is wrong *)
Lemma z_order_wrong : exists (h : heap Z) (A B C : aref) (f g : list Z -> Z) (ai ak bk bj ci cj : dim),
  setting h A B C f g ai ak bk bj ci cj /\ 2 <= dext ci /\ 2 <= dext cj /\ 1 <= dext ak /\
  ~ multiplies 0 Z.add Z.mul h (multiply_reduce_tiles_z_order 0 Z.add Z.mul true 2 2 1 A B C h) C f g (range (dmin ak) (dext ak)).
Proof.
  exists heapM, tA, tB, tC, (view_of heapM tA), (view_of heapM tB),
    (mkD 1 3 2), (mkD 0 2 1), (mkD 0 2 3), (mkD 0 3 1), (mkD 1 3 3), (mkD 0 3 1).
  split; [exact setting_M|]. split; [cbn; lia|]. split; [cbn; lia|]. split; [cbn; lia|].
  intros (h' & E & H & _). specialize (H 2 0). 
  assert (Q : match multiply_reduce_tiles_z_order 0 Z.add Z.mul true 2 2 1 tA tB tC heapM with
              | Ok h' => peek h' (elem (r_base tC) (r_shape tC) [2; 0]) | _ => None end = Some (Live 35)) by (vm_compute; reflexivity).
  rewrite E in Q. unfold holds in H. rewrite Q in H. 
  assert (inner_product 0 Z.add Z.mul (view_of heapM tA) (view_of heapM tB) (range 0 2) 2 0 = 19) by (vm_compute; reflexivity).
  cbn [dmin dext] in H. rewrite H0 in H. assert (Some (Live 35) = Some (Live 19)); [apply H|discriminate].
  repeat constructor; cbn; lia.
Qed.
