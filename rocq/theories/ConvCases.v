(** A concrete convolution: input of 2 channels of 4x3, a filter of 3x2x2x2 with a bias behind
    it, output of 3 channels of 3x2; and a 1x1 one with a NaN. *)
From Coq Require Import ZArith List Bool Lia.
From Verif Require Import Tac Interval Shape Memory Ref Spec SpecMem SpecContainer SpecEin Container Conv SpecConv
  ShapeFacts MemFacts ContainerCases EinCases MatrixCases.
Import ListNotations.
Open Scope Z_scope.

Definition heapC : heap Z := heap3
  [1; -1; 2; 0; 3; 1; -2; 2; 0; 4; 1; 1; 5; -3; 2; 2; 1; 0; 0; 1; -1; 2; 3; 1]
  [1; 0; -1; 2; 1; 0; 0; 3; 1; -1; 1; 1; 2; -2; 0; 1; 0; 1; 1; 1; -1; 0; 2; 1; 10; -20; 5]
  [9; 9; 9; 9; 9; 9; 9; 9; 9; 9; 9; 9; 9; 9; 9; 9; 9; 9].
Definition cI : aref := mkR (1%nat, 0) [mkD 0 2 1; mkD 5 4 2; mkD 1 3 8; mkD 7 1 24].
Definition cF : aref := mkR (2%nat, 0) [mkD 0 3 1; mkD 0 2 3; mkD (-1) 2 6; mkD 0 2 12].
Definition cB : aref := mkR (2%nat, 24) [mkD 0 3 1].
Definition cO : aref := mkR (3%nat, 0) [mkD 0 3 1; mkD 5 3 3; mkD 2 2 9; mkD 7 1 18].

Lemma conv_check (h : heap Z) (I F B O : aref) (dco dx dy dn fco fx fy fc : dim) :
  r_shape O = [dco; dx; dy; dn] -> r_shape F = [fco; fx; fy; fc] -> extents_ge 0 [dco; dx; dy; dn; fx; fy; fc] ->
  (forall co x y n i j k, in_bounds [dco; dx; dy; dn] [co; x; y; n] -> in_bounds [fx; fy; fc] [i; j; k] ->
    in_bounds (r_shape F) [co; i; j; k] /\ in_bounds (r_shape I) [k; x + i; y + j; n]) ->
  (forall co, in_dim dco co -> in_bounds (r_shape B) [co]) ->
  viewb h I = true -> viewb h F = true -> viewb h B = true -> viewb h O = true -> properb (r_shape O) = true ->
  apartb O [(I, []); (F, []); (B, [])] = true -> usable_heap h ->
  conv_setting h I F B O (view_of h I) (view_of h F) (view_of h B) dco dx dy dn fx fy fc.
Proof.
  intros SO SF X R Bi VI VF VB VO P Ap U. apply apartb_ok in Ap.
  constructor; auto.
  - exists fco. auto.
  - split; [apply viewb_ok; auto|]. split; apply viewb_ok; auto.
  - apply viewb_ok; auto.
  - apply properb_ok. auto.
  - intros Q HQ i Hi. apply (Ap Q []); [cbn; intuition subst; auto|auto].
Qed.
Ltac bounds_ := repeat match goal with
  | H : in_bounds _ (_ :: _) |- _ => inversion H; clear H; subst
  | H : Forall2 in_dim _ _ |- _ => inversion H; clear H; subst
  end; unfold in_dim in *; cbn [dmin dext] in *.
Lemma setting_C : conv_setting heapC cI cF cB cO (view_of heapC cI) (view_of heapC cF) (view_of heapC cB)
  (mkD 0 3 1) (mkD 5 3 3) (mkD 2 2 9) (mkD 7 1 18) (mkD 0 2 3) (mkD (-1) 2 6) (mkD 0 2 12).
Proof.
  apply (conv_check heapC cI cF cB cO _ _ _ _ (mkD 0 3 1)); try reflexivity.
  - repeat constructor; discriminate.
  - intros. bounds_. split; repeat constructor; cbn; lia.
  - intros co H. unfold in_dim in H. cbn in H. repeat constructor; cbn; lia.
  - apply heap3_usable.
Qed.

(** ** NaN: the number 99, which is not comparable and absorbs sums and products *)
Definition nan (a b : Z) : bool := (a =? 99) || (b =? 99).
Definition nan_add (a b : Z) : Z := if nan a b then 99 else a + b.
Definition nan_mul (a b : Z) : Z := if nan a b then 99 else a * b.
Definition nan_ltb (a b : Z) : bool := negb (nan a b) && (a <? b).
Definition heapN : heap Z := heap3 [99] [3; 4] [0].
Definition d1 : dim := mkD 0 1 1.
Definition nI : aref := mkR (1%nat, 0) [d1; d1; d1; d1].
Definition nF : aref := mkR (2%nat, 0) [d1; d1; d1; d1].
Definition nB : aref := mkR (2%nat, 1) [d1].
Definition nO : aref := mkR (3%nat, 0) [d1; d1; d1; d1].
Lemma setting_N : conv_setting heapN nI nF nB nO (view_of heapN nI) (view_of heapN nF) (view_of heapN nB) d1 d1 d1 d1 d1 d1 d1.
Proof.
  apply (conv_check heapN nI nF nB nO _ _ _ _ d1); try reflexivity.
  - repeat constructor; discriminate.
  - unfold d1. intros. bounds_. split; repeat constructor; cbn; lia.
  - intros co H. unfold in_dim in H. cbn in H. repeat constructor; cbn; lia.
  - apply heap3_usable.
Qed.
Lemma conv_nan : exists (add mul : Z -> Z -> Z) (ltb : Z -> Z -> bool) (h h1 h2 : heap Z) (I F B O : aref) (f g b : list Z -> Z)
    (dco dx dy dn fx fy fc : dim) (p : ptr),
  (forall a b, ltb a b = true -> ltb b a = false) /\ (forall a b c, ltb a b = true -> ltb b c = true -> ltb a c = true) /\
  conv_setting h I F B O f g b dco dx dy dn fx fy fc /\
  conv2d_naive 0 add mul ltb I F B O h = Ok h1 /\ conv2d_tiled 0 add mul ltb false 1 1 I F B O h = Ok h2 /\
  is_elem (r_base O) (r_shape O) p /\ peek h1 p <> peek h2 p.
Proof.
  pose (r1 := conv2d_naive 0 nan_add nan_mul nan_ltb nI nF nB nO heapN).
  pose (r2 := conv2d_tiled 0 nan_add nan_mul nan_ltb false 1 1 nI nF nB nO heapN).
  exists nan_add, nan_mul, nan_ltb, heapN, (match r1 with Ok h => h | _ => heapN end), (match r2 with Ok h => h | _ => heapN end),
    nI, nF, nB, nO, (view_of heapN nI), (view_of heapN nF), (view_of heapN nB), d1, d1, d1, d1, d1, d1, d1, (3%nat, 0).
  split. { intros a b. unfold nan_ltb, nan. lia. }
  split. { intros a b c. unfold nan_ltb, nan. lia. }
  split; [exact setting_N|]. split; [reflexivity|]. split; [reflexivity|].
  split. { exists [0; 0; 0; 0]. split; [unfold nO, d1; repeat constructor; cbn; lia|reflexivity]. }
  vm_compute. discriminate.
Qed.
