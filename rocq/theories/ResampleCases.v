(** A concrete resampling: an image of 2x4 to one of 3x65, which takes two overlapping strips; and
    inputs that are not checked for without assertions. *)
From Coq Require Import ZArith QArith List Bool Lia.
From Verif Require Import Tac Interval Shape Memory Ref Spec SpecMem SpecEin Container Rational SpecRational Resample SpecResample
  ShapeFacts EinUses MatrixFacts ContainerCases ResampleFacts ResampleWhole ResampleExact.
Import ListNotations.
Open Scope Z_scope.

Definition rV (z : Z) : Q := inject_Z (z * z mod 7).
Definition heapR : heap Q := mkH 3 (fun k => match k with
  | 1%nat => Some (mkB (Base 0) 8 (fun z => Live (rV z)))
  | 2%nat => Some (mkB (Base 0) 195 (fun _ => Live 0%Q))
  | _ => None end).
Definition rI : aref := mkR (1%nat, 0) [mkD 0 2 1; mkD 0 4 2; mkD 0 1 8].
Definition rO : aref := mkR (2%nat, 0) [mkD 0 3 1; mkD 0 65 3; mkD 0 1 195].
Definition rF (i : list Z) : Q := rV (offset (r_shape rI) i).
Definition rateX : rational := mkQ 3 2.
Definition rateY : rational := mkQ 65 4.

Lemma resampling_R kernel : positive_kernel kernel ->
  resampling exact heapR rI rO rF rateX rateY kernel (mkD 0 2 1) (mkD 0 4 2) (mkD 0 1 8) (mkD 0 3 1) (mkD 0 65 3) (mkD 0 1 195).
Proof.
  intro K. constructor; try reflexivity.
  - split; repeat constructor; discriminate.
  - cbn. lia.
  - unfold rate_ok. cbn [numerator denominator rateX rateY dmin dext]. split; (split; [lia|split; [lia|intros; lia]]).
  - intros x Hx. unfold in_dim in Hx. cbn [dmin dext] in *. apply usable_inside; [auto|cbn; lia..|]. apply (inside_scaled _ 2 3); cbn; lia.
  - intros y Hy. unfold in_dim in Hy. cbn [dmin dext] in *. apply usable_inside; [auto|cbn; lia..|]. apply (inside_scaled _ 4 65); cbn; lia.
  - cbn. lia.
  - intros i Hi. inversion_clear Hi as [|? x ? ? X Hi']. inversion_clear Hi' as [|? y ? ? Y Hi]. inversion_clear Hi as [|? c ? ? C Hi']. inversion_clear Hi'.
    unfold in_dim in *. cbn [dmin dext] in *. unfold holds, peek, elem, rF. cbn [fst snd r_base r_shape rI heapR h_blk b_size b_cell].
    set (z := offset _ _). assert (B : 0 <= z < 8) by (unfold z; cbn [offset dmin dstr]; lia).
    replace (0 + z) with z by lia. destruct (Z.leb_spec 0 z), (Z.ltb_spec z 8); try lia; reflexivity.
  - intros i Hi. inversion_clear Hi as [|? x ? ? X Hi']. inversion_clear Hi' as [|? y ? ? Y Hi]. inversion_clear Hi as [|? c ? ? C Hi']. inversion_clear Hi'.
    unfold in_dim in *. cbn [dmin dext] in *. exists 0%Q. unfold holds, peek, elem. cbn [fst snd r_base r_shape rO heapR h_blk b_size b_cell].
    set (z := offset _ _). assert (B : 0 <= z < 195) by (unfold z; cbn [offset dmin dstr]; lia).
    replace (0 + z) with z by lia. destruct (Z.leb_spec 0 z), (Z.ltb_spec z 195); try lia; reflexivity.
  - intros i j Hi Hj.  inversion_clear Hi as [|? x ? ? X Hi']. inversion_clear Hi' as [|? y ? ? Y Hi]. inversion_clear Hi as [|? c ? ? C Hi']. inversion_clear Hi'.
    inversion_clear Hj as [|? x' ? ? X' Hj']. inversion_clear Hj' as [|? y' ? ? Y' Hj]. inversion_clear Hj as [|? c' ? ? C' Hj']. inversion_clear Hj'.
    unfold in_dim in *. cbn [dmin dext offset dstr r_shape rO] in *. intro E. f_equal; [lia|]. f_equal; [lia|]. f_equal. lia.
  - intros i _ (o & _ & E). apply (f_equal fst) in E. discriminate.
  - split; [cbn; lia|]. split; [reflexivity|]. intros k Hk. cbn [h_next heapR] in Hk. do 3 (destruct k as [|k]; [lia|]). reflexivity.
Qed.
Definition numbers (r : outcome (heap Q)) (at_ : list Z) : outcome (list (option Q)) :=
  match r with
  | Ok h => Ok (map (fun z => match peek h (2%nat, z) with Some (Live q) => Some (Qred q) | _ => None end) at_)
  | UB => UB
  | AssertFail => AssertFail
  end.
Lemma few_rows_unchecked : exists (h : heap Q) (I O : aref),
  r_shape I = [mkD 0 2 1; mkD 0 4 2; mkD 0 1 8] /\ r_shape O = [mkD 0 3 1; mkD 0 63 3; mkD 0 1 189] /\
  (forall i, in_bounds (r_shape I) i -> alive h (elem (r_base I) (r_shape I) i)) /\
  (forall x, 0 <= x < 3 -> usable_weights exact (weight exact (linear exact) rateX x) 0 2) /\
  (forall y, 0 <= y < 63 -> usable_weights exact (weight exact (linear exact) rateY y) 0 4) /\
  resample exact true I O rateX rateY (linear exact) h = UB.
Proof.
  exists heapR, rI, (mkR (2%nat, 0) [mkD 0 3 1; mkD 0 63 3; mkD 0 1 189]). split; [reflexivity|]. split; [reflexivity|]. split; [|split; [|split]].
  - intros i Hi. destruct (resampling_R _ linear_positive) as [_ _ _ _ _ _ _ _ _ S _ _ _ _]. exists (rF i). apply S. exact Hi.
  - intros x Hx. apply usable_inside; [apply linear_positive|cbn; lia..|]. apply (inside_scaled _ 2 3); cbn; lia.
  - intros x Hx. apply usable_inside; [apply linear_positive|cbn; lia..|]. apply (inside_scaled _ 4 65); cbn; lia.
  - vm_compute. reflexivity.
Qed.
Lemma unusable_unchecked : exists (kernel : Q -> Q) (rate : rational) (in_ out : interval) (h : heap Q),
  rate_ok rate (imin out) (iext out) /\ 0 <= iext in_ /\ 0 <= iext out /\ usable_heap h /\
  build_kernels exact true name_x 1 kernel rate in_ out h = UB.
Proof.
  exists (box_kernel exact), (mkQ 1 1), (mkI 0 3), (mkI 0 6), heapR. split; [|split; [cbn; lia|split; [cbn; lia|split]]].
  - unfold rate_ok. cbn [numerator denominator imin iext]. split; [lia|split; [lia|intros; lia]].
  - apply (resampling_R _ linear_positive).
  - vm_compute. reflexivity.
Qed.
Lemma kernels_example :
  usable_heap heapR /\ rate_ok rateX 0 3 /\ (forall k, name_x k <> 1%nat) /\
  (forall x, in_interval (mkI 0 3) x -> usable_weights exact (weight exact (linear exact) rateX x) 0 2) /\
  map (position (val rateX)) [0; 1; 2] = [-1 # 6; 1 # 2; 7 # 6]%Q /\
  match build_kernels exact false name_x 1 (linear exact) rateX (mkI 0 2) (mkI 0 3) heapR with
  | Ok (h, ks) => map a_shape ks = [[mkD 0 1 1]; [mkD 0 2 1]; [mkD 1 1 1]] /\
      map (fun a => match peek h (elem (a_base a) (a_shape a) [1]) with Some (Live q) => Qred q | _ => 7%Q end) (tl ks) = [1 # 2; 1]%Q
  | _ => False
  end.
Proof.
  destruct (resampling_R _ linear_positive) as [_ _ _ _ [R _] U _ _ _ _ _ _ _ H].
  split; [exact H|]. split; [exact R|]. split; [intro k; unfold name_x; lia|]. split; [exact U|]. split; vm_compute; auto.
Qed.
Lemma resample_example :
  resampling exact heapR rI rO rF rateX rateY (linear exact) (mkD 0 2 1) (mkD 0 4 2) (mkD 0 1 8) (mkD 0 3 1) (mkD 0 65 3) (mkD 0 1 195) /\
  map (fun p => Qred (pixel exact rF rateX rateY (linear exact) (mkD 0 2 1) (mkD 0 4 2) (fst p) (snd p) 0)) [(0, 0); (1, 0); (1, 33); (1, 63)]
    = [0; 1 # 2; 3; 1 # 2]%Q /\
  numbers (resample exact false rI rO rateX rateY (linear exact) heapR) [0; 1; 100; 190] = Ok [Some 0%Q; Some (1 # 2); Some 3%Q; Some (1 # 2)] /\
  numbers (resample exact false rI (mkR (2%nat, 0) [mkD 0 3 1; mkD 0 63 3; mkD 0 1 189]) rateX rateY (linear exact) heapR) [0] = AssertFail.
Proof.
  split; [apply resampling_R, linear_positive|]. split; [vm_compute; reflexivity|]. split; [|vm_compute; reflexivity].
  destruct (resample_ok exact false _ _ _ _ _ _ _ _ _ _ _ _ _ (resampling_R _ linear_positive)) as (h' & E & V & _). rewrite E.
  pose proof (V 0 0 0) as V0. pose proof (V 1 0 0) as V1. pose proof (V 1 33 0) as V2. pose proof (V 1 63 0) as V3.
  unfold in_bounds, holds, elem in V0, V1, V2, V3. cbn [rO r_base r_shape fst snd offset dmin dstr] in V0, V1, V2, V3.
  unfold numbers. cbn [map].
  change (0 + ((0 - 0) * 1 + ((0 - 0) * 3 + ((0 - 0) * 195 + 0)))) with 0 in V0. change (0 + ((1 - 0) * 1 + ((0 - 0) * 3 + ((0 - 0) * 195 + 0)))) with 1 in V1.
  change (0 + ((1 - 0) * 1 + ((33 - 0) * 3 + ((0 - 0) * 195 + 0)))) with 100 in V2. change (0 + ((1 - 0) * 1 + ((63 - 0) * 3 + ((0 - 0) * 195 + 0)))) with 190 in V3.
  rewrite V0, V1, V2, V3 by (repeat apply Forall2_cons; try apply Forall2_nil; unfold in_dim; cbn [dmin dext]; lia).
  vm_compute. reflexivity.
Qed.
Lemma exact_example :
  positive_kernel (cubic_bspline exact) /\
  resampling exact heapR rI rO rF rateX rateY (cubic_bspline exact) (mkD 0 2 1) (mkD 0 4 2) (mkD 0 1 8) (mkD 0 3 1) (mkD 0 65 3) (mkD 0 1 195) /\
  (forall i, in_bounds (r_shape rI) i -> (0 <= rF i <= 6)%Q) /\
  map (fun s => Qred (cubic_bspline exact s)) [0; 1 # 2; -1; 3 # 2; 2]%Q = [2 # 3; 23 # 48; 1 # 6; 1 # 48; 0]%Q /\
  map (fun s => Qred (interpolating_cubic exact s)) [0; 1 # 2; -1; 3 # 2; 2]%Q = [1; 9 # 16; 0; -1 # 16; 0]%Q /\
  map (fun s => Qred (interpolating_quadratic exact s)) [0; 1 # 2; -1; 5 # 4; 2]%Q = [1; 1 # 2; 0; -1 # 16; 0]%Q /\
  map (fun s => Qred (quadratic_bspline exact s)) [0; 1 # 2; -1; 5 # 4; 2]%Q = [3 # 4; 1 # 2; 1 # 8; 1 # 32; 0]%Q /\
  Qred (pixel exact rF rateX rateY (cubic_bspline exact) (mkD 0 2 1) (mkD 0 4 2) 1 33 0) = (117263 # 40560)%Q.
Proof.
  split; [apply cubic_positive|]. split; [apply resampling_R, cubic_positive|]. split.
  - intros i _. unfold rF, rV. pose proof (Z.mod_pos_bound (offset (r_shape rI) i * offset (r_shape rI) i) 7 ltac:(lia)).
    change 0%Q with (inject_Z 0). change 6%Q with (inject_Z 6). rewrite <- !Zle_Qle. lia.
  - vm_compute. tauto.
Qed.
Lemma identity_example :
  usable_weights exact (weight exact (interpolating_cubic exact) (mkQ 1 1) 2) 0 4 /\
  tap_range exact (weight exact (interpolating_cubic exact) (mkQ 1 1) 2) 0 4 = [2] /\
  Qred (weighted exact (weight exact (interpolating_cubic exact) (mkQ 1 1) 2) 0 4 (fun i => inject_Z (i * i))) = 4%Q.
Proof. split; [apply usable_unit; [apply cubic_interpolating|reflexivity|reflexivity|lia]|]. vm_compute. tauto. Qed.
Lemma weighted_one (w : Z -> Q) (lo n : Z) : usable_weights exact w lo n -> (weighted exact w lo n (fun _ => 1) == 1)%Q.
Proof. intro U. apply weighted_const; [exact U|]. reflexivity. Qed.
