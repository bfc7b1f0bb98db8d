(** Concrete cases for resampling in 64 bits. *)
From Coq Require Import ZArith QArith List Bool Lia.
From Verif Require Import Tac Interval Shape Memory Ref Spec SpecMem SpecEin SpecChecked SpecViewChecked SpecContChecked Container Rational SpecRational
  Resample ResChecked SpecResample SpecResChecked ShapeFacts EinUses MatrixFacts ContainerCases ResampleFacts ResampleWhole ResampleExact ResampleCases ResCheckedFacts.
Import ListNotations.
Open Scope Z_scope.

(** Images far from 0: 32 x 1 pixels, in row 2^52, to 1 x 64, from row 2^58 *)
Definition farI : aref := mkR (1%nat, 0) [mkD 0 32 1; mkD (2 ^ 52) 1 32; mkD 0 1 32].
Definition farO : aref := mkR (2%nat, 0) [mkD 0 1 1; mkD (2 ^ 58) 64 1; mkD 0 1 64].
Definition heapFar : heap Q := mkH 3 (fun k => match k with
  | 1%nat => Some (mkB (Base 0) 32 (fun z => Live (rV z)))
  | 2%nat => Some (mkB (Base 0) 64 (fun _ => Live 0%Q))
  | _ => None end).
Definition farF (i : list Z) : Q := rV (offset (r_shape farI) i).
Lemma linear_far_y y : 2 ^ 58 <= y < 2 ^ 58 + 64 -> usable_weights exact (weight exact (linear exact) (mkQ 64 1) y) (2 ^ 52) 1.
Proof.
  intro H. apply usable_inside; [apply linear_positive|cbn; lia..|]. change (2 ^ 58) with 288230376151711744 in H. change (2 ^ 52) with 4503599627370496.
  unfold inside. rewrite !position_val. change (val (mkQ 64 1)) with (64 # 1)%Q. unfold Qle, Qminus, Qplus, Qopp, Qdiv, Qmult, Qinv, inject_Z. cbn [Qnum Qden]. lia.
Qed.
Lemma resampling_far :
  resampling exact heapFar farI farO farF (mkQ 1 32) (mkQ 64 1) (linear exact) (mkD 0 32 1) (mkD (2 ^ 52) 1 32) (mkD 0 1 32)
    (mkD 0 1 1) (mkD (2 ^ 58) 64 1) (mkD 0 1 64).
Proof.
  constructor; try reflexivity.
  - split; repeat constructor; discriminate.
  - cbn. lia.
  - unfold rate_ok. cbn [numerator denominator dmin dext]. change (2 ^ 58) with 288230376151711744. change (2 ^ 60) with 1152921504606846976.
    split; (split; [lia|split; [lia|intros; lia]]).
  - intros x Hx. unfold in_dim in Hx. cbn [dmin dext] in *. apply usable_inside; [apply linear_positive|cbn; lia..|]. apply (inside_scaled _ 32 1); cbn; lia.
  - intros y Hy. unfold in_dim in Hy. cbn [dmin dext] in *. apply linear_far_y. exact Hy.
  - intros i Hi. inversion_clear Hi as [|? x ? ? X Hi']. inversion_clear Hi' as [|? y ? ? Y Hi]. inversion_clear Hi as [|? c ? ? C Hi']. inversion_clear Hi'.
    unfold in_dim in *. cbn [dmin dext] in *. unfold holds, peek, elem, farF. cbn [fst snd r_base r_shape farI heapFar h_blk b_size b_cell].
    set (z := offset _ _). assert (B : 0 <= z < 32) by (unfold z; cbn [offset dmin dstr]; lia).
    replace (0 + z) with z by lia. destruct (Z.leb_spec 0 z), (Z.ltb_spec z 32); try lia; reflexivity.
  - intros i Hi. inversion_clear Hi as [|? x ? ? X Hi']. inversion_clear Hi' as [|? y ? ? Y Hi]. inversion_clear Hi as [|? c ? ? C Hi']. inversion_clear Hi'.
    unfold in_dim in *. cbn [dmin dext] in *. exists 0%Q. unfold holds, peek, elem. cbn [fst snd r_base r_shape farO heapFar h_blk b_size b_cell].
    set (z := offset _ _). assert (B : 0 <= z < 64) by (unfold z; cbn [offset dmin dstr]; lia).
    replace (0 + z) with z by lia. destruct (Z.leb_spec 0 z), (Z.ltb_spec z 64); try lia; reflexivity.
  - intros i j Hi Hj.  inversion_clear Hi as [|? x ? ? X Hi']. inversion_clear Hi' as [|? y ? ? Y Hi]. inversion_clear Hi as [|? c ? ? C Hi']. inversion_clear Hi'.
    inversion_clear Hj as [|? x' ? ? X' Hj']. inversion_clear Hj' as [|? y' ? ? Y' Hj]. inversion_clear Hj as [|? c' ? ? C' Hj']. inversion_clear Hj'.
    unfold in_dim in *. cbn [dmin dext offset dstr r_shape farO] in *. intro E. f_equal; [lia|]. f_equal; [lia|]. f_equal. lia.
  - intros i _ (o & _ & E). apply (f_equal fst) in E. discriminate.
  - split; [cbn; lia|]. split; [reflexivity|]. intros k Hk. cbn [h_next heapFar] in Hk. do 3 (destruct k as [|k]; [lia|]). reflexivity.
Qed.
Ltac roomy_ := unfold roomy, ends_fit, is_dim, is_index, unknown_stride, reach, dynamic; change unresolved with (-9223372036854775808);
  change (2 ^ 58) with 288230376151711744; change (2 ^ 52) with 4503599627370496;
  split; [|split; [|split]]; repeat apply Forall_cons; try apply Forall_nil; cbn [dmin dext dstr map fold_right]; lia.
Lemma far_overflows : exists (h : heap Q) (I O : aref) (f : list Z -> Q) (rx ry : rational) (kernel : Q -> Q) (ix iy ic ox oy oc : dim),
  resampling exact h I O f rx ry kernel ix iy ic ox oy oc /\ roomy [ix; iy; ic] /\ roomy [ox; oy; oc] /\ side_fits ix /\ side_fits iy /\
  k_resample exact false I O rx ry kernel h = UB.
Proof.
  exists heapFar, farI, farO, farF, (mkQ 1 32), (mkQ 64 1), (linear exact), (mkD 0 32 1), (mkD (2 ^ 52) 1 32), (mkD 0 1 32),
    (mkD 0 1 1), (mkD (2 ^ 58) 64 1), (mkD 0 1 64). split; [apply resampling_far|]. split; [roomy_|]. split; [roomy_|].
  split; [unfold side_fits, farthest; cbn [dmin dext]; lia|].
  split; [unfold side_fits, farthest; cbn [dmin dext]; change (2 ^ 52) with 4503599627370496; lia|]. vm_compute. reflexivity.
Qed.

(** The images of C56: 2x4 to 3x65 *)
Lemma sizes_R : sizes_fit (mkD 0 2 1) (mkD 0 4 2) (mkD 0 1 8) (mkD 0 3 1) (mkD 0 65 3) (mkD 0 1 195).
Proof. apply modest_fits; unfold modest; cbn [dmin dext dstr]; lia. Qed.
Lemma resample_checked_example :
  resampling exact heapR rI rO rF rateX rateY (linear exact) (mkD 0 2 1) (mkD 0 4 2) (mkD 0 1 8) (mkD 0 3 1) (mkD 0 65 3) (mkD 0 1 195) /\
  sizes_fit (mkD 0 2 1) (mkD 0 4 2) (mkD 0 1 8) (mkD 0 3 1) (mkD 0 65 3) (mkD 0 1 195) /\
  (exists h' q, k_resample exact false rI rO rateX rateY (linear exact) heapR = Ok h' /\ holds h' (2%nat, 100) q /\ (q == 3)%Q) /\
  match k_build_kernels exact false name_x 1 (linear exact) rateX (mkI 0 2) (mkI 0 3) heapR with
  | Ok (h, ks) => map a_shape ks = [[mkD 0 1 1]; [mkD 0 2 1]; [mkD 1 1 1]]
  | _ => False
  end /\
  k_resample exact false rI (mkR (2%nat, 0) [mkD 0 3 1; mkD 0 63 3; mkD 0 1 189]) rateX rateY (linear exact) heapR = AssertFail /\
  sizes_fit (mkD 0 16777216 3) (mkD 0 16777216 50331648) (mkD 0 3 1) (mkD 0 16777216 3) (mkD 0 16777216 50331648) (mkD 0 3 1) /\
  sizes_fit (mkD 1000000 640 1) (mkD (-5000) 480 640) (mkD 0 3 307200) (mkD (-30) 64 4) (mkD 7 64 256) (mkD 1 2 1).
Proof.
  split; [apply resampling_R, linear_positive|]. split; [exact sizes_R|]. split; [|split; [|split; [|split]]].
  - destruct (k_resample_ok exact false _ _ _ _ _ _ _ _ _ _ _ _ _ (resampling_R _ linear_positive) sizes_R) as (h' & E & V & _).
    exists h'. eexists. split; [exact E|]. split.
    + refine (V 1 33 0 _). repeat constructor; discriminate.
    + vm_compute. reflexivity.
  - vm_compute. reflexivity.
  - vm_compute. reflexivity.
  - apply modest_fits; unfold modest; cbn [dmin dext dstr]; lia.
  - constructor; unfold side_fits, strip_fits, farthest; cbn [dmin dext]; try lia; roomy_.
Qed.
