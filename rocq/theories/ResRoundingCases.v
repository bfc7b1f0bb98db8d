(** The resampling of ResampleCases.v with rounded numbers, and one that keeps the size. *)
From Coq Require Import ZArith QArith Qabs Qround Qpower List Bool Lia Lqa.
From Verif Require Import RoundingProps RoundingCases Tac Interval Shape Memory Ref Spec SpecMem SpecEin Container Rational SpecRational Resample SpecResample
  ShapeFacts EinUses MatrixFacts ContainerCases ResampleFacts ResampleWhole ResampleExact ResampleCases Rounding SpecRounding RoundingFacts
  ResRounding SpecResRounding ResRoundingFacts ResRoundingProps ResRoundingExact.
Import ListNotations.
Local Open Scope Q_scope.

Lemma R_taps u rnd x : rounds u 0 rnd -> u <= 1 # 128 -> (0 <= x < 3)%Z -> taps_within 2 (weight (rounded rnd) (linear (rounded rnd)) rateX x) 0 2.
Proof.
  intros Hr Hu Hx. apply (linear_taps u rnd Hr ltac:(lra) rateX 0 2 x); [cbn; lia..| |].
  - apply (inside_scaled _ 2 3); cbn; lia.
  - change (inject_Z (Z.abs 0 + 2)) with (2 # 1). lra.
Qed.
Lemma R_taps_y u rnd y : rounds u 0 rnd -> u <= 1 # 128 -> (0 <= y < 65)%Z -> taps_within 4 (weight (rounded rnd) (linear (rounded rnd)) rateY y) 0 4.
Proof.
  intros Hr Hu Hx. apply (linear_taps u rnd Hr ltac:(lra) rateY 0 4 y); [cbn; lia..| |].
  - apply (inside_scaled _ 4 65); cbn; lia.
  - change (inject_Z (Z.abs 0 + 4)) with (4 # 1). lra.
Qed.
Lemma small_growth u N : 0 <= u -> u <= 1 # 128 -> (N <= 4)%nat -> (grow u N - 1) * 1 < 1.
Proof.
  intros H0 H HN. pose proof (grow_mono u N 4 H0 HN) as G. cbn [grow] in G. 
  assert (0 <= ((1 # 128) - u) * u) by (apply Qmult_le_0_compat; lra). assert (0 <= ((1 # 128) - u) * (u * u)) by (repeat apply Qmult_le_0_compat; lra).
  assert (0 <= ((1 # 128) - u) * (u * u * u)) by (repeat apply Qmult_le_0_compat; lra). lra.
Qed.
Lemma resampling_rounded u rnd : rounds u 0 rnd -> u <= 1 # 128 ->
  resampling (rounded rnd) heapR rI rO rF rateX rateY (linear (rounded rnd)) (mkD 0 2 1) (mkD 0 4 2) (mkD 0 1 8) (mkD 0 3 1) (mkD 0 65 3) (mkD 0 1 195).
Proof.
  intros Hr Hu. pose proof (proj1 Hr) as U. destruct (resampling_R _ linear_positive). constructor; try assumption.
  - intros x Hx. apply (usable_rounded u rnd Hr _ _ _ 1 2); [apply linear_conditioned|apply (R_taps u); auto|apply small_growth; auto].
  - intros y Hy. apply (usable_rounded u rnd Hr _ _ _ 1 4); [apply linear_conditioned|apply (R_taps_y u); auto|apply small_growth; auto].
Qed.
Definition pixels8 : list Q := map (fun p => Qred (pixel (rounded (fl 8)) rF rateX rateY (linear (rounded (fl 8))) (mkD 0 2 1) (mkD 0 4 2) (fst p) (snd p) 0)) [(0, 0); (1, 20); (2, 20); (1, 27)]%Z.
Definition averages8 : list Q := map (fun p => Qred (average2 (weight (rounded (fl 8)) (linear (rounded (fl 8))) rateX (fst p)) (weight (rounded (fl 8)) (linear (rounded (fl 8))) rateY (snd p))
  (mkD 0 2 1) (mkD 0 4 2) (fun i j => rF [i; j; 0%Z]))) [(0, 0); (1, 20); (2, 20); (1, 27)]%Z.

(** An image of 3x65 numbers to one of the same size *)
Definition sV (z : Z) : Q := inject_Z (z mod 7) / 4.
Definition heapS : heap Q := mkH 3 (fun k => match k with
  | 1%nat => Some (mkB (Base 0) 195 (fun z => Live (sV z)))
  | 2%nat => Some (mkB (Base 0) 195 (fun _ => Live 0%Q))
  | _ => None end).
Definition sI : aref := mkR (1%nat, 0%Z) [mkD 0 3 1; mkD 0 65 3; mkD 0 1 195].
Definition sF (i : list Z) : Q := sV (offset (r_shape sI) i).
Lemma resampling_same rnd : rounds (1 # 128) 0 rnd -> keeps_integers 255 rnd ->
  resampling (rounded rnd) heapS sI rO sF (mkQ 1 1) (mkQ 1 1) (linear (rounded rnd)) (mkD 0 3 1) (mkD 0 65 3) (mkD 0 1 195) (mkD 0 3 1) (mkD 0 65 3) (mkD 0 1 195).
Proof.
  intros Hr Hk. assert (K : interpolating (linear (rounded rnd))). { apply (linear_interp (1 # 128)); [auto|lra|]. intros x z E B. apply (Hk x z); auto. lia. }
  constructor; try reflexivity.
  - split; repeat constructor; discriminate.
  - cbn. lia.
  - unfold rate_ok. cbn [numerator denominator dmin dext]. split; (split; [lia|split; [lia|intros; lia]]).
  - intros x Hx. apply (row_usable 255); auto; cbn; lia.
  - intros y Hy. apply (row_usable 255); auto; cbn; lia.
  - cbn. lia.
  - intros i Hi. inversion_clear Hi as [|? x ? ? X Hi']. inversion_clear Hi' as [|? y ? ? Y Hi]. inversion_clear Hi as [|? c ? ? C Hi']. inversion_clear Hi'.
    unfold in_dim in *. cbn [dmin dext] in *. unfold holds, peek, elem, sF. cbn [fst snd r_base r_shape sI heapS h_blk b_size b_cell].
    set (z := offset _ _). assert (B : (0 <= z < 195)%Z) by (unfold z; cbn [offset dmin dstr]; lia).
    replace (0 + z)%Z with z by lia. destruct (Z.leb_spec 0 z), (Z.ltb_spec z 195); try lia; reflexivity.
  - intros i Hi. inversion_clear Hi as [|? x ? ? X Hi']. inversion_clear Hi' as [|? y ? ? Y Hi]. inversion_clear Hi as [|? c ? ? C Hi']. inversion_clear Hi'.
    unfold in_dim in *. cbn [dmin dext] in *. exists 0%Q. unfold holds, peek, elem. cbn [fst snd r_base r_shape rO heapS h_blk b_size b_cell].
    set (z := offset _ _). assert (B : (0 <= z < 195)%Z) by (unfold z; cbn [offset dmin dstr]; lia).
    replace (0 + z)%Z with z by lia. destruct (Z.leb_spec 0 z), (Z.ltb_spec z 195); try lia; reflexivity.
  - destruct (resampling_R _ linear_positive). assumption.
  - intros i _ (o & _ & E). apply (f_equal fst) in E. discriminate.
  - split; [cbn; lia|]. split; [reflexivity|]. intros k Hk'. cbn [h_next heapS] in Hk'. do 3 (destruct k as [|k]; [lia|]). reflexivity.
Qed.
(** Numbers of 8 digits and 1/2 *)
Lemma fl_half p : (2 <= p)%Z -> keeps_half (fl p).
Proof.
  intros Hp. assert (Sc : forall x, ~ x == 0 -> Qabs x <= 1 # 2 -> (1 <= scale p x)%Z).
  { intros x Nz H. pose proof (log_bound x Nz) as L. unfold scale. set (l := (Z.log2 (Z.abs (Qnum x)) - Z.log2 (Zpos (Qden x)))%Z) in *.
    destruct (Z_lt_ge_dec 0 l) as [G|G]; [|lia]. exfalso. assert (2 <= 2 ^ l). { rewrite two_pow_Z by lia. change 2 with (inject_Z 2). rewrite <- Zle_Qle. replace l with (1 + (l - 1))%Z by lia. rewrite Z.pow_add_r by lia. pose proof (Z.pow_pos_nonneg 2 (l - 1)). lia. }
    lra. }
  split.
  - intros x H. destruct (Qeq_dec x 0) as [E|Nz]; [rewrite fl_zero by auto; cbn; lra|]. specialize (Sc x Nz H). unfold fl. set (s := scale p x) in *.
    pose proof (two_pow_pos s) as Ps. pose proof (two_pow_pos (- s)) as Pn. pose proof (two_pow_opp s) as Es. pose proof (Qfloor_le (x * 2 ^ s)) as F1.
    assert (Eh : inject_Z (2 ^ (s - 1)) == (1 # 2) * 2 ^ s). { rewrite (two_pow_Z s) by lia. replace s with (1 + (s - 1))%Z at 2 by lia. rewrite Z.pow_add_r, inject_Z_mult by lia. change (inject_Z (2 ^ 1)) with 2. ring. }
    assert (F2 : inject_Z (- 2 ^ (s - 1)) <= inject_Z (Qfloor (x * 2 ^ s))).
    { rewrite <- Zle_Qle. apply Z.lt_succ_r. rewrite Zlt_Qlt. eapply Qle_lt_trans; [|exact (Qlt_floor (x * 2 ^ s))]. rewrite inject_Z_opp, Eh.
      rewrite abs_le in H. assert (0 <= (x + (1 # 2)) * 2 ^ s) by (apply Qmult_le_0_compat; lra). lra. }
    rewrite inject_Z_opp, Eh in F2. set (k := inject_Z (Qfloor (x * 2 ^ s))) in *. rewrite abs_le in H.
    assert (0 <= ((1 # 2) - x) * 2 ^ s) by (apply Qmult_le_0_compat; lra).
    assert (G1 : 0 <= ((1 # 2) * 2 ^ s - k) * 2 ^ (- s)) by (apply Qmult_le_0_compat; lra). assert (G2 : 0 <= (k + (1 # 2) * 2 ^ s) * 2 ^ (- s)) by (apply Qmult_le_0_compat; lra).
    set (v := 2 ^ s * 2 ^ (- s)) in *. assert (E1 : ((1 # 2) * 2 ^ s - k) * 2 ^ (- s) == (1 # 2) * v - k * 2 ^ (- s)) by (unfold v; ring).
    assert (E2 : (k + (1 # 2) * 2 ^ s) * 2 ^ (- s) == (1 # 2) * v + k * 2 ^ (- s)) by (unfold v; ring). rewrite E1 in G1. rewrite E2 in G2. apply abs_le. lra.
  - intros x E. assert (Nz : ~ x == 0) by lra. assert (H : Qabs x <= 1 # 2) by (rewrite E; cbn; lra). specialize (Sc x Nz H). unfold fl. revert Sc. generalize (scale p x). intros s Hs.
    assert (Eh : x * 2 ^ s == inject_Z (2 ^ (s - 1))). { rewrite E, (two_pow_Z s) by lia. replace s with (1 + (s - 1))%Z at 1 by lia. rewrite Z.pow_add_r, inject_Z_mult by lia. change (inject_Z (2 ^ 1)) with 2. ring. }
    rewrite (Qfloor_comp _ _ Eh), Qfloor_Z, <- Eh. rewrite <- Qmult_assoc, two_pow_opp, E. reflexivity.
Qed.
