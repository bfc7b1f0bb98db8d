(** Proofs about the weights of continuous kernels in floats. *)
From Coq Require Import ZArith QArith Qabs Qround Qpower List Bool Lia Lqa.
From Verif Require Import RoundingProps RoundingCases Tac Base Interval Shape Memory Ref Spec SpecMem SpecEin Rational SpecRational Resample SpecResample
  EinUses ResampleExact Rounding SpecRounding RoundingFacts ResRounding SpecResRounding ResRoundingFacts ResRoundingProps ResRoundingExact ResampleCases ResRoundingCases Float SpecFloat FloatFacts FloatProps FloatNear.
Import ListNotations.
Local Open Scope Q_scope.

Lemma abs_exact s : f_abs exact s == Qabs s.
Proof. destruct (abs_cases s) as [[A B]|[A B]]; rewrite B; [rewrite Qabs_pos by lra|rewrite Qabs_neg by lra]; lra. Qed.
(** From exact kernels *)
Lemma centred_near k32 k d : near_kernels k32 k d -> d <= 1 # 131072 ->
  (forall s, let a := f_abs exact s in (a <= 33 # 64 -> (7 # 16) + (1 # 131072) <= k s) /\ - (5 # 64) + (1 # 131072) <= k s <= (17 # 16) - (1 # 131072)) ->
  (forall s, float_number 24 s -> 2 < f_abs exact s -> k32 s == 0) -> centred k32.
Proof.
  intros N D K F s Hs. specialize (N s Hs). destruct (K s) as (K1 & K2). cbv zeta in *. specialize (F s Hs). rewrite abs_exact in *. apply abs_le in N. split; [|split].
  - intros H. specialize (K1 H). lra.
  - lra.
  - exact F.
Qed.
Lemma far_branch a b c : a == b -> 2 < b -> c <= 2 -> f_lt float32 a c = false /\ f_lt float32 c a = true.
Proof.
  intros E H L. cbn [float32 rounded f_lt]. split; [apply negb_false_iff, Qle_bool_iff; lra|apply negb_true_iff]. destruct (Qle_bool a c) eqn:G; [apply Qle_bool_iff in G; lra|reflexivity].
Qed.
Lemma literals : lit float32 1 2 <= 2 /\ lit float32 3 2 <= 2 /\ lit float32 2 1 <= 2 /\ f1 float32 <= 2.
Proof. vm_compute. repeat split; discriminate. Qed.
Lemma quadratic_far32 r s : float_number 24 s -> 2 < f_abs exact s -> quadratic_family float32 s r == 0.
Proof.
  intros Hs H. destruct (abs32 s Hs) as [E _]. destruct literals as (L1 & L2 & _). unfold quadratic_family. cbv zeta.
  rewrite (proj1 (far_branch _ _ _ E H L1)), (proj1 (far_branch _ _ _ E H L2)). reflexivity.
Qed.
Lemma cubic_far32 B C s : float_number 24 s -> 2 < f_abs exact s -> cubic_family float32 s B C == 0.
Proof.
  intros Hs H. destruct (abs32 s Hs) as [E _]. destruct literals as (_ & _ & L3 & L4). unfold cubic_family, f_le. cbv zeta.
  rewrite (proj2 (far_branch _ _ _ E H L3)), (proj2 (far_branch _ _ _ E H L4)). reflexivity.
Qed.
Lemma linear_far32 s : float_number 24 s -> 2 < f_abs exact s -> linear float32 s == 0.
Proof.
  intros Hs H. destruct (abs32 s Hs) as [E _]. unfold linear, f_max. cbn [float32 rounded f_lt f_sub f0 f1].
  pose proof (nearest_mono 24 ltac:(lia) (1 - f_abs float32 s) 0 ltac:(lra)) as M. change (nearest 24 0) with 0 in M. apply Qle_bool_iff in M. cbn [float32] in M. rewrite M. reflexivity.
Qed.
Lemma linear_centred : centred (linear float32).
Proof.
  apply (centred_near _ _ _ linear_near); [discriminate| |apply linear_far32]. intros s a. rewrite exact_linear. subst a. rewrite abs_exact. pose proof (Qabs_nonneg s). destruct (Qlt_le_dec _ _); split; intros; lra.
Qed.
Lemma quadratic_bspline_centred : centred (quadratic_bspline float32).
Proof.
  apply (centred_near _ _ _ quadratic_bspline_near); [discriminate| |intros s; apply quadratic_far32]. intros s a. unfold quadratic_bspline. rewrite quad_val. fold a. pose proof (abs_nonneg s) as P. fold a in P. clearbody a. unfold quad.
  tests; rewrite ?(lit_val 1 2) by lia; cbn [Z.to_pos]; split; intros; try nra.
Qed.
Lemma interpolating_quadratic_centred : centred (interpolating_quadratic float32).
Proof.
  apply (centred_near _ _ _ interpolating_quadratic_near); [discriminate| |intros s; apply quadratic_far32]. intros s a. unfold interpolating_quadratic. rewrite quad_val. fold a. pose proof (abs_nonneg s) as P. fold a in P. clearbody a. unfold quad. cbn [f1 exact].
  assert (S0 : 0 <= (a - (5 # 4)) * (a - (5 # 4))) by (destruct (Qlt_le_dec a (5 # 4)); [setoid_replace ((a - (5 # 4)) * (a - (5 # 4))) with (((5 # 4) - a) * ((5 # 4) - a)) by ring|]; apply Qmult_le_0_compat; lra).
  tests; rewrite ?(lit_val 1 2) by lia; cbn [Z.to_pos]; split; intros; try nra.
Qed.
Lemma cube_below a : 0 <= a -> (3 # 4) * a - (1 # 4) <= a * a * a.
Proof.
  intros P. assert (S0 : 0 <= (a - (1 # 2)) * (a - (1 # 2))) by (destruct (Qlt_le_dec a (1 # 2)); [setoid_replace ((a - (1 # 2)) * (a - (1 # 2))) with (((1 # 2) - a) * ((1 # 2) - a)) by ring|]; apply Qmult_le_0_compat; lra).
  assert (0 <= (a - (1 # 2)) * (a - (1 # 2)) * (a + 1)) by (apply Qmult_le_0_compat; lra). lra.
Qed.
Lemma cubic_bspline_centred : centred (cubic_bspline float32).
Proof.
  apply (centred_near _ _ _ cubic_bspline_near); [discriminate| |intros s; apply cubic_far32]. intros s a. unfold cubic_bspline. rewrite cubic_val. fold a. pose proof (abs_nonneg s) as P. fold a in P. clearbody a. unfold cubic. cbn [f0 f1 exact].
  assert (E1 : (2 - 1 * (3 # 2) - 0) * (a * a * a) + (- (3) + 2 * 1 + 0) * (a * a) + (1 - 1 / 3) == (1 # 2) * (a * a * a) - a * a + (2 # 3)) by field.
  assert (E2 : (- (1) / 6 - 0) * (a * a * a) + (1 + 5 * 0) * (a * a) + (- (2) * 1 - 8 * 0) * a + (1 * 4 / 3 + 4 * 0) == (1 # 6) * ((2 - a) * (2 - a) * (2 - a))) by field.
  pose proof (cube_below a P) as Cb. assert (0 <= a * a) by (apply Qmult_le_0_compat; lra). assert (0 <= a * a * a) by (apply Qmult_le_0_compat; lra).
  tests; rewrite ?E1, ?E2; (split; [intros H1; try lra|]).
  - assert (0 <= a * ((33 # 64) - a)) by (apply Qmult_le_0_compat; lra). lra.
  - assert (0 <= a * (1 - a)) by (apply Qmult_le_0_compat; lra). assert (0 <= a * a * (1 - a)) by (apply Qmult_le_0_compat; lra). assert (0 <= a * (1 - a) * (1 - a)) by (apply Qmult_le_0_compat; lra). lra.
  - set (b := 2 - a). assert (Hb : 0 <= b <= 1) by (unfold b; lra). assert (0 <= b * b) by (apply Qmult_le_0_compat; lra). assert (0 <= b * (1 - b)) by (apply Qmult_le_0_compat; lra). assert (0 <= b * b * b) by (apply Qmult_le_0_compat; lra). assert (0 <= b * b * (1 - b)) by (apply Qmult_le_0_compat; lra). lra.
  - lra.
Qed.
Lemma interpolating_cubic_centred : centred (interpolating_cubic float32).
Proof.
  apply (centred_near _ _ _ interpolating_cubic_near); [discriminate| |intros s; apply cubic_far32]. intros s a. unfold interpolating_cubic. rewrite cubic_val. fold a. pose proof (abs_nonneg s) as P. fold a in P. clearbody a. unfold cubic. cbn [f0 f1 exact].
  assert (E0 : lit exact 1 2 == 1 # 2) by reflexivity. set (C := lit exact 1 2) in *. clearbody C.
  assert (E1 : (2 - 0 * (3 # 2) - C) * (a * a * a) + (- (3) + 2 * 0 + C) * (a * a) + (1 - 0 / 3) == (3 # 2) * (a * a * a) - (5 # 2) * (a * a) + 1) by (rewrite E0; field).
  assert (E2 : (- (0) / 6 - C) * (a * a * a) + (0 + 5 * C) * (a * a) + (- (2) * 0 - 8 * C) * a + (0 * 4 / 3 + 4 * C) == - (1 # 2) * ((a - 1) * ((a - 2) * (a - 2)))) by (rewrite E0; field).
  pose proof (cube_below a P) as Cb. assert (0 <= a * a) by (apply Qmult_le_0_compat; lra). assert (0 <= a * a * a) by (apply Qmult_le_0_compat; lra).
  tests; rewrite ?E1, ?E2; (split; [intros H1; try lra|]).
  - assert (0 <= a * ((33 # 64) - a)) by (apply Qmult_le_0_compat; lra). lra.
  - assert (0 <= a * (1 - a)) by (apply Qmult_le_0_compat; lra). assert (0 <= a * a * (1 - a)) by (apply Qmult_le_0_compat; lra). assert (0 <= (1 - a) * (1 - a)) by (apply Qmult_le_0_compat; lra). assert (0 <= a * (1 - a) * (1 - a)) by (apply Qmult_le_0_compat; lra). lra.
  - assert (Sq : forall q : Q, 0 <= q * q) by (intros q; destruct (Qlt_le_dec q 0); [setoid_replace (q * q) with ((- q) * (- q)) by ring|]; apply Qmult_le_0_compat; lra).
    pose proof (Sq (a - (4 # 3))). pose proof (Sq (a - 2)). assert (0 <= (a - (4 # 3)) * (a - (4 # 3)) * ((7 # 3) - a)) by (apply Qmult_le_0_compat; lra). assert (0 <= (a - 1) * ((a - 2) * (a - 2))) by (apply Qmult_le_0_compat; lra). lra.
  - lra.
Qed.
Lemma kernels_centred : centred (linear float32) /\ centred (interpolating_quadratic float32) /\ centred (quadratic_bspline float32) /\
  centred (interpolating_cubic float32) /\ centred (cubic_bspline float32).
Proof. exact (conj linear_centred (conj interpolating_quadratic_centred (conj quadratic_bspline_centred (conj interpolating_cubic_centred cubic_bspline_centred)))). Qed.

(** ** Weights when enlarging *)
Section Weights.
Variables (kernel : Q -> Q) (rate : rational) (x lo n : Z).
Hypotheses (K : centred kernel) (D1 : (1 <= denominator rate)%Z) (En : (denominator rate <= numerator rate)%Z) (Hn : (1 <= n)%Z) (Hin : SpecResample.inside rate lo n x)
  (HB : (Z.abs lo + n <= 16384)%Z).
Notation w := (weight float32 kernel rate x).
Let p := position (val rate) x.
Lemma weight_centred i : (lo <= i < lo + n)%Z ->
  (Qabs (inject_Z i - p) <= 1 # 2 -> 7 # 16 <= w i) /\ - (5 # 64) <= w i <= 17 # 16 /\ (33 # 16 <= Qabs (inject_Z i - p) -> w i == 0).
Proof.
  intros Hi. assert (R : rounds (1 # 16777216) 0 (nearest 24)) by exact (nearest_rounds 24).
  pose proof (argument_near (1 # 16777216) (nearest 24) R ltac:(lra) rate x lo n ltac:(lia) D1 Hn Hin i Hi) as A. cbv zeta in A. fold p in A. pose proof (enlarging rate D1 En) as S1.
  set (s := at_most_1 exact _) in A, S1. clearbody s. unfold weight. cbn [float32 rounded f_mul f_sub f_int]. unfold rmul. fold p.
  set (g := nearest 24 _) in A |- * at 1. assert (Fg : float_number 24 g) by (apply nearest_number; lia).
  assert (Bq : inject_Z (Z.abs lo + n) <= 16384) by (change 16384 with (inject_Z 16384); rewrite <- Zle_Qle; exact HB). set (B := inject_Z (Z.abs lo + n)) in *. clearbody B.
  assert (Ea : (inject_Z i - p) * s == inject_Z i - p) by (rewrite S1; ring). rewrite Ea in A. rewrite S1 in A.
  destruct (K g Fg) as (K1 & K2 & K3). set (t := inject_Z i - p) in *. clearbody t. pose proof (Qabs_nonneg t) as T0. pose proof (abs_bounds t) as Tb.
  assert (Tc : (0 <= t /\ Qabs t == t) \/ (t <= 0 /\ Qabs t == - t)) by (destruct (Qlt_le_dec t 0); [right|left]; (split; [lra|]); [apply Qabs_neg|apply Qabs_pos]; lra).
  set (T := Qabs t) in *. clearbody T. apply abs_le in A. split; [|split; [exact K2|]].
  - intros H. apply K1. apply abs_le. lra.
  - intros H. apply K3. pose proof (abs_bounds g). lra.
Qed.
Lemma near_taps i0 : (lo <= i0 < lo + n)%Z -> - (1 # 2) <= inject_Z i0 - p <= 1 # 2 -> forall i, (lo <= i < lo + n)%Z -> ~ w i == 0 -> (i0 - 2 <= i <= i0 + 2)%Z.
Proof.
  intros H0 N i Hi Nz. destruct (weight_centred i Hi) as (_ & _ & F). destruct (Qlt_le_dec (Qabs (inject_Z i - p)) (33 # 16)) as [L|L]; [|destruct (Nz (F L))].
  pose proof (abs_bounds (inject_Z i - p)). assert (L1 : inject_Z i < inject_Z (i0 + 3)) by (rewrite inject_Z_plus; change (inject_Z 3) with (3 # 1); lra).
  assert (L2 : inject_Z i0 < inject_Z (i + 3)) by (rewrite inject_Z_plus; change (inject_Z 3) with (3 # 1); lra). rewrite <- Zlt_Qlt in L1, L2. lia.
Qed.
Lemma weights_use : conditioned 6 w lo n /\ taps_within 5 w lo n /\ usable_weights float32 w lo n.
Proof.
  destruct (ResampleExact.nearest _ _ _ Hn Hin) as (i0 & H0 & N). fold p in N. pose proof (near_taps i0 H0 N) as Nt.
  assert (W0 : 7 # 16 <= w i0) by (apply (weight_centred i0 H0), abs_le; lra).
  set (neg := fun i => (1 # 2) * (Qabs (w i) - w i)). set (pos := fun i => (1 # 2) * (Qabs (w i) + w i)). set (L := range lo n).
  assert (InL : forall i, In i L -> (lo <= i < lo + n)%Z) by (intros i; unfold L; apply EinUses.range_In). assert (In0 : In i0 L) by (apply EinUses.range_In; exact H0).
  assert (Nb : forall i, (lo <= i < lo + n)%Z -> 0 <= neg i <= 5 # 64).
  { intros i Hi. destruct (weight_centred i Hi) as (_ & Wb & _). unfold neg. pose proof (abs_bounds (w i)). assert (Qabs (w i) <= w i + (10 # 64)) by (apply abs_le; lra). lra. }
  assert (Nz : forall i, (lo <= i < lo + n)%Z -> ~ neg i == 0 -> (i0 - 2 <= i <= i0 + 2)%Z /\ i <> i0).
  { intros i Hi Z0. split; [apply Nt; auto; intros E; apply Z0; unfold neg; rewrite E; reflexivity|]. intros ->. apply Z0. unfold neg. rewrite Qabs_pos by lra. ring. }
  set (fl := fun i => if (i <? i0)%Z then neg i else 0). set (fr := fun i => if (i <? i0)%Z then 0 else neg i).
  assert (Sl : qsum (map fl L) <= inject_Z (Z.of_nat 2) * (5 # 64)).
  { apply (qsum_within _ lo n (i0 - 2) 2); [lra| |]; unfold fl; intros i Hi; [specialize (Nb i Hi)|specialize (Nz i Hi)]; destruct (i <? i0)%Z eqn:E; try lra; try (intros F; destruct F; reflexivity). intros F. specialize (Nz F). lia. }
  assert (Sr : qsum (map fr L) <= inject_Z (Z.of_nat 2) * (5 # 64)).
  { apply (qsum_within _ lo n (i0 + 1) 2); [lra| |]; unfold fr; intros i Hi; [specialize (Nb i Hi)|specialize (Nz i Hi)]; destruct (i <? i0)%Z eqn:E; try lra; try (intros F; destruct F; reflexivity). intros F. specialize (Nz F). lia. }
  assert (E1 : qsum (map fr L) == qsum (map neg L) - qsum (map fl L)).
  { rewrite <- qsum_sub. apply ResRoundingFacts.qsum_ext. intros i _. unfold fl, fr. destruct (i <? i0)%Z; ring. }
  assert (E2 : qsum (map w L) == qsum (map pos L) - qsum (map neg L)) by (rewrite <- qsum_sub; apply ResRoundingFacts.qsum_ext; intros i _; unfold pos, neg; ring).
  assert (E3 : qsum (map (fun i => Qabs (w i)) L) == 2 * qsum (map pos L) - qsum (map w L)) by (rewrite <- ResRoundingFacts.qsum_mul, <- qsum_sub; apply ResRoundingFacts.qsum_ext; intros i _; unfold pos; ring).
  assert (P0 : pos i0 <= qsum (map pos L)) by (apply qsum_at_least; [intros i _; unfold pos; pose proof (abs_bounds (w i)); lra|exact In0]).
  assert (P1 : pos i0 == w i0) by (unfold pos; rewrite Qabs_pos by lra; ring). rewrite P1 in P0.
  change (inject_Z (Z.of_nat 2)) with (2 # 1) in *.
  assert (C : conditioned 6 w lo n) by (split; [lra|]; rewrite !sum_qsum; fold L; lra).
  assert (Ta : taps_within 5 w lo n). { split; [exists i0; split; [exact H0|lra]|]. exists (i0 - 2)%Z. intros i Hi Z0. specialize (Nt i Hi Z0). lia. }
  split; [exact C|]. split; [exact Ta|]. apply (usable_rounded (1 # 16777216) (nearest 24) (nearest_rounds 24) _ _ _ 6 5 C Ta). reflexivity.
Qed.
End Weights.

(** ** Images *)
Lemma images_use nd (h : heap Q) (I O : aref) (f : list Z -> Q) (rx ry : rational) (kernel : Q -> Q) (ix iy ic ox oy oc : dim) :
  centred kernel -> resampling float32 h I O f rx ry kernel ix iy ic ox oy oc ->
  (1 <= denominator rx <= numerator rx)%Z -> (1 <= denominator ry <= numerator ry)%Z ->
  (1 <= dext ix)%Z -> (1 <= dext iy)%Z -> (Z.abs (dmin ix) + dext ix <= 16384)%Z -> (Z.abs (dmin iy) + dext iy <= 16384)%Z ->
  (forall x, in_dim ox x -> SpecResample.inside rx (dmin ix) (dext ix) x) -> (forall y, in_dim oy y -> SpecResample.inside ry (dmin iy) (dext iy) y) ->
  (forall i, in_bounds (r_shape I) i -> Qabs (f i) <= 255) ->
  image_with (resample float32 nd I O rx ry kernel h) O (fun x y c q =>
    Qabs (q - average2 (weight float32 kernel rx x) (weight float32 kernel ry y) ix iy (fun i j => f [i; j; c])) <= 1 # 16).
Proof.
  intros K R Dx Dy Sx Sy Bx By Ix Iy Hf.
  assert (Ux : forall x, in_dim ox x -> conditioned 6 (weight float32 kernel rx x) (dmin ix) (dext ix) /\ taps_within 5 (weight float32 kernel rx x) (dmin ix) (dext ix) /\ usable_weights float32 (weight float32 kernel rx x) (dmin ix) (dext ix))
    by (intros x Hx; apply weights_use; auto; lia).
  assert (Uy : forall y, in_dim oy y -> conditioned 6 (weight float32 kernel ry y) (dmin iy) (dext iy) /\ taps_within 5 (weight float32 kernel ry y) (dmin iy) (dext iy) /\ usable_weights float32 (weight float32 kernel ry y) (dmin iy) (dext iy))
    by (intros y Hy; apply weights_use; auto; lia).
  pose proof (rounded_image (1 # 16777216) (nearest 24) (nearest_rounds 24) nd h I O f rx ry kernel ix iy ic ox oy oc R 6 6 5 5
    (fun x Hx => proj1 (Ux x Hx)) (fun y Hy => proj1 (Uy y Hy)) (fun x Hx => proj1 (proj2 (Ux x Hx))) (fun y Hy => proj1 (proj2 (Uy y Hy))) eq_refl eq_refl 255 Hf) as P.
  destruct P as (h' & P0 & P1). exists h'. split; [exact P0|]. intros x y c H. assert (E : image_error (1 # 16777216) 6 6 5 5 * 255 <= 1 # 16) by (vm_compute; discriminate).
  destruct (P1 x y c H) as (q & Hq & Q1). exists q. split; [exact Hq|]. exact (Qle_trans _ _ _ Q1 E).
Qed.
(** A case *)
Lemma inside_R : (forall x, in_dim (mkD 0 3 1) x -> SpecResample.inside rateX 0 2 x) /\ (forall y, in_dim (mkD 0 65 3) y -> SpecResample.inside rateY 0 4 y).
Proof. split; intros x Hx; unfold in_dim in Hx; cbn [dmin dext] in Hx; [apply (inside_scaled _ 2 3)|apply (inside_scaled _ 4 65)]; cbn; lia. Qed.
Lemma resampling_R32 kernel : centred kernel ->
  resampling float32 heapR rI rO rF rateX rateY kernel (mkD 0 2 1) (mkD 0 4 2) (mkD 0 1 8) (mkD 0 3 1) (mkD 0 65 3) (mkD 0 1 195).
Proof.
  intros K. destruct inside_R as [Ix Iy]. destruct (resampling_R _ linear_positive). constructor; try assumption.
  - intros x Hx. apply weights_use; auto; cbn; lia.
  - intros y Hy. apply weights_use; auto; cbn; lia.
Qed.
