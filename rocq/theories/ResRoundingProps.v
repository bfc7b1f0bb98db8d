(** Proofs about rounding errors of whole images, of images that do not change size, and with the linear kernel. *)
From Coq Require Import ZArith QArith Qabs Qround List Bool Lia Lqa Qfield.
From Verif Require Import RoundingProps Tac Base Interval Shape Memory Ref Spec SpecMem SpecEin Rational SpecRational Resample SpecResample
  EinUses MatrixFacts ResampleFacts ResampleWhole ResampleExact Rounding SpecRounding RoundingFacts ResRounding SpecResRounding ResRoundingFacts.
Import ListNotations.
Local Open Scope Q_scope.

(** ** Averages *)
Lemma average_const k w lo n v g N : conditioned k w lo n -> taps_within N w lo n -> (forall i, (lo <= i < lo + n)%Z -> g i == v) -> average w lo n g == v.
Proof.
  intros Hc Ht H. pose proof (T_pos w lo n k N Hc Ht) as Tp. unfold average. rewrite !sum_qsum.
  rewrite (ResRoundingFacts.qsum_ext _ (fun i => v * w i)) by (intros i Hi; apply range_In in Hi; rewrite H by lia; reflexivity). rewrite ResRoundingFacts.qsum_mul. field. lra.
Qed.
Lemma average_between k w lo n a b g N : conditioned k w lo n -> taps_within N w lo n -> (forall i, 0 <= w i) ->
  (forall i, (lo <= i < lo + n)%Z -> a <= g i <= b) -> a <= average w lo n g <= b.
Proof.
  intros Hc Ht Nn H. pose proof (T_pos w lo n k N Hc Ht) as Tp. unfold average. rewrite !sum_qsum. split.
  - apply Qle_shift_div_l; auto. rewrite <- ResRoundingFacts.qsum_mul. apply qsum_le. intros i Hi. apply range_In in Hi. apply Qmult_le_compat_r; [apply H; lia|auto].
  - apply Qle_shift_div_r; auto. rewrite <- ResRoundingFacts.qsum_mul. apply qsum_le. intros i Hi. apply range_In in Hi. apply Qmult_le_compat_r; [apply H; lia|auto].
Qed.
Lemma nonneg_conditioned w lo n : (forall i, 0 <= w i) -> conditioned 1 w lo n.
Proof.
  intros H. split; [lra|]. rewrite !sum_qsum. rewrite (ResRoundingFacts.qsum_ext (fun i => Qabs (w i)) w) by (intros; apply Qabs_pos; auto). lra.
Qed.
Lemma average_error_pos u k N rnd : rounds u 0 rnd -> 0 <= k -> (grow u N - 1) * k < 1 -> 0 <= average_error u k N.
Proof.
  intros Hr Hk Hg. unfold average_error. apply Qmult_le_0_compat; auto. pose proof (grow_ge u 0 rnd Hr N). pose proof (grow_ge u 0 rnd Hr (S (S N))).
  assert (0 <= (grow u N - 1) * k) by (apply Qmult_le_0_compat; lra). assert (1 <= grow u (S (S N)) / (1 - (grow u N - 1) * k)) by (apply Qle_shift_div_l; lra). lra.
Qed.

(** ** Whole images *)
Section Images.
Variables (u : Q) (rnd : Q -> Q).
Hypothesis Hr : rounds u 0 rnd.
Variables (nd : bool) (h : heap Q) (I O : aref) (f : list Z -> Q) (rx ry : rational) (kernel : Q -> Q) (ix iy ic ox oy oc : dim).
Notation fl := (rounded rnd).
Hypothesis R : resampling fl h I O f rx ry kernel ix iy ic ox oy oc.
Notation run := (resample fl nd I O rx ry kernel h).
Notation wx := (weight fl kernel rx).
Notation wy := (weight fl kernel ry).
Lemma rounded_pixels (P : Z -> Z -> Z -> Q -> Prop) :
  (forall x y c, in_dim ox x -> in_dim oy y -> in_dim oc c -> P x y c (pixel fl f rx ry kernel ix iy x y c)) -> image_with run O P.
Proof.
  intro H. destruct (resample_ok fl nd h I O f rx ry kernel ix iy ic ox oy oc R) as (h' & E & V & _). exists h'. split; [exact E|].
  intros x y c Hb. eexists. split; [apply V; exact Hb|]. destruct R. rewrite rs_out in Hb. inversion_clear Hb as [|? ? ? ? X Hb']. inversion_clear Hb' as [|? ? ? ? Y Hb].
  inversion_clear Hb as [|? ? ? ? C _]. apply H; auto.
Qed.
Lemma in_image i j c : in_dim oc c -> (dmin ix <= i < dmin ix + dext ix)%Z -> (dmin iy <= j < dmin iy + dext iy)%Z -> in_bounds (r_shape I) [i; j; c].
Proof. intros Hc Hi Hj. destruct R. rewrite rs_in. unfold in_dim in *. repeat constructor; unfold in_dim; lia. Qed.
Variables (kx ky : Q) (Nx Ny : nat).
Hypotheses (Cx : forall x, in_dim ox x -> conditioned kx (wx x) (dmin ix) (dext ix)) (Cy : forall y, in_dim oy y -> conditioned ky (wy y) (dmin iy) (dext iy)).
Hypotheses (Tx : forall x, in_dim ox x -> taps_within Nx (wx x) (dmin ix) (dext ix)) (Ty : forall y, in_dim oy y -> taps_within Ny (wy y) (dmin iy) (dext iy)).
Hypotheses (Gx : (grow u Nx - 1) * kx < 1) (Gy : (grow u Ny - 1) * ky < 1).
Lemma pixel_close x y c B : in_dim ox x -> in_dim oy y -> in_dim oc c -> (forall i, in_bounds (r_shape I) i -> Qabs (f i) <= B) ->
  Qabs (pixel fl f rx ry kernel ix iy x y c - average2 (wx x) (wy y) ix iy (fun i j => f [i; j; c])) <= image_error u kx ky Nx Ny * B.
Proof.
  intros X Y C Hb. unfold pixel, average2.
  set (inner := fun i => weighted fl (wy y) (dmin iy) (dext iy) (fun j => f [i; j; c])).
  set (inner0 := fun i => average (wy y) (dmin iy) (dext iy) (fun j => f [i; j; c])).
  assert (I1 : forall i, (dmin ix <= i < dmin ix + dext ix)%Z -> Qabs (inner i - inner0 i) <= average_error u ky Ny * B).
  { intros i Hi. apply weighted_close; auto. intros j Hj. apply Hb, in_image; auto. }
  assert (I0 : forall i, (dmin ix <= i < dmin ix + dext ix)%Z -> Qabs (inner0 i) <= ky * B).
  { intros i Hi. apply (average_abs rnd (wy y) (dmin iy) (dext iy) ky Ny); auto. intros j Hj. apply Hb, in_image; auto. }
  assert (I2 : forall i, (dmin ix <= i < dmin ix + dext ix)%Z -> Qabs (inner i) <= (ky + average_error u ky Ny) * B).
  { intros i Hi. specialize (I0 i Hi). specialize (I1 i Hi). rewrite abs_le in *. lra. }
  pose proof (weighted_close u rnd Hr (wx x) (dmin ix) (dext ix) kx Nx (Cx x X) (Tx x X) Gx inner _ I2) as O1.
  pose proof (average_abs rnd (wx x) (dmin ix) (dext ix) kx Nx (Cx x X) (Tx x X) (fun i => inner i - inner0 i) _ I1) as O2.
  rewrite <- average_minus in O2. unfold image_error. rewrite abs_le in *. lra.
Qed.
Lemma rounded_image B : (forall i, in_bounds (r_shape I) i -> Qabs (f i) <= B) ->
  image_with run O (fun x y c q => Qabs (q - average2 (wx x) (wy y) ix iy (fun i j => f [i; j; c])) <= image_error u kx ky Nx Ny * B).
Proof. intros H. apply rounded_pixels. intros. apply pixel_close; auto. Qed.
Lemma rounded_constant v : (forall i, in_bounds (r_shape I) i -> f i == v) ->
  image_with run O (fun _ _ _ q => Qabs (q - v) <= image_error u kx ky Nx Ny * Qabs v).
Proof.
  intros H. apply rounded_pixels. intros x y c X Y C.
  assert (E : average2 (wx x) (wy y) ix iy (fun i j => f [i; j; c]) == v).
  { apply (average_const kx _ _ _ v _ Nx); auto. intros i Hi. apply (average_const ky _ _ _ v _ Ny); auto. intros j Hj. apply H, in_image; auto. }
  pose proof (pixel_close x y c (Qabs v) X Y C) as P. rewrite E in P. apply P. intros i Hi. rewrite (H i Hi). apply Qle_refl.
Qed.
Lemma rounded_between a b : (forall s, 0 <= kernel s) -> (forall i, in_bounds (r_shape I) i -> a <= f i <= b) ->
  let e := image_error u kx ky Nx Ny * (if Qlt_le_dec (Qabs a) (Qabs b) then Qabs b else Qabs a) in
  image_with run O (fun _ _ _ q => a - e <= q <= b + e).
Proof.
  intros K H e. apply rounded_pixels. intros x y c X Y C.
  assert (E : a <= average2 (wx x) (wy y) ix iy (fun i j => f [i; j; c]) <= b).
  { apply (average_between kx _ _ _ a b _ Nx); auto; [intro; apply K|]. intros i Hi. apply (average_between ky _ _ _ a b _ Ny); auto; [intro; apply K|]. intros j Hj. apply H, in_image; auto. }
  pose proof (pixel_close x y c (if Qlt_le_dec (Qabs a) (Qabs b) then Qabs b else Qabs a) X Y C) as P. fold e in P.
  assert (Q0 : forall i, in_bounds (r_shape I) i -> Qabs (f i) <= (if Qlt_le_dec (Qabs a) (Qabs b) then Qabs b else Qabs a)).
  { intros i Hi. specialize (H i Hi). pose proof (abs_bounds a). pose proof (abs_bounds b). destruct (Qlt_le_dec (Qabs a) (Qabs b)); apply abs_le; lra. }
  specialize (P Q0). rewrite abs_le in P. lra.
Qed.
End Images.

(** ** At rate 1 *)
Section Same.
Variables (m : Z) (rnd : Q -> Q).
Hypothesis Hk : keeps_integers m rnd.
Hypothesis Hm : (1 <= m)%Z.
Notation fl := (rounded rnd).
Lemma kept z q : q == inject_Z z -> (Z.abs z <= m)%Z -> rnd q == inject_Z z.
Proof. intros E B. rewrite (Hk q z E B). exact E. Qed.
Lemma quotient_one x : (Z.abs x <= m)%Z -> quotient fl x 1 == inject_Z x.
Proof.
  intros B. unfold quotient. cbn [f_div f_int rounded]. apply kept; auto. rewrite (kept x), (kept 1) by (try reflexivity; lia). change (inject_Z 1) with 1. field.
Qed.
Lemma scale_one : at_most_1 fl (quotient fl 1 1) == 1.
Proof.
  pose proof (quotient_one 1 ltac:(lia)) as E. unfold at_most_1. destruct (f_lt _ _ _); [reflexivity|]. exact E.
Qed.
Lemma position_one x : position (val (mkQ 1 1)) x = x # 1.
Proof.
  unfold position. assert (E : (inject_Z x + (1 # 2)) / val (mkQ 1 1) - (1 # 2) == x # 1) by (unfold val; cbn [numerator denominator Z.to_pos]; change (x # 1) with (inject_Z x); field).
  rewrite (Qred_complete _ _ E). apply Qcanon.Qred_identity. cbn. apply Z.gcd_1_r.
Qed.
Lemma rounded_weight kernel rate x i : interpolating kernel -> numerator rate = 1%Z -> denominator rate = 1%Z -> (Z.abs x <= m)%Z -> (Z.abs i <= m)%Z -> (Z.abs (i - x) <= m)%Z ->
  weight fl kernel rate x i == if (i =? x)%Z then 1 else 0.
Proof.
  intros K N D Bx Bi Bd. unfold weight. rewrite (K _ (i - x)%Z).
  - destruct (Z.eqb_spec (i - x) 0), (Z.eqb_spec i x); try lia; reflexivity.
  - destruct rate as [a b]. cbn [numerator denominator] in *. subst a b. rewrite position_one. change (Qnum (x # 1)) with x. change (QDen (x # 1)) with 1%Z.
    cbn [f_mul f_sub f_int rounded]. unfold rmul. apply kept; auto. rewrite scale_one.
    rewrite (kept (i - x)); [ring| |auto]. rewrite (kept i), quotient_one by (try reflexivity; lia). unfold Z.sub. rewrite inject_Z_plus, inject_Z_opp. reflexivity.
Qed.
Section Row.
Variables (kernel : Q -> Q) (rate : rational) (x lo n : Z).
Hypotheses (K : interpolating kernel) (N1 : numerator rate = 1%Z) (D1 : denominator rate = 1%Z) (X : (lo <= x < lo + n)%Z).
Hypothesis B : (Z.abs lo + n <= m)%Z.
Hypothesis Bn : (2 * n <= m)%Z.
Let w := weight fl kernel rate x.
Lemma row_weight i : (lo <= i < lo + n)%Z -> w i == if (i =? x)%Z then 1 else 0.
Proof. intros Hi. apply rounded_weight; auto; lia. Qed.
Lemma row_taps : taps_within 1 w lo n.
Proof.
  split.
  - exists x. split; [auto|]. rewrite row_weight, Z.eqb_refl by auto. discriminate.
  - exists x. intros i Hi Hw. rewrite row_weight in Hw by auto. destruct (Z.eqb_spec i x); [lia|]. exfalso. apply Hw. reflexivity.
Qed.
Lemma row_range : tap_range fl w lo n = [x] /\ SpecResample.taps fl w lo n = [x].
Proof.
  assert (In1 : forall i, In i (SpecResample.taps fl w lo n) <-> i = x).
  { intros i. rewrite tap_nonzero. split.
    - intros [Hi Hw]. rewrite row_weight in Hw by auto. destruct (Z.eqb_spec i x); [auto|]. exfalso. apply Hw. reflexivity.
    - intros ->. split; [auto|]. rewrite row_weight, Z.eqb_refl by auto. discriminate. }
  assert (ND : NoDup (SpecResample.taps fl w lo n)) by (apply NoDup_filter, range_NoDup).
  assert (E : SpecResample.taps fl w lo n = [x]).
  { destruct (SpecResample.taps fl w lo n) as [|a l]; [exfalso; apply (proj2 (In1 x) eq_refl)|]. assert (a = x) by (apply In1; left; auto). subst a. destruct l as [|b l]; [reflexivity|].
    exfalso. assert (b = x) by (apply In1; right; left; auto). subst b. inversion ND as [|? ? G _]. apply G. left. reflexivity. }
  split; [|exact E]. unfold tap_range, first_tap, last_tap. rewrite E. cbn [hd last]. replace (x - x + 1)%Z with 1%Z by lia. unfold range. change (seq 0 (Z.to_nat 1)) with [0%nat]. cbn [map]. rewrite Z.add_0_r. reflexivity.
Qed.
Lemma row_total : total fl w lo n == 1.
Proof.
  unfold total. rewrite (proj2 row_range). cbn [map fold_left f_add f0 rounded]. unfold radd. apply (kept 1); [|lia]. rewrite row_weight, Z.eqb_refl by auto. reflexivity.
Qed.
Lemma row_usable : usable_weights fl w lo n.
Proof.
  split; [rewrite (proj2 row_range); discriminate|]. cbn [f_lt f0 rounded]. rewrite negb_true_iff. destruct (Qle_bool _ 0) eqn:E; [|reflexivity].
  apply Qle_bool_iff in E. rewrite row_total in E. lra.
Qed.
Lemma row_same g : (forall q, q == g x -> rnd q == q) -> weighted fl w lo n g == g x.
Proof.
  intros Hg. unfold weighted. rewrite (proj1 row_range). cbn [map fold_left f_add f_mul f_div f0 rounded]. unfold radd, rmul.
  assert (V : rnd (w x / total fl w lo n) == 1). { apply (kept 1); [|lia]. rewrite row_total, row_weight, Z.eqb_refl by auto. reflexivity. }
  assert (P : rnd (g x * rnd (w x / total fl w lo n)) == g x). { rewrite Hg by (rewrite V; ring). rewrite V. ring. }
  rewrite Hg; rewrite P; ring.
Qed.
End Row.
Lemma rounded_same nd (h : heap Q) (I O : aref) (f : list Z -> Q) (rx ry : rational) (kernel : Q -> Q) (ix iy ic ox oy oc : dim) :
  resampling fl h I O f rx ry kernel ix iy ic ox oy oc ->
  interpolating kernel -> numerator rx = 1%Z -> denominator rx = 1%Z -> numerator ry = 1%Z -> denominator ry = 1%Z ->
  (forall x, in_dim ox x -> in_dim ix x) -> (forall y, in_dim oy y -> in_dim iy y) ->
  (Z.abs (dmin ix) + 2 * dext ix <= m)%Z -> (Z.abs (dmin iy) + 2 * dext iy <= m)%Z ->
  (forall i q, in_bounds (r_shape I) i -> q == f i -> rnd q == q) ->
  image_with (resample fl nd I O rx ry kernel h) O (fun x y c q => q == f [x; y; c]).
Proof.
  intros R K N1 D1 N2 D2 X Y Bx By Hf. eapply rounded_pixels; [exact R|]. intros x y c Hx Hy Hc. unfold pixel. pose proof (X x Hx) as Ix. pose proof (Y y Hy) as Iy. unfold in_dim in Ix, Iy.
  assert (Ib : in_bounds (r_shape I) [x; y; c]) by (eapply in_image; eauto).
  assert (E : weighted fl (weight fl kernel ry y) (dmin iy) (dext iy) (fun j => f [x; j; c]) == f [x; y; c]).
  { apply (row_same kernel ry y (dmin iy) (dext iy) K N2 D2 Iy ltac:(lia) ltac:(lia) (fun j => f [x; j; c])). intros q. apply Hf; auto. }
  rewrite (row_same kernel rx x (dmin ix) (dext ix) K N1 D1 Ix ltac:(lia) ltac:(lia)); [exact E|]. cbn beta. intros q Hq. apply (Hf [x; y; c]); auto. rewrite Hq. exact E.
Qed.
End Same.

(** ** The linear kernel *)
Section Linear.
Variables (u : Q) (rnd : Q -> Q).
Hypothesis Hr : rounds u 0 rnd.
Hypothesis Hu : u <= 1 # 16.
Notation fl := (rounded rnd).
Lemma rnd_abs x b : Qabs x <= b -> Qabs (rnd x) <= (1 + u) * b.
Proof.
  intros H. destruct Hr as (U & _ & E). specialize (E x). assert (u * Qabs x <= u * b) by (rewrite !(Qmult_comm u); apply Qmult_le_compat_r; auto).
  pose proof (abs_bounds x). rewrite abs_le in E. apply abs_le. lra.
Qed.
Lemma rnd_pos x : 0 < x -> 0 < rnd x.
Proof.
  intros H. destruct Hr as (U & _ & E). specialize (E x). rewrite (Qabs_pos x) in E by lra. rewrite abs_le in E.
  assert (0 <= ((1 # 16) - u) * x) by (apply Qmult_le_0_compat; lra). lra.
Qed.
Lemma linear_nonneg s : 0 <= linear fl s.
Proof.
  unfold linear, f_max. cbn [f_lt f0 rounded]. destruct (negb _) eqn:E; [|apply Qle_refl]. rewrite negb_true_iff in E.
  apply Qlt_le_weak, Qnot_le_lt. intros H. apply Qle_bool_iff in H. congruence.
Qed.
Lemma f_abs_bound s b : 0 <= b -> Qabs s <= b -> f_abs fl s <= (1 + u) * b.
Proof.
  intros Hb H. unfold f_abs. cbn [f_lt f0 f_sub rounded]. destruct Hr as (U & _ & _). destruct (negb _).
  - assert (Q0 : Qabs (0 - s) <= b) by (rewrite abs_le in *; lra). apply rnd_abs in Q0. rewrite abs_le in Q0. lra.
  - rewrite abs_le in H. assert (0 <= u * b) by (apply Qmult_le_0_compat; lra). lra.
Qed.
Lemma linear_pos s b : 0 <= b -> Qabs s <= b -> (1 + u) * b < 1 -> 0 < linear fl s.
Proof.
  intros Hb H L. pose proof (f_abs_bound s b Hb H) as A. unfold linear, f_max. cbn [f_lt f0 f1 f_sub rounded].
  assert (P : 0 < rnd (1 - f_abs fl s)) by (apply rnd_pos; lra). destruct (negb _) eqn:E; [exact P|]. exfalso. rewrite negb_false_iff in E. apply Qle_bool_iff in E. lra.
Qed.
Lemma linear_interp : keeps_integers 1 rnd -> interpolating (linear fl).
Proof.
  intros Hk s z E. destruct Hr as (U & _ & He).
  assert (C : (z = 0 \/ Z.abs z = 1 \/ 2 <= Z.abs z)%Z) by lia.
  assert (Ab : (z = 0%Z -> f_abs fl s == 0) /\ (Z.abs z = 1%Z -> f_abs fl s == 1) /\ ((2 <= Z.abs z)%Z -> 1 <= f_abs fl s)).
  { unfold f_abs. cbn [f_lt f0 f_sub rounded]. destruct (Qle_bool 0 s) eqn:L; cbn [negb].
    - apply Qle_bool_iff in L. rewrite E in L. change 0 with (inject_Z 0) in L. rewrite <- Zle_Qle in L. split; [intros ->; exact E|]. split.
      + intros Hz. assert (z = 1)%Z by lia. subst z. exact E.
      + intros Hz. rewrite E. change 1 with (inject_Z 1). rewrite <- Zle_Qle. lia.
    - assert (L' : s < 0) by (apply Qnot_le_lt; intros H; apply Qle_bool_iff in H; congruence). rewrite E in L'. change 0 with (inject_Z 0) in L'. rewrite <- Zlt_Qlt in L'. split; [intros ->; lia|]. split.
      + intros Hz. assert (z = -1)%Z by lia. subst z. assert (E0 : 0 - s == inject_Z 1) by (rewrite E; reflexivity). rewrite (Hk _ _ E0) by (cbn; lia). exact E0.
      + intros Hz. specialize (He (0 - s)). assert (S2 : 2 <= 0 - s). { rewrite E. assert (inject_Z z <= inject_Z (-2)) by (rewrite <- Zle_Qle; lia). change (inject_Z (-2)) with (-2 # 1) in H. lra. }
        rewrite (Qabs_pos (0 - s)) in He by lra. rewrite abs_le in He. assert (0 <= ((1 # 16) - u) * (0 - s)) by (apply Qmult_le_0_compat; lra). lra. }
  destruct Ab as (A0 & A1 & A2). unfold linear, f_max. cbn [f_lt f0 f1 f_sub rounded]. set (a := f_abs fl s) in *.
  destruct C as [C|[C|C]].
  - specialize (A0 C). subst z. assert (E1 : 1 - a == inject_Z 1) by (rewrite A0; reflexivity). pose proof (Hk _ _ E1 ltac:(cbn; lia)) as E2. change (inject_Z 1) with 1 in E1. cbn [Z.eqb].
    destruct (negb _) eqn:L; [rewrite E2; exact E1|]. rewrite negb_false_iff in L. apply Qle_bool_iff in L. lra.
  - specialize (A1 C). assert (Z0 : (z =? 0)%Z = false) by (apply Z.eqb_neq; lia). rewrite Z0. assert (E1 : 1 - a == inject_Z 0) by (rewrite A1; reflexivity). pose proof (Hk _ _ E1 ltac:(cbn; lia)) as E2. change (inject_Z 0) with 0 in E1.
    destruct (negb _) eqn:L; [rewrite E2; exact E1|reflexivity].
  - specialize (A2 C). assert (Z0 : (z =? 0)%Z = false) by (apply Z.eqb_neq; lia). rewrite Z0. specialize (He (1 - a)). rewrite (Qabs_neg (1 - a)) in He by lra. rewrite abs_le in He.
    assert (0 <= ((1 # 16) - u) * - (1 - a)) by (apply Qmult_le_0_compat; lra).
    destruct (negb _) eqn:L; [|reflexivity]. rewrite negb_true_iff in L. exfalso. assert (~ rnd (1 - a) <= 0) by (intros H1; apply Qle_bool_iff in H1; congruence). lra.
Qed.
(** The quotient of two integers that are rounded first *)
Lemma quotient_close a b : (1 <= b)%Z -> Qabs (quotient fl a b - inject_Z a / inject_Z b) <= 4 * u * Qabs (inject_Z a / inject_Z b).
Proof.
  intros Hb. unfold quotient. cbn [f_div f_int rounded]. set (x := inject_Z a). set (y := inject_Z b).
  assert (Y : 1 <= y) by (unfold y; change 1 with (inject_Z 1); rewrite <- Zle_Qle; lia). destruct Hr as (U & _ & He).
  pose proof (He x) as Ex. pose proof (He y) as Ey. rewrite (Qabs_pos y) in Ey by lra. rewrite abs_le in Ey.
  set (x' := rnd x) in *. set (y' := rnd y) in *. assert (Y' : (1 - u) * y <= y') by lra. assert (P0 : 0 < (1 - u) * y) by (apply Qmult_lt_0_compat; lra). assert (P' : 0 < y') by lra.
  assert (Q0 : Qabs (x' / y' - x / y) <= 2 * u / (1 - u) * Qabs (x / y)).
  { assert (D : x' / y' - x / y == (x' * y - x * y') / (y' * y)) by (field; split; lra). rewrite D.
    assert (Nm : Qabs (x' * y - x * y') <= 2 * u * Qabs x * y).
    { setoid_replace (x' * y - x * y') with ((x' - x) * y - x * (y' - y)) by ring. 
      assert (Qabs ((x' - x) * y) <= u * Qabs x * y) by (rewrite Qabs_Qmult, (Qabs_pos y) by lra; apply Qmult_le_compat_r; lra).
      assert (Qabs (x * (y' - y)) <= u * y * Qabs x) by (rewrite Qabs_Qmult, Qmult_comm; apply Qmult_le_compat_r; [apply abs_le; lra|apply Qabs_nonneg]).
      rewrite abs_le in *. lra. }
    unfold Qdiv at 1. rewrite Qabs_Qmult, (Qabs_pos (/ (y' * y))) by (apply Qlt_le_weak, Qinv_lt_0_compat, Qmult_lt_0_compat; lra).
    assert (E : Qabs (x / y) == Qabs x / y) by (unfold Qdiv; rewrite Qabs_Qmult, (Qabs_pos (/ y)) by (apply Qlt_le_weak, Qinv_lt_0_compat; lra); reflexivity). rewrite E.
    apply Qle_shift_div_r; [apply Qmult_lt_0_compat; lra|].
    setoid_replace (2 * u / (1 - u) * (Qabs x / y) * (y' * y)) with (2 * u * Qabs x * (y' / (1 - u))) by (field; split; lra).
    eapply Qle_trans; [exact Nm|]. rewrite !(Qmult_comm (2 * u * Qabs x)). apply Qmult_le_compat_r; [apply Qle_shift_div_l; lra|]. pose proof (Qabs_nonneg x). repeat apply Qmult_le_0_compat; lra. }
  pose proof (He (x' / y')) as Eq. set (q := x' / y') in *. set (p := x / y) in *. set (r := rnd q) in *.
  assert (V : 2 * u / (1 - u) <= (32 # 15) * u). { apply Qle_shift_div_r; [lra|]. assert (0 <= u * ((1 # 16) - u)) by (apply Qmult_le_0_compat; lra). lra. }
  pose proof (Qabs_nonneg p) as Pp. assert (Q1 : Qabs (q - p) <= (32 # 15) * u * Qabs p) by (eapply Qle_trans; [exact Q0|]; apply Qmult_le_compat_r; auto).
  assert (Q2 : Qabs q <= Qabs p + (32 # 15) * u * Qabs p) by (pose proof (abs_bounds p); rewrite abs_le in *; lra).
  assert (u * Qabs q <= u * (Qabs p + (32 # 15) * u * Qabs p)) by (rewrite !(Qmult_comm u); apply Qmult_le_compat_r; auto).
  assert (0 <= u * ((1 # 16) - u) * Qabs p) by (repeat apply Qmult_le_0_compat; lra). assert (0 <= u * Qabs p) by (apply Qmult_le_0_compat; lra).
  rewrite abs_le in *. lra.
Qed.
Lemma scale_bounds rate : (1 <= numerator rate)%Z -> (1 <= denominator rate)%Z -> 0 <= at_most_1 fl (quotient fl (numerator rate) (denominator rate)) <= 1.
Proof.
  intros N D. pose proof (quotient_close (numerator rate) (denominator rate) D) as Qc. unfold at_most_1. cbn [f_lt f1 rounded]. set (q := quotient fl _ _) in *.
  assert (P : 0 <= inject_Z (numerator rate) / inject_Z (denominator rate)).
  { assert (0 < inject_Z (denominator rate)) by (unfold Qlt, inject_Z; cbn; lia). apply Qle_shift_div_l; [auto|]. unfold Qle, Qmult, inject_Z; cbn; lia. }
  rewrite (Qabs_pos (_ / _)) in Qc by auto. set (p := _ / _) in *. rewrite abs_le in Qc. assert (0 <= ((1 # 16) - u) * p) by (apply Qmult_le_0_compat; lra).
  destruct (Qle_bool q 1) eqn:E; cbn [negb]; [apply Qle_bool_iff in E; lra|lra].
Qed.
Lemma linear_taps rate lo n x : (1 <= numerator rate)%Z -> (1 <= denominator rate)%Z -> (1 <= n)%Z -> SpecResample.inside rate lo n x ->
  16 * u * inject_Z (Z.abs lo + n) <= 1 -> taps_within (Z.to_nat n) (weight fl (linear fl) rate x) lo n.
Proof.
  intros N D Hn Hin HB. destruct Hr as (U & _ & He). destruct (nearest _ _ _ Hn Hin) as (i & Hi & Ni). split.
  2:{ exists lo. intros j Hj _. lia. }
  exists i. split; [exact Hi|]. set (p := position (val rate) x) in *.
  set (B := inject_Z (Z.abs lo + n)) in *.
  assert (Ib : Qabs (inject_Z i) <= B). { unfold B. rewrite abs_le. rewrite <- inject_Z_opp, <- !Zle_Qle. lia. }
  assert (Pb : Qabs p <= B). { unfold SpecResample.inside in Hin. fold p in Hin.
    assert (inject_Z (lo + n) <= B) by (unfold B; rewrite <- Zle_Qle; lia). assert (- B <= inject_Z (lo - 1)) by (unfold B; rewrite <- inject_Z_opp, <- Zle_Qle; lia).
    unfold Z.sub in *. rewrite inject_Z_plus in *. change (inject_Z (- (1))) with (-1 # 1) in *. apply abs_le. lra. }
  assert (Qd : Qabs (quotient fl (Qnum p) (QDen p) - p) <= 4 * u * Qabs p).
  { pose proof (quotient_close (Qnum p) (QDen p) ltac:(lia)) as Q0. assert (E : inject_Z (Qnum p) / inject_Z (QDen p) == p) by (destruct p as [a b]; cbn [Qnum Qden]; rewrite (Qmake_Qdiv a b); reflexivity). rewrite E in Q0. exact Q0. }
  set (q := quotient fl (Qnum p) (QDen p)) in *. pose proof (He (inject_Z i)) as Ei. set (i' := rnd (inject_Z i)) in *.
  assert (4 * u * Qabs p <= 4 * u * B) by (rewrite !(Qmult_comm (4 * u)); apply Qmult_le_compat_r; lra).
  assert (u * Qabs (inject_Z i) <= u * B) by (rewrite !(Qmult_comm u); apply Qmult_le_compat_r; auto).
  assert (Df : Qabs (i' - q) <= 13 # 16) by (rewrite abs_le in *; lra).
  apply rnd_abs in Df. pose proof (scale_bounds rate N D) as Sc. set (s := at_most_1 fl _) in *. set (d := rnd (i' - q)) in *.
  assert (Dm : Qabs (d * s) <= (1 + u) * (13 # 16)). { rewrite Qabs_Qmult, (Qabs_pos s) by lra. pose proof (Qabs_nonneg d). assert (0 <= Qabs d * (1 - s)) by (apply Qmult_le_0_compat; lra). lra. }
  apply rnd_abs in Dm.
  assert (P : 0 < weight fl (linear fl) rate x i).
  { unfold weight. cbn [f_mul f_sub f_int rounded]. fold p. fold q. fold i'. fold d. fold s. unfold rmul. apply (linear_pos _ ((1 + u) * ((1 + u) * (13 # 16)))); [repeat apply Qmult_le_0_compat; lra|exact Dm|].
    assert (V : 0 <= 1 + u <= 17 # 16) by lra. assert (0 <= (1 + u) * ((17 # 16) - (1 + u))) by (apply Qmult_le_0_compat; lra).
    assert (0 <= (1 + u) * (1 + u) * ((17 # 16) - (1 + u))) by (repeat apply Qmult_le_0_compat; lra). lra. }
  lra.
Qed.
Lemma linear_conditioned rate lo n x : conditioned 1 (weight fl (linear fl) rate x) lo n.
Proof. apply nonneg_conditioned. intros i. apply linear_nonneg. Qed.
End Linear.
Lemma image_sizes rnd Nx Ny : rounds (1 # 16777216) 0 rnd -> (Nx <= 1000)%nat -> (Ny <= 1000)%nat ->
  (grow (1 # 16777216) Nx - 1) * 1 < 1 /\ (grow (1 # 16777216) Ny - 1) * 1 < 1 /\ 255 * image_error (1 # 16777216) 1 1 Nx Ny <= 1 # 16.
Proof.
  intros Hr Hx Hy.
  assert (Bd : forall N n, (N <= n)%nat -> inject_Z (Z.of_nat n) * (1 # 16777216) < 1 ->
    grow (1 # 16777216) N - 1 <= inject_Z (Z.of_nat n) * (1 # 16777216) / (1 - inject_Z (Z.of_nat n) * (1 # 16777216))).
  { intros d n L Hn. pose proof (grow_mono (1 # 16777216) d n ltac:(lra) L). pose proof (grow_gamma (1 # 16777216) 0 rnd Hr n Hn). lra. }
  assert (E : forall N, (N <= 1000)%nat -> (grow (1 # 16777216) N - 1) * 1 < 1 /\ 0 <= average_error (1 # 16777216) 1 N <= 1194 # 10000000).
  { intros N HN. pose proof (Bd N 1000%nat HN ltac:(reflexivity)) as B1. pose proof (Bd (S (S N)) 1002%nat ltac:(lia) ltac:(reflexivity)) as B2.
    assert (C1 : grow (1 # 16777216) N - 1 <= (59610 # 1000000000)) by (eapply Qle_trans; [exact B1|]; vm_compute; discriminate).
    assert (C2 : grow (1 # 16777216) (S (S N)) - 1 <= (59730 # 1000000000)) by (eapply Qle_trans; [exact B2|]; vm_compute; discriminate).
    split; [lra|]. split; [apply (average_error_pos _ _ _ rnd); auto; lra|]. unfold average_error. pose proof (grow_ge _ 0 rnd Hr N).
    set (g := grow (1 # 16777216) N) in *. set (g2 := grow (1 # 16777216) (S (S N))) in *.
    assert (g2 / (1 - (g - 1) * 1) <= 1 + (1194 # 10000000)) by (apply Qle_shift_div_r; lra). lra. }
  destruct (E Nx Hx) as [Gx Ex], (E Ny Hy) as [Gy Ey]. split; [exact Gx|]. split; [exact Gy|]. unfold image_error.
  set (a := average_error _ _ Nx) in *. set (b := average_error _ _ Ny) in *. assert (0 <= ((1194 # 10000000) - a) * b) by (apply Qmult_le_0_compat; lra). lra.
Qed.
(** Images of up to 1000x1000 pixels of 8 bits, with floats and the linear kernel *)
Lemma linear_images rnd nd (h : heap Q) (I O : aref) (f : list Z -> Q) (rx ry : rational) (ix iy ic ox oy oc : dim) :
  rounds (1 # 16777216) 0 rnd -> resampling (rounded rnd) h I O f rx ry (linear (rounded rnd)) ix iy ic ox oy oc ->
  dmin ix = 0%Z -> dmin iy = 0%Z -> (1 <= dext ix <= 1000)%Z -> (1 <= dext iy <= 1000)%Z ->
  (1 <= numerator rx)%Z -> (1 <= numerator ry)%Z ->
  (forall x, in_dim ox x -> SpecResample.inside rx 0 (dext ix) x) -> (forall y, in_dim oy y -> SpecResample.inside ry 0 (dext iy) y) ->
  (forall i, in_bounds (r_shape I) i -> 0 <= f i <= 255) ->
  let fl := rounded rnd in
  let run := resample fl nd I O rx ry (linear fl) h in
  image_with run O (fun x y c q =>
    Qabs (q - average2 (weight fl (linear fl) rx x) (weight fl (linear fl) ry y) ix iy (fun i j => f [i; j; c])) <= 1 # 16 /\ - (1 # 16) <= q <= 255 + (1 # 16)) /\
  (forall v, (forall i, in_bounds (r_shape I) i -> f i == v) -> image_with run O (fun _ _ _ q => Qabs (q - v) <= 1 # 16)).
Proof.
  intros Hr R Zx Zy Sx Sy Nx Ny Ix Iy Hf fl run. subst fl run.
  destruct (image_sizes rnd (Z.to_nat (dext ix)) (Z.to_nat (dext iy)) Hr ltac:(lia) ltac:(lia)) as (Gx & Gy & E).
  assert (Dx : (1 <= denominator rx)%Z) by (destruct R; unfold rate_ok in *; lia). assert (Dy : (1 <= denominator ry)%Z) by (destruct R; unfold rate_ok in *; lia).
  assert (HB : forall n, (1 <= n <= 1000)%Z -> 16 * (1 # 16777216) * inject_Z (Z.abs 0 + n) <= 1).
  { intros n Hn. assert (inject_Z (Z.abs 0 + n) <= inject_Z 1000) by (rewrite <- Zle_Qle; cbn; lia). change (inject_Z 1000) with (1000 # 1) in *. lra. }
  assert (Tx : forall x, in_dim ox x -> taps_within (Z.to_nat (dext ix)) (weight (rounded rnd) (linear (rounded rnd)) rx x) (dmin ix) (dext ix)).
  { intros x Hx. rewrite Zx. apply (linear_taps (1 # 16777216) rnd Hr ltac:(lra)); auto; lia. }
  assert (Ty : forall y, in_dim oy y -> taps_within (Z.to_nat (dext iy)) (weight (rounded rnd) (linear (rounded rnd)) ry y) (dmin iy) (dext iy)).
  { intros y Hy. rewrite Zy. apply (linear_taps (1 # 16777216) rnd Hr ltac:(lra)); auto; lia. }
  assert (Cx : forall x, in_dim ox x -> conditioned 1 (weight (rounded rnd) (linear (rounded rnd)) rx x) (dmin ix) (dext ix)) by (intros; apply linear_conditioned).
  assert (Cy : forall y, in_dim oy y -> conditioned 1 (weight (rounded rnd) (linear (rounded rnd)) ry y) (dmin iy) (dext iy)) by (intros; apply linear_conditioned).
  set (e := image_error _ _ _ _ _) in E.
  assert (Pe : 0 <= e). { unfold e, image_error. pose proof (average_error_pos (1 # 16777216) 1 (Z.to_nat (dext ix)) rnd Hr ltac:(lra) Gx). pose proof (average_error_pos (1 # 16777216) 1 (Z.to_nat (dext iy)) rnd Hr ltac:(lra) Gy).
    set (a := average_error _ _ (Z.to_nat (dext ix))) in *. set (b := average_error _ _ (Z.to_nat (dext iy))) in *. assert (0 <= a * b) by (apply Qmult_le_0_compat; auto). lra. }
  split.
  - assert (Hb : forall i, in_bounds (r_shape I) i -> Qabs (f i) <= 255) by (intros i Hi; rewrite Qabs_pos; apply Hf; auto).
    eapply rounded_pixels; [exact R|]. intros x y c X Y C.
    pose proof (pixel_close _ _ Hr _ _ _ _ _ _ _ _ _ _ _ _ _ R _ _ _ _ Cx Cy Tx Ty Gx Gy x y c 255 X Y C Hb) as P. fold e in P.
    assert (A : 0 <= average2 (weight (rounded rnd) (linear (rounded rnd)) rx x) (weight (rounded rnd) (linear (rounded rnd)) ry y) ix iy (fun i j => f [i; j; c]) <= 255).
    { apply (average_between 1 _ _ _ 0 255 _ _ (Cx x X) (Tx x X)); [intro; apply linear_nonneg|]. intros i Hi.
      apply (average_between 1 _ _ _ 0 255 _ _ (Cy y Y) (Ty y Y)); [intro; apply linear_nonneg|]. intros j Hj. apply Hf. eapply in_image; eauto. }
    set (a2 := average2 _ _ _ _ _) in *. set (q := pixel _ _ _ _ _ _ _ _ _ _) in *. split; [lra|]. rewrite abs_le in P. lra.
  - intros v Hv. eapply rounded_pixels; [exact R|]. intros x y c X Y C.
    assert (Ib : exists i j, (dmin ix <= i < dmin ix + dext ix)%Z /\ (dmin iy <= j < dmin iy + dext iy)%Z) by (exists (dmin ix), (dmin iy); lia).
    destruct Ib as (i & j & Hi & Hj). assert (B : in_bounds (r_shape I) [i; j; c]) by (eapply in_image; eauto). pose proof (Hf _ B) as F0. rewrite (Hv _ B) in F0.
    assert (Hb : forall i, in_bounds (r_shape I) i -> Qabs (f i) <= Qabs v) by (intros i' Hi'; rewrite (Hv i' Hi'); apply Qle_refl).
    pose proof (pixel_close _ _ Hr _ _ _ _ _ _ _ _ _ _ _ _ _ R _ _ _ _ Cx Cy Tx Ty Gx Gy x y c (Qabs v) X Y C Hb) as P. fold e in P.
    assert (E2 : average2 (weight (rounded rnd) (linear (rounded rnd)) rx x) (weight (rounded rnd) (linear (rounded rnd)) ry y) ix iy (fun i j => f [i; j; c]) == v).
    { apply (average_const 1 _ _ _ v _ _ (Cx x X) (Tx x X)). intros i' Hi'. apply (average_const 1 _ _ _ v _ _ (Cy y Y) (Ty y Y)). intros j' Hj'. apply Hv. eapply in_image; eauto. }
    rewrite E2 in P. rewrite (Qabs_pos v) in P by lra. assert (e * v <= e * 255) by (rewrite !(Qmult_comm e); apply Qmult_le_compat_r; lra). lra.
Qed.
