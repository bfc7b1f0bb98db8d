(** Proofs about the box kernel with rounded numbers, and about the difference from resampling in exact arithmetic. *)
From Coq Require Import ZArith QArith Qabs Qround List Bool Lia Lqa Qfield.
From Verif Require Import RoundingProps Tac Base Interval Shape Memory Ref Spec SpecMem SpecEin Rational SpecRational Resample SpecResample
  EinUses MatrixFacts ResampleFacts ResampleWhole ResampleExact Rounding SpecRounding RoundingFacts ResRounding SpecResRounding ResRoundingFacts ResRoundingProps.
Import ListNotations.
Local Open Scope Q_scope.

(** ** The box kernel *)
Section Box.
Variables (u : Q) (rnd : Q -> Q) (m : Z).
Hypothesis Hr : rounds u 0 rnd.
Hypothesis Hu : u <= 1 # 16.
Hypothesis Hk : keeps_integers m rnd.
Hypothesis Hm : (2 <= m)%Z.
Hypothesis Hh : keeps_half rnd.
Notation fl := (rounded rnd).
Lemma box_nonneg s : 0 <= box_kernel fl s.
Proof. unfold box_kernel. cbn [f0 f1 rounded]. destruct (f_le _ _ _); lra. Qed.
Lemma lit_half : lit fl 1 2 == 1 # 2.
Proof. unfold lit. cbn [f_div f_int rounded]. apply (proj2 Hh). rewrite (kept m rnd Hk 1), (kept m rnd Hk 2) by (try reflexivity; cbn; lia). reflexivity. Qed.
Lemma box_one s : Qabs s <= 1 # 2 -> box_kernel fl s == 1.
Proof.
  intros H. unfold box_kernel, f_le. cbn [f0 f1 f_lt rounded]. rewrite negb_involutive.
  assert (E : Qle_bool (f_abs fl s) (lit fl 1 2) = true); [|rewrite E; reflexivity].
  apply Qle_bool_iff. rewrite lit_half. unfold f_abs. cbn [f_lt f0 f_sub rounded]. destruct (negb _).
  - assert (Q0 : Qabs (0 - s) <= 1 # 2) by (rewrite abs_le in *; lra). apply (proj1 Hh) in Q0. rewrite abs_le in Q0. lra.
  - rewrite abs_le in H. lra.
Qed.
Lemma box_taps rate lo n x : (1 <= numerator rate)%Z -> (1 <= denominator rate)%Z -> (1 <= n)%Z -> (Z.abs lo + n <= m)%Z ->
  inside_by (4 * u * inject_Z (Z.abs lo + n)) rate lo n x -> taps_within (Z.to_nat n) (weight fl (box_kernel fl) rate x) lo n.
Proof.
  intros N D Hn HB Hin. destruct Hr as (U & _ & He). set (p := position (val rate) x) in *. set (B := inject_Z (Z.abs lo + n)) in *.
  assert (B0 : 0 <= B) by (unfold B; change 0 with (inject_Z 0); rewrite <- Zle_Qle; lia). assert (0 <= 4 * u * B) by (repeat apply Qmult_le_0_compat; lra).
  assert (Pb : Qabs p <= B). { unfold inside_by in Hin. fold p in Hin.
    assert (inject_Z (lo + n) <= B) by (unfold B; rewrite <- Zle_Qle; lia). assert (- B <= inject_Z (lo - 1)) by (unfold B; rewrite <- inject_Z_opp, <- Zle_Qle; lia).
    unfold Z.sub in *. rewrite inject_Z_plus in *. change (inject_Z (- (1))) with (-1 # 1) in *. apply abs_le. lra. }
  assert (Qd : Qabs (quotient fl (Qnum p) (QDen p) - p) <= 4 * u * Qabs p).
  { pose proof (quotient_close u rnd Hr Hu (Qnum p) (QDen p) ltac:(lia)) as Q0. assert (E : inject_Z (Qnum p) / inject_Z (QDen p) == p) by (destruct p as [a b]; cbn [Qnum Qden]; rewrite (Qmake_Qdiv a b); reflexivity). rewrite E in Q0. exact Q0. }
  set (q := quotient fl (Qnum p) (QDen p)) in *.
  assert (4 * u * Qabs p <= 4 * u * B) by (rewrite !(Qmult_comm (4 * u)); apply Qmult_le_compat_r; lra).
  assert (Iq : inject_Z lo - (1 # 2) <= q <= inject_Z (lo + n) - (1 # 2)) by (unfold inside_by in Hin; fold p in Hin; rewrite abs_le in Qd; lra).
  destruct (nearest q lo n Hn Iq) as (i & Hi & Ni). split; [|exists lo; intros j Hj _; lia].
  exists i. split; [exact Hi|]. unfold weight. fold p. fold q. cbn [f_mul f_sub f_int rounded]. unfold rmul. rewrite box_one; [lra|]. apply (proj1 Hh).
  pose proof (scale_bounds u rnd Hr Hu rate N D) as Sc. set (s := at_most_1 fl _) in *.
  assert (Ei : rnd (inject_Z i) == inject_Z i) by (apply (kept m rnd Hk); [reflexivity|lia]).
  assert (Df : Qabs (rnd (rnd (inject_Z i) - q)) <= 1 # 2) by (apply (proj1 Hh); rewrite Ei; apply abs_le; lra). set (d := rnd (rnd (inject_Z i) - q)) in *.
  rewrite Qabs_Qmult, (Qabs_pos s) by lra. pose proof (Qabs_nonneg d). assert (0 <= Qabs d * (1 - s)) by (apply Qmult_le_0_compat; lra). lra.
Qed.
End Box.
Lemma inside_by_scaled u rate n m x : (1 <= numerator rate)%Z -> (1 <= denominator rate)%Z -> (m * denominator rate <= n * numerator rate)%Z -> (0 <= x < m)%Z ->
  2 * u * inject_Z (numerator rate) <= inject_Z (denominator rate) -> inside_by u rate 0 n x.
Proof.
  intros N D Hm Hx Hu. unfold inside_by, position. rewrite Qred_correct. unfold val. destruct rate as [a b]. cbn [numerator denominator] in *.
  assert (Eb : Z.to_pos b = Z.to_pos b) by reflexivity. assert (E : a # Z.to_pos b == inject_Z a / inject_Z b) by (rewrite (Qmake_Qdiv a (Z.to_pos b)), Z2Pos.id by lia; reflexivity).
  rewrite E. assert (A : 0 < inject_Z a) by (unfold Qlt, inject_Z; cbn; lia). assert (B : 0 < inject_Z b) by (unfold Qlt, inject_Z; cbn; lia).
  assert (E2 : (inject_Z x + (1 # 2)) / (inject_Z a / inject_Z b) == (inject_Z x + (1 # 2)) * inject_Z b / inject_Z a) by (field; split; lra). rewrite E2. clear E E2 Eb.
  change (0 + n)%Z with n. change (inject_Z 0) with 0.
  assert (L : u + inject_Z 0 <= (inject_Z x + (1 # 2)) * inject_Z b / inject_Z a).
  { change (inject_Z 0) with 0. apply Qle_shift_div_l; [auto|]. assert (0 <= inject_Z x * inject_Z b) by (rewrite <- inject_Z_mult; change 0 with (inject_Z 0); rewrite <- Zle_Qle; nia). lra. }
  change (inject_Z 0) with 0 in L.
  assert (H : (inject_Z x + (1 # 2)) * inject_Z b / inject_Z a <= inject_Z n - u).
  { apply Qle_shift_div_r; [auto|]. assert (inject_Z x * inject_Z b + inject_Z b <= inject_Z n * inject_Z a).
    { rewrite <- !inject_Z_mult, <- inject_Z_plus, <- Zle_Qle. nia. } lra. }
  lra.
Qed.

(** ** Averages with other weights *)
Lemma qsum_within (f : Z -> Q) lo n a M d : 0 <= d -> (forall i, (lo <= i < lo + n)%Z -> 0 <= f i <= d) ->
  (forall i, (lo <= i < lo + n)%Z -> ~ f i == 0 -> (a <= i < a + Z.of_nat M)%Z) -> qsum (map f (range lo n)) <= inject_Z (Z.of_nat M) * d.
Proof.
  intros Hd H W. set (P := fun i => negb (Qeq_bool (f i) 0)).
  rewrite <- (qsum_filtered P f (range lo n)) by (intros i E; unfold P in E; rewrite negb_false_iff in E; apply Qeq_bool_iff; exact E).
  set (l := filter P (range lo n)).
  assert (L : (length l <= M)%nat).
  { assert (G : (length l <= length (range a (Z.of_nat M)))%nat).
    { apply NoDup_incl_length; [apply NoDup_filter, range_NoDup|]. intros i Hi. apply filter_In in Hi as [Hi Pi]. apply range_In in Hi. apply range_In.
      assert (Nz : ~ f i == 0) by (intros E; apply Qeq_bool_iff in E; unfold P in Pi; rewrite E in Pi; discriminate). specialize (W i ltac:(lia) Nz). lia. }
    unfold range in G. rewrite map_length, seq_length in G. lia. }
  assert (G : qsum (map f l) <= inject_Z (Z.of_nat (length l)) * d).
  { assert (A : forall i, In i l -> f i <= d) by (intros i Hi; apply filter_In in Hi as [Hi _]; apply range_In in Hi; apply H; lia). clear - A. induction l as [|b l IH].
    - change (0 <= 0 * d). lra.
    - rewrite qsum_cons. assert (f b <= d) by (apply A; left; auto). assert (qsum (map f l) <= inject_Z (Z.of_nat (length l)) * d) by (apply IH; intros; apply A; right; auto).
      cbn [length]. rewrite Nat2Z.inj_succ. unfold Z.succ. rewrite inject_Z_plus. change (inject_Z 1) with 1. lra. }
  assert (inject_Z (Z.of_nat (length l)) * d <= inject_Z (Z.of_nat M) * d) by (apply Qmult_le_compat_r; [rewrite <- Zle_Qle; lia|auto]). lra.
Qed.
Lemma average_near d M t w' w lo n g G N : near_weights d M t w' w lo n -> taps_within N w' lo n -> (forall i, (lo <= i < lo + n)%Z -> Qabs (g i) <= G) ->
  Qabs (average w' lo n g - average w lo n g) <= weights_error d M t * G.
Proof.
  intros (Hw & (a & Ha) & Ht & Hs) Tp Hg.
  assert (Cn : conditioned 1 w' lo n).
  { split; [lra|]. rewrite !sum_qsum. rewrite (ResRoundingFacts.qsum_ext (fun i => Qabs (w' i)) w'); [lra|]. intros i Hi. apply range_In in Hi. apply Qabs_pos, Hw. lia. }
  pose proof (T_pos w' lo n 1 N Cn Tp) as T'. pose proof (average_abs (fun x => x) w' lo n 1 N Cn Tp g G Hg) as A'.
  assert (Gn : 0 <= G /\ 0 <= d).
  { destruct Tp as [(i & Hi & _) _]. split; [eapply Qle_trans; [apply Qabs_nonneg|exact (Hg i Hi)]|]. eapply Qle_trans; [apply Qabs_nonneg|apply (Hw i Hi)]. }
  destruct Gn as [Gn Dn].
  assert (E : qsum (map (fun i => Qabs (w' i - w i)) (range lo n)) <= inject_Z (Z.of_nat M) * d).
  { apply (qsum_within _ lo n a M d Dn); [intros i Hi; split; [apply Qabs_nonneg|apply Hw; auto]|]. intros i Hi Nz. apply Ha; auto. intros [E1 E2]. apply Nz. rewrite E1, E2. reflexivity. }
  set (Z1 := average w' lo n g) in *. rewrite sum_qsum in *. set (T := qsum (map w (range lo n))) in *. set (T1 := qsum (map w' (range lo n))) in *.
  set (S0 := qsum (map (fun i => g i * w i) (range lo n))). set (S1 := qsum (map (fun i => g i * w' i) (range lo n))).
  assert (E1 : Z1 * T1 == S1) by (unfold Z1, average; rewrite !sum_qsum; fold T1; fold S1; field; lra).
  assert (E0 : average w lo n g == S0 / T) by (unfold average; rewrite !sum_qsum; reflexivity). rewrite E0.
  assert (D1 : Qabs (S1 - S0) <= G * (inject_Z (Z.of_nat M) * d)).
  { unfold S1, S0. rewrite <- qsum_sub. eapply Qle_trans; [apply qsum_abs|]. eapply Qle_trans; [|rewrite Qmult_comm; apply Qmult_le_compat_r; [exact E|exact Gn]]. rewrite Qmult_comm, <- ResRoundingFacts.qsum_mul.
    apply qsum_le. intros i Hi. apply range_In in Hi. setoid_replace (g i * w' i - g i * w i) with (g i * (w' i - w i)) by ring. rewrite Qabs_Qmult. apply Qmult_le_compat_r; [apply Hg; lia|apply Qabs_nonneg]. }
  assert (D2 : Qabs (T1 - T) <= inject_Z (Z.of_nat M) * d) by (unfold T1, T; rewrite <- qsum_sub; eapply Qle_trans; [apply qsum_abs|exact E]).
  assert (Tpos : 0 < T) by lra.
  assert (Q0 : Z1 - S0 / T == ((S1 - S0) - Z1 * (T1 - T)) / T) by (rewrite <- E1; field; lra). rewrite Q0.
  assert (D3 : Qabs (Z1 * (T1 - T)) <= G * (inject_Z (Z.of_nat M) * d)).
  { rewrite Qabs_Qmult. eapply Qle_trans; [apply Qmult_le_compat_r; [exact A'|apply Qabs_nonneg]|]. rewrite Qmult_1_l. rewrite !(Qmult_comm G). apply Qmult_le_compat_r; auto. }
  assert (D4 : Qabs (S1 - S0 - Z1 * (T1 - T)) <= 2 * G * (inject_Z (Z.of_nat M) * d)) by (rewrite abs_le in D1, D3; apply abs_le; lra).
  unfold Qdiv at 1. rewrite Qabs_Qmult, (Qabs_pos (/ T)) by (apply Qlt_le_weak, Qinv_lt_0_compat; lra). change (Qabs (S1 - S0 - Z1 * (T1 - T)) / T <= weights_error d M t * G).
  apply Qle_shift_div_r; [auto|]. eapply Qle_trans; [exact D4|]. unfold weights_error.
  setoid_replace (2 * inject_Z (Z.of_nat M) * d / t * G * T) with (2 * G * (inject_Z (Z.of_nat M) * d) * (T / t)) by (field; lra).
  assert (1 <= T / t) by (apply Qle_shift_div_l; lra). assert (0 <= 2 * G * (inject_Z (Z.of_nat M) * d)).
  { repeat apply Qmult_le_0_compat; try lra. change 0 with (inject_Z 0). rewrite <- Zle_Qle. lia. }
  set (k := 2 * G * (inject_Z (Z.of_nat M) * d)) in *. assert (0 <= k * (T / t - 1)) by (apply Qmult_le_0_compat; lra). lra.
Qed.
(** Exact arithmetic computes averages *)
Lemma weighted_average k w lo n N g : conditioned k w lo n -> taps_within N w lo n -> weighted exact w lo n g == average w lo n g.
Proof.
  intros Hc Ht. assert (R0 : rounds 0 0 (fun x => x)). { split; [lra|]. split; [lra|]. intros x. assert (E : x - x == 0) by ring. rewrite E. cbn. lra. }
  assert (G1 : forall j, grow 0 j == 1) by (induction j as [|j IH]; [reflexivity|cbn [grow]; rewrite IH; reflexivity]).
  assert (Hg : exists G, forall i, (lo <= i < lo + n)%Z -> Qabs (g i) <= G).
  { exists (qsum (map (fun i => Qabs (g i)) (range lo n))). intros i Hi. apply (qsum_at_least (fun i => Qabs (g i))); [intros; apply Qabs_nonneg|apply range_In; lia]. }
  destruct Hg as (G & Hg).
  assert (L : (grow 0 N - 1) * k < 1) by (rewrite G1; lra).
  pose proof (weighted_close 0 (fun x => x) R0 w lo n k N Hc Ht L g G Hg) as W. change (weighted (rounded (fun x => x)) w lo n g) with (weighted exact w lo n g) in W.
  assert (E : average_error 0 k N == 0) by (unfold average_error; rewrite !G1; field; lra). rewrite E, abs_le in W. lra.
Qed.
Lemma near_taps d M t w' w lo n : near_weights d M t w' w lo n -> conditioned 1 w lo n /\ taps_within M w lo n.
Proof.
  intros (Hw & (a & Ha) & Ht & Hs). split.
  - split; [lra|]. rewrite !sum_qsum. rewrite (ResRoundingFacts.qsum_ext (fun i => Qabs (w i)) w); [lra|]. intros i Hi. apply range_In in Hi. apply Qabs_pos, Hw. lia.
  - split; [|exists a; intros i Hi Nz; apply Ha; auto; tauto].
    destruct (Exists_dec (fun i => ~ w i == 0) (range lo n)) as [Ex|Ex]; [intros i; destruct (Qeq_dec (w i) 0); [right|left]; tauto| |].
    + apply Exists_exists in Ex as (i & Hi & Nz). apply range_In in Hi. exists i. split; [lia|auto].
    + exfalso. rewrite sum_qsum in Hs. assert (Z0 : qsum (map w (range lo n)) <= 0); [|lra]. rewrite (ResRoundingFacts.qsum_ext w (fun i => 0 * w i)).
      * rewrite ResRoundingFacts.qsum_mul. lra.
      * intros i Hi. destruct (Qeq_dec (w i) 0) as [E|E]; [rewrite E; reflexivity|]. exfalso. apply Ex, Exists_exists. exists i. auto.
Qed.
Lemma near_conditioned d M t w' w lo n : near_weights d M t w' w lo n -> conditioned 1 w' lo n.
Proof.
  intros (Hw & _). split; [lra|]. rewrite !sum_qsum. rewrite (ResRoundingFacts.qsum_ext (fun i => Qabs (w' i)) w'); [lra|]. intros i Hi. apply range_In in Hi. apply Qabs_pos, Hw. lia.
Qed.
Section Near.
Variables (u : Q) (rnd : Q -> Q).
Hypothesis Hr : rounds u 0 rnd.
Variables (nd : bool) (h : heap Q) (I O : aref) (f : list Z -> Q) (rx ry : rational) (kernel kernel0 : Q -> Q) (ix iy ic ox oy oc : dim).
Notation fl := (rounded rnd).
Hypothesis R : resampling fl h I O f rx ry kernel ix iy ic ox oy oc.
Variables (dx dy tx ty : Q) (Mx My Nx Ny : nat).
Hypotheses (Wx : forall x, in_dim ox x -> near_weights dx Mx tx (weight fl kernel rx x) (weight exact kernel0 rx x) (dmin ix) (dext ix))
  (Wy : forall y, in_dim oy y -> near_weights dy My ty (weight fl kernel ry y) (weight exact kernel0 ry y) (dmin iy) (dext iy)).
Hypotheses (Tx : forall x, in_dim ox x -> taps_within Nx (weight fl kernel rx x) (dmin ix) (dext ix)) (Ty : forall y, in_dim oy y -> taps_within Ny (weight fl kernel ry y) (dmin iy) (dext iy)).
Hypotheses (Gx : (grow u Nx - 1) * 1 < 1) (Gy : (grow u Ny - 1) * 1 < 1).
Lemma near_exact B : (forall i, in_bounds (r_shape I) i -> Qabs (f i) <= B) ->
  image_with (resample fl nd I O rx ry kernel h) O (fun x y c q =>
    Qabs (q - pixel exact f rx ry kernel0 ix iy x y c) <= (image_error u 1 1 Nx Ny + weights_error dx Mx tx + weights_error dy My ty) * B).
Proof.
  intros Hb. eapply rounded_pixels; [exact R|]. intros x y c X Y C.
  assert (Cx : forall x, in_dim ox x -> conditioned 1 (weight fl kernel rx x) (dmin ix) (dext ix)) by (intros; eapply near_conditioned; eauto).
  assert (Cy : forall x, in_dim oy x -> conditioned 1 (weight fl kernel ry x) (dmin iy) (dext iy)) by (intros; eapply near_conditioned; eauto).
  pose proof (pixel_close _ _ Hr _ _ _ _ _ _ _ _ _ _ _ _ _ R _ _ _ _ Cx Cy Tx Ty Gx Gy x y c B X Y C Hb) as P.
  destruct (near_taps _ _ _ _ _ _ _ (Wx x X)) as [Cx0 Tx0]. destruct (near_taps _ _ _ _ _ _ _ (Wy y Y)) as [Cy0 Ty0].
  set (w'x := weight fl kernel rx x) in *. set (w'y := weight fl kernel ry y) in *. set (wx := weight exact kernel0 rx x) in *. set (wy := weight exact kernel0 ry y) in *.
  assert (In0 : forall i j, (dmin ix <= i < dmin ix + dext ix)%Z -> (dmin iy <= j < dmin iy + dext iy)%Z -> Qabs (f [i; j; c]) <= B) by (intros; apply Hb; eapply in_image; eauto).
  set (inner := fun i => average wy (dmin iy) (dext iy) (fun j => f [i; j; c])). set (inner' := fun i => average w'y (dmin iy) (dext iy) (fun j => f [i; j; c])).
  assert (E : pixel exact f rx ry kernel0 ix iy x y c == average wx (dmin ix) (dext ix) inner).
  { unfold pixel. fold wx wy. rewrite (weighted_average 1 wx _ _ Mx) by auto. unfold average. rewrite !sum_qsum. apply Qmult_comp; [|reflexivity].
    apply ResRoundingFacts.qsum_ext. intros i _. unfold inner. rewrite (weighted_average 1 wy _ _ My) by auto. reflexivity. }
  rewrite E. unfold average2 in P. fold inner' in P.
  assert (A1 : forall i, (dmin ix <= i < dmin ix + dext ix)%Z -> Qabs (inner' i - inner i) <= weights_error dy My ty * B) by (intros i Hi; apply (average_near _ _ _ _ _ _ _ _ _ Ny (Wy y Y) (Ty y Y)); intros j Hj; apply In0; auto).
  assert (A2 : forall i, (dmin ix <= i < dmin ix + dext ix)%Z -> Qabs (inner i) <= B).
  { intros i Hi. pose proof (average_abs (fun x => x) wy (dmin iy) (dext iy) 1 My Cy0 Ty0 (fun j => f [i; j; c]) B (fun j Hj => In0 i j Hi Hj)) as G0. fold (inner i) in G0. lra. }
  pose proof (average_abs (fun x => x) w'x (dmin ix) (dext ix) 1 Nx (Cx x X) (Tx x X) (fun i => inner' i - inner i) _ A1) as O1. rewrite <- average_minus in O1.
  pose proof (average_near _ _ _ _ _ _ _ inner B Nx (Wx x X) (Tx x X) A2) as O2. fold w'x wx in O2. rewrite abs_le in *. lra.
Qed.
End Near.
(** ** The linear kernel *)
Lemma exact_linear s : linear exact s == (if Qlt_le_dec (Qabs s) 1 then 1 - Qabs s else 0).
Proof.
  assert (A : f_abs exact s == Qabs s).
  { unfold f_abs. cbn [f_lt f0 f_sub exact]. destruct (Qle_bool 0 s) eqn:E; cbn [negb].
    - apply Qle_bool_iff in E. rewrite Qabs_pos by auto. reflexivity.
    - rewrite Qabs_neg; [ring|]. destruct (Qlt_le_dec 0 s) as [H|H]; [|exact H]. apply Qlt_le_weak in H. apply Qle_bool_iff in H. congruence. }
  unfold linear, f_max. cbn [f_lt f0 f1 f_sub exact]. destruct (Qle_bool _ 0) eqn:E; cbn [negb].
  - apply Qle_bool_iff in E. rewrite A in E. destruct (Qlt_le_dec (Qabs s) 1); lra.
  - assert (N : ~ 1 - f_abs exact s <= 0) by (intros H; apply Qle_bool_iff in H; congruence). rewrite A in *. destruct (Qlt_le_dec (Qabs s) 1); lra.
Qed.
Section Close.
Variables (u : Q) (rnd : Q -> Q).
Hypothesis Hr : rounds u 0 rnd.
Hypothesis Hu : u <= 1 # 64.
Notation fl := (rounded rnd).
Lemma rnd_near x y e : Qabs (x - y) <= e -> Qabs (rnd x - y) <= e + u * (Qabs y + e).
Proof.
  intros H. destruct Hr as (U & _ & E). specialize (E x). assert (Qabs x <= Qabs y + e) by (pose proof (abs_bounds y); rewrite abs_le in *; lra).
  assert (u * Qabs x <= u * (Qabs y + e)) by (rewrite !(Qmult_comm u); apply Qmult_le_compat_r; auto). rewrite abs_le in *. lra.
Qed.
Lemma rounded_linear s : linear fl s = (if Qlt_le_dec 0 (rnd (1 - f_abs fl s)) then rnd (1 - f_abs fl s) else 0).
Proof.
  unfold linear, f_max. cbn [f_lt f0 f1 f_sub rounded]. destruct (Qlt_le_dec _ _) as [H|H], (Qle_bool _ 0) eqn:E; cbn [negb]; auto.
  - apply Qle_bool_iff in E. lra.
  - apply Qle_bool_iff in H. congruence.
Qed.
Lemma rounded_abs s y e : Qabs (s - y) <= e -> Qabs (f_abs fl s - Qabs y) <= e + u * (Qabs y + e).
Proof.
  intros H. destruct Hr as (U & _ & _). unfold f_abs. cbn [f_lt f0 f_sub rounded]. assert (0 <= e) by (eapply Qle_trans; [apply Qabs_nonneg|exact H]). pose proof (Qabs_nonneg y).
  assert (0 <= u * (Qabs y + e)) by (apply Qmult_le_0_compat; lra). destruct (Qle_bool 0 s) eqn:E; cbn [negb].
  - apply Qle_bool_iff in E. destruct (Qlt_le_dec y 0) as [L|L]; [rewrite (Qabs_neg y) in * by lra|rewrite (Qabs_pos y) in * by lra]; rewrite abs_le in *; lra.
  - assert (L : s < 0) by (apply Qnot_le_lt; intros G; apply Qle_bool_iff in G; congruence).
    assert (H9 : Qabs ((0 - s) - Qabs y) <= e) by (destruct (Qlt_le_dec y 0) as [L2|L2]; [rewrite (Qabs_neg y) in * by lra|rewrite (Qabs_pos y) in * by lra]; rewrite abs_le in *; lra).
    apply rnd_near in H9. rewrite (Qabs_pos (Qabs y)) in H9 by auto. exact H9.
Qed.
(** Beyond 2 both vanish, up to there they are near *)
Lemma linear_far s y : 2 <= Qabs y -> Qabs (s - y) <= (1 # 4) * Qabs y -> linear fl s == 0 /\ linear exact y == 0.
Proof.
  intros Hy H. rewrite exact_linear, rounded_linear. destruct (Qlt_le_dec (Qabs y) 1); [lra|]. split; [|reflexivity].
  apply rounded_abs in H. destruct Hr as (U & _ & E). set (a := f_abs fl s) in *. specialize (E (1 - a)). set (A := Qabs y) in *.
  assert (0 <= ((1 # 64) - u) * (A + (1 # 4) * A)) by (apply Qmult_le_0_compat; lra). rewrite abs_le in H. assert (1 < a) by lra.
  rewrite (Qabs_neg (1 - a)), abs_le in E by lra. assert (0 <= ((1 # 64) - u) * - (1 - a)) by (apply Qmult_le_0_compat; lra). destruct (Qlt_le_dec _ _); lra.
Qed.
Lemma linear_near s y e : Qabs y <= 2 -> Qabs (s - y) <= e -> Qabs (linear fl s - linear exact y) <= (9 # 8) * e + 4 * u.
Proof.
  intros Hy H. assert (E0 : 0 <= e) by (eapply Qle_trans; [apply Qabs_nonneg|exact H]). rewrite exact_linear, rounded_linear. apply rounded_abs in H. set (a := f_abs fl s) in *. pose proof (Qabs_nonneg y) as A0. set (A := Qabs y) in *.
  assert (H1 : Qabs ((1 - a) - (1 - A)) <= e + u * (A + e)) by (rewrite abs_le in *; lra). apply rnd_near in H1. destruct Hr as (U & _ & _).
  assert (A1 : Qabs (1 - A) <= 1) by (apply abs_le; lra).
  assert (U1 : u * Qabs (1 - A) <= u) by (rewrite Qmult_comm; setoid_replace u with (1 * u) at 2 by ring; apply Qmult_le_compat_r; auto).
  assert (U2 : u * A <= 2 * u) by (rewrite Qmult_comm; apply Qmult_le_compat_r; auto). assert (U3 : u * e <= (1 # 64) * e) by (apply Qmult_le_compat_r; auto).
  assert (U4 : u * (u * (A + e)) <= (1 # 64) * (u * (A + e))) by (apply Qmult_le_compat_r; [auto|]; apply Qmult_le_0_compat; lra).
  set (r := rnd (1 - a)) in *. rewrite abs_le in H1. apply abs_le. destruct (Qlt_le_dec 0 r), (Qlt_le_dec A 1); lra.
Qed.
(** The argument of the kernel, and the weights *)
Variables (rate : rational) (x lo n : Z).
Hypotheses (N1 : (1 <= numerator rate)%Z) (D1 : (1 <= denominator rate)%Z) (Hn : (1 <= n)%Z) (Hin : SpecResample.inside rate lo n x).
Let B := inject_Z (Z.abs lo + n).
Hypothesis HB : 64 * u * B <= 1.
Let p := position (val rate) x.
Let s := at_most_1 exact (quotient exact (numerator rate) (denominator rate)).
Lemma B_bounds : 1 <= B /\ Qabs p <= B /\ forall i, (lo <= i < lo + n)%Z -> Qabs (inject_Z i) <= B.
Proof.
  split; [unfold B; change 1 with (inject_Z 1); rewrite <- Zle_Qle; lia|]. split.
  - unfold SpecResample.inside in Hin. fold p in Hin.
    assert (inject_Z (lo + n) <= B) by (unfold B; rewrite <- Zle_Qle; lia). assert (- B <= inject_Z (lo - 1)) by (unfold B; rewrite <- inject_Z_opp, <- Zle_Qle; lia).
    unfold Z.sub in *. rewrite inject_Z_plus in *. change (inject_Z (- (1))) with (-1 # 1) in *. apply abs_le. lra.
  - intros i Hi. unfold B. rewrite abs_le. rewrite <- inject_Z_opp, <- !Zle_Qle. lia.
Qed.
Lemma scale_exact : 0 <= s <= 1 /\ Qabs (at_most_1 fl (quotient fl (numerator rate) (denominator rate)) - s) <= 4 * u * s.
Proof.
  pose proof (quotient_close u rnd Hr ltac:(lra) (numerator rate) (denominator rate) D1) as Qc. unfold s, at_most_1. cbn [f_lt f1 rounded exact]. set (q := quotient fl _ _) in *.
  change (quotient exact (numerator rate) (denominator rate)) with (inject_Z (numerator rate) / inject_Z (denominator rate)).
  assert (P : 0 <= inject_Z (numerator rate) / inject_Z (denominator rate)).
  { assert (0 < inject_Z (denominator rate)) by (unfold Qlt, inject_Z; cbn; lia). apply Qle_shift_div_l; [auto|]. unfold Qle, Qmult, inject_Z; cbn; lia. }
  rewrite (Qabs_pos (_ / _)) in Qc by auto. set (a := _ / _) in *. rewrite abs_le in Qc. destruct Hr as (U & _ & _). assert (0 <= ((1 # 64) - u) * a) by (apply Qmult_le_0_compat; lra).
  destruct (Qle_bool a 1) eqn:E1, (Qle_bool q 1) eqn:E2; cbn [negb].
  - apply Qle_bool_iff in E1. split; [lra|]. apply abs_le. lra.
  - apply Qle_bool_iff in E1. assert (1 < q) by (apply Qnot_le_lt; intros G; apply Qle_bool_iff in G; congruence). split; [lra|]. assert (0 <= u * a) by (apply Qmult_le_0_compat; lra). apply abs_le. lra.
  - assert (1 < a) by (apply Qnot_le_lt; intros G; apply Qle_bool_iff in G; congruence). apply Qle_bool_iff in E2. split; [lra|]. apply abs_le. assert (0 <= (a - 1) * (1 - 4 * u)) by (apply Qmult_le_0_compat; lra). lra.
  - split; [lra|]. apply abs_le. lra.
Qed.
Lemma argument_near i : (lo <= i < lo + n)%Z ->
  let a := inject_Z i - p in
  Qabs (rnd (rnd (rnd (inject_Z i) - quotient fl (Qnum p) (QDen p)) * at_most_1 fl (quotient fl (numerator rate) (denominator rate))) - a * s) <= 7 * u * B * s + 7 * u * Qabs (a * s).
Proof.
  intros Hi a. destruct B_bounds as (B1 & Pb & Ib). specialize (Ib i Hi). destruct Hr as (U & _ & He). destruct scale_exact as [Sb Sc]. set (s' := at_most_1 fl _) in *.
  assert (Qd : Qabs (quotient fl (Qnum p) (QDen p) - p) <= 4 * u * Qabs p).
  { pose proof (quotient_close u rnd Hr ltac:(lra) (Qnum p) (QDen p) ltac:(lia)) as Q0. assert (E : inject_Z (Qnum p) / inject_Z (QDen p) == p) by (destruct p as [c b]; cbn [Qnum Qden]; rewrite (Qmake_Qdiv c b); reflexivity). rewrite E in Q0. exact Q0. }
  set (q := quotient fl (Qnum p) (QDen p)) in *. pose proof (He (inject_Z i)) as Ei. set (i' := rnd (inject_Z i)) in *.
  assert (4 * u * Qabs p <= 4 * u * B) by (rewrite !(Qmult_comm (4 * u)); apply Qmult_le_compat_r; lra).
  assert (u * Qabs (inject_Z i) <= u * B) by (rewrite !(Qmult_comm u); apply Qmult_le_compat_r; auto).
  assert (Df : Qabs ((i' - q) - a) <= 5 * (u * B)) by (unfold a; rewrite abs_le in *; lra). apply rnd_near in Df. set (d := rnd (i' - q)) in *.
  assert (Ub : 0 <= u * B) by (apply Qmult_le_0_compat; lra). pose proof (Qabs_nonneg a) as A0.
  assert (Df2 : Qabs (d - a) <= (5 + (5 # 64)) * (u * B) + u * Qabs a). { assert (u * (5 * (u * B)) <= (1 # 64) * (5 * (u * B))) by (apply Qmult_le_compat_r; lra). lra. }
  assert (S4 : 0 <= s' <= (17 # 16) * s). { rewrite abs_le in Sc. assert (0 <= ((1 # 64) - u) * s) by (apply Qmult_le_0_compat; lra). lra. }
  assert (M1 : Qabs (d * s' - a * s) <= ((5 + (5 # 64)) * (u * B) + u * Qabs a) * ((17 # 16) * s) + Qabs a * (4 * u * s)).
  { setoid_replace (d * s' - a * s) with ((d - a) * s' + a * (s' - s)) by ring. eapply Qle_trans; [apply Qabs_triangle|]. rewrite !Qabs_Qmult, (Qabs_pos s') by lra.
    assert (0 <= u * Qabs a) by (apply Qmult_le_0_compat; lra).
    apply Qplus_le_compat.
    - eapply Qle_trans; [apply Qmult_le_compat_r; [exact Df2|lra]|]. rewrite !(Qmult_comm (_ + _)). apply Qmult_le_compat_r; lra.
    - rewrite !(Qmult_comm (Qabs a)). apply Qmult_le_compat_r; auto. }
  assert (As : Qabs (a * s) == Qabs a * s) by (rewrite Qabs_Qmult, (Qabs_pos s) by lra; reflexivity).
  assert (Us : 0 <= u * B * s) by (apply Qmult_le_0_compat; lra). assert (Ua : 0 <= u * (Qabs a * s)) by (repeat apply Qmult_le_0_compat; lra).
  assert (M2 : Qabs (d * s' - a * s) <= (6 - (1 # 2)) * (u * B * s) + (6 - (1 # 2)) * (u * (Qabs a * s))) by lra.
  apply rnd_near in M2. rewrite As in *. set (t := (6 - (1 # 2)) * (u * B * s) + (6 - (1 # 2)) * (u * (Qabs a * s))) in *.
  assert (u * t <= (1 # 64) * t) by (apply Qmult_le_compat_r; [auto|]; unfold t; lra). unfold t in *. lra.
Qed.
Lemma linear_weight_near i : (lo <= i < lo + n)%Z ->
  Qabs (weight fl (linear fl) rate x i - weight exact (linear exact) rate x i) <= 8 * u * B * s + 20 * u /\
  (2 <= Qabs ((inject_Z i - p) * s) -> weight fl (linear fl) rate x i == 0 /\ weight exact (linear exact) rate x i == 0).
Proof.
  intros Hi. pose proof (argument_near i Hi) as A. cbv zeta in A. destruct B_bounds as (B1 & _). destruct scale_exact as [Sb _]. destruct Hr as (U & _ & _).
  assert (E : weight exact (linear exact) rate x i = linear exact ((inject_Z i - inject_Z (Qnum p) / inject_Z (QDen p)) * s)) by reflexivity.
  assert (Ep : inject_Z (Qnum p) / inject_Z (QDen p) == p) by (destruct p as [c b]; cbn [Qnum Qden]; rewrite (Qmake_Qdiv c b); reflexivity).
  assert (E2 : weight exact (linear exact) rate x i == linear exact ((inject_Z i - p) * s)).
  { rewrite E, !exact_linear. assert (Ea : Qabs ((inject_Z i - inject_Z (Qnum p) / inject_Z (QDen p)) * s) == Qabs ((inject_Z i - p) * s)) by (rewrite Ep; reflexivity).
    destruct (Qlt_le_dec _ 1) as [L1|L1], (Qlt_le_dec (Qabs ((inject_Z i - p) * s)) 1) as [L2|L2]; try (rewrite Ea in *; lra); rewrite Ea; reflexivity. }
  assert (E3 : weight fl (linear fl) rate x i = linear fl (rnd (rnd (rnd (inject_Z i) - quotient fl (Qnum p) (QDen p)) * at_most_1 fl (quotient fl (numerator rate) (denominator rate))))) by reflexivity.
  rewrite E3. set (z := rnd (_ * _)) in *. set (y := (inject_Z i - p) * s) in *.
  assert (Ub : 0 <= u * B) by (apply Qmult_le_0_compat; lra). assert (Us : 0 <= u * B * s) by (apply Qmult_le_0_compat; lra).
  assert (Far : 2 <= Qabs y -> linear fl z == 0 /\ linear exact y == 0).
  { intros H2. apply linear_far; auto. eapply Qle_trans; [exact A|]. assert (0 <= u * B * (1 - s)) by (apply Qmult_le_0_compat; lra). assert (0 <= ((1 # 64) - u) * Qabs y) by (apply Qmult_le_0_compat; lra). lra. }
  split; [|intros H2; rewrite E2; apply Far; auto].
  rewrite E2. destruct (Qlt_le_dec (Qabs y) 2) as [L|L].
  - eapply Qle_trans; [apply linear_near; [lra|exact A]|]. assert (u * Qabs y <= u * 2) by (rewrite !(Qmult_comm u); apply Qmult_le_compat_r; lra). lra.
  - destruct (Far L) as [F1 F2]. rewrite F1, F2. apply abs_le. lra.
Qed.
(** Enlarging: weights at up to four positions, whose sum is at least 1/2 *)
Hypothesis Hrate : (denominator rate <= numerator rate)%Z.
Lemma enlarging : s == 1.
Proof.
  unfold s, at_most_1. cbn [f_lt f1 exact]. change (quotient exact (numerator rate) (denominator rate)) with (inject_Z (numerator rate) / inject_Z (denominator rate)).
  assert (1 <= inject_Z (numerator rate) / inject_Z (denominator rate)). { apply Qle_shift_div_l; [unfold Qlt, inject_Z; cbn; lia|]. rewrite Qmult_1_l, <- Zle_Qle. lia. }
  destruct (Qle_bool _ 1) eqn:E; cbn [negb]; [apply Qle_bool_iff in E; lra|reflexivity].
Qed.
Lemma linear_near_weights : near_weights (8 * u * B + 20 * u) 4 (1 # 2) (weight fl (linear fl) rate x) (weight exact (linear exact) rate x) lo n.
Proof.
  pose proof enlarging as S1. split; [|split; [|split; [lra|]]].
  - intros i Hi. split; [apply linear_nonneg|]. split.
    + unfold weight. rewrite exact_linear. destruct (Qlt_le_dec _ _); lra.
    + eapply Qle_trans; [apply linear_weight_near; exact Hi|]. rewrite S1. lra.
  - exists (Qfloor p - 1)%Z. intros i Hi Nz.
    assert (L : Qabs ((inject_Z i - p) * s) < 2) by (destruct (Qlt_le_dec (Qabs ((inject_Z i - p) * s)) 2) as [L|L]; [exact L|exfalso; apply Nz, linear_weight_near; auto]).
    rewrite S1, Qmult_1_r in L. pose proof (Qfloor_le p) as F1. pose proof (Qlt_floor p) as F2. set (k := Qfloor p) in *. pose proof (abs_bounds (inject_Z i - p)) as Ab.
    assert (inject_Z (k - 2) < inject_Z i). { unfold Z.sub. rewrite inject_Z_plus. change (inject_Z (- (2))) with (-2 # 1). lra. }
    assert (inject_Z i < inject_Z (k + 3)). { rewrite inject_Z_plus in *. change (inject_Z 3) with (3 # 1). change (inject_Z 1) with 1 in *. lra. }
    rewrite <- Zlt_Qlt in *. change (Z.of_nat 4) with 4%Z. lia.
  - destruct (nearest _ _ _ Hn Hin) as (i & Hi & Ni). fold p in Ni. rewrite sum_qsum.
    assert (W : 1 # 2 <= weight exact (linear exact) rate x i).
    { assert (E : weight exact (linear exact) rate x i = linear exact ((inject_Z i - inject_Z (Qnum p) / inject_Z (QDen p)) * s)) by reflexivity.
      assert (Ep : inject_Z (Qnum p) / inject_Z (QDen p) == p) by (destruct p as [c b]; cbn [Qnum Qden]; rewrite (Qmake_Qdiv c b); reflexivity).
      rewrite E, exact_linear. assert (Ea : Qabs ((inject_Z i - inject_Z (Qnum p) / inject_Z (QDen p)) * s) <= 1 # 2) by (rewrite Ep, S1; apply abs_le; lra). destruct (Qlt_le_dec _ 1); lra. }
    eapply Qle_trans; [exact W|]. apply (qsum_at_least (weight exact (linear exact) rate x)); [|apply range_In; lia].
    intros j _. unfold weight. rewrite exact_linear. destruct (Qlt_le_dec _ _); lra.
Qed.
Lemma linear_taps4 : taps_within 4 (weight fl (linear fl) rate x) lo n.
Proof.
  destruct B_bounds as (B1 & _). destruct Hr as (U & _ & _). assert (0 <= u * B) by (apply Qmult_le_0_compat; lra).
  destruct (linear_taps u rnd Hr ltac:(lra) rate lo n x N1 D1 Hn Hin) as [Ex _]; [fold B; lra|]. split; [exact Ex|].
  destruct linear_near_weights as (_ & (a & Ha) & _). exists a. intros i Hi Nz. apply Ha; auto. tauto.
Qed.
End Close.
(** Enlarging images of up to 100x100 pixels of 8 bits, with floats and the linear kernel *)
Lemma linear_exact rnd nd (h : heap Q) (I O : aref) (f : list Z -> Q) (rx ry : rational) (ix iy ic ox oy oc : dim) :
  rounds (1 # 16777216) 0 rnd -> resampling (rounded rnd) h I O f rx ry (linear (rounded rnd)) ix iy ic ox oy oc ->
  dmin ix = 0%Z -> dmin iy = 0%Z -> (1 <= dext ix <= 100)%Z -> (1 <= dext iy <= 100)%Z ->
  (1 <= denominator rx <= numerator rx)%Z -> (1 <= denominator ry <= numerator ry)%Z ->
  (forall x, in_dim ox x -> SpecResample.inside rx 0 (dext ix) x) -> (forall y, in_dim oy y -> SpecResample.inside ry 0 (dext iy) y) ->
  (forall i, in_bounds (r_shape I) i -> 0 <= f i <= 255) ->
  image_with (resample (rounded rnd) nd I O rx ry (linear (rounded rnd)) h) O (fun x y c q =>
    Qabs (q - pixel exact f rx ry (linear exact) ix iy x y c) <= 1 # 2).
Proof.
  intros Hr R Zx Zy Sx Sy Nx Ny Ix Iy Hf.
  assert (HB : forall n, (1 <= n <= 100)%Z -> 1 <= inject_Z (Z.abs 0 + n) <= 100) by (intros n Hn; change 1 with (inject_Z 1); change 100 with (inject_Z 100); rewrite <- !Zle_Qle; lia).
  pose proof (HB _ Sx) as Bx. pose proof (HB _ Sy) as By.
  assert (Hb : forall i, in_bounds (r_shape I) i -> Qabs (f i) <= 255) by (intros i Hi; rewrite Qabs_pos; apply Hf; auto).
  assert (G4 : (grow (1 # 16777216) 4 - 1) * 1 < 1) by reflexivity.
  set (ex := 8 * (1 # 16777216) * inject_Z (Z.abs 0 + dext ix) + 20 * (1 # 16777216)). set (ey := 8 * (1 # 16777216) * inject_Z (Z.abs 0 + dext iy) + 20 * (1 # 16777216)).
  pose proof (near_exact (1 # 16777216) rnd Hr nd h I O f rx ry (linear (rounded rnd)) (linear exact) ix iy ic ox oy oc R ex ey (1 # 2) (1 # 2) 4 4 4 4) as Ne.
  assert (W : image_with (resample (rounded rnd) nd I O rx ry (linear (rounded rnd)) h) O (fun x y c q =>
    Qabs (q - pixel exact f rx ry (linear exact) ix iy x y c) <= (image_error (1 # 16777216) 1 1 4 4 + weights_error ex 4 (1 # 2) + weights_error ey 4 (1 # 2)) * 255)).
  { apply Ne; auto; rewrite ?Zx, ?Zy; intros x Hx.
    - apply (linear_near_weights (1 # 16777216) rnd Hr ltac:(lra)); auto; try lia; lra.
    - apply (linear_near_weights (1 # 16777216) rnd Hr ltac:(lra)); auto; try lia; lra.
    - apply (linear_taps4 (1 # 16777216) rnd Hr ltac:(lra)); auto; try lia; lra.
    - apply (linear_taps4 (1 # 16777216) rnd Hr ltac:(lra)); auto; try lia; lra. }
  destruct W as (h' & E & V). exists h'. split; [exact E|]. intros x y c Hb'. destruct (V x y c Hb') as (q & Hq & Q0). exists q. split; [exact Hq|]. eapply Qle_trans; [exact Q0|].
  assert (E1 : image_error (1 # 16777216) 1 1 4 4 <= 2 # 1000000) by (vm_compute; discriminate).
  assert (E2 : forall e, weights_error e 4 (1 # 2) == 16 * e) by (intros e; unfold weights_error; change (inject_Z (Z.of_nat 4)) with 4; field).
  rewrite !E2. unfold ex, ey. lra.
Qed.
