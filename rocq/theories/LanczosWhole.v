(** Resampling in real arithmetic: weights, whole images, and what main makes of them. *)
From Coq Require Import QArith Qreals Reals Lra Permutation String.
From Verif Require Import Tac Interval Shape Memory Ref Callback Conv Spec SpecMem SpecEin SpecCallback Container Rational SpecRational Resample SpecResample
  Lanczos SpecLanczos EinUses MemFacts MatrixFacts RefFacts AbortFacts RationalFacts CallbackFacts ResampleFacts ResampleWhole ResampleExact RealWeights LanczosFacts LanczosShrink.
Import ListNotations.
Open Scope R_scope.

(** ** Weighted sums *)
Section Weights.
Variables (w : Z -> R) (lo n : Z).
Hypothesis U : usable_weights reals w lo n.
Notation T := (total reals w lo n).
Notation TR := (tap_range reals w lo n).
Lemma totalr_pos : 0 < T.
Proof. destruct U as [_ H]. apply ltr_true in H. exact H. Qed.
Lemma totalr_sum : rsum (map w TR) = T.
Proof.
  unfold total. change (f_add reals) with Rplus. change (f0 reals) with 0. rewrite fold_rsum, Rplus_0_l. rewrite <- (rsum_filter w TR).
  apply rsum_perm, Permutation_map, NoDup_Permutation.
  - apply NoDup_filter, range_NoDup.
  - apply NoDup_filter, range_NoDup.
  - intro i. destruct U as [Nt _]. destruct (window_bounds reals w lo n Nt) as (_ & _ & B1 & B2).
    pose proof (sorted_hd_last (taps reals w lo n) Nt (taps_sorted reals w lo n)) as (_ & _ & HL).
    change (fun i0 : Z => f_ne reals (w i0) 0) with (fun i0 : Z => f_ne reals (w i0) (f0 reals)). rewrite filter_In.
    unfold tap_range. rewrite range_In. split; intro I.
    + apply taps_In. split; [lia|apply I].
    + pose proof (HL i I). fold (first_tap reals w lo n) (last_tap reals w lo n) in *. apply taps_In in I. split; [lia|apply I].
Qed.
Lemma weightedr_sum g : weighted reals w lo n g = rsum (map (fun i => g i * (w i / T)) TR).
Proof. unfold weighted. cbn [f_add f_mul f_div f0 reals]. rewrite fold_rsum. ring. Qed.
Lemma rsum_scale (h : Z -> R) c l : rsum (map (fun i => c * (h i / T)) l) = c * (rsum (map h l) / T).
Proof. pose proof totalr_pos. induction l as [|a l IH]; cbn [map rsum]; [field; lra|]. rewrite IH. field. lra. Qed.
Lemma tapr_range_In i : In i TR -> (lo <= i < lo + n)%Z.
Proof. unfold tap_range. rewrite range_In. destruct U as [Nt _]. destruct (window_bounds reals w lo n Nt). lia. Qed.
Lemma weightedr_const g v : (forall i, (lo <= i < lo + n)%Z -> g i = v) -> weighted reals w lo n g = v.
Proof.
  intro H. pose proof totalr_pos. rewrite weightedr_sum. transitivity (rsum (map (fun i => v * (w i / T)) TR)).
  - f_equal. apply map_ext_in. intros i Hi. rewrite (H i) by (apply tapr_range_In; auto). reflexivity.
  - rewrite rsum_scale, totalr_sum. field. lra.
Qed.
End Weights.
Lemma weighted_ext w w' lo n g : (forall i, w i = w' i) -> weighted reals w lo n g = weighted reals w' lo n g.
Proof.
  intro H. assert (Tp : taps reals w lo n = taps reals w' lo n) by (apply filter_ext; intro i; rewrite H; reflexivity).
  unfold weighted, tap_range, first_tap, last_tap, total. rewrite Tp. rewrite (map_ext w w' H). f_equal. apply map_ext. intro i. rewrite H. reflexivity.
Qed.
Lemma weighted_values w lo n g g' : (forall i, g i = g' i) -> weighted reals w lo n g = weighted reals w lo n g'.
Proof. intro H. unfold weighted. f_equal. apply map_ext. intro i. rewrite H. reflexivity. Qed.

(** At rate 1 *)
Lemma weightr_unit kernel rate x i : interpolating_kernel kernel -> numerator rate = 1%Z -> denominator rate = 1%Z ->
  weight reals kernel rate x i = if (i =? x)%Z then 1 else 0.
Proof.
  intros K N D. unfold weight. rewrite quotient_real, scale_one by lia. cbn [f_mul f_sub f_int reals].
  assert (E : Q2R (position (val rate) x) = IZR x).
  { replace (IZR x) with (Q2R (inject_Z x)) by (unfold Q2R; cbn; rewrite Rinv_1; ring). apply Qeq_eqR. rewrite position_val. unfold val. rewrite N, D. cbn [Z.to_pos]. field. }
  rewrite E, <- minus_IZR, Rmult_1_r, K. destruct (Z.eqb_spec (i - x) 0), (Z.eqb_spec i x); auto; lia.
Qed.
Lemma weightedr_unit kernel rate x lo n g : interpolating_kernel kernel -> numerator rate = 1%Z -> denominator rate = 1%Z -> (lo <= x < lo + n)%Z ->
  weighted reals (weight reals kernel rate x) lo n g = g x.
Proof.
  intros K N D X. assert (W : forall i, weight reals kernel rate x i = if (i =? x)%Z then 1 else 0) by (intro i; apply weightr_unit; auto).
  rewrite (weighted_ext _ _ lo n g W). clear W. set (w := fun i => if (i =? x)%Z then 1 else 0).
  assert (U : usable_weights reals w lo n).
  { apply usable_sum. apply Rlt_le_trans with (rsum (map (fun _ => 0) (range lo n)) + 1).
    - assert (G : forall l : list Z, rsum (map (fun _ => 0) l) = 0) by (induction l; cbn [map rsum]; lra). rewrite G. lra.
    - apply (rsum_le_one _ _ _ x); [intros i _; unfold w; destruct (i =? x)%Z; lra|apply range_In; lia|]. unfold w. rewrite Z.eqb_refl. lra. }
  pose proof (totalr_pos w lo n U) as P. pose proof (totalr_sum w lo n U) as S.
  assert (Tp : forall i, In i (taps reals w lo n) -> i = x).
  { intros i Hi. apply taps_In in Hi. destruct Hi as [_ Hi]. apply ne_true in Hi. unfold w in Hi. cbn [f0 reals] in Hi. destruct (Z.eqb_spec i x); [auto|lra]. }
  destruct U as [Nt Tt]. destruct (sorted_hd_last (taps reals w lo n) Nt (taps_sorted reals w lo n)) as (Hd & La & _).
  apply Tp in Hd, La. assert (Rg : tap_range reals w lo n = [x]).
  { unfold tap_range, first_tap, last_tap. rewrite Hd, La. replace (x - x + 1)%Z with 1%Z by lia. unfold range. change (seq 0 (Z.to_nat 1)) with [0%nat]. cbn [map]. rewrite Z.add_0_r. reflexivity. }
  rewrite weightedr_sum, Rg. rewrite Rg in S. cbn [map rsum] in S |- *. rewrite <- S. unfold w. rewrite Z.eqb_refl. field.
Qed.

(** ** Rates *)
Lemma rate_of m n : (1 <= m <= 2 ^ 29)%Z -> (1 <= n <= 2 ^ 29)%Z ->
  exists r, make_rational m n = Ok r /\ scaled r m n /\ rate_ok r 0 m /\ (val r == val (mkQ m n))%Q.
Proof.
  intros M N. destruct (make_rational_spec m n) as (r & E & [D _] & _ & V & D' & N'); [unfold index_max; lia|unfold index_min; lia|].
  exists r. split; [exact E|]. assert (S : (m * denominator r = n * numerator r)%Z).
  { unfold val, Qeq in V. cbn [Qnum Qden] in V. rewrite !Z2Pos.id in V by lia. lia. }
  assert (P : (1 <= numerator r)%Z) by nia. split; [split; [auto|split; [lia|exact S]]|]. split; [|exact V].
  split; [lia|]. split; [lia|]. intros x Hx. change (2 ^ 60)%Z with (2 ^ 31 * 2 ^ 29)%Z. apply Z.mul_le_mono_nonneg; lia.
Qed.
Lemma scaled_weight kernel r m n x i : (1 <= m)%Z -> (1 <= n)%Z -> scaled r m n -> weight reals kernel r x i = weight reals kernel (mkQ m n) x i.
Proof.
  intros M N (N1 & D1 & S). unfold weight. assert (V : (val r == val (mkQ m n))%Q) by (unfold val, Qeq; cbn [Qnum Qden numerator denominator]; rewrite !Z2Pos.id by lia; lia).
  assert (P : position (val r) x = position (val (mkQ m n)) x) by (unfold position; apply Qred_complete; rewrite V; reflexivity).
  rewrite P. do 2 f_equal. f_equal. unfold quotient. cbn [f_div f_int reals numerator denominator].
  apply IZR_le in M, N, N1, D1. apply (f_equal IZR) in S. rewrite !mult_IZR in S. field_simplify_eq; lra.
Qed.
Lemma scaled_pixel kernel f rx ry ix iy ox oy x y c : (1 <= dext ix)%Z -> (1 <= dext iy)%Z -> (1 <= dext ox)%Z -> (1 <= dext oy)%Z ->
  scaled rx (dext ox) (dext ix) -> scaled ry (dext oy) (dext iy) ->
  pixel reals f rx ry kernel ix iy x y c = pixel reals f (mkQ (dext ox) (dext ix)) (mkQ (dext oy) (dext iy)) kernel ix iy x y c.
Proof.
  intros A B C D Sx Sy. unfold pixel. rewrite (weighted_ext _ (weight reals kernel (mkQ (dext ox) (dext ix)) x)) by (intro i; apply scaled_weight; auto).
  apply weighted_values. intro i. apply weighted_ext. intro j. apply scaled_weight; auto.
Qed.

(** ** Images *)
Section Image.
Variables (h : heap R) (I O : aref) (f : list Z -> R) (ix iy ic ox oy oc : dim).
Hypothesis M : images h I O f ix iy ic ox oy oc.
Variable kernel : R -> R.
Hypothesis K : forall rate m n x, scaled rate m n -> (m = dext ox /\ n = dext ix \/ m = dext oy /\ n = dext iy)%Z -> (0 <= x < m)%Z ->
  usable_weights reals (weight reals kernel rate x) 0 n.
Lemma extents : (1 <= dext ix /\ 1 <= dext iy /\ 1 <= dext ox /\ 1 <= dext oy)%Z.
Proof.
  destruct M as [_ _ _ [E1 E2] _ _ _ _ _ _ _ _ _]. inversion_clear E1 as [|? ? A1 E1']. inversion_clear E1' as [|? ? A2 _].
  inversion_clear E2 as [|? ? B1 E2']. inversion_clear E2' as [|? ? B2 _]. lia.
Qed.
Lemma images_resampling : exists rx ry, make_rational (dext ox) (dext ix) = Ok rx /\ make_rational (dext oy) (dext iy) = Ok ry /\
  scaled rx (dext ox) (dext ix) /\ scaled ry (dext oy) (dext iy) /\ resampling reals h I O f rx ry kernel ix iy ic ox oy oc.
Proof.
  pose proof extents as (A & B & C & D). destruct M as [SI SO (Z1 & Z2 & Z3 & Z4) [E1 E2] (M1 & M2 & M3 & M4) Ch Rw Sz Sh Al In_ Ap Us].
  destruct (rate_of (dext ox) (dext ix)) as (rx & Ex & Sx & Rx & _); [lia..|]. destruct (rate_of (dext oy) (dext iy)) as (ry & Ey & Sy & Ry & _); [lia..|].
  exists rx, ry. do 4 (split; [assumption|]). constructor; auto.
  - split; [|exact E2]. eapply Forall_impl; [|exact E1]. cbn beta. intros. lia.
  - rewrite Z3, Z4. auto.
  - intros x Hx. unfold in_dim in Hx. rewrite Z1. apply (K _ (dext ox)); [auto|auto|lia].
  - intros y Hy. unfold in_dim in Hy. rewrite Z2. apply (K _ (dext oy)); [auto|auto|lia].
Qed.

Lemma clamp_real b v : clamp reals b v = limited b v.
Proof.
  unfold clamp, f_max, f_min, limited. cbn [f0 reals]. unfold Rmin. destruct (f_lt reals b v) eqn:E; [apply ltr_true in E|apply ltr_false in E]; unfold Rmax;
  destruct (f_lt reals _ 0) eqn:E2; [apply ltr_true in E2|apply ltr_false in E2| apply ltr_true in E2|apply ltr_false in E2]; repeat destruct (Rle_dec _ _); lra.
Qed.
Lemma clamping_visits b : visits_each (clamping reals b) (fun fs _ => fs) (fun _ v => limited b v).
Proof.
  intros h1 p v fu s Hv. exists (upd h1 p (Live (limited b v))). cbn [clamping call fst snd]. rewrite (proj2 (load_holds h1 p v) Hv). cbn [bind].
  rewrite clamp_real. rewrite store_ok by (exists v; auto). split; [reflexivity|]. split.
  - unfold holds in *. apply peek_upd_same. rewrite Hv. discriminate.
  - apply (upds_only_changes h1 [(p, Live (limited b v))]). intros q [<-|[]]. reflexivity.
Qed.
Lemma clamp_blocks b k l : forall (h1 : heap R) r, (forall p, In p l -> fst p <> k) -> call_each (call (clamping reals b)) l tt (h1, tt) = Ok r ->
  exists h2, r = Gives tt tt (h2, tt) /\ h_blk h2 k = h_blk h1 k.
Proof.
  induction l as [|p l IH]; intros h1 r Hl E; cbn [call_each] in E.
  - injection E as <-. exists h1. auto.
  - cbn [clamping call fst snd] in E. unfold load in E. destruct (peek h1 p) as [[|v]|] eqn:Pk; try discriminate. cbn [bind] in E. unfold store in E. rewrite Pk in E. cbn [bind] in E.
    apply IH in E; [|intros q Hq; apply Hl; right; auto]. destruct E as (h2 & -> & B). exists h2. split; [auto|]. rewrite B.
    assert (N : fst p <> k) by (apply Hl; left; auto). unfold upd. cbn [h_blk]. destruct (Nat.eqb_spec k (fst p)); [congruence|reflexivity].
Qed.

Lemma resize_ok nd b : makes_image h (resize reals nd b kernel I O h) O (fun x y c =>
  limited b (pixel reals f (mkQ (dext ox) (dext ix)) (mkQ (dext oy) (dext iy)) kernel ix iy x y c)).
Proof.
  destruct images_resampling as (rx & ry & Ex & Ey & Sx & Sy & Rs). pose proof extents as (A & B & C & D).
  destruct (resample_ok reals nd h I O f rx ry kernel ix iy ic ox oy oc Rs) as (h1 & E1 & V1 & P1 & B1).
  destruct M as [SI SO _ [_ E2] _ _ _ _ _ _ In_ _ _].
  assert (Ext : extents_ge 0 (r_shape O)) by (rewrite SO; eapply Forall_impl; [|exact E2]; cbn beta; intros; lia).
  set (g := fun i : list Z => pixel reals f rx ry kernel ix iy (nth 0 i 0%Z) (nth 1 i 0%Z) (nth 2 i 0%Z)).
  assert (Hg : shows_elems h1 (r_base O) (r_shape O) g).
  { intros i Hi. assert (L : exists x y c, i = [x; y; c]).
    { rewrite SO in Hi. inversion Hi as [|? x ? ? _ Hi1]; subst. inversion Hi1 as [|? y ? ? _ Hi2]; subst. inversion Hi2 as [|? c ? ? _ Hi3]; subst. inversion Hi3; subst. eauto. }
    destruct L as (x & y & c & ->). apply V1. exact Hi. }
  destruct (visit_values (F := unit) (S := unit) nd O h1 g Ext In_ Hg) as (l & Ml & Vl). destruct (Vl (clamping reals b) _ _ tt tt (clamping_visits b)) as (h2 & E3 & V3 & O3).
  assert (FF : forall (q : list R) (a : unit * unit), fold_left (fun (fs : unit * unit) (_ : R) => fs) q a = a) by (induction q; auto).
  rewrite FF in E3. cbn [fst snd] in E3. exists h2. split; [|split; [|split]].
  - unfold resize, dim_of. rewrite SI, SO. cbn [nth]. rewrite Ex, Ey. cbn [bind]. rewrite E1. cbn [bind]. rewrite E3. reflexivity.
  - intros x y c Hb. rewrite <- (scaled_pixel kernel f rx ry ix iy ox oy) by auto. assert (Il : In [x; y; c] l) by (apply Ml; exact Hb).
    destruct (In_nth_error _ _ Il) as [n En]. exact (V3 n _ En).
  - intros p Hp. destruct O3 as (O3 & _). rewrite (O3 p Hp). apply P1. exact Hp.
  - intros k Hk. rewrite <- (B1 k Hk). unfold for_each_value_f in E3.
    assert (Al : forall i, in_bounds (r_shape O) i -> alive h1 (elem (r_base O) (r_shape O) i)) by (intros i Ii; exists (g i); apply Hg; auto).
    destruct (values_order nd (r_shape O) (r_base O) Ext (alive_base h1 _ _ _ Ext Al)) as (l' & _ & El). rewrite El in E3. cbn [bind] in E3.
    apply (clamp_blocks b k) in E3; [|intros p Hp; apply in_map_iff in Hp; destruct Hp as (i & <- & _); cbn [elem fst]; auto].
    destruct E3 as (h3 & E3 & B3). injection E3 as <-. exact B3.
Qed.
End Image.

(** What the kernels give *)
Lemma named_usable name kernel rate lo n x : parse_kernel reals PI sin name = Some kernel ->
  (1 <= numerator rate)%Z -> (1 <= denominator rate)%Z -> (1 <= n)%Z -> inside rate lo n x -> usable_weights reals (weight reals kernel rate x) lo n.
Proof.
  intros Pk N D Hn I. unfold parse_kernel in Pk.
  destruct (String.eqb name "box"); [injection Pk as <-; auto using usable_short, box_short|].
  destruct (String.eqb name "linear"); [injection Pk as <-; auto using usable_short, linear_short|].
  destruct (String.eqb name "quadratic"); [injection Pk as <-; auto using usable_short, quadratic_short|].
  destruct (String.eqb name "cubic"); [injection Pk as <-; auto using usable_short, cubic_short|].
  destruct (String.eqb name "lanczos"); [|discriminate]. injection Pk as <-. apply usable_lanczos4; auto.
Qed.
Lemma sizes_usable (h : heap R) I O f ix iy ic ox oy oc name kernel :
  images h I O f ix iy ic ox oy oc -> parse_kernel reals PI sin name = Some kernel ->
  forall rate m n x, scaled rate m n -> (m = dext ox /\ n = dext ix \/ m = dext oy /\ n = dext iy)%Z -> (0 <= x < m)%Z ->
    usable_weights reals (weight reals kernel rate x) 0 n.
Proof.
  intros M Pk. pose proof (extents _ _ _ _ _ _ _ _ _ _ M) as (A & B & C & D). intros rate m n x (Nu & De & S) Mn X.
  apply (named_usable name); auto; [lia|]. apply (inside_scaled rate n m); auto. lia.
Qed.
Lemma resize_named nd h I O f ix iy ic ox oy oc name kernel b :
  images h I O f ix iy ic ox oy oc -> parse_kernel reals PI sin name = Some kernel ->
  makes_image h (resize reals nd b kernel I O h) O (fun x y c =>
    limited b (pixel reals f (mkQ (dext ox) (dext ix)) (mkQ (dext oy) (dext iy)) kernel ix iy x y c)).
Proof. intros M Pk. exact (resize_ok h I O f ix iy ic ox oy oc M kernel (sizes_usable _ _ _ _ _ _ _ _ _ _ _ _ M Pk) nd b). Qed.
(** Every named kernel interpolates *)
Lemma named_ints name kernel : parse_kernel reals PI sin name = Some kernel -> interpolating_kernel kernel.
Proof.
  unfold parse_kernel. repeat (destruct (String.eqb name _); [intros [= <-]; auto using box_ints, linear_ints, quadratic_ints, cubic_ints, (lanczos_ints 4)|]); [|discriminate].
  apply lanczos_ints. lia.
Qed.

(** Constant images stay constant, and images of the same size stay the same, but for the limits *)
Lemma makes_image_ext (h : heap R) run O w w' : (forall x y c, in_bounds (r_shape O) [x; y; c] -> w x y c = w' x y c) ->
  makes_image h run O w -> makes_image h run O w'.
Proof. intros H (h' & E & V & P & B). exists h'. split; [exact E|]. split; [|auto]. intros x y c Hb. rewrite <- H by auto. apply V. exact Hb. Qed.
Lemma in_image ox oy oc x y c : in_bounds [ox; oy; oc] [x; y; c] -> in_dim ox x /\ in_dim oy y /\ in_dim oc c.
Proof. intro H. inversion_clear H as [|? ? ? ? A H1]. inversion_clear H1 as [|? ? ? ? B H2]. inversion_clear H2 as [|? ? ? ? C _]. auto. Qed.
Lemma resize_constant nd h I O f ix iy ic ox oy oc name kernel b v :
  images h I O f ix iy ic ox oy oc -> parse_kernel reals PI sin name = Some kernel ->
  (forall i, in_bounds (r_shape I) i -> f i = v) ->
  makes_image h (resize reals nd b kernel I O h) O (fun _ _ _ => limited b v).
Proof.
  intros M Pk Hf. pose proof (sizes_usable _ _ _ _ _ _ _ _ _ _ _ _ M Pk) as K.
  refine (makes_image_ext _ _ _ _ _ _ (resize_ok h I O f ix iy ic ox oy oc M kernel K nd b)). intros x y c Hb. f_equal.
  destruct (images_resampling h I O f ix iy ic ox oy oc M kernel K) as (rx & ry & _ & _ & Sx & Sy & [SI SO _ Ch _ Ux Uy _ _ _ _ _ _ _]).
  pose proof (extents _ _ _ _ _ _ _ _ _ _ M) as (A & B & C & D). rewrite <- (scaled_pixel kernel f rx ry ix iy ox oy) by auto.
  rewrite SO in Hb. apply in_image in Hb. destruct Hb as (X & Y & Cc). unfold pixel. apply weightedr_const; [auto|]. intros i Hi. apply weightedr_const; [auto|].
  intros j Hj. apply Hf. rewrite SI. unfold in_dim in *. repeat constructor; unfold in_dim; lia.
Qed.
Lemma resize_same nd h I O f ix iy ic ox oy oc name kernel b :
  images h I O f ix iy ic ox oy oc -> parse_kernel reals PI sin name = Some kernel -> dext ix = dext ox -> dext iy = dext oy ->
  makes_image h (resize reals nd b kernel I O h) O (fun x y c => limited b (f [x; y; c])).
Proof.
  intros M Pk Ex Ey. refine (makes_image_ext _ _ _ _ _ _ (resize_named nd h I O f ix iy ic ox oy oc name kernel b M Pk)).
  intros x y c Hb. f_equal. pose proof (extents _ _ _ _ _ _ _ _ _ _ M) as (A & B & C & D). destruct M as [SI SO (Z1 & Z2 & Z3 & Z4) _ _ _ _ _ _ _ _ _ _].
  pose proof (named_ints _ _ Pk) as K. rewrite SO in Hb. apply in_image in Hb. destruct Hb as (X & Y & _). unfold in_dim in *.
  rewrite <- (scaled_pixel kernel f (mkQ 1 1) (mkQ 1 1) ix iy ox oy) by (auto; unfold scaled; cbn [numerator denominator]; lia).
  unfold pixel. rewrite weightedr_unit by (auto; lia). apply weightedr_unit; auto. lia.
Qed.

(** A concrete case: 2x4 pixels to 3x65 and 1x65, and 2x64 to 2x64 *)
Definition heapL : heap R := mkH 3 (fun k => match k with
  | 1%nat => Some (mkB (Base 0) 128 (fun z => Live (IZR (z * z mod 7))))
  | 2%nat => Some (mkB (Base 0) 195 (fun _ => Live 0))
  | _ => None end).
Definition lI (n : Z) : aref := mkR (1%nat, 0%Z) [mkD 0 2 1; mkD 0 n 2; mkD 0 1 128].
Definition lO (m n : Z) : aref := mkR (2%nat, 0%Z) [mkD 0 m 1; mkD 0 n m; mkD 0 1 195].
Definition lF (n : Z) (i : list Z) : R := IZR (offset (r_shape (lI n)) i * offset (r_shape (lI n)) i mod 7).
Lemma images_L n m k : (1 <= n <= 64)%Z -> (1 <= m <= 3)%Z -> (64 <= k <= 65)%Z ->
  images heapL (lI n) (lO m k) (lF n) (mkD 0 2 1) (mkD 0 n 2) (mkD 0 1 128) (mkD 0 m 1) (mkD 0 k m) (mkD 0 1 195).
Proof.
  intros N Mm Kk. constructor; try reflexivity; cbn [dmin dext]; try lia.
  - split; repeat constructor; cbn [dext]; lia.
  - intros i Hi. inversion_clear Hi as [|? x ? ? X Hi']. inversion_clear Hi' as [|? y ? ? Y Hi]. inversion_clear Hi as [|? c ? ? C Hi']. inversion_clear Hi'.
    unfold in_dim in *. cbn [dmin dext] in *. unfold holds, peek, elem, lF. cbn [fst snd r_base r_shape lI heapL h_blk b_size b_cell].
    set (z := offset _ _). assert (B : (0 <= z < 128)%Z) by (unfold z; cbn [offset dmin dstr]; lia).
    replace (0 + z)%Z with z by lia. destruct (Z.leb_spec 0 z), (Z.ltb_spec z 128); try lia; reflexivity.
  - intros i Hi. inversion_clear Hi as [|? x ? ? X Hi']. inversion_clear Hi' as [|? y ? ? Y Hi]. inversion_clear Hi as [|? c ? ? C Hi']. inversion_clear Hi'.
    unfold in_dim in *. cbn [dmin dext] in *. exists 0. unfold holds, peek, elem. cbn [fst snd r_base r_shape lO heapL h_blk b_size b_cell].
    set (z := offset _ _). assert (B : (0 <= z < 195)%Z) by (unfold z; cbn [offset dmin dstr]; nia).
    replace (0 + z)%Z with z by lia. destruct (Z.leb_spec 0 z), (Z.ltb_spec z 195); try lia; reflexivity.
  - intros i j Hi Hj. inversion_clear Hi as [|? x ? ? X Hi']. inversion_clear Hi' as [|? y ? ? Y Hi]. inversion_clear Hi as [|? c ? ? C Hi']. inversion_clear Hi'.
    inversion_clear Hj as [|? x' ? ? X' Hj']. inversion_clear Hj' as [|? y' ? ? Y' Hj]. inversion_clear Hj as [|? c' ? ? C' Hj']. inversion_clear Hj'.
    unfold in_dim in *. cbn [dmin dext offset dstr r_shape lO] in *. intro E. assert (y = y') by nia. subst y'. f_equal; [lia|]. do 2 f_equal. lia.
  - intros i _ (o & _ & E). apply (f_equal fst) in E. discriminate.
  - split; [cbn; lia|]. split; [reflexivity|]. intros q Hq. cbn [h_next heapL] in Hq. do 3 (destruct q as [|q]; [lia|]). reflexivity.
Qed.
Lemma lanczos_example :
  parse_kernel reals PI sin "lanczos" = Some (lanczos reals PI sin 4) /\
  lanczos reals PI sin 4 (1 / 2) = 2 / PI * (sin (PI / 8) / (PI / 8)) /\ lanczos reals PI sin 4 (3 / 2) < 0 /\
  interpolating_cubic reals (4 / 3) = - (2 / 27) /\ interpolating_quadratic reals (- (5 / 4)) = - (1 / 16) /\
  images heapL (lI 4) (lO 3 65) (lF 4) (mkD 0 2 1) (mkD 0 4 2) (mkD 0 1 128) (mkD 0 3 1) (mkD 0 65 3) (mkD 0 1 195) /\
  images heapL (lI 64) (lO 2 64) (lF 64) (mkD 0 2 1) (mkD 0 64 2) (mkD 0 1 128) (mkD 0 2 1) (mkD 0 64 2) (mkD 0 1 195) /\
  images heapL (lI 4) (lO 1 65) (lF 4) (mkD 0 2 1) (mkD 0 4 2) (mkD 0 1 128) (mkD 0 1 1) (mkD 0 65 1) (mkD 0 1 195) /\
  inside (mkQ 3 2) 0 2 0 /\ inside (mkQ 2 7) 0 21 5 /\ scaled (mkQ 3 2) 9 6 /\ limited 255 (- (1)) = 0 /\ limited 255 300 = 255.
Proof.
  pose proof PI_3 as P. assert (H4 : sincr (1 / 2) = 2 / PI).
  { rewrite sinc_real, sinc_pos_arg by lra. destruct (Rlt_dec _ _); [|lra]. replace (1 / 2 * PI) with (PI / 2) by lra. rewrite sin_PI2. field. lra. }
  split; [reflexivity|]. split.
  { rewrite lanczos_real, Rabs_right by lra. destruct (Rle_dec _ _); [|lra]. rewrite H4. f_equal. replace (1 / 2 / 4) with (1 / 8) by lra.
    rewrite sinc_real, sinc_pos_arg by lra. destruct (Rlt_dec _ _); [|lra]. replace (1 / 8 * PI) with (PI / 8) by lra. reflexivity. }
  split.
  { rewrite lanczos_real, Rabs_right by lra. destruct (Rle_dec _ _); [|lra]. assert (N : 0 < sincr (3 / 2 / 4)) by (apply sinc_near_1; lra).
    assert (G : sincr (3 / 2) < 0); [|nra]. rewrite sinc_real, sinc_pos_arg by lra. destruct (Rlt_dec _ _); [|lra].
    replace (3 / 2 * PI) with (PI / 2 + PI) by lra. rewrite neg_sin, sin_PI2. assert (0 < / (PI / 2 + PI)) by (apply Rinv_0_lt_compat; lra). unfold Rdiv. lra. }
  split; [rewrite cubic_real, Rabs_right by lra; unfold cubr; repeat destruct (Rle_dec _ _); lra|].
  split; [rewrite quadratic_real, Rabs_Ropp, Rabs_right by lra; unfold quadr; repeat destruct (Rlt_dec _ _); lra|].
  split; [apply images_L; lia|]. split; [apply images_L; lia|]. split; [apply images_L; lia|].
  split; [unfold inside; vm_compute; split; discriminate|]. split; [unfold inside; vm_compute; split; discriminate|]. split; [unfold scaled; cbn; lia|].
  unfold limited, Rmin, Rmax. split; repeat destruct (Rle_dec _ _); lra.
Qed.
