(** Proofs about images that resampling reproduces. *)
From Coq Require Import ZArith QArith Qabs Qround List Bool Lia Lqa.
From Verif Require Import RoundingProps Tac Base Interval Shape Memory Ref Spec SpecMem SpecEin EinUses Rational SpecRational Resample SpecResample
  ResampleExact Rounding SpecRounding RoundingFacts ResRounding SpecResRounding ResRoundingFacts ResRoundingProps ResRoundingExact ResampleCases SpecMoments.
Import ListNotations.
Local Open Scope Q_scope.

(** ** Kernels *)
Lemma linear_moment s : 0 <= s <= 1 -> s * linear exact s + (s - 1) * linear exact (s - 1) == 0.
Proof.
  intro H. rewrite !linear_val. assert (A1 : f_abs exact (s - 1) == 1 - s) by (rewrite abs_neg by lra; ring). assert (A2 : f_abs exact s == s) by (apply abs_pos; lra).
  set (a1 := f_abs exact (s - 1)) in *. set (a2 := f_abs exact s) in *. tests; try (rewrite A1, A2; ring).
  all: first [assert (Es : s == 0) by lra | assert (Es : s == 1) by lra]; rewrite ?A1, ?A2, ?Es; ring.
Qed.
Lemma quadratic_moment r s : -(1 # 2) <= s <= 1 # 2 ->
  (s - 1) * quadratic_family exact (s - 1) r + s * quadratic_family exact s r + (s + 1) * quadratic_family exact (s + 1) r == 0.
Proof.
  intro H. rewrite !quad_val. assert (A1 : f_abs exact (s - 1) == 1 - s) by (rewrite abs_neg by lra; ring).
  assert (A3 : f_abs exact (s + 1) == s + 1) by (apply abs_pos; lra). destruct (abs_cases s) as [A2|A2];
  set (a1 := f_abs exact (s - 1)) in *; set (a2 := f_abs exact s) in *; set (a3 := f_abs exact (s + 1)) in *; unfold quad; tests; try lra;
  try (rewrite A1, A3, (proj2 A2); ring).
  all: destruct A2 as [B A2]; first [assert (Es : s == 1 # 2) by lra | assert (Es : s == -(1 # 2)) by lra]; rewrite ?A1, ?A2, ?A3, ?Es; ring.
Qed.
Section Cubic.
Variables (B C s : Q).
Hypothesis H : 0 <= s <= 1.
Notation k := (fun t => cubic_family exact t B C).
Lemma cubic_moment : (s + 1) * k (s + 1) + s * k s + (s - 1) * k (s - 1) + (s - 2) * k (s - 2) == (B + 2 * C - 1) * s * (1 - s) * (2 * s - 1).
Proof.
  rewrite !cubic_val. assert (A1 : f_abs exact (s + 1) == s + 1) by (apply abs_pos; lra). assert (A2 : f_abs exact s == s) by (apply abs_pos; lra).
  assert (A3 : f_abs exact (s - 1) == 1 - s) by (rewrite abs_neg by lra; ring). assert (A4 : f_abs exact (s - 2) == 2 - s) by (rewrite abs_neg by lra; ring).
  set (a1 := f_abs exact (s + 1)) in *. set (a2 := f_abs exact s) in *. set (a3 := f_abs exact (s - 1)) in *. set (a4 := f_abs exact (s - 2)) in *.
  unfold cubic. tests; try lra; try (rewrite A1, A2, A3, A4; field).
  all: first [assert (Es : s == 0) by lra | assert (Es : s == 1) by lra]; rewrite ?A1, ?A2, ?A3, ?A4, ?Es; field.
Qed.
End Cubic.
Lemma catmull_rom s : 0 <= s <= 1 -> let k := interpolating_cubic exact in
  (s + 1) * (s + 1) * k (s + 1) + s * s * k s + (s - 1) * (s - 1) * k (s - 1) + (s - 2) * (s - 2) * k (s - 2) == 0.
Proof.
  intros H k. unfold k, interpolating_cubic. rewrite !cubic_val. cbn [f0 exact]. assert (E0 : lit exact 1 2 == 1 # 2) by reflexivity. set (C := lit exact 1 2) in *. clearbody C.
  assert (A1 : f_abs exact (s + 1) == s + 1) by (apply abs_pos; lra). assert (A2 : f_abs exact s == s) by (apply abs_pos; lra).
  assert (A3 : f_abs exact (s - 1) == 1 - s) by (rewrite abs_neg by lra; ring). assert (A4 : f_abs exact (s - 2) == 2 - s) by (rewrite abs_neg by lra; ring).
  set (a1 := f_abs exact (s + 1)) in *. set (a2 := f_abs exact s) in *. set (a3 := f_abs exact (s - 1)) in *. set (a4 := f_abs exact (s - 2)) in *.
  unfold cubic. tests; try lra; try (rewrite A1, A2, A3, A4, E0; field).
  all: first [assert (Es : s == 0) by lra | assert (Es : s == 1) by lra]; rewrite ?A1, ?A2, ?A3, ?A4, ?E0, ?Es; field.
Qed.
Lemma linear_respectful : respectful (linear exact).
Proof. exact linear_proper. Qed.
Lemma quadratic_respectful r : respectful (fun s => quadratic_family exact s r).
Proof. exact (quadratic_proper r). Qed.
Lemma cubic_respectful B C : respectful (fun s => cubic_family exact s B C).
Proof. exact (cubic_proper B C). Qed.
Lemma linear_balanced : balanced (linear exact) 1 2.
Proof.
  intros s H. cbn [steps_sum]. pose proof (linear_moment (s + 1) ltac:(lra)) as E. rewrite (linear_proper (s + 1 - 1) s) in E by ring. etransitivity; [|exact E]; ring.
Qed.
Lemma quadratic_balanced r : balanced (fun s => quadratic_family exact s r) (3 # 2) 3.
Proof.
  intros s H. cbn [steps_sum]. pose proof (quadratic_moment r (s + 1) ltac:(lra)) as E. rewrite (quadratic_proper r (s + 1 - 1) s) in E by ring. etransitivity; [|exact E]; ring.
Qed.
Lemma cubic_steps B C s : - (2) <= s <= - (1) -> steps_sum (fun t => t * cubic_family exact t B C) s 4 == (B + 2 * C - 1) * (s + 2) * (- (1) - s) * (2 * s + 3).
Proof.
  intros H. cbn [steps_sum]. pose proof (cubic_moment B C (s + 2) ltac:(lra)) as E. cbv beta in E.
  rewrite (cubic_proper B C (s + 2 - 2) s) in E by ring. rewrite (cubic_proper B C (s + 2 - 1) (s + 1)) in E by ring.
  rewrite (cubic_proper B C (s + 2 + 1) (s + 1 + 1 + 1)) in E by ring. rewrite (cubic_proper B C (s + 2) (s + 1 + 1)) in E by ring.
  etransitivity; [etransitivity; [|exact E]|]; ring.
Qed.
Lemma cubic_balanced B C : balanced (fun s => cubic_family exact s B C) 2 4 <-> B + 2 * C == 1.
Proof.
  split.
  - intros H. specialize (H (- (7 # 4)) ltac:(lra)). rewrite cubic_steps in H by lra. lra.
  - intros E s H. rewrite cubic_steps by lra. assert (E1 : B + 2 * C - 1 == 0) by lra. rewrite E1. ring.
Qed.
Lemma catmull_flat : flat (interpolating_cubic exact) 2 4.
Proof.
  intros s H. cbn [steps_sum]. pose proof (catmull_rom (s + 2) ltac:(lra)) as E. cbv zeta in E. unfold interpolating_cubic in *.
  rewrite (cubic_proper _ _ (s + 2 - 2) s) in E by ring. rewrite (cubic_proper _ _ (s + 2 - 1) (s + 1)) in E by ring.
  rewrite (cubic_proper _ _ (s + 2 + 1) (s + 1 + 1 + 1)) in E by ring. rewrite (cubic_proper _ _ (s + 2) (s + 1 + 1)) in E by ring.
  etransitivity; [|exact E]; ring.
Qed.

(** ** Rows *)
Lemma steps_range (f : Q -> Q) p m : respectful f -> forall i, qsum (map (fun i => f (inject_Z i - p)) (range i (Z.of_nat m))) == steps_sum f (inject_Z i - p) m.
Proof.
  intros F. induction m as [|m IH]; intros i; [reflexivity|]. replace (Z.of_nat (S m)) with (1 + Z.of_nat m)%Z by lia. rewrite RoundingProps.range_split by lia.
  change (range i 1) with [(i + 0)%Z]. rewrite Z.add_0_r. cbn [app]. rewrite qsum_cons. cbn [steps_sum]. rewrite IH.
  assert (P : forall n s t, s == t -> steps_sum f s n == steps_sum f t n) by (induction n as [|n IHn]; intros s t E; [reflexivity|]; cbn [steps_sum]; rewrite (F s t E), (IHn (s + 1) (t + 1)) by (rewrite E; reflexivity); reflexivity).
  rewrite (P m (inject_Z (i + 1) - p) (inject_Z i - p + 1)); [reflexivity|]. rewrite inject_Z_plus. change (inject_Z 1) with 1. ring.
Qed.
Lemma qsum_none (f : Z -> Q) l : (forall i, In i l -> f i == 0) -> qsum (map f l) == 0.
Proof. induction l as [|a l IH]; intros H; [reflexivity|]. rewrite qsum_cons, IH, (H a (or_introl eq_refl)); [reflexivity|]. intros i Hi. apply H. right. exact Hi. Qed.
Lemma qsum_part (f : Z -> Q) lo n i m : (0 <= m)%Z -> (lo <= i)%Z -> (i + m <= lo + n)%Z -> (forall j, (j < i \/ i + m <= j)%Z -> f j == 0) ->
  qsum (map f (range lo n)) == qsum (map f (range i m)).
Proof.
  intros Hm H1 H2 H. replace n with ((i - lo) + (m + (lo + n - i - m)))%Z by lia. rewrite !RoundingProps.range_split by lia. replace (lo + (i - lo))%Z with i by lia.
  rewrite !map_app, !qsum_app. rewrite (qsum_none f (range lo (i - lo))), (qsum_none f (range (i + m) _)); [ring| |]; intros j Hj; apply range_In in Hj; apply H; lia.
Qed.
Section Row.
Variables (kernel : Q -> Q) (r : Q) (m : nat) (rate : rational) (x lo n : Z).
Hypotheses (K : respectful kernel) (U : unit_kernel kernel r m) (Hm : 2 * r == inject_Z (Z.of_nat m)) (D1 : (1 <= denominator rate)%Z) (En : (denominator rate <= numerator rate)%Z)
  (Hs : surrounded r rate lo n x).
Notation w := (weight exact kernel rate x).
Let p := position (val rate) x.
Lemma weight_at i : w i == kernel (inject_Z i - p).
Proof.
  pose proof (enlarging rate D1 En) as S1. unfold weight. fold p. cbn [f_mul f_sub f_int exact]. set (s := at_most_1 exact _) in *. clearbody s. apply K. rewrite S1.
  change (quotient exact (Qnum p) (QDen p)) with (inject_Z (Qnum p) / inject_Z (QDen p)).
  assert (Ep : inject_Z (Qnum p) / inject_Z (QDen p) == p) by (destruct p as [c b]; cbn [Qnum Qden]; rewrite (Qmake_Qdiv c b); reflexivity). rewrite Ep. ring.
Qed.
Let i1 := Qceiling (p - r).
Lemma first_position : p - r <= inject_Z i1 /\ inject_Z i1 < p - r + 1.
Proof. unfold i1. split; [apply Qle_ceiling|]. pose proof (Qceiling_lt (p - r)) as H. unfold Z.sub in H. rewrite inject_Z_plus in H. change (inject_Z (- (1))) with (- (1)) in H. lra. Qed.
Lemma window_in : (lo <= i1)%Z /\ (i1 + Z.of_nat m <= lo + n)%Z.
Proof.
  pose proof first_position as [F1 F2]. destruct Hs as [S1 S2]. fold p in S1, S2. split.
  - rewrite Zle_Qle. lra.
  - assert (L : inject_Z (i1 + Z.of_nat m) < inject_Z (lo + n - 1 + 1)) by (rewrite (inject_Z_plus i1), (inject_Z_plus _ 1); change (inject_Z 1) with 1; lra). rewrite <- Zlt_Qlt in L. lia.
Qed.
Lemma zero_outside j : (j < i1 \/ i1 + Z.of_nat m <= j)%Z -> w j == 0.
Proof.
  pose proof first_position as [F1 F2]. intros [H|H]; rewrite weight_at; apply (proj1 U).
  - right. assert (L : inject_Z (j + 1) <= inject_Z i1) by (rewrite <- Zle_Qle; lia). rewrite inject_Z_plus in L. change (inject_Z 1) with 1 in L. lra.
  - left. rewrite Zle_Qle, inject_Z_plus in H. lra.
Qed.
Lemma moments (f : Q -> Q) : respectful f -> qsum (map (fun i => f (inject_Z i - p) * w i) (range lo n)) == steps_sum (fun t => f t * kernel t) (inject_Z i1 - p) m.
Proof.
  intros F. destruct window_in as [W1 W2]. rewrite (qsum_part _ lo n i1 (Z.of_nat m)); [|lia|exact W1|exact W2|intros j Hj; rewrite (zero_outside j Hj); ring].
  rewrite <- (steps_range (fun t => f t * kernel t)) by (intros s t E; rewrite (F s t E), (K s t E); reflexivity).
  apply ResRoundingFacts.qsum_ext. intros i _. rewrite weight_at. reflexivity.
Qed.
Lemma steps_at : - r <= inject_Z i1 - p <= - r + 1.
Proof. pose proof first_position. lra. Qed.
Lemma weights_sum : qsum (map w (range lo n)) == 1.
Proof.
  rewrite <- (proj2 U _ steps_at). rewrite (ResRoundingFacts.qsum_ext w (fun i => 1 * w i)) by (intros; ring). rewrite (moments (fun _ => 1)) by (intros s t _; reflexivity).
  assert (P : forall k s, steps_sum (fun t => 1 * kernel t) s k == steps_sum kernel s k) by (induction k as [|k IH]; intros s; [reflexivity|]; cbn [steps_sum]; rewrite IH; ring). apply P.
Qed.
Lemma weighted_surrounded g : weighted exact w lo n g == qsum (map (fun i => g i * w i) (range lo n)).
Proof.
  set (k := qsum (map (fun i => Qabs (w i)) (range lo n))).
  assert (C : conditioned k w lo n). { split; [|rewrite !sum_qsum, weights_sum; fold k; lra]. unfold k. eapply Qle_trans; [apply Qabs_nonneg|]. apply qsum_abs. }
  assert (T : taps_within m w lo n).
  { split.
    - destruct (existsb (fun i => negb (Qeq_bool (w i) 0)) (range lo n)) eqn:E.
      + apply existsb_exists in E as (i & Hi & E). apply range_In in Hi. exists i. split; [exact Hi|]. apply negb_true_iff, Qeq_bool_neq in E. exact E.
      + exfalso. assert (Z0 : qsum (map w (range lo n)) == 0); [|rewrite weights_sum in Z0; discriminate Z0]. apply qsum_none. intros i Hi.
        destruct (Qeq_bool (w i) 0) eqn:G; [apply Qeq_bool_eq, G|]. assert (X : existsb (fun i => negb (Qeq_bool (w i) 0)) (range lo n) = true) by (apply existsb_exists; exists i; rewrite G; auto). congruence.
    - exists i1. intros i Hi N. destruct (Z_lt_le_dec i i1); [destruct N; apply zero_outside; lia|]. destruct (Z_lt_le_dec i (i1 + Z.of_nat m)); [lia|destruct N; apply zero_outside; lia]. }
  rewrite (weighted_average k w lo n m g C T). unfold average. rewrite !sum_qsum, weights_sum. field.
Qed.
Lemma linear_row g a b : balanced kernel r m -> (forall i, (lo <= i < lo + n)%Z -> g i == a * inject_Z i + b) -> weighted exact w lo n g == a * p + b.
Proof.
  intros Bk G. rewrite weighted_surrounded.
  rewrite (ResRoundingFacts.qsum_ext _ (fun i => a * ((inject_Z i - p) * w i) - (- (a * p + b)) * w i)) by (intros i Hi; apply range_In in Hi; rewrite (G i Hi); ring).
  rewrite qsum_sub, !ResRoundingFacts.qsum_mul, weights_sum. rewrite (moments (fun t => t)) by (intros s t E; exact E). rewrite (Bk _ steps_at). ring.
Qed.
Lemma quadratic_row g a b c : balanced kernel r m -> flat kernel r m ->
  (forall i, (lo <= i < lo + n)%Z -> g i == a * (inject_Z i * inject_Z i) + b * inject_Z i + c) -> weighted exact w lo n g == a * (p * p) + b * p + c.
Proof.
  intros Bk Fk G. rewrite weighted_surrounded.
  rewrite (ResRoundingFacts.qsum_ext _ (fun i => a * ((inject_Z i - p) * (inject_Z i - p) * w i) - (- (2 * a * p + b) * ((inject_Z i - p) * w i) - (a * (p * p) + b * p + c) * w i)))
    by (intros i Hi; apply range_In in Hi; rewrite (G i Hi); ring).
  rewrite !qsum_sub, !ResRoundingFacts.qsum_mul, weights_sum. rewrite (moments (fun t => t)) by (intros s t E; exact E). rewrite (moments (fun t => t * t)) by (intros s t E; rewrite E; reflexivity).
  rewrite (Bk _ steps_at), (Fk _ steps_at). ring.
Qed.
End Row.

(** ** Images *)
Lemma linear_image nd (h : heap Q) (I O : aref) (f : list Z -> Q) (rx ry : rational) (kernel : Q -> Q) (ix iy ic ox oy oc : dim) r m (a b d : Q) :
  resampling exact h I O f rx ry kernel ix iy ic ox oy oc -> respectful kernel -> unit_kernel kernel r m -> 2 * r == inject_Z (Z.of_nat m) -> balanced kernel r m ->
  (denominator rx <= numerator rx)%Z -> (denominator ry <= numerator ry)%Z ->
  (forall i j c, in_bounds (r_shape I) [i; j; c] -> f [i; j; c] == a * inject_Z i + b * inject_Z j + d * inject_Z c) ->
  image_with (resample exact nd I O rx ry kernel h) O (fun x y c q => surrounded r rx (dmin ix) (dext ix) x -> surrounded r ry (dmin iy) (dext iy) y ->
    q == a * position (val rx) x + b * position (val ry) y + d * inject_Z c).
Proof.
  intros R K U Hm Bk Ex Ey F. apply (image_pixels nd h I O f rx ry kernel ix iy ic ox oy oc R). intros x y c X Y C Sx Sy. unfold pixel.
  assert (Dx : (1 <= denominator rx)%Z) by (destruct R; unfold rate_ok in *; lia). assert (Dy : (1 <= denominator ry)%Z) by (destruct R; unfold rate_ok in *; lia).
  rewrite (linear_row kernel r m rx x (dmin ix) (dext ix) K U Hm Dx Ex Sx _ a (b * position (val ry) y + d * inject_Z c) Bk); [ring|].
  intros i Hi. rewrite (linear_row kernel r m ry y (dmin iy) (dext iy) K U Hm Dy Ey Sy _ b (a * inject_Z i + d * inject_Z c) Bk); [ring|].
  intros j Hj. rewrite F; [ring|]. destruct R as [SI SO _ Ch _ _ _ _ _ _ _ _ _ _]. rewrite SI. unfold in_dim in *. repeat constructor; unfold in_dim; lia.
Qed.
(** A case: 3x65 numbers, enlarged in y *)
Definition heapL : heap Q := mkH 3 (fun k => match k with
  | 1%nat => Some (mkB (Base 0) 195 (fun z => Live (inject_Z z)))
  | 2%nat => Some (mkB (Base 0) 195 (fun _ => Live 0%Q))
  | _ => None end).
Definition lI : aref := mkR (1%nat, 0%Z) [mkD 0 3 1; mkD 0 65 3; mkD 0 1 195].
Definition lF (i : list Z) : Q := inject_Z (offset (r_shape lI) i).
Lemma resampling_L :
  resampling exact heapL lI rO lF (mkQ 1 1) (mkQ 3 2) (linear exact) (mkD 0 3 1) (mkD 0 65 3) (mkD 0 1 195) (mkD 0 3 1) (mkD 0 65 3) (mkD 0 1 195).
Proof.
  constructor; try reflexivity.
  - split; repeat constructor; discriminate.
  - cbn. lia.
  - unfold rate_ok. cbn [numerator denominator dmin dext]. split; (split; [lia|split; [lia|intros; lia]]).
  - intros x Hx. unfold in_dim in Hx. cbn [dmin dext] in *. apply usable_inside; [apply linear_positive|cbn; lia..|]. apply (inside_scaled _ 3 3); cbn; lia.
  - intros y Hy. unfold in_dim in Hy. cbn [dmin dext] in *. apply usable_inside; [apply linear_positive|cbn; lia..|]. apply (inside_scaled _ 65 65); cbn; lia.
  - cbn. lia.
  - intros i Hi. inversion_clear Hi as [|? x ? ? X Hi']. inversion_clear Hi' as [|? y ? ? Y Hi]. inversion_clear Hi as [|? c ? ? C Hi']. inversion_clear Hi'.
    unfold in_dim in *. cbn [dmin dext] in *. unfold holds, peek, elem, lF. cbn [fst snd r_base r_shape lI heapL h_blk b_size b_cell].
    set (z := offset _ _). assert (B : (0 <= z < 195)%Z) by (unfold z; cbn [offset dmin dstr]; lia).
    replace (0 + z)%Z with z by lia. destruct (Z.leb_spec 0 z), (Z.ltb_spec z 195); try lia; reflexivity.
  - intros i Hi. inversion_clear Hi as [|? x ? ? X Hi']. inversion_clear Hi' as [|? y ? ? Y Hi]. inversion_clear Hi as [|? c ? ? C Hi']. inversion_clear Hi'.
    unfold in_dim in *. cbn [dmin dext] in *. exists 0%Q. unfold holds, peek, elem. cbn [fst snd r_base r_shape rO heapL h_blk b_size b_cell].
    set (z := offset _ _). assert (B : (0 <= z < 195)%Z) by (unfold z; cbn [offset dmin dstr]; lia).
    replace (0 + z)%Z with z by lia. destruct (Z.leb_spec 0 z), (Z.ltb_spec z 195); try lia; reflexivity.
  - destruct (resampling_R _ linear_positive). assumption.
  - intros i _ (o & _ & E). apply (f_equal fst) in E. discriminate.
  - split; [cbn; lia|]. split; [reflexivity|]. intros k Hk'. cbn [h_next heapL] in Hk'. do 3 (destruct k as [|k]; [lia|]). reflexivity.
Qed.
Lemma linear_L i j c : in_bounds (r_shape lI) [i; j; c] -> lF [i; j; c] == 1 * inject_Z i + 3 * inject_Z j + 195 * inject_Z c.
Proof.
  intros _. unfold lF. cbn [offset r_shape lI dmin dstr]. assert (E : forall z, z = (i + 3 * j + 195 * c)%Z -> inject_Z z == 1 * inject_Z i + 3 * inject_Z j + 195 * inject_Z c).
  { intros z ->. rewrite !inject_Z_plus, !inject_Z_mult. ring. } apply E. lia.
Qed.
Lemma used_balanced : balanced (interpolating_cubic exact) 2 4 /\ balanced (cubic_bspline exact) 2 4.
Proof. split; [apply (proj2 (cubic_balanced (f0 exact) (lit exact 1 2)))|apply (proj2 (cubic_balanced (f1 exact) (f0 exact)))]; reflexivity. Qed.
Lemma quadratic_image nd (h : heap Q) (I O : aref) (f : list Z -> Q) (rx ry : rational) (kernel : Q -> Q) (ix iy ic ox oy oc : dim) r m (a b e s t : Q) (d : Z -> Q) :
  resampling exact h I O f rx ry kernel ix iy ic ox oy oc -> respectful kernel -> unit_kernel kernel r m -> 2 * r == inject_Z (Z.of_nat m) -> balanced kernel r m -> flat kernel r m ->
  (denominator rx <= numerator rx)%Z -> (denominator ry <= numerator ry)%Z ->
  let F (x y : Q) (c : Z) := a * (x * x) + b * (y * y) + e * (x * y) + s * x + t * y + d c in
  (forall i j c, in_bounds (r_shape I) [i; j; c] -> f [i; j; c] == F (inject_Z i) (inject_Z j) c) ->
  image_with (resample exact nd I O rx ry kernel h) O (fun x y c q => surrounded r rx (dmin ix) (dext ix) x -> surrounded r ry (dmin iy) (dext iy) y ->
    q == F (position (val rx) x) (position (val ry) y) c).
Proof.
  intros R K U Hm Bk Fk Ex Ey F Hf. apply (image_pixels nd h I O f rx ry kernel ix iy ic ox oy oc R). intros x y c X Y C Sx Sy. unfold pixel.
  assert (Dx : (1 <= denominator rx)%Z) by (destruct R; unfold rate_ok in *; lia). assert (Dy : (1 <= denominator ry)%Z) by (destruct R; unfold rate_ok in *; lia). set (py := position (val ry) y).
  rewrite (quadratic_row kernel r m rx x (dmin ix) (dext ix) K U Hm Dx Ex Sx _ a (e * py + s) (b * (py * py) + t * py + d c) Bk Fk); [unfold F; ring|].
  intros i Hi. rewrite (quadratic_row kernel r m ry y (dmin iy) (dext iy) K U Hm Dy Ey Sy _ b (e * inject_Z i + t) (a * (inject_Z i * inject_Z i) + s * inject_Z i + d c) Bk Fk); [fold py; ring|].
  intros j Hj. rewrite Hf; [unfold F; ring|]. destruct R as [SI SO _ Ch _ _ _ _ _ _ _ _ _ _]. rewrite SI. unfold in_dim in *. repeat constructor; unfold in_dim; lia.
Qed.
(** A case: 5x7 numbers to 3x65 *)
Definition qV (z : Z) : Q := inject_Z ((z mod 5) * (z mod 5) + (z / 5) * (z mod 5)).
Definition heapQ : heap Q := mkH 3 (fun k => match k with
  | 1%nat => Some (mkB (Base 0) 35 (fun z => Live (qV z)))
  | 2%nat => Some (mkB (Base 0) 195 (fun _ => Live 0%Q))
  | _ => None end).
Definition qI : aref := mkR (1%nat, 0%Z) [mkD 0 5 1; mkD 0 7 5; mkD 0 1 35].
Definition qF (i : list Z) : Q := qV (offset (r_shape qI) i).
Definition usable_bool (w : Z -> Q) (lo n : Z) : bool := negb (match taps exact w lo n with [] => true | _ => false end) && f_lt exact (f0 exact) (total exact w lo n).
Lemma usable_all kernel rate lo n m : (0 <= m)%Z -> forallb (fun x => usable_bool (weight exact kernel rate x) lo n) (range 0 m) = true ->
  forall x, (0 <= x < 0 + m)%Z -> usable_weights exact (weight exact kernel rate x) lo n.
Proof.
  intros Hm H x Hx. rewrite forallb_forall in H. specialize (H x (proj2 (range_In 0 m x) Hx)). unfold usable_bool in H. apply andb_true_iff in H as [H1 H2]. split; [|exact H2]. intros E. rewrite E in H1. discriminate.
Qed.
Lemma resampling_Q :
  resampling exact heapQ qI rO qF (mkQ 1 1) (mkQ 10 1) (interpolating_cubic exact) (mkD 0 5 1) (mkD 0 7 5) (mkD 0 1 35) (mkD 0 3 1) (mkD 0 65 3) (mkD 0 1 195).
Proof.
  constructor; try reflexivity.
  - split; repeat constructor; discriminate.
  - cbn. lia.
  - unfold rate_ok. cbn [numerator denominator dmin dext]. split; (split; [lia|split; [lia|intros; lia]]).
  - apply (usable_all _ _ 0 5 3); [lia|vm_compute; reflexivity].
  - apply (usable_all _ _ 0 7 65); [lia|vm_compute; reflexivity].
  - cbn. lia.
  - intros i Hi. inversion_clear Hi as [|? x ? ? X Hi']. inversion_clear Hi' as [|? y ? ? Y Hi]. inversion_clear Hi as [|? c ? ? C Hi']. inversion_clear Hi'.
    unfold in_dim in *. cbn [dmin dext] in *. unfold holds, peek, elem, qF. cbn [fst snd r_base r_shape qI heapQ h_blk b_size b_cell].
    set (z := offset _ _). assert (B : (0 <= z < 35)%Z) by (unfold z; cbn [offset dmin dstr]; lia).
    replace (0 + z)%Z with z by lia. destruct (Z.leb_spec 0 z), (Z.ltb_spec z 35); try lia; reflexivity.
  - intros i Hi. inversion_clear Hi as [|? x ? ? X Hi']. inversion_clear Hi' as [|? y ? ? Y Hi]. inversion_clear Hi as [|? c ? ? C Hi']. inversion_clear Hi'.
    unfold in_dim in *. cbn [dmin dext] in *. exists 0%Q. unfold holds, peek, elem. cbn [fst snd r_base r_shape rO heapQ h_blk b_size b_cell].
    set (z := offset _ _). assert (B : (0 <= z < 195)%Z) by (unfold z; cbn [offset dmin dstr]; lia).
    replace (0 + z)%Z with z by lia. destruct (Z.leb_spec 0 z), (Z.ltb_spec z 195); try lia; reflexivity.
  - destruct (resampling_R _ linear_positive). assumption.
  - intros i _ (o & _ & E). apply (f_equal fst) in E. discriminate.
  - split; [cbn; lia|]. split; [reflexivity|]. intros k Hk'. cbn [h_next heapQ] in Hk'. do 3 (destruct k as [|k]; [lia|]). reflexivity.
Qed.
Lemma quadratic_Q i j c : in_bounds (r_shape qI) [i; j; c] ->
  qF [i; j; c] == 1 * (inject_Z i * inject_Z i) + 0 * (inject_Z j * inject_Z j) + 1 * (inject_Z i * inject_Z j) + 0 * inject_Z i + 0 * inject_Z j + 0.
Proof.
  intros Hi. inversion_clear Hi as [|? ? ? ? X Hi']. inversion_clear Hi' as [|? ? ? ? Y Hi]. inversion_clear Hi as [|? ? ? ? C Hi']. unfold in_dim in *. cbn [dmin dext] in *.
  unfold qF, qV. assert (E : offset (r_shape qI) [i; j; c] = (i + j * 5)%Z) by (cbn [offset r_shape qI dmin dstr]; lia). rewrite E.
  rewrite Z_mod_plus_full, Z_div_plus_full, Z.mod_small, Z.div_small by lia. rewrite inject_Z_plus, !inject_Z_mult. rewrite Z.add_0_l. ring.
Qed.
