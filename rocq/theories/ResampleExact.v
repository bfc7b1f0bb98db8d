(** Facts about resampling in exact arithmetic. *)
From Coq Require Import QArith Qround Lqa Permutation.
From Verif Require Import Tac Interval Shape Memory Ref Spec SpecMem SpecEin Rational SpecRational Resample SpecResample
  EinUses MatrixFacts ResampleFacts ResampleWhole.
Import ListNotations.
Open Scope Z_scope.

(** ** Sums *)
Open Scope Q_scope.
Fixpoint qsum (l : list Q) : Q := match l with [] => 0 | a :: r => a + qsum r end.
Lemma fold_qsum l : forall a, fold_left Qplus l a == a + qsum l.
Proof. induction l as [|b l IH]; intro a; cbn [fold_left qsum]; [ring|]. rewrite IH. ring. Qed.
Lemma qsum_perm l l' : Permutation l l' -> qsum l == qsum l'.
Proof. induction 1; cbn [qsum]; [reflexivity|rewrite IHPermutation; reflexivity|ring|rewrite IHPermutation1; auto]. Qed.
Lemma qsum_filter {A} (w : A -> Q) (l : list A) : qsum (map w (filter (fun i => negb (Qeq_bool (w i) 0)) l)) == qsum (map w l).
Proof.
  induction l as [|a l IH]; cbn [filter map qsum]; [reflexivity|]. destruct (Qeq_bool (w a) 0) eqn:E; cbn [negb map qsum]; rewrite IH; [|reflexivity].
  apply Qeq_bool_eq in E. rewrite E. ring.
Qed.
Lemma qsum_nonneg {A} (w : A -> Q) l : (forall i, In i l -> 0 <= w i) -> 0 <= qsum (map w l).
Proof.
  induction l as [|a l IH]; intro H; cbn [map qsum]; [lra|]. pose proof (H a (or_introl eq_refl)).
  assert (0 <= qsum (map w l)) by (apply IH; intros i Hi; apply H; right; auto). lra.
Qed.
Lemma qsum_ge {A} (w : A -> Q) l a : (forall i, In i l -> 0 <= w i) -> In a l -> w a <= qsum (map w l).
Proof.
  induction l as [|b l IH]; intros H I; [destruct I|]. cbn [map qsum]. pose proof (H b (or_introl eq_refl)).
  assert (H' : forall i, In i l -> 0 <= w i) by (intros i Hi; apply H; right; auto). destruct I as [->|I].
  - pose proof (qsum_nonneg w l H'). lra.
  - pose proof (IH H' I). lra.
Qed.

(** ** Weighted sums *)
Section Weights.
Variables (w : Z -> Q) (lo n : Z).
Hypothesis U : usable_weights exact w lo n.
Notation T := (total exact w lo n).
Notation R := (tap_range exact w lo n).

Lemma total_pos : 0 < T.
Proof. destruct U as [_ H]. cbn [f_lt exact f0] in H. rewrite negb_true_iff in H. apply Qnot_le_lt. intro G. rewrite <- Qle_bool_iff in G. congruence. Qed.
Lemma total_sum : qsum (map w R) == T.
Proof.
  unfold total. change (f_add exact) with Qplus. change (f0 exact) with 0. rewrite fold_qsum, Qplus_0_l. rewrite <- (qsum_filter w R).
  apply qsum_perm, Permutation_map, NoDup_Permutation.
  - apply NoDup_filter, range_NoDup.
  - apply NoDup_filter, range_NoDup.
  - intro i. destruct U as [Nt _]. destruct (window_bounds exact w lo n Nt) as (_ & _ & B1 & B2). fold (taps exact w lo n).
    pose proof (sorted_hd_last (taps exact w lo n) Nt (taps_sorted exact w lo n)) as (_ & _ & HL).
    change (fun i0 : Z => negb (Qeq_bool (w i0) 0)) with (fun i0 : Z => f_ne exact (w i0) (f0 exact)). rewrite filter_In.
    unfold tap_range. rewrite range_In. split; intro I.
    + apply taps_In. split; [lia|apply I].
    + pose proof (HL i I). fold (first_tap exact w lo n) (last_tap exact w lo n) in *. apply taps_In in I. split; [lia|apply I].
Qed.
Lemma weighted_sum g : weighted exact w lo n g == qsum (map (fun i => g i * (w i / T)) R).
Proof. unfold weighted. cbn [f_add f_mul f_div f0 exact]. rewrite fold_qsum. ring. Qed.
Lemma qsum_scale (h : Z -> Q) c l : qsum (map (fun i => c * (h i / T)) l) == c * (qsum (map h l) / T).
Proof. pose proof total_pos. induction l as [|a l IH]; cbn [map qsum]; [field; lra|]. rewrite IH. field. lra. Qed.
Lemma weights_one : qsum (map (fun i => w i / T) R) == 1.
Proof.
  pose proof total_pos. transitivity (qsum (map (fun i => 1 * (w i / T)) R)).
  - induction R as [|a l IH]; cbn [map qsum]; [reflexivity|]. rewrite IH. ring.
  - rewrite qsum_scale, total_sum. field. lra.
Qed.
Lemma tap_range_In i : In i R -> (lo <= i < lo + n)%Z.
Proof. unfold tap_range. rewrite range_In. destruct U as [Nt _]. destruct (window_bounds exact w lo n Nt). lia. Qed.
Lemma weighted_const g v : (forall i, (lo <= i < lo + n)%Z -> g i == v) -> weighted exact w lo n g == v.
Proof.
  intro H. pose proof total_pos. rewrite weighted_sum. transitivity (qsum (map (fun i => v * (w i / T)) R)).
  - assert (H' : forall i, In i R -> g i == v) by (intros i Hi; apply H, tap_range_In, Hi).
    induction R as [|a l IH]; cbn [map qsum]; [reflexivity|]. rewrite IH by (intros i Hi; apply H'; right; auto).
    rewrite (H' a) by (left; auto). reflexivity.
  - rewrite qsum_scale, total_sum. field. lra.
Qed.
Lemma weighted_between g a b : (forall i, 0 <= w i) -> (forall i, (lo <= i < lo + n)%Z -> a <= g i <= b) -> a <= weighted exact w lo n g <= b.
Proof.
  intros Nn H. pose proof total_pos as P.
  assert (H' : forall i, In i R -> a <= g i <= b) by (intros i Hi; apply H, tap_range_In, Hi).
  assert (G : qsum (map (fun i => a * (w i / T)) R) <= qsum (map (fun i => g i * (w i / T)) R) <= qsum (map (fun i => b * (w i / T)) R)).
  { induction R as [|i l IH]; cbn [map qsum]; [lra|]. destruct IH as [I1 I2]; [intros j Hj; apply H'; right; auto|].
    destruct (H' i) as [H1 H2]; [left; auto|].
    assert (W : 0 <= w i / T) by (apply Qle_shift_div_l; [exact P|]; rewrite Qmult_0_l; apply Nn).
    pose proof (Qmult_le_compat_r _ _ _ H1 W). pose proof (Qmult_le_compat_r _ _ _ H2 W). lra. }
  rewrite !qsum_scale, total_sum in G. rewrite weighted_sum. assert (E : forall c, c * (T / T) == c) by (intro; field; lra). rewrite !E in G. exact G.
Qed.
End Weights.

(** One positive weight and no negative ones suffice *)
Lemma usable_positive (w : Z -> Q) lo n i : (lo <= i < lo + n)%Z -> (forall j, 0 <= w j) -> 0 < w i -> usable_weights exact w lo n.
Proof.
  intros Hi Nn Pi. assert (I : In i (taps exact w lo n)).
  { apply taps_In. split; [auto|]. cbn. rewrite negb_true_iff. destruct (Qeq_bool (w i) 0) eqn:E; [|auto]. apply Qeq_bool_eq in E. lra. }
  split; [intro G; rewrite G in I; destruct I|]. cbn [f_lt exact f0]. rewrite negb_true_iff. destruct (Qle_bool (total exact w lo n) 0) eqn:E; [|auto].
  apply Qle_bool_iff in E. unfold total in E. cbn [f_add f0 exact] in E. rewrite fold_qsum in E.
  pose proof (qsum_ge w (taps exact w lo n) i (fun j _ => Nn j) I). lra.
Qed.

(** ** Positions and scales *)
Lemma quotient_val p : quotient exact (Qnum p) (QDen p) == p.
Proof. unfold quotient. cbn [f_div f_int exact]. destruct p as [a b]. cbn [Qnum Qden]. unfold Qeq, Qdiv, Qinv, Qmult, inject_Z. cbn. lia. Qed.
Lemma scale_range rate : (1 <= numerator rate)%Z -> (1 <= denominator rate)%Z ->
  0 < at_most_1 exact (quotient exact (numerator rate) (denominator rate)) <= 1.
Proof.
  intros N D. unfold at_most_1, quotient. cbn [f_lt f1 exact f_div f_int].
  assert (P : 0 < inject_Z (numerator rate) / inject_Z (denominator rate)).
  { assert (0 < inject_Z (denominator rate)) by (unfold Qlt, inject_Z; cbn; lia). apply Qlt_shift_div_l; [auto|]. unfold Qlt, Qmult, inject_Z; cbn; lia. }
  destruct (Qle_bool _ 1) eqn:E; cbn [negb]; [apply Qle_bool_iff in E; lra|]. lra.
Qed.
Lemma nearest p lo n : (1 <= n)%Z -> inject_Z lo - (1 # 2) <= p <= inject_Z (lo + n) - (1 # 2) ->
  exists i, (lo <= i < lo + n)%Z /\ -(1 # 2) <= inject_Z i - p <= 1 # 2.
Proof.
  intros Hn [P1 P2]. pose proof (Qfloor_le (p + (1 # 2))) as F1. pose proof (Qlt_floor (p + (1 # 2))) as F2. rewrite inject_Z_plus in F2. change (inject_Z 1) with 1 in F2.
  set (k := Qfloor (p + (1 # 2))) in *.
  assert (L : (lo <= k)%Z).
  { apply Z.lt_succ_r. rewrite Zlt_Qlt. unfold Z.succ. rewrite inject_Z_plus. change (inject_Z 1) with 1. lra. }
  destruct (Z_lt_ge_dec k (lo + n)) as [G|G]; [exists k; split; [lia|lra]|].
  exists (lo + n - 1)%Z. split; [lia|]. assert (inject_Z (lo + n) <= inject_Z k) by (rewrite <- Zle_Qle; lia).
  unfold Z.sub. rewrite inject_Z_plus. change (inject_Z (- (1))) with (- (1)). lra.
Qed.
Lemma usable_inside kernel rate lo n x : positive_kernel kernel -> (1 <= numerator rate)%Z -> (1 <= denominator rate)%Z -> (1 <= n)%Z ->
  inside rate lo n x -> usable_weights exact (weight exact kernel rate x) lo n.
Proof.
  intros K N D Hn I. destruct (nearest _ _ _ Hn I) as (i & Hi & Ni). apply (usable_positive _ lo n i Hi).
  - intro j. apply K.
  - unfold weight. apply K. cbn [f_mul f_sub f_int exact]. pose proof (quotient_val (position (val rate) x)) as E. pose proof (scale_range rate N D) as S.
    set (s := at_most_1 exact _) in *. set (q := quotient exact (Qnum _) _) in *. set (p := position (val rate) x) in *. set (z := inject_Z i) in *.
    assert (E' : z - q == z - p) by lra. rewrite E'. set (d := z - p) in *. nra.
Qed.
Lemma position_val r x : position r x == (inject_Z x + (1 # 2)) / r - (1 # 2).
Proof. unfold position. apply Qred_correct. Qed.
(** An image of [m] pixels made from one of [n] at a rate of at least m / n *)
Lemma inside_scaled rate n m x : (1 <= numerator rate)%Z -> (1 <= denominator rate)%Z -> (m * denominator rate <= n * numerator rate)%Z ->
  (0 <= x < m)%Z -> inside rate 0 n x.
Proof.
  intros N D M X. unfold inside. rewrite !position_val. rewrite Z.add_0_l. change (inject_Z 0) with 0.
  assert (Nq : 0 < inject_Z (numerator rate)) by (unfold Qlt, inject_Z; cbn; lia).
  assert (Dq : 0 < inject_Z (denominator rate)) by (unfold Qlt, inject_Z; cbn; lia).
  assert (V : val rate == inject_Z (numerator rate) / inject_Z (denominator rate)) by (unfold val; destruct (denominator rate); [lia| |lia]; unfold Qeq, Qdiv, Qinv, Qmult, inject_Z; cbn; lia).
  assert (P : 0 < val rate) by (rewrite V; apply Qlt_shift_div_l; [auto|lra]).
  assert (X0 : 0 <= inject_Z x) by (change 0 with (inject_Z 0); rewrite <- Zle_Qle; lia).
  assert (Xm : inject_Z x + 1 <= inject_Z m) by (change 1 with (inject_Z 1); rewrite <- inject_Z_plus, <- Zle_Qle; lia).
  assert (Mq : inject_Z m * inject_Z (denominator rate) <= inject_Z n * inject_Z (numerator rate)) by (rewrite <- !inject_Z_mult, <- Zle_Qle; lia).
  assert (Mq' : inject_Z m <= inject_Z n * val rate).
  { rewrite V. setoid_replace (inject_Z n * (inject_Z (numerator rate) / inject_Z (denominator rate))) with ((inject_Z n * inject_Z (numerator rate)) / inject_Z (denominator rate)) by (field; lra).
    apply Qle_shift_div_l; auto. }
  split.
  - assert (0 <= (inject_Z x + (1 # 2)) / val rate) by (apply Qle_shift_div_l; [auto|lra]). lra.
  - assert ((inject_Z x + (1 # 2)) / val rate <= inject_Z n) by (apply Qle_shift_div_r; [auto|lra]). lra.
Qed.

(** ** The kernels *)
Lemma lt_true a b : f_lt exact a b = true <-> a < b.
Proof.
  cbn [f_lt exact]. rewrite negb_true_iff. split; intro H.
  - apply Qnot_le_lt. intro G. rewrite <- Qle_bool_iff in G. congruence.
  - destruct (Qle_bool b a) eqn:E; [|auto]. apply Qle_bool_iff in E. lra.
Qed.
Lemma lt_false a b : f_lt exact a b = false <-> b <= a.
Proof. cbn [f_lt exact]. rewrite negb_false_iff. apply Qle_bool_iff. Qed.
Lemma le_true a b : f_le exact a b = true <-> a <= b.
Proof. unfold f_le. rewrite negb_true_iff. apply lt_false. Qed.
Lemma le_false a b : f_le exact a b = false <-> b < a.
Proof. unfold f_le. rewrite negb_false_iff. apply lt_true. Qed.
Lemma abs_cases s : (0 <= s /\ f_abs exact s == s) \/ (s < 0 /\ f_abs exact s == - s).
Proof.
  unfold f_abs. destruct (f_lt exact s (f0 exact)) eqn:E; [apply lt_true in E; right|apply lt_false in E; left]; (split; [exact E|]); cbn; ring.
Qed.
Lemma lit_val n d : (1 <= d)%Z -> lit exact n d == n # Z.to_pos d.
Proof. intro D. unfold lit. cbn [f_div f_int exact]. destruct d; [lia| |lia]. unfold Qeq, Qdiv, Qinv, Qmult, inject_Z. cbn. lia. Qed.

Lemma box_val s : box_kernel exact s = if f_le exact (f_abs exact s) (lit exact 1 2) then 1 else 0.
Proof. reflexivity. Qed.
Lemma linear_val s : linear exact s == if f_le exact 1 (f_abs exact s) then 0 else 1 - f_abs exact s.
Proof.
  unfold linear, f_max. cbn [f0 f1 f_sub exact]. destruct (f_lt exact _ _) eqn:E, (f_le exact 1 _) eqn:E'; try reflexivity.
  - apply lt_true in E. apply le_true in E'. lra.
  - apply lt_false in E. apply le_false in E'. lra.
Qed.
Definition quad (r a : Q) : Q := if f_lt exact a (lit exact 1 2) then - (2) * r * (a * a) + (1 # 2) * (r + 1) else
  if f_lt exact a (lit exact 3 2) then r * (a * a) + (- (2) * r - (1 # 2)) * a + (3 # 4) * (r + 1) else 0.
Lemma quad_val s r : quadratic_family exact s r == quad r (f_abs exact s).
Proof.
  unfold quadratic_family, quad. set (a := f_abs exact s). cbv zeta. cbn [f_add f_sub f_mul f1 f0 exact].
  destruct (f_lt exact a (lit exact 1 2)); [|destruct (f_lt exact a (lit exact 3 2)); [|reflexivity]];
    rewrite ?(lit_val (-2) 1), ?(lit_val 1 2), ?(lit_val 3 4) by lia; cbn [Z.to_pos]; ring.
Qed.
Definition cubic (B C a : Q) : Q := if f_le exact a 1 then (2 - B * (3 # 2) - C) * (a * a * a) + (- (3) + 2 * B + C) * (a * a) + (1 - B / 3) else
  if f_le exact a (lit exact 2 1) then (- B / 6 - C) * (a * a * a) + (B + 5 * C) * (a * a) + (- (2) * B - 8 * C) * a + (B * 4 / 3 + 4 * C) else 0.
Lemma cubic_val s B C : cubic_family exact s B C == cubic B C (f_abs exact s).
Proof.
  unfold cubic_family, cubic. set (a := f_abs exact s). cbv zeta. cbn [f_add f_sub f_mul f_div f1 f0 exact].
  destruct (f_le exact a 1); [|destruct (f_le exact a (lit exact 2 1)); [|reflexivity]];
    rewrite ?(lit_val (-2) 1), ?(lit_val (-3) 1), ?(lit_val 3 2), ?(lit_val 3 1), ?(lit_val 2 1), ?(lit_val 6 1), ?(lit_val 5 1), ?(lit_val 8 1), ?(lit_val 4 1) by lia;
    cbn [Z.to_pos]; field.
Qed.
Ltac tests := repeat match goal with
  | |- context [f_lt exact ?a ?b] => destruct (f_lt exact a b) eqn:?
  | |- context [f_le exact ?a ?b] => destruct (f_le exact a b) eqn:?
  end; rewrite ?lt_true, ?lt_false, ?le_true, ?le_false in *;
  repeat match goal with H : context [lit exact ?n ?d] |- _ => rewrite (lit_val n d) in H by lia; cbn [Z.to_pos] in H end.
Lemma abs_nonneg s : 0 <= f_abs exact s.
Proof. destruct (abs_cases s) as [[A B]|[A B]]; rewrite B; lra. Qed.
Lemma abs_half s : -(1 # 2) <= s <= 1 # 2 -> f_abs exact s <= 1 # 2.
Proof. intro H. destruct (abs_cases s) as [[A B]|[A B]]; rewrite B; lra. Qed.

Lemma box_positive : positive_kernel (box_kernel exact).
Proof. intro s. rewrite box_val. pose proof (abs_half s). tests; split; intros; try lra. Qed.
Lemma linear_positive : positive_kernel (linear exact).
Proof. intro s. rewrite linear_val. pose proof (abs_half s). pose proof (abs_nonneg s). tests; split; intros; intuition lra. Qed.
Lemma quadratic_positive : positive_kernel (quadratic_bspline exact).
Proof.
  intro s. unfold quadratic_bspline. rewrite quad_val. pose proof (abs_half s) as H1. pose proof (abs_nonneg s) as H2. set (a := f_abs exact s) in *. unfold quad.
  tests; rewrite ?(lit_val 1 2) by lia; cbn [Z.to_pos]; split; intros; try (specialize (H1 H)); nra.
Qed.
Lemma cubic_positive : positive_kernel (cubic_bspline exact).
Proof.
  intro s. unfold cubic_bspline. rewrite cubic_val. pose proof (abs_half s) as H1. pose proof (abs_nonneg s) as H2. set (a := f_abs exact s) in *. unfold cubic. cbn [f0 f1 exact].
  assert (E1 : (2 - 1 * (3 # 2) - 0) * (a * a * a) + (- (3) + 2 * 1 + 0) * (a * a) + (1 - 1 / 3) == (1 # 2) * (a * a * a) - a * a + (2 # 3)) by field.
  assert (E2 : (- (1) / 6 - 0) * (a * a * a) + (1 + 5 * 0) * (a * a) + (- (2) * 1 - 8 * 0) * a + (1 * 4 / 3 + 4 * 0) == (1 # 6) * ((2 - a) * (2 - a) * (2 - a))) by field.
  tests; rewrite ?E1, ?E2.
  - assert (0 <= (a * a) * a) by (repeat apply Qmult_le_0_compat; lra). split; intros; nra.
  - split; [|intro H; specialize (H1 H); lra]. apply Qmult_le_0_compat; [lra|]. apply Qmult_le_0_compat; [apply Qmult_le_0_compat|]; lra.
  - split; [lra|]. intro H. specialize (H1 H). lra.
Qed.

Lemma abs_int s z : s == inject_Z z -> f_abs exact s == inject_Z (Z.abs z).
Proof.
  intro E. destruct (abs_cases s) as [[A B]|[A B]]; rewrite B, E in *.
  - change 0 with (inject_Z 0) in A. rewrite <- Zle_Qle in A. rewrite Z.abs_eq by lia. reflexivity.
  - change 0 with (inject_Z 0) in A. rewrite <- Zlt_Qlt in A. rewrite Z.abs_neq by lia. rewrite inject_Z_opp. reflexivity.
Qed.
Lemma int_cases z : (z = 0 /\ inject_Z (Z.abs z) == 0)%Z \/ (z <> 0 /\ Z.abs z = 1 /\ inject_Z (Z.abs z) == 1)%Z \/
  (z <> 0 /\ Z.abs z = 2 /\ inject_Z (Z.abs z) == 2)%Z \/ (z <> 0%Z /\ 3 <= inject_Z (Z.abs z)).
Proof.
  destruct (Z.eq_dec z 0) as [->|N0]; [left; split; reflexivity|]. destruct (Z.eq_dec (Z.abs z) 1) as [E|N1]; [right; left; rewrite E; repeat split; auto; reflexivity|].
  destruct (Z.eq_dec (Z.abs z) 2) as [E|N2]; [right; right; left; rewrite E; repeat split; auto; reflexivity|].
  right; right; right. split; [auto|]. change 3 with (inject_Z 3). rewrite <- Zle_Qle. lia.
Qed.
Ltac at_ints z H := destruct (int_cases z) as [[Ez Ei]|[(Ez & _ & Ei)|[(Ez & _ & Ei)|[Ez Ei]]]];
  [subst z; cbn [Z.eqb]|rewrite (proj2 (Z.eqb_neq z 0) Ez)..]; rewrite <- H in Ei.
Lemma box_interpolating : interpolating (box_kernel exact).
Proof.
  intros s z E. pose proof (abs_int s z E) as H. rewrite box_val. set (a := f_abs exact s) in *. at_ints z H; tests; try lra.
Qed.
Lemma linear_interpolating : interpolating (linear exact).
Proof. intros s z E. pose proof (abs_int s z E) as H. rewrite linear_val. set (a := f_abs exact s) in *. at_ints z H; tests; try lra. Qed.
Lemma quadratic_interpolating : interpolating (interpolating_quadratic exact).
Proof.
  intros s z E. pose proof (abs_int s z E) as H. unfold interpolating_quadratic. rewrite quad_val. set (a := f_abs exact s) in *. unfold quad. cbn [f1 exact].
  at_ints z H; tests; try lra; rewrite Ei; ring.
Qed.
Lemma cubic_interpolating : interpolating (interpolating_cubic exact).
Proof.
  intros s z E. pose proof (abs_int s z E) as H. unfold interpolating_cubic. rewrite cubic_val. set (a := f_abs exact s) in *. unfold cubic. cbn [f0 f1 exact].
  at_ints z H; tests; try lra; rewrite ?(lit_val 1 2), ?Ei by lia; cbn [Z.to_pos]; field.
Qed.

(** The values at distance 1 sum to 1 *)
Lemma abs_pos s : 0 <= s -> f_abs exact s == s.
Proof. intro H. destruct (abs_cases s) as [[_ B]|[A B]]; [exact B|lra]. Qed.
Lemma abs_neg s : s <= 0 -> f_abs exact s == - s.
Proof. intro H. destruct (abs_cases s) as [[A B]|[_ B]]; [rewrite B; lra|exact B]. Qed.
Lemma box_sums s : -(1 # 2) < s < 1 # 2 -> box_kernel exact (s - 1) + box_kernel exact s + box_kernel exact (s + 1) == 1.
Proof.
  intro H. rewrite !box_val. assert (A1 : f_abs exact (s - 1) == 1 - s) by (rewrite abs_neg by lra; ring).
  assert (A3 : f_abs exact (s + 1) == s + 1) by (apply abs_pos; lra). assert (A2 : f_abs exact s <= 1 # 2) by (apply abs_half; lra).
  set (a1 := f_abs exact (s - 1)) in *. set (a2 := f_abs exact s) in *. set (a3 := f_abs exact (s + 1)) in *. tests; lra.
Qed.
Lemma linear_sums s : 0 <= s <= 1 -> linear exact s + linear exact (s - 1) == 1.
Proof.
  intro H. rewrite !linear_val. assert (A1 : f_abs exact (s - 1) == 1 - s) by (rewrite abs_neg by lra; ring).
  assert (A2 : f_abs exact s == s) by (apply abs_pos; lra).
  set (a1 := f_abs exact (s - 1)) in *. set (a2 := f_abs exact s) in *. tests; lra.
Qed.
Lemma quadratic_sums r s : -(1 # 2) <= s <= 1 # 2 ->
  quadratic_family exact (s - 1) r + quadratic_family exact s r + quadratic_family exact (s + 1) r == 1.
Proof.
  intro H. rewrite !quad_val. assert (A1 : f_abs exact (s - 1) == 1 - s) by (rewrite abs_neg by lra; ring).
  assert (A3 : f_abs exact (s + 1) == s + 1) by (apply abs_pos; lra). destruct (abs_cases s) as [A2|A2];
  set (a1 := f_abs exact (s - 1)) in *; set (a2 := f_abs exact s) in *; set (a3 := f_abs exact (s + 1)) in *; unfold quad; tests; try lra;
  try (rewrite A1, A3, (proj2 A2); ring).
  all: destruct A2 as [B A2]; first [assert (Es : s == 1 # 2) by lra | assert (Es : s == -(1 # 2)) by lra]; rewrite ?A1, ?A2, ?A3, ?Es; ring.
Qed.
Lemma cubic_sums B C s : 0 <= s <= 1 ->
  cubic_family exact (s + 1) B C + cubic_family exact s B C + cubic_family exact (s - 1) B C + cubic_family exact (s - 2) B C == 1.
Proof.
  intro H. rewrite !cubic_val. assert (A1 : f_abs exact (s + 1) == s + 1) by (apply abs_pos; lra). assert (A2 : f_abs exact s == s) by (apply abs_pos; lra).
  assert (A3 : f_abs exact (s - 1) == 1 - s) by (rewrite abs_neg by lra; ring). assert (A4 : f_abs exact (s - 2) == 2 - s) by (rewrite abs_neg by lra; ring).
  set (a1 := f_abs exact (s + 1)) in *. set (a2 := f_abs exact s) in *. set (a3 := f_abs exact (s - 1)) in *. set (a4 := f_abs exact (s - 2)) in *.
  unfold cubic. tests; try lra; try (rewrite A1, A2, A3, A4; field).
  all: first [assert (Es : s == 0) by lra | assert (Es : s == 1) by lra]; rewrite ?A1, ?A2, ?A3, ?A4, ?Es; field.
Qed.
(** and the kernels vanish further out *)
Lemma abs_far s c : c <= s \/ s <= - c -> 0 <= c -> c <= f_abs exact s.
Proof. intros H P. destruct (abs_cases s) as [[A B]|[A B]]; rewrite B; lra. Qed.
Lemma linear_far s : 1 <= s \/ s <= -(1) -> linear exact s == 0.
Proof. intro H. rewrite linear_val. pose proof (abs_far s 1 H ltac:(lra)). tests; lra. Qed.
Lemma quadratic_far r s : (3 # 2) <= s \/ s <= -(3 # 2) -> quadratic_family exact s r == 0.
Proof. intro H. rewrite quad_val. pose proof (abs_far s (3 # 2) H ltac:(lra)). set (a := f_abs exact s) in *. unfold quad. tests; lra. Qed.
Lemma cubic_far B C s : 2 <= s \/ s <= -(2) -> cubic_family exact s B C == 0.
Proof.
  intro H. rewrite cubic_val. pose proof (abs_far s 2 H ltac:(lra)). set (a := f_abs exact s) in *. unfold cubic. tests; try lra.
  assert (Ea : a == 2) by lra. rewrite Ea. field.
Qed.

Lemma abs_proper s t : s == t -> f_abs exact s == f_abs exact t.
Proof. intro E. destruct (abs_cases s) as [[A B]|[A B]], (abs_cases t) as [[A' B']|[A' B']]; rewrite B, B'; lra. Qed.
Lemma linear_proper s t : s == t -> linear exact s == linear exact t.
Proof. intro E. rewrite !linear_val. pose proof (abs_proper s t E) as A. set (a := f_abs exact s) in *. set (b := f_abs exact t) in *. tests; lra. Qed.
Lemma quadratic_proper r s t : s == t -> quadratic_family exact s r == quadratic_family exact t r.
Proof.
  intro E. rewrite !quad_val. pose proof (abs_proper s t E) as A. set (a := f_abs exact s) in *. set (b := f_abs exact t) in *.
  unfold quad. tests; try lra; rewrite A; reflexivity.
Qed.
Lemma cubic_proper B C s t : s == t -> cubic_family exact s B C == cubic_family exact t B C.
Proof.
  intro E. rewrite !cubic_val. pose proof (abs_proper s t E) as A. set (a := f_abs exact s) in *. set (b := f_abs exact t) in *.
  unfold cubic. tests; try lra; rewrite A; reflexivity.
Qed.
Lemma linear_unit : unit_kernel (linear exact) 1 2.
Proof.
  split; [apply linear_far|]. intros s H. cbn [steps_sum]. pose proof (linear_sums (s + 1) ltac:(lra)) as E.
  rewrite (linear_proper (s + 1 - 1) s) in E by ring. etransitivity; [|exact E]; ring.
Qed.
Lemma quadratic_unit r : unit_kernel (fun s => quadratic_family exact s r) (3 # 2) 3.
Proof.
  split; [apply quadratic_far|]. intros s H. cbn [steps_sum]. pose proof (quadratic_sums r (s + 1) ltac:(lra)) as E.
  rewrite (quadratic_proper r (s + 1 - 1) s) in E by ring. etransitivity; [|exact E]; ring.
Qed.
Lemma cubic_unit B C : unit_kernel (fun s => cubic_family exact s B C) 2 4.
Proof.
  split; [apply cubic_far|]. intros s H. cbn [steps_sum]. pose proof (cubic_sums B C (s + 2) ltac:(lra)) as E.
  rewrite (cubic_proper B C (s + 2 - 2) s) in E by ring. rewrite (cubic_proper B C (s + 2 - 1) (s + 1)) in E by ring.
  rewrite (cubic_proper B C (s + 2 + 1) (s + 1 + 1 + 1)) in E by ring. rewrite (cubic_proper B C (s + 2) (s + 1 + 1)) in E by ring.
  etransitivity; [|exact E]; ring.
Qed.

(** ** At rate 1 *)
Lemma weight_unit kernel rate x i : interpolating kernel -> numerator rate = 1%Z -> denominator rate = 1%Z ->
  weight exact kernel rate x i == if (i =? x)%Z then 1 else 0.
Proof.
  intros K N D. unfold weight. rewrite (K _ (i - x)%Z).
  - destruct (Z.eqb_spec (i - x) 0), (Z.eqb_spec i x); try lia; reflexivity.
  - cbn [f_mul f_sub f_int exact]. rewrite quotient_val, position_val. unfold val. rewrite N, D.
    change (at_most_1 exact (quotient exact 1 1)) with (1 / 1). unfold Z.sub. rewrite inject_Z_plus, inject_Z_opp. cbn [Z.to_pos]. field.
Qed.
Lemma usable_unit kernel rate x lo n : interpolating kernel -> numerator rate = 1%Z -> denominator rate = 1%Z -> (lo <= x < lo + n)%Z ->
  usable_weights exact (weight exact kernel rate x) lo n.
Proof.
  intros K N D X. apply (usable_positive _ lo n x X).
  - intro j. rewrite weight_unit by auto. destruct (j =? x)%Z; lra.
  - rewrite weight_unit, Z.eqb_refl by auto. lra.
Qed.
Lemma weighted_unit kernel rate x lo n g : interpolating kernel -> numerator rate = 1%Z -> denominator rate = 1%Z -> (lo <= x < lo + n)%Z ->
  weighted exact (weight exact kernel rate x) lo n g == g x.
Proof.
  intros K N D X. pose proof (usable_unit kernel rate x lo n K N D X) as U. set (w := weight exact kernel rate x) in *.
  assert (Tp : forall i, In i (taps exact w lo n) -> i = x).
  { intros i Hi. apply taps_In in Hi. destruct Hi as [_ Hi]. cbn in Hi. rewrite negb_true_iff in Hi. apply Qeq_bool_neq in Hi. unfold w in Hi.
    rewrite weight_unit in Hi by auto. destruct (Z.eqb_spec i x); [auto|]. exfalso. apply Hi. reflexivity. }
  destruct U as [Nt Tt]. destruct (sorted_hd_last (taps exact w lo n) Nt (taps_sorted exact w lo n)) as (Hd & La & _).
  apply Tp in Hd, La. assert (R : tap_range exact w lo n = [x]).
  { unfold tap_range, first_tap, last_tap. rewrite Hd, La. replace (x - x + 1)%Z with 1%Z by lia. unfold range. change (seq 0 (Z.to_nat 1)) with [0%nat]. cbn [map]. rewrite Z.add_0_r. reflexivity. }
  rewrite weighted_sum, R. pose proof (total_sum w lo n (conj Nt Tt)) as S. rewrite R in S. cbn [map qsum] in S |- *.
  pose proof (total_pos w lo n (conj Nt Tt)) as P. assert (W : w x == 1) by (unfold w; rewrite weight_unit, Z.eqb_refl by auto; reflexivity).
  rewrite W in S |- *. rewrite <- S. field.
Qed.

(** ** Whole images *)
Section Images.
Variables (nd : bool) (h : heap Q) (I O : aref) (f : list Z -> Q) (rx ry : rational) (kernel : Q -> Q) (ix iy ic ox oy oc : dim).
Hypothesis R : resampling exact h I O f rx ry kernel ix iy ic ox oy oc.
Notation run := (resample exact nd I O rx ry kernel h).

Lemma image_pixels (P : Z -> Z -> Z -> Q -> Prop) :
  (forall x y c, in_dim ox x -> in_dim oy y -> in_dim oc c -> P x y c (pixel exact f rx ry kernel ix iy x y c)) -> image_with run O P.
Proof.
  intro H. destruct (resample_ok exact nd h I O f rx ry kernel ix iy ic ox oy oc R) as (h' & E & V & _). exists h'. split; [exact E|].
  intros x y c Hb. eexists. split; [apply V; exact Hb|]. destruct R. rewrite rs_out in Hb. inversion_clear Hb as [|? ? ? ? X Hb']. inversion_clear Hb' as [|? ? ? ? Y Hb].
  inversion_clear Hb as [|? ? ? ? C _]. apply H; auto.
Qed.
Lemma constant_image v : (forall i, in_bounds (r_shape I) i -> f i == v) -> image_with run O (fun _ _ _ q => q == v).
Proof.
  intro H. apply image_pixels. intros x y c X Y C. destruct R as [SI SO _ Ch _ Ux Uy _ _ _ _ _ _ _]. unfold pixel.
  apply weighted_const; [auto|]. intros i Hi. apply weighted_const; [auto|]. intros j Hj. apply H. rewrite SI. unfold in_dim in *.
  repeat constructor; unfold in_dim; lia.
Qed.
Lemma bounded_image a b : (forall s, 0 <= kernel s) -> (forall i, in_bounds (r_shape I) i -> a <= f i <= b) -> image_with run O (fun _ _ _ q => a <= q <= b).
Proof.
  intros K H. apply image_pixels. intros x y c X Y C. destruct R as [SI SO _ Ch _ Ux Uy _ _ _ _ _ _ _]. unfold pixel.
  apply weighted_between; [auto|intro; apply K|]. intros i Hi. apply weighted_between; [auto|intro; apply K|]. intros j Hj. apply H. rewrite SI. unfold in_dim in *.
  repeat constructor; unfold in_dim; lia.
Qed.
Lemma same_image : interpolating kernel -> numerator rx = 1%Z -> denominator rx = 1%Z -> numerator ry = 1%Z -> denominator ry = 1%Z ->
  (forall x, in_dim ox x -> in_dim ix x) -> (forall y, in_dim oy y -> in_dim iy y) -> image_with run O (fun x y c q => q == f [x; y; c]).
Proof.
  intros K N1 D1 N2 D2 X Y. apply image_pixels. intros x y c Hx Hy _. unfold pixel. rewrite weighted_unit by (auto; apply X; auto).
  apply weighted_unit; auto. apply Y; auto.
Qed.
End Images.
