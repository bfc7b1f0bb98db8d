(** Facts about weights in real arithmetic: kernels with short negative lobes. *)
From Coq Require Import QArith Qround Qreals Reals Lra Permutation.
From Verif Require Import Tac Interval Shape Memory Ref Spec SpecMem SpecEin Rational SpecRational Resample SpecResample SpecLanczos
  EinUses MatrixFacts ResampleFacts ResampleWhole ResampleExact.
Import ListNotations.
Open Scope R_scope.

(** ** Sums *)
Fixpoint rsum (l : list R) : R := match l with [] => 0 | a :: r => a + rsum r end.
Lemma fold_rsum l : forall a, fold_left Rplus l a = a + rsum l.
Proof. induction l as [|b l IH]; intro a; cbn [fold_left rsum]; [ring|]. rewrite IH. ring. Qed.
Lemma rsum_perm l l' : Permutation l l' -> rsum l = rsum l'.
Proof. induction 1; cbn [rsum]; [reflexivity|rewrite IHPermutation; reflexivity|ring|congruence]. Qed.
Lemma rsum_app l l' : rsum (l ++ l') = rsum l + rsum l'.
Proof. induction l as [|a l IH]; cbn [app rsum]; [ring|]. rewrite IH. ring. Qed.
Lemma ne_true a b : f_ne reals a b = true <-> a <> b.
Proof. cbn [f_ne reals]. destruct (Req_EM_T a b); split; congruence. Qed.
Lemma ltr_true a b : f_lt reals a b = true <-> a < b.
Proof. cbn [f_lt reals]. destruct (Rlt_dec a b); split; auto; discriminate. Qed.
Lemma ltr_false a b : f_lt reals a b = false <-> b <= a.
Proof. cbn [f_lt reals]. destruct (Rlt_dec a b); split; auto; try discriminate; lra. Qed.
Lemma ler_true a b : f_le reals a b = true <-> a <= b.
Proof. unfold f_le. rewrite negb_true_iff. apply ltr_false. Qed.
Lemma ler_false a b : f_le reals a b = false <-> b < a.
Proof. unfold f_le. rewrite negb_false_iff. apply ltr_true. Qed.
Lemma rsum_filter {A} (w : A -> R) (l : list A) : rsum (map w (filter (fun i => f_ne reals (w i) 0) l)) = rsum (map w l).
Proof.
  induction l as [|a l IH]; cbn [filter map rsum]; [reflexivity|]. destruct (f_ne reals (w a) 0) eqn:E; cbn [map rsum]; rewrite IH; [reflexivity|].
  cbn [f_ne reals] in E. destruct (Req_EM_T (w a) 0) as [G|]; [rewrite G; ring|discriminate].
Qed.
Lemma rsum_le {A} (u v : A -> R) l : (forall i, In i l -> u i <= v i) -> rsum (map u l) <= rsum (map v l).
Proof.
  induction l as [|a l IH]; intro H; cbn [map rsum]; [lra|]. pose proof (H a (or_introl eq_refl)).
  assert (rsum (map u l) <= rsum (map v l)) by (apply IH; intros i Hi; apply H; right; auto). lra.
Qed.
Lemma rsum_le_one {A} (u v : A -> R) l i c : (forall i, In i l -> u i <= v i) -> In i l -> u i + c <= v i -> rsum (map u l) + c <= rsum (map v l).
Proof.
  induction l as [|a l IH]; intros H I C; [destruct I|]. cbn [map rsum]. destruct I as [->|I].
  - assert (rsum (map u l) <= rsum (map v l)) by (apply rsum_le; intros j Hj; apply H; right; auto). lra.
  - pose proof (H a (or_introl eq_refl)). assert (rsum (map u l) + c <= rsum (map v l)) by (apply IH; auto; intros j Hj; apply H; right; auto). lra.
Qed.
Lemma range_cons lo n : (1 <= n)%Z -> range lo n = lo :: range (lo + 1) (n - 1).
Proof.
  intro H. unfold range. replace (Z.to_nat n) with (S (Z.to_nat (n - 1))) by lia. cbn [seq map]. f_equal; [lia|].
  rewrite <- seq_shift, map_map. apply map_ext. intro. lia.
Qed.
Lemma range_nil lo n : (n <= 0)%Z -> range lo n = [].
Proof. intro H. unfold range. replace (Z.to_nat n) with O by lia. reflexivity. Qed.
(** If each term is at least a difference, the sum is at least the difference at the ends *)
Lemma telescope (Phi : R -> R) (g : Z -> R) p n : (forall i, Phi (IZR i - p + 1 / 2) - Phi (IZR i - p - 1 / 2) <= g i) ->
  forall lo, Phi (IZR lo + INR n - p - 1 / 2) - Phi (IZR lo - p - 1 / 2) <= rsum (map g (range lo (Z.of_nat n))).
Proof.
  intro H. induction n as [|n IH]; intro lo.
  - rewrite range_nil by lia. cbn [map rsum INR]. rewrite Rplus_0_r. lra.
  - rewrite range_cons by lia. cbn [map rsum]. specialize (IH (lo + 1)%Z). replace (Z.of_nat (S n) - 1)%Z with (Z.of_nat n) by lia.
    specialize (H lo). rewrite plus_IZR in IH. rewrite S_INR.
    replace (IZR lo + (INR n + 1) - p - 1 / 2) with (IZR lo + 1 + INR n - p - 1 / 2) by lra.
    replace (IZR lo + 1 - p - 1 / 2) with (IZR lo - p + 1 / 2) in IH by lra. lra.
Qed.

(** ** Usable weights *)
Lemma usable_sum (w : Z -> R) lo n : 0 < rsum (map w (range lo n)) -> usable_weights reals w lo n.
Proof.
  intro P. assert (E : total reals w lo n = rsum (map w (range lo n))).
  { unfold total. change (f_add reals) with Rplus. change (f0 reals) with 0. rewrite fold_rsum, Rplus_0_l. apply rsum_filter. }
  split.
  - intro G. unfold total in E. rewrite G in E. cbn in E. lra.
  - apply ltr_true. change (f0 reals) with 0. rewrite E. exact P.
Qed.
(** Positions and scales *)
Lemma quotient_real p : quotient reals (Qnum p) (QDen p) = Q2R p.
Proof. unfold quotient, Q2R. reflexivity. Qed.
Lemma scale_real rate : (1 <= numerator rate)%Z -> (1 <= denominator rate)%Z ->
  0 < at_most_1 reals (quotient reals (numerator rate) (denominator rate)) <= 1.
Proof.
  intros N D. unfold at_most_1, quotient. cbn [f_div f_int f1 reals].
  apply IZR_le in N, D. assert (P : 0 < IZR (numerator rate) / IZR (denominator rate)) by (apply Rdiv_lt_0_compat; lra).
  destruct (f_lt reals 1 _) eqn:E; [lra|]. apply ltr_false in E. lra.
Qed.
Lemma scale_one rate : (1 <= denominator rate <= numerator rate)%Z ->
  at_most_1 reals (quotient reals (numerator rate) (denominator rate)) = 1.
Proof.
  intros [D N]. unfold at_most_1, quotient. cbn [f_div f_int f1 reals].
  apply IZR_le in N, D. destruct (f_lt reals 1 _) eqn:E; [auto|]. apply ltr_false in E.
  apply Rle_antisym; [exact E|]. apply (Rmult_le_reg_r (IZR (denominator rate))); [lra|]. unfold Rdiv. rewrite Rmult_assoc, Rinv_l by lra. lra.
Qed.
Lemma inside_real rate lo n x : inside rate lo n x ->
  IZR lo - 1 / 2 <= Q2R (position (val rate) x) <= IZR (lo + n) - 1 / 2.
Proof.
  intros [A B]. apply Qle_Rle in A, B. rewrite Q2R_minus in A, B. unfold Q2R at 1 2 in A. unfold Q2R at 2 3 in B. cbn [Qnum Qden inject_Z] in A, B.
  rewrite Rinv_1 in A, B. lra.
Qed.
Lemma nearest_real rate lo n x : (1 <= n)%Z -> inside rate lo n x ->
  exists i, (lo <= i < lo + n)%Z /\ - (1 / 2) <= IZR i - Q2R (position (val rate) x) <= 1 / 2.
Proof.
  intros Hn H. destruct (nearest _ _ _ Hn H) as (i & Hi & A & B). exists i. split; [exact Hi|].
  apply Qle_Rle in A, B. rewrite Q2R_minus in A, B. rewrite Q2R_opp in A. unfold Q2R at 1 2 in A. unfold Q2R at 1 3 in B. cbn [Qnum Qden inject_Z] in A, B.
  rewrite Rinv_1 in A, B. lra.
Qed.

(** ** Short lobes *)
Section Short.
Variables (kernel : R -> R) (p sc H : R) (lo n : Z).
Hypotheses (K : short_lobes kernel) (Hsc : 0 < sc <= 1) (HH : sc * H = 1).
Notation w := (fun i => kernel ((IZR i - p) * sc)).

Lemma H_ge : 1 <= H.
Proof. nra. Qed.
Lemma dist i : Rabs ((IZR i - p) * sc) = Rabs (IZR i - p) * sc.
Proof. rewrite Rabs_mult, (Rabs_right sc) by lra. reflexivity. Qed.
Lemma dist_le i c : Rabs (IZR i - p) <= c * H <-> Rabs ((IZR i - p) * sc) <= c.
Proof. rewrite dist. set (a := Rabs (IZR i - p)). assert (E : forall x, x = x * sc * H) by (intro x; rewrite Rmult_assoc, HH; ring). pose proof H_ge. split; intro G.
  - rewrite (E c). replace (c * sc * H) with (c * H * sc) by ring. apply Rmult_le_compat_r; [lra|exact G].
  - rewrite (E a). apply Rmult_le_compat_r; [lra|exact G].
Qed.
Lemma dist_ge i c : c * H <= Rabs (IZR i - p) <-> c <= Rabs ((IZR i - p) * sc).
Proof. rewrite dist. set (a := Rabs (IZR i - p)). assert (E : forall x, x = x * sc * H) by (intro x; rewrite Rmult_assoc, HH; ring). pose proof H_ge. split; intro G.
  - rewrite (E c). replace (c * sc * H) with (c * H * sc) by ring. apply Rmult_le_compat_r; [lra|exact G].
  - rewrite (E a). apply Rmult_le_compat_r; [lra|exact G].
Qed.

(** The integral of a function that is 1/2 up to (H - 1) / 2, and -2/27 from H - 1/2 to 2 H + 1/2 *)
Definition drop (x : R) : R := Rmin (Rmax (x - (H - 1 / 2)) 0) (H + 1).
Definition side (x : R) : R := 1 / 2 * Rmin x (H / 2 - 1 / 2) - 2 / 27 * drop x.
Definition Phi (x : R) : R := if Rle_dec 0 x then side x else - side (- x).
Definition Psi (x : R) : R := if Rle_dec 0 x then - (2 / 27) * drop x else 2 / 27 * drop (- x).

Lemma drop_cases x : (x <= H - 1 / 2 /\ drop x = 0) \/ (H - 1 / 2 <= x <= 2 * H + 1 / 2 /\ drop x = x - (H - 1 / 2)) \/ (2 * H + 1 / 2 <= x /\ drop x = H + 1).
Proof.
  pose proof H_ge. unfold drop. unfold Rmax. destruct (Rle_dec (x - (H - 1 / 2)) 0) as [A|A]; unfold Rmin.
  - left. split; [lra|]. destruct (Rle_dec 0 (H + 1)); lra.
  - right. destruct (Rle_dec (x - (H - 1 / 2)) (H + 1)); [left|right]; lra.
Qed.
Lemma min_cases x c : (x <= c /\ Rmin x c = x) \/ (c <= x /\ Rmin x c = c).
Proof. unfold Rmin. destruct (Rle_dec x c); [left|right]; lra. Qed.
Lemma side_0 : side 0 = 0.
Proof. pose proof H_ge. unfold side. destruct (drop_cases 0) as [[? ->]|[[? ->]|[? ->]]], (min_cases 0 (H / 2 - 1 / 2)) as [[? ->]|[? ->]]; lra. Qed.
Lemma Phi_odd x : Phi (- x) = - Phi x.
Proof.
  unfold Phi. destruct (Rle_dec 0 x), (Rle_dec 0 (- x)); rewrite ?Ropp_involutive; try lra.
  assert (x = 0) by lra. subst. rewrite Ropp_0, side_0. lra.
Qed.
Ltac cs := repeat match goal with
  | |- context [drop ?x] => let A := fresh in destruct (drop_cases x) as [[? A]|[[? A]|[? A]]]; rewrite A; clear A
  | |- context [Rmin ?x ?c] => let A := fresh in destruct (min_cases x c) as [[? A]|[? A]]; rewrite A; clear A
  end; lra.
Lemma Phi_right d : 0 <= d -> Phi (d + 1 / 2) - Phi (d - 1 / 2) <= 1 / 2 /\
  (1 / 2 * H <= d -> Phi (d + 1 / 2) - Phi (d - 1 / 2) <= 0) /\
  (1 * H <= d <= 2 * H -> Phi (d + 1 / 2) - Phi (d - 1 / 2) <= - (2 / 27)).
Proof.
  intro P. pose proof H_ge as Hg. unfold Phi. destruct (Rle_dec 0 (d + 1 / 2)) as [A|A]; [clear A|lra].
  destruct (Rle_dec 0 (d - 1 / 2)); unfold side; repeat split; intros; cs.
Qed.
Lemma Phi_abs d : Phi (Rabs d + 1 / 2) - Phi (Rabs d - 1 / 2) = Phi (d + 1 / 2) - Phi (d - 1 / 2).
Proof.
  unfold Rabs. destruct (Rcase_abs d); [|reflexivity]. replace (- d + 1 / 2) with (- (d - 1 / 2)) by lra. replace (- d - 1 / 2) with (- (d + 1 / 2)) by lra.
  rewrite !Phi_odd. lra.
Qed.
Lemma weight_cases i : (Rabs (IZR i - p) <= 1 / 2 * H /\ 1 / 2 <= w i) \/ (1 / 2 * H <= Rabs (IZR i - p) /\ 0 <= w i) \/
  (1 * H <= Rabs (IZR i - p) <= 2 * H /\ - (2 / 27) <= w i).
Proof.
  destruct (K ((IZR i - p) * sc)) as (K1 & K2 & K3). rewrite <- (dist_le i (1 / 2)), <- (dist_le i 1), <- (dist_ge i 2) in *.
  destruct (Rle_dec (Rabs (IZR i - p)) (1 / 2 * H)); [left; auto|right]. destruct (Rle_dec (Rabs (IZR i - p)) (1 * H)); [left; split; [lra|auto]|].
  destruct (Rle_dec (2 * H) (Rabs (IZR i - p))); [left; split; [lra|auto]|right]. split; [lra|auto].
Qed.
Lemma Phi_step i : Phi (IZR i - p + 1 / 2) - Phi (IZR i - p - 1 / 2) <= w i.
Proof.
  rewrite <- Phi_abs. destruct (Phi_right (Rabs (IZR i - p)) (Rabs_pos _)) as (A & B & C).
  destruct (weight_cases i) as [[D E]|[[D E]|[D E]]]; [|specialize (B D)|specialize (C D)]; lra.
Qed.
Lemma Psi_odd x : Psi (- x) = - Psi x.
Proof.
  unfold Psi. destruct (Rle_dec 0 x), (Rle_dec 0 (- x)); rewrite ?Ropp_involutive; try lra.
  assert (x = 0) by lra. subst. pose proof H_ge. rewrite Ropp_0. destruct (drop_cases 0) as [[? ->]|[[? ->]|[? ->]]]; lra.
Qed.
Lemma Psi_right d : 0 <= d -> Psi (d + 1 / 2) - Psi (d - 1 / 2) <= 0 /\
  (1 * H <= d <= 2 * H -> Psi (d + 1 / 2) - Psi (d - 1 / 2) <= - (2 / 27)).
Proof.
  intro P. pose proof H_ge as Hg. unfold Psi. destruct (Rle_dec 0 (d + 1 / 2)) as [A|A]; [clear A|lra].
  destruct (Rle_dec 0 (d - 1 / 2)); repeat split; intros; cs.
Qed.
Lemma Psi_abs d : Psi (Rabs d + 1 / 2) - Psi (Rabs d - 1 / 2) = Psi (d + 1 / 2) - Psi (d - 1 / 2).
Proof.
  unfold Rabs. destruct (Rcase_abs d); [|reflexivity]. replace (- d + 1 / 2) with (- (d - 1 / 2)) by lra. replace (- d - 1 / 2) with (- (d + 1 / 2)) by lra.
  rewrite !Psi_odd. lra.
Qed.
Lemma Phi_pos x : 23 / 10 <= H -> 0 <= x -> 0 <= Phi x /\ (1 / 2 <= x -> 0 < Phi x).
Proof. intros G P. unfold Phi. destruct (Rle_dec 0 x); [|lra]. unfold side. split; intros; cs. Qed.
Lemma Psi_bound x : 0 <= x -> - (2 / 27) * (H + 1) <= Psi x.
Proof. intros P. pose proof H_ge. unfold Psi. destruct (Rle_dec 0 x); [|lra]. cs. Qed.

Hypotheses (Hn : (1 <= n)%Z) (In1 : IZR lo - 1 / 2 <= p) (In2 : p <= IZR (lo + n) - 1 / 2).
Variable i0 : Z.
Hypotheses (Hi : (lo <= i0 < lo + n)%Z) (Ni : - (1 / 2) <= IZR i0 - p <= 1 / 2).
Lemma short_sum : 0 < rsum (map w (range lo n)).
Proof.
  pose proof H_ge as Hg. assert (En : IZR n = INR (Z.to_nat n)) by (rewrite INR_IZR_INZ, Z2Nat.id by lia; reflexivity).
  rewrite plus_IZR in In2. replace n with (Z.of_nat (Z.to_nat n)) by lia.
  assert (N1 : 1 <= IZR n) by (apply IZR_le in Hn; exact Hn).
  destruct (Rle_dec (23 / 10) H) as [G|G].
  - pose proof (telescope Phi w p (Z.to_nat n) Phi_step lo) as T. rewrite <- En in T.
    destruct (Phi_pos (IZR lo + IZR n - p - 1 / 2) G ltac:(lra)) as [A1 A2].
    destruct (Phi_pos (- (IZR lo - p - 1 / 2)) G ltac:(lra)) as [B1 B2]. rewrite Phi_odd in B1, B2.
    destruct (Rle_dec (1 / 2) (IZR lo + IZR n - p - 1 / 2)) as [C|C]; [specialize (A2 C); lra|].
    assert (1 / 2 <= - (IZR lo - p - 1 / 2)) by lra. specialize (B2 H0). lra.
  - assert (P1 : forall i, Psi (IZR i - p + 1 / 2) - Psi (IZR i - p - 1 / 2) <= Psi (IZR i - p + 1 / 2) - Psi (IZR i - p - 1 / 2)) by (intro; lra).
    pose proof (telescope Psi _ p (Z.to_nat n) P1 lo) as T. rewrite <- En in T.
    pose proof (Psi_bound (IZR lo + IZR n - p - 1 / 2) ltac:(lra)). pose proof (Psi_bound (- (IZR lo - p - 1 / 2)) ltac:(lra)) as B. rewrite Psi_odd in B.
    assert (L : rsum (map (fun i => Psi (IZR i - p + 1 / 2) - Psi (IZR i - p - 1 / 2)) (range lo (Z.of_nat (Z.to_nat n)))) + 1 / 2 <=
                rsum (map w (range lo (Z.of_nat (Z.to_nat n))))).
    { apply (rsum_le_one _ _ _ i0).
      - intros i _. rewrite <- Psi_abs. destruct (Psi_right (Rabs (IZR i - p)) (Rabs_pos _)) as (A & C).
        destruct (weight_cases i) as [[D E]|[[D E]|[D E]]]; [| |specialize (C D)]; lra.
      - apply range_In. lia.
      - rewrite <- Psi_abs. destruct (Psi_right (Rabs (IZR i0 - p)) (Rabs_pos _)) as (A & _).
        assert (D : Rabs (IZR i0 - p) <= 1 / 2 * H) by (apply Rabs_le; lra).
        apply (dist_le i0 (1 / 2)) in D. destruct (K ((IZR i0 - p) * sc)) as (K1 & _ & _). specialize (K1 D). lra. }
    lra.
Qed.
End Short.

Lemma usable_short kernel rate lo n x : short_lobes kernel -> (1 <= numerator rate)%Z -> (1 <= denominator rate)%Z -> (1 <= n)%Z ->
  inside rate lo n x -> usable_weights reals (weight reals kernel rate x) lo n.
Proof.
  intros K N D Hn I. apply usable_sum. destruct (nearest_real _ _ _ _ Hn I) as (i & Hi & Ni). pose proof (inside_real _ _ _ _ I) as [I1 I2].
  unfold weight. rewrite quotient_real. pose proof (scale_real rate N D) as S. cbn [f_mul f_sub f_int reals].
  set (sc := at_most_1 reals _) in *. apply (short_sum kernel (Q2R (position (val rate) x)) sc (/ sc) lo n K S) with (i0 := i); auto.
  apply Rinv_r. lra.
Qed.
