(** Facts about the kernels in real arithmetic. *)
From Coq Require Import QArith Qreals Reals Lra String.
From Verif Require Import Tac Interval Shape Memory Ref Spec SpecMem SpecEin Rational SpecRational Resample SpecResample Lanczos SpecLanczos
  EinUses ResampleFacts ResampleExact RealWeights.
Import ListNotations.
Open Scope R_scope.

Lemma abs_real s : f_abs reals s = Rabs s.
Proof.
  unfold f_abs, Rabs. cbn [f0 f_sub reals]. destruct (f_lt reals s 0) eqn:E; [apply ltr_true in E|apply ltr_false in E]; destruct (Rcase_abs s); lra.
Qed.
Lemma lit_real n d : lit reals n d = IZR n / IZR d.
Proof. reflexivity. Qed.

(** ** Piecewise polynomials *)
Ltac rtests := repeat match goal with
  | |- context [f_lt reals ?a ?b] => destruct (f_lt reals a b) eqn:?
  | |- context [f_le reals ?a ?b] => destruct (f_le reals a b) eqn:?
  end; rewrite ?ltr_true, ?ltr_false, ?ler_true, ?ler_false in *; rewrite ?lit_real in *.
Lemma box_real s : box_kernel reals s = if Rle_dec (Rabs s) (1 / 2) then 1 else 0.
Proof. unfold box_kernel. rewrite abs_real, lit_real. rtests; destruct (Rle_dec _ _); auto; lra. Qed.
Lemma linear_real s : linear reals s = Rmax 0 (1 - Rabs s).
Proof. unfold linear, f_max. rewrite abs_real. cbn [f0 f1 f_sub reals]. unfold Rmax. rtests; destruct (Rle_dec _ _); lra. Qed.
Lemma quadratic_real s : interpolating_quadratic reals s = quadr (Rabs s).
Proof.
  unfold interpolating_quadratic, quadratic_family, quadr. rewrite abs_real. cbv zeta. cbn [f_add f_sub f_mul f1 f0 reals].
  rtests; repeat destruct (Rlt_dec _ _); try lra; try field.
Qed.
Lemma cubic_real s : interpolating_cubic reals s = cubr (Rabs s).
Proof.
  unfold interpolating_cubic, cubic_family, cubr. rewrite abs_real. cbv zeta. cbn [f_add f_sub f_mul f_div f1 f0 reals].
  rtests; repeat destruct (Rle_dec _ _); try lra; try field.
Qed.
Lemma box_short : short_lobes (box_kernel reals).
Proof. intro s. rewrite box_real. destruct (Rle_dec _ _); repeat split; intros; lra. Qed.
Lemma linear_short : short_lobes (linear reals).
Proof. intro s. rewrite linear_real. unfold Rmax. destruct (Rle_dec _ _); repeat split; intros; lra. Qed.
Lemma quadratic_short : short_lobes (interpolating_quadratic reals).
Proof.
  intro s. rewrite quadratic_real. pose proof (Rabs_pos s) as P. set (a := Rabs s) in *. unfold quadr.
  destruct (Rlt_dec a (1 / 2)); [|destruct (Rlt_dec a (3 / 2))]; repeat split; intros; try lra.
  1-3: nra. all: try nra. pose proof (Rle_0_sqr (a - 5 / 4)) as S. unfold Rsqr in S. lra.
Qed.
Lemma cubic_short : short_lobes (interpolating_cubic reals).
Proof.
  intro s. rewrite cubic_real. pose proof (Rabs_pos s) as P. set (a := Rabs s) in *. unfold cubr.
  destruct (Rle_dec a 1); [|destruct (Rle_dec a 2)]; repeat split; intros; try lra.
  - assert (0 <= (1 / 2 - a) * (7 / 8 + 7 / 4 * a - 3 / 2 * (a * a))) by (apply Rmult_le_pos; [lra|nra]). lra.
  - apply Rmult_le_pos; [lra|nra].
  - assert (0 <= (1 - a) * (1 + a - 3 / 2 * (a * a))) by (apply Rmult_le_pos; [lra|nra]). lra.
  - assert (a = 2) by lra. subst a. rewrite H0. lra.
  - assert (0 <= (a - 4 / 3) * (a - 4 / 3) * (7 / 3 - a)) by (apply Rmult_le_pos; [apply (Rle_0_sqr (a - 4 / 3))|lra]). lra.
Qed.

(** At the integers *)
Lemma abs_ints z : (z = 0%Z /\ Rabs (IZR z) = 0) \/ (z <> 0%Z /\ Rabs (IZR z) = 1) \/ (z <> 0%Z /\ 2 <= Rabs (IZR z)).
Proof.
  rewrite <- abs_IZR. destruct (Z.eq_dec z 0) as [->|N]; [left; auto|]. destruct (Z.eq_dec (Z.abs z) 1) as [->|M]; [auto|].
  right; right. split; [auto|]. apply IZR_le. lia.
Qed.
Ltac ints z := destruct (abs_ints z) as [[-> E]|[[N E]|[N E]]]; [cbn [Z.eqb]|rewrite (proj2 (Z.eqb_neq z 0) N)..].
Lemma box_ints : interpolating_kernel (box_kernel reals).
Proof. intro z. rewrite box_real. ints z; destruct (Rle_dec _ _); lra. Qed.
Lemma linear_ints : interpolating_kernel (linear reals).
Proof. intro z. rewrite linear_real. unfold Rmax. ints z; destruct (Rle_dec _ _); lra. Qed.
Lemma quadratic_ints : interpolating_kernel (interpolating_quadratic reals).
Proof. intro z. rewrite quadratic_real. unfold quadr. ints z; repeat destruct (Rlt_dec _ _); try lra; rewrite E; lra. Qed.
Lemma cubic_ints : interpolating_kernel (interpolating_cubic reals).
Proof. intro z. rewrite cubic_real. unfold cubr. ints z; repeat destruct (Rle_dec _ _); try lra; try (rewrite E; lra). assert (G : Rabs (IZR z) = 2) by lra. rewrite G. lra. Qed.

(** ** sinc *)
Notation sincr := (sinc reals PI sin).
Lemma sinc_real s : sincr s = if Rlt_dec (1 / 1000000) (Rabs (s * PI)) then sin (s * PI) / (s * PI) else 1.
Proof. unfold sinc. rewrite abs_real, lit_real. cbn [f_mul f_div f1 reals f_lt]. destruct (Rlt_dec _ _); reflexivity. Qed.
Lemma PI_3 : 3 < PI.
Proof. pose proof PI2_3_2. lra. Qed.
Lemma sin_le_x x : 0 <= x -> Rabs (sin x) <= x.
Proof.
  intro P. destruct (Req_EM_T x 0) as [->|N]; [rewrite sin_0, Rabs_R0; lra|].
  pose proof (sin_lt_x x ltac:(lra)). pose proof (SIN_bound x). pose proof PI_3. unfold Rabs. destruct (Rcase_abs (sin x)) as [A|A]; [|lra].
  destruct (Rle_dec x PI) as [B|B]; [|lra]. pose proof (sin_ge_0 x P B). lra.
Qed.
Lemma sinc_even s : sincr (- s) = sincr s.
Proof.
  rewrite !sinc_real. replace (- s * PI) with (- (s * PI)) by ring. rewrite Rabs_Ropp, sin_neg.
  destruct (Rlt_dec _ (Rabs (s * PI))) as [A|A]; [|reflexivity]. set (x := s * PI) in *. field. intro G. rewrite G, Rabs_R0 in A. lra.
Qed.
Lemma sinc_pos_arg s : 0 <= s -> Rabs (s * PI) = s * PI.
Proof. intro H. pose proof PI_3. apply Rabs_right. assert (0 <= s * PI) by (apply Rmult_le_pos; lra). lra. Qed.
Lemma sinc_bound s : Rabs (sincr s) <= 1.
Proof.
  assert (G : forall s, 0 <= s -> Rabs (sincr s) <= 1).
  { clear s. intros s P. rewrite sinc_real, sinc_pos_arg by auto. destruct (Rlt_dec _ _) as [A|A]; [|rewrite Rabs_R1; lra].
    unfold Rdiv. rewrite Rabs_mult, Rabs_inv, (Rabs_right (s * PI)) by lra. pose proof (sin_le_x (s * PI) ltac:(lra)).
    apply (Rmult_le_reg_r (s * PI)); [lra|]. rewrite Rmult_assoc, Rinv_l by lra. lra. }
  destruct (Rle_dec 0 s); [auto|]. rewrite <- sinc_even. apply G. lra.
Qed.
Lemma sinc_int z : sincr (IZR z) = if Z.eqb z 0 then 1 else 0.
Proof.
  rewrite sinc_real. pose proof PI_3. rewrite Rabs_mult, (Rabs_right PI) by lra. ints z.
  - rewrite E. destruct (Rlt_dec _ _); lra.
  - destruct (Rlt_dec _ _) as [A|A]; [|nra]. rewrite sin_eq_0_1 by eauto. unfold Rdiv. ring.
  - destruct (Rlt_dec _ _) as [A|A]; [|nra]. rewrite sin_eq_0_1 by eauto. unfold Rdiv. ring.
Qed.
Lemma sinc_near_1 s : 0 <= s < 1 -> 0 < sincr s.
Proof.
  intro H. rewrite sinc_real, sinc_pos_arg by lra. destruct (Rlt_dec _ _) as [A|A]; [|lra]. pose proof PI_3.
  apply Rdiv_lt_0_compat; [|lra]. apply sin_gt_0; nra.
Qed.
Lemma sinc_nonneg s : 0 <= s <= 1 -> 0 <= sincr s.
Proof.
  intro H. destruct (Req_EM_T s 1) as [->|N]; [rewrite (sinc_int 1); cbn; lra|]. pose proof (sinc_near_1 s ltac:(lra)). lra.
Qed.
(** sin x / x falls from 0 to PI *)
Lemma sin_mvt x y : x < y -> exists c, sin y - sin x = cos c * (y - x) /\ x < c < y.
Proof. intro H. apply (MVT_cor2 sin cos x y H). intros c _. apply derivable_pt_lim_sin. Qed.
Lemma sin_ratio x y : 0 < x <= y -> y <= PI -> x * sin y <= y * sin x.
Proof.
  intros [X XY] Y. destruct (Req_EM_T x y) as [->|N]; [lra|].
  destruct (sin_mvt x y ltac:(lra)) as (c & E & C). destruct (sin_mvt 0 x X) as (e & E' & C'). rewrite sin_0 in E'.
  assert (G : cos c <= cos e) by (apply cos_decr_1; lra).
  assert (x * cos c <= x * cos e) by (apply Rmult_le_compat_l; lra). assert (S : sin x = x * cos e) by lra. assert (x * (sin y - sin x) <= (y - x) * sin x); [|lra].
  rewrite E. rewrite S. replace (x * (cos c * (y - x))) with ((y - x) * (x * cos c)) by ring. apply Rmult_le_compat_l; lra.
Qed.
Lemma sinc_falls x y : 0 <= x <= y -> y <= 1 -> sincr y <= sincr x.
Proof.
  intros XY Y. pose proof PI_3. rewrite (sinc_real x), sinc_pos_arg by lra. destruct (Rlt_dec _ _) as [A|A].
  - assert (x * PI <= y * PI) by (apply Rmult_le_compat_r; lra). assert (y * PI <= PI) by nra.
    rewrite sinc_real, sinc_pos_arg by lra. destruct (Rlt_dec _ _) as [B|B]; [|lra].
    pose proof (sin_ratio (x * PI) (y * PI) ltac:(lra) ltac:(lra)) as S. set (u := x * PI) in *. set (v := y * PI) in *.
    apply (Rmult_le_reg_r (u * v)); [nra|]. replace (sin v / v * (u * v)) with (u * sin v) by (field; lra). replace (sin u / u * (u * v)) with (v * sin u) by (field; lra). exact S.
  - pose proof (sinc_bound y). pose proof (Rle_abs (sincr y)). lra.
Qed.
Lemma sin_step x : sin (x + PI) = - sin x.
Proof. apply neg_sin. Qed.
Lemma sinc_next s : 0 <= s -> Rabs (sincr (s + 1)) <= Rabs (sincr s) /\ (0 < sincr s -> Rabs (sincr (s + 1)) < sincr s).
Proof.
  intro P. pose proof PI_3. assert (X : 0 <= s * PI) by (apply Rmult_le_pos; lra). rewrite (sinc_real (s + 1)), sinc_pos_arg by lra.
  replace ((s + 1) * PI) with (s * PI + PI) by ring. destruct (Rlt_dec _ (s * PI + PI)) as [A|A]; [|lra].
  rewrite sin_step. rewrite sinc_real, sinc_pos_arg by lra. set (x := s * PI) in *. unfold Rdiv. rewrite Rabs_mult, Rabs_inv, Rabs_Ropp, (Rabs_right (x + PI)) by lra.
  destruct (Rlt_dec _ x) as [B|B].
  - assert (I : / (x + PI) < / x) by (apply Rinv_lt_contravar; [nra|lra]). assert (J : 0 < / x) by (apply Rinv_0_lt_compat; lra).
    rewrite Rabs_mult, Rabs_inv, (Rabs_right x) by lra. split.
    + apply Rmult_le_compat_l; [apply Rabs_pos|lra].
    + intro G. assert (S : 0 < sin x) by (apply (Rmult_lt_reg_r (/ x)); [auto|]; lra). rewrite (Rabs_right (sin x)) by lra. apply Rmult_lt_compat_l; lra.
  - pose proof (SIN_bound x) as S. assert (T : Rabs (sin x) <= 1) by (apply Rabs_le; lra).
    assert (U : Rabs (sin x) * / (x + PI) < 1).
    { apply (Rmult_lt_reg_r (x + PI)); [lra|]. rewrite Rmult_assoc, Rinv_l by lra. lra. }
    rewrite Rabs_R1. lra.
Qed.
Lemma sin_shift k x : sin (x + INR k * PI) = (-1) ^ k * sin x.
Proof.
  induction k as [|k IH]; [cbn [INR pow]; rewrite Rmult_0_l, Rplus_0_r; ring|].
  rewrite S_INR. replace (x + (INR k + 1) * PI) with (x + INR k * PI + PI) by ring. rewrite sin_step, IH. cbn [pow]. ring.
Qed.
Lemma pow_sq k : (-1) ^ k * (-1) ^ k = 1.
Proof. rewrite <- Rpow_mult_distr. replace (-1 * -1) with 1 by ring. apply pow1. Qed.
Lemma sinc_sign k s : INR k <= s <= INR k + 1 -> 0 <= (-1) ^ k * sincr s.
Proof.
  intros [A B]. pose proof (pos_INR k). destruct k as [|k].
  - cbn [INR pow] in *. pose proof (sinc_nonneg s ltac:(lra)). lra.
  - pose proof PI_3. rewrite sinc_real, sinc_pos_arg by lra. rewrite S_INR in *. pose proof (pos_INR k). destruct (Rlt_dec _ _) as [C|C]; [|nra].
    set (m := S k). replace (s * PI) with ((s - INR m) * PI + INR m * PI) at 1 by ring. rewrite sin_shift. unfold Rdiv.
    replace ((-1) ^ m * ((-1) ^ m * sin ((s - INR m) * PI) * / (s * PI))) with ((-1) ^ m * (-1) ^ m * (sin ((s - INR m) * PI) * / (s * PI))) by ring.
    rewrite pow_sq, Rmult_1_l. unfold m. rewrite S_INR. apply Rmult_le_pos; [apply sin_ge_0; nra|]. left. apply Rinv_0_lt_compat. nra.
Qed.
(** How far the shortcut near 0 is from the function *)
Lemma sinc_close s : s <> 0 -> Rabs (sincr s - sin (s * PI) / (s * PI)) <= 1 / 10 ^ 12.
Proof.
  assert (G : forall s, 0 < s -> Rabs (sincr s - sin (s * PI) / (s * PI)) <= 1 / 10 ^ 12).
  { clear s. intros s P. rewrite sinc_real, sinc_pos_arg by lra. pose proof PI_3. assert (X : 0 < s * PI) by nra. set (x := s * PI) in *.
    destruct (Rlt_dec _ _) as [A|A]; [unfold Rminus; rewrite Rplus_opp_r, Rabs_R0; lra|].
    destruct (sin_mvt 0 x X) as (c & E & C). rewrite sin_0 in E. assert (Q : sin x / x = cos c) by (replace (sin x) with (cos c * x) by lra; field; lra). rewrite Q.
    assert (K : cos c = 1 - 2 * sin (c / 2) * sin (c / 2)) by (rewrite <- cos_2a_sin; f_equal; lra).
    pose proof (sin_le_x (c / 2) ltac:(lra)) as S. assert (0 <= sin (c / 2)) by (apply sin_ge_0; lra). rewrite Rabs_right in S by lra.
    rewrite K. rewrite Rabs_right by nra. assert (sin (c / 2) * sin (c / 2) <= c / 2 * (c / 2)) by nra. assert (c * c <= x * x) by nra. assert (x * x <= 1 / 1000000 * (1 / 1000000)) by nra. lra. }
  intro N. destruct (Rlt_dec 0 s) as [P|P]; [auto|]. specialize (G (- s) ltac:(lra)). rewrite sinc_even in G.
  replace (sin (- s * PI) / (- s * PI)) with (sin (s * PI) / (s * PI)) in G; [exact G|].
  replace (- s * PI) with (- (s * PI)) by ring. rewrite sin_neg. pose proof PI_3. assert (s * PI <> 0) by (apply Rmult_integral_contrapositive_currified; lra). set (x := s * PI) in *. field. auto.
Qed.

(** ** Lanczos *)
Section Lobes.
Variable a : Z.
Hypothesis Ha : (1 <= a)%Z.
Notation L := (lanczos reals PI sin a).
Lemma a_pos : 1 <= IZR a.
Proof. apply IZR_le in Ha. exact Ha. Qed.
Lemma lanczos_real s : L s = if Rle_dec (Rabs s) (IZR a) then sincr s * sincr (s / IZR a) else 0.
Proof. unfold lanczos. rewrite abs_real. cbn [f_int f_mul f_div f0 reals]. rtests; destruct (Rle_dec _ _); auto; lra. Qed.
Lemma lanczos_even : even_kernel L.
Proof.
  intro s. rewrite !lanczos_real, Rabs_Ropp, sinc_even. destruct (Rle_dec _ _); [|auto]. replace (- s / IZR a) with (- (s / IZR a)) by (unfold Rdiv; ring).
  rewrite sinc_even. reflexivity.
Qed.
Lemma lanczos_abs s : L s = L (Rabs s).
Proof. unfold Rabs. destruct (Rcase_abs s); [symmetry; apply lanczos_even|auto]. Qed.
Lemma lanczos_ints : interpolating_kernel L.
Proof.
  intro z. pose proof a_pos. rewrite lanczos_real, sinc_int. ints z.
  - rewrite E. destruct (Rle_dec _ _); [|lra]. replace (0 / IZR a) with (IZR 0) by (unfold Rdiv; ring). rewrite sinc_int. cbn. ring.
  - destruct (Rle_dec _ _); ring.
  - destruct (Rle_dec _ _); ring.
Qed.
Lemma lanczos_far : vanishes_at (IZR a) L.
Proof.
  intros s H. rewrite lanczos_abs, lanczos_real, Rabs_Rabsolu. destruct (Rle_dec _ _) as [A|A]; [|auto]. assert (E : Rabs s = IZR a) by lra. rewrite E, sinc_int.
  destruct (Z.eqb_spec a 0); [lia|ring].
Qed.
Lemma lanczos_bound s : Rabs (L s) <= 1.
Proof.
  rewrite lanczos_real. destruct (Rle_dec _ _); [|rewrite Rabs_R0; lra]. rewrite Rabs_mult. pose proof (sinc_bound s). pose proof (sinc_bound (s / IZR a)).
  pose proof (Rabs_pos (sincr s)). pose proof (Rabs_pos (sincr (s / IZR a))). nra.
Qed.
Lemma window_range s : 0 <= s <= IZR a -> 0 <= s / IZR a <= 1.
Proof.
  intro H. pose proof a_pos. split; [apply Rmult_le_pos; [lra|left; apply Rinv_0_lt_compat; lra]|].
  apply (Rmult_le_reg_r (IZR a)); [lra|]. unfold Rdiv. rewrite Rmult_assoc, Rinv_l by lra. lra.
Qed.
Lemma lanczos_sign : alternating L.
Proof.
  intros k s H. rewrite lanczos_abs, lanczos_real, Rabs_Rabsolu. pose proof (Rabs_pos s). destruct (Rle_dec _ _); [|lra].
  rewrite <- Rmult_assoc. apply Rmult_le_pos; [apply sinc_sign; auto|]. apply sinc_nonneg, window_range. lra.
Qed.
Lemma lanczos_near s : 0 <= s < 1 -> 0 < L s.
Proof.
  intro H. pose proof a_pos. rewrite lanczos_real, Rabs_right by lra. destruct (Rle_dec _ _); [|lra]. apply Rmult_lt_0_compat; apply sinc_near_1; [auto|].
  pose proof (window_range s ltac:(lra)). split; [lra|]. apply (Rmult_lt_reg_r (IZR a)); [lra|]. unfold Rdiv. rewrite Rmult_assoc, Rinv_l by lra. lra.
Qed.
Lemma window_falls s : 0 <= s -> s + 1 <= IZR a -> 0 <= sincr ((s + 1) / IZR a) <= sincr (s / IZR a).
Proof.
  intros P B. pose proof a_pos. pose proof (window_range s ltac:(lra)). pose proof (window_range (s + 1) ltac:(lra)). split; [apply sinc_nonneg; auto|].
  apply sinc_falls; [|lra]. split; [lra|]. apply Rmult_le_compat_r; [left; apply Rinv_0_lt_compat; lra|lra].
Qed.
Lemma lanczos_next s : 0 <= s -> Rabs (L (s + 1)) <= Rabs (L s) /\ (s < 1 -> Rabs (L (s + 1)) < L s).
Proof.
  intro P. pose proof a_pos. pose proof (lanczos_near s) as Nr. rewrite (lanczos_real (s + 1)), (Rabs_right (s + 1)) by lra. destruct (Rle_dec _ _) as [A|A].
  - pose proof (window_falls s P A) as [W0 W]. destruct (sinc_next s P) as [S1 S2]. rewrite lanczos_real in *. rewrite (Rabs_right s) in * by lra.
    destruct (Rle_dec s (IZR a)); [|lra]. rewrite !Rabs_mult, (Rabs_right (sincr ((s + 1) / IZR a))), (Rabs_right (sincr (s / IZR a))) by lra.
    pose proof (Rabs_pos (sincr (s + 1))). split.
    + apply Rmult_le_compat; auto.
    + intro G. pose proof (sinc_near_1 s ltac:(lra)) as C. specialize (S2 C). specialize (Nr ltac:(lra)).
      assert (0 < sincr (s / IZR a)) by (apply (Rmult_lt_reg_l (sincr s)); lra). nra.
  - rewrite Rabs_R0. split; [apply Rabs_pos|]. intro G. apply Nr. lra.
Qed.

(** Sums of values at distance 1 *)
Fixpoint lobes (m : nat) (s : R) : R := match m with O => 0 | S m' => L s + lobes m' (s + 1) end.
Lemma signed k s : INR k <= s <= INR k + 1 -> (-1) ^ k * L s = Rabs (L s).
Proof.
  intro H. pose proof (pos_INR k). pose proof (lanczos_sign k s) as S. rewrite (Rabs_right s) in S by lra. specialize (S H).
  transitivity (Rabs ((-1) ^ k * L s)); [rewrite Rabs_right; lra|]. rewrite Rabs_mult, pow_1_abs. ring.
Qed.
Lemma lobes_signed m : forall k s, INR k <= s <= INR k + 1 -> 0 <= (-1) ^ k * lobes m s <= Rabs (L s).
Proof.
  induction m as [|m IH]; intros k s H; cbn [lobes]; [pose proof (Rabs_pos (L s)); lra|].
  specialize (IH (S k) (s + 1)). rewrite S_INR in IH. specialize (IH ltac:(lra)). cbn [pow] in IH. pose proof (pos_INR k).
  destruct (lanczos_next s ltac:(lra)) as [N _]. pose proof (signed k s H). lra.
Qed.
Lemma lobes_pos m s : 0 <= s < 1 -> (1 <= m)%nat -> 0 < lobes m s.
Proof.
  intros H M. destruct m as [|m]; [lia|]. cbn [lobes]. pose proof (lobes_signed m 1 (s + 1)) as G. cbn [INR pow] in G. specialize (G ltac:(lra)).
  destruct (lanczos_next s ltac:(lra)) as [_ N]. specialize (N ltac:(lra)). lra.
Qed.
Lemma lobes_nonneg m s : 0 <= s <= 1 -> 0 <= lobes m s.
Proof. intro H. pose proof (lobes_signed m 0 s) as G. cbn [INR pow] in G. specialize (G ltac:(lra)). lra. Qed.
Lemma lobes_right p m : forall c, rsum (map (fun i => L (IZR i - p)) (range c (Z.of_nat m))) = lobes m (IZR c - p).
Proof.
  induction m as [|m IH]; intro c; [rewrite range_nil by lia; reflexivity|]. rewrite range_cons by lia. cbn [map rsum lobes].
  replace (Z.of_nat (S m) - 1)%Z with (Z.of_nat m) by lia. rewrite IH, plus_IZR. do 2 f_equal. lra.
Qed.
Lemma range_snoc lo n : (0 <= n)%Z -> range lo (n + 1) = range lo n ++ [(lo + n)%Z].
Proof.
  intro H. unfold range. replace (Z.to_nat (n + 1)) with (Z.to_nat n + 1)%nat by lia. rewrite seq_app, map_app. cbn [seq map]. do 2 f_equal. lia.
Qed.
Lemma lobes_left p m : forall c, rsum (map (fun i => L (IZR i - p)) (range (c - Z.of_nat m) (Z.of_nat m))) = lobes m (p - (IZR c - 1)).
Proof.
  induction m as [|m IH]; intro c; [rewrite range_nil by lia; reflexivity|]. replace (Z.of_nat (S m)) with (Z.of_nat m + 1)%Z by lia.
  rewrite range_snoc, map_app, rsum_app by lia. cbn [map rsum lobes]. replace (c - (Z.of_nat m + 1))%Z with (c - 1 - Z.of_nat m)%Z by lia. rewrite IH.
  replace (c - 1 - Z.of_nat m + Z.of_nat m)%Z with (c - 1)%Z by lia. rewrite minus_IZR. replace (L (IZR c - 1 - p)) with (L (p - (IZR c - 1))) by (rewrite <- lanczos_even; f_equal; lra).
  replace (p - (IZR c - 1 - 1)) with (p - (IZR c - 1) + 1) by lra. lra.
Qed.
Lemma range_split lo m n : (0 <= m)%Z -> (0 <= n)%Z -> range lo (m + n) = range lo m ++ range (lo + m) n.
Proof.
  intros M N. unfold range. replace (Z.to_nat (m + n)) with (Z.to_nat m + Z.to_nat n)%nat by lia. rewrite seq_app, map_app. f_equal.
  assert (G : forall k s, map (fun i => lo + Z.of_nat i)%Z (seq (Z.to_nat m + s) k) = map (fun i => lo + m + Z.of_nat i)%Z (seq s k)).
  { induction k as [|k IH]; intro s; [reflexivity|]. cbn [seq map]. f_equal; [lia|]. replace (S (Z.to_nat m + s)) with (Z.to_nat m + S s)%nat by lia. apply IH. }
  specialize (G (Z.to_nat n) O). rewrite Nat.add_0_r in G. exact G.
Qed.
Lemma lanczos_sum p lo n : (1 <= n)%Z -> IZR lo - 1 / 2 <= p <= IZR (lo + n) - 1 / 2 -> 0 < rsum (map (fun i => L (IZR i - p)) (range lo n)).
Proof.
  intros Hn [P1 P2]. destruct (archimed p) as [U1 U2]. set (u := up p) in *.
  assert (C : exists c, IZR c - 1 < p <= IZR c) by (destruct (Req_EM_T (IZR u - 1) p); [exists (u - 1)%Z; rewrite minus_IZR; lra|exists u; lra]).
  clear u U1 U2. destruct C as [c C].
  assert (lo <= c)%Z by (apply Z.lt_succ_r, lt_IZR; rewrite succ_IZR; lra).
  assert (c <= lo + n)%Z by (apply Z.lt_succ_r, lt_IZR; rewrite succ_IZR; lra).
  replace n with ((c - lo) + (lo + n - c))%Z by lia. rewrite range_split, map_app, rsum_app by lia. replace (lo + (c - lo))%Z with c by lia.
  rewrite <- (Z2Nat.id (lo + n - c)) by lia. rewrite lobes_right. rewrite <- (Z2Nat.id (c - lo)) by lia.
  replace lo with (c - Z.of_nat (Z.to_nat (c - lo)))%Z at 1 by lia. rewrite lobes_left.
  pose proof (lobes_nonneg (Z.to_nat (c - lo)) (p - (IZR c - 1)) ltac:(lra)). pose proof (lobes_nonneg (Z.to_nat (lo + n - c)) (IZR c - p) ltac:(lra)).
  destruct (Z.eq_dec c (lo + n)) as [E|E].
  - pose proof (lobes_pos (Z.to_nat (c - lo)) (p - (IZR c - 1))) as G. rewrite E in *. specialize (G ltac:(lra) ltac:(lia)). lra.
  - pose proof (lobes_pos (Z.to_nat (lo + n - c)) (IZR c - p)) as G. specialize (G ltac:(lra) ltac:(lia)). lra.
Qed.
Lemma usable_lanczos rate lo n x : (1 <= denominator rate <= numerator rate)%Z -> (1 <= n)%Z -> inside rate lo n x ->
  usable_weights reals (weight reals L rate x) lo n.
Proof.
  intros D Hn I. apply usable_sum. unfold weight. rewrite quotient_real, scale_one by auto. cbn [f_mul f_sub f_int reals].
  erewrite map_ext; [apply lanczos_sum; [exact Hn|apply inside_real; exact I]|]. intro i. cbn beta. f_equal. lra.
Qed.
End Lobes.

(** ** The named kernels *)
Lemma lanczos_close s : 0 < Rabs s <= 4 -> Rabs (lanczos reals PI sin 4 s - sin (s * PI) / (s * PI) * (sin (s * PI / 4) / (s * PI / 4))) <= 3 / 10 ^ 12.
Proof.
  intros [P B]. assert (N : s <> 0) by (intros ->; rewrite Rabs_R0 in P; lra). rewrite lanczos_real. destruct (Rle_dec _ _); [|lra].
  pose proof (sinc_close s N) as A. pose proof (sinc_close (s / 4) ltac:(intro E; apply N; lra)) as C. replace (s / 4 * PI) with (s * PI / 4) in C by field.
  pose proof (sinc_bound s) as D. pose proof (sinc_bound (s / 4)) as E. set (u := sincr s) in *. set (v := sincr (s / 4)) in *.
  set (p := sin (s * PI) / (s * PI)) in *. set (q := sin (s * PI / 4) / (s * PI / 4)) in *.
  replace (u * v - p * q) with (u * (v - q) + v * (u - p) - (u - p) * (v - q)) by ring.
  assert (T : forall x y, Rabs x <= 1 -> Rabs y <= 1 / 10 ^ 12 -> Rabs (x * y) <= 1 / 10 ^ 12).
  { intros x y X Y. rewrite Rabs_mult. pose proof (Rabs_pos x). pose proof (Rabs_pos y). nra. }
  pose proof (T u (v - q) D C). pose proof (T v (u - p) E A). pose proof (T (u - p) (v - q) ltac:(lra) C).
  unfold Rminus at 1. pose proof (Rabs_triang (u * (v - q) + v * (u - p)) (- ((u - p) * (v - q)))) as T1. rewrite Rabs_Ropp in T1.
  pose proof (Rabs_triang (u * (v - q)) (v * (u - p))). lra.
Qed.
Lemma named_known name kernel : parse_kernel reals PI sin name = Some kernel -> is_kernel name kernel.
Proof.
  unfold parse_kernel, is_kernel. destruct (String.eqb_spec name "box"%string); [intros [= <-]; auto 9 using box_real|].
  destruct (String.eqb_spec name "linear"%string); [intros [= <-]; auto 9 using linear_real|].
  destruct (String.eqb_spec name "quadratic"%string); [intros [= <-]; auto 9 using quadratic_real|].
  destruct (String.eqb_spec name "cubic"%string); [intros [= <-]; auto 9 using cubic_real|].
  destruct (String.eqb_spec name "lanczos"%string); [|discriminate]. intros [= <-]. do 4 right. split; [auto|].
  split; [exact (lanczos_ints 4 ltac:(lia) 0%Z)|]. split; [exact (lanczos_far 4 ltac:(lia))|exact lanczos_close].
Qed.
Lemma known_named name : In name ["box"; "linear"; "quadratic"; "cubic"; "lanczos"]%string -> exists kernel, parse_kernel reals PI sin name = Some kernel.
Proof. intros [<-|[<-|[<-|[<-|[<-|[]]]]]]; eexists; reflexivity. Qed.
