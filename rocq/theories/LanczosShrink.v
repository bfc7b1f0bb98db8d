(** The Lanczos kernel with 4 lobes has usable weights at every rate. *)
From Coq Require Import QArith Qreals Reals Machin Lra.
From Verif Require Import Tac Interval Shape Memory Ref Spec SpecMem SpecEin Rational SpecRational Resample SpecResample Lanczos SpecLanczos
  EinUses ResampleFacts ResampleExact RealWeights LanczosFacts.
Import ListNotations.
Open Scope R_scope.

(** ** Bounds on PI and on sines *)
Lemma PI_bounds : 313 / 100 <= PI <= 33 / 10.
Proof.
  destruct (PI_2_3_7_ineq 0) as [A B]. unfold sum_f_R0, tg_alt, PI_2_3_7_tg, Ratan_seq in A, B. cbn [Nat.mul Nat.add INR pow] in A, B. lra.
Qed.
Lemma sin_cubic x : 0 <= x <= PI -> x - x * x * x / 6 <= sin x.
Proof.
  intro H. destruct (sin_bound x 0 ltac:(lra) ltac:(lra)) as [A _]. unfold sin_approx, sum_f_R0, sin_term in A. cbn [Nat.mul Nat.add fact pow INR] in A. lra.
Qed.
Lemma arg_range t : 0 <= t <= 1 -> 0 <= t * PI <= PI.
Proof. intro H. pose proof PI_bounds. split; [apply Rmult_le_pos; lra|]. rewrite <- (Rmult_1_l PI) at 2. apply Rmult_le_compat_r; lra. Qed.
Lemma PI_sq : PI * PI <= 11.
Proof. pose proof PI_bounds. nra. Qed.
Lemma sin_lower t : 0 <= t <= 1 -> t * (1 - t) * PI <= sin (t * PI).
Proof.
  assert (G : forall t, 0 <= t <= 1 / 2 -> t * (1 - t) * PI <= sin (t * PI)).
  { clear t. intros t H. pose proof PI_bounds. pose proof PI_sq. pose proof (sin_cubic (t * PI) (arg_range t ltac:(lra))) as S.
    assert (t * (PI * PI) <= 1 / 2 * 11) by (apply Rmult_le_compat; try lra; apply Rmult_le_pos; lra).
    assert (0 <= t * (t * PI) * (6 - t * (PI * PI))); [|lra]. apply Rmult_le_pos; [apply Rmult_le_pos; [lra|apply Rmult_le_pos; lra]|lra]. }
  intro H. destruct (Rle_dec t (1 / 2)); [apply G; lra|]. specialize (G (1 - t) ltac:(lra)). replace ((1 - t) * PI) with (PI - t * PI) in G by ring. rewrite sin_PI_x in G. lra.
Qed.
Lemma sin_quarter : 2 * (sin (PI / 4) * sin (PI / 4)) = 1.
Proof. pose proof (cos_2a_sin (PI / 4)) as C. replace (2 * (PI / 4)) with (PI / 2) in C by lra. rewrite cos_PI2 in C. lra. Qed.
Lemma sin_upper t : 0 <= t <= 1 -> sin (t * PI) <= 4 * t * (1 - t).
Proof.
  assert (G : forall t, 0 <= t <= 1 / 2 -> sin (t * PI) <= 4 * t * (1 - t)).
  { clear t. intros t H. pose proof PI_bounds. set (r := 1 - 2 * t). set (v := r * (PI / 4)). assert (R0 : 0 <= r <= 1) by (unfold r; lra).
    replace (t * PI) with (PI / 2 - 2 * v) by (unfold v, r; lra). rewrite Rtrigo1.sin_shift, cos_2a_sin. replace (4 * t * (1 - t)) with (1 - r * r) by (unfold r; lra).
    assert (S : r * sin (PI / 4) <= sin v).
    { destruct (Req_EM_T r 0) as [E|E]; [unfold v; rewrite E, !Rmult_0_l, sin_0; lra|]. pose proof (sin_ratio v (PI / 4)) as S. unfold v in S.
      specialize (S ltac:(split; [apply Rmult_lt_0_compat; lra|rewrite <- (Rmult_1_l (PI / 4)) at 2; apply Rmult_le_compat_r; lra]) ltac:(lra)). fold v in S.
      apply (Rmult_le_reg_l (PI / 4)); [lra|]. unfold v in *. lra. }
    assert (0 <= sin (PI / 4)) by (apply sin_ge_0; lra). assert (0 <= r * sin (PI / 4)) by (apply Rmult_le_pos; lra).
    assert (Q : r * sin (PI / 4) * (r * sin (PI / 4)) <= sin v * sin v) by (apply Rmult_le_compat; lra). pose proof sin_quarter as W.
    replace (r * sin (PI / 4) * (r * sin (PI / 4))) with (r * r * (2 * (sin (PI / 4) * sin (PI / 4))) / 2) in Q by field. rewrite W in Q. lra. }
  intro H. destruct (Rle_dec t (1 / 2)); [apply G; lra|]. specialize (G (1 - t) ltac:(lra)). replace ((1 - t) * PI) with (PI - t * PI) in G by ring. rewrite sin_PI_x in G. lra.
Qed.

(** ** Bounds on sinc *)
Lemma sinc_lower s : 0 <= s <= 1 -> 1 - s <= sincr s.
Proof.
  intro H. rewrite sinc_real, sinc_pos_arg by lra. destruct (Rlt_dec _ _) as [A|A]; [|lra]. pose proof (sin_lower s H) as S.
  set (x := s * PI) in *. apply (Rmult_le_reg_r x); [lra|]. replace (sin x / x * x) with (sin x) by (field; lra). unfold x in *. lra.
Qed.
Lemma sinc_square s : 0 <= s <= 1 -> 1 - 11 / 6 * (s * s) <= sincr s.
Proof.
  intro H. rewrite sinc_real, sinc_pos_arg by lra. pose proof (Rle_0_sqr s) as Q. unfold Rsqr in Q. destruct (Rlt_dec _ _) as [A|A]; [|lra].
  pose proof (sin_cubic (s * PI) (arg_range s H)) as S. pose proof PI_sq.
  set (x := s * PI) in *. apply (Rmult_le_reg_r x); [lra|]. replace (sin x / x * x) with (sin x) by (field; lra).
  assert (E : x * x <= 11 * (s * s)) by (replace (x * x) with (s * s * (PI * PI)) by (unfold x; ring); rewrite Rmult_comm; apply Rmult_le_compat_r; lra).
  assert (x * (x * x) <= x * (11 * (s * s))) by (apply Rmult_le_compat_l; lra). lra.
Qed.
Lemma sinc_quarters t : 1 / 4 <= t <= 1 -> sincr t * PI <= 4 * (1 - t).
Proof.
  intro H. pose proof PI_bounds. rewrite sinc_real, sinc_pos_arg by lra. pose proof (arg_range t ltac:(lra)). assert (1 / 4 * 3 <= t * PI) by (apply Rmult_le_compat; lra).
  destruct (Rlt_dec _ _) as [A|A]; [|lra]. pose proof (sin_upper t ltac:(lra)) as S.
  replace (sin (t * PI) / (t * PI) * PI) with (sin (t * PI) / t) by (field; lra). apply (Rmult_le_reg_r t); [lra|].
  replace (sin (t * PI) / t * t) with (sin (t * PI)) by (field; lra). lra.
Qed.
Lemma sin_lobe k s : Rabs (sin ((s + INR k) * PI)) = Rabs (sin (s * PI)).
Proof. replace ((s + INR k) * PI) with (s * PI + INR k * PI) by ring. rewrite sin_shift, Rabs_mult, pow_1_abs. ring. Qed.
Lemma sinc_lobe k s : (1 <= k)%nat -> 0 <= s <= 1 -> Rabs (sincr (s + INR k)) = sin (s * PI) / ((s + INR k) * PI).
Proof.
  intros K H. apply le_INR in K. cbn [INR] in K. pose proof PI_bounds. assert (1 * 3 <= (s + INR k) * PI) by (apply Rmult_le_compat; lra).
  rewrite sinc_real, sinc_pos_arg by lra. destruct (Rlt_dec _ _) as [A|A]; [|lra]. unfold Rdiv. rewrite Rabs_mult, sin_lobe, Rabs_inv, (Rabs_right (_ * PI)) by lra.
  rewrite (Rabs_right (sin _)); [reflexivity|]. apply Rle_ge, sin_ge_0; apply arg_range; auto.
Qed.
(** In later lobes, compared with the first *)
Lemma sinc_ratio k s : (1 <= k)%nat -> 0 <= s <= 1 -> (INR k + 1) * Rabs (sincr (s + INR k)) <= sincr s.
Proof.
  intros K H. rewrite sinc_lobe by auto. apply le_INR in K. cbn [INR] in K. pose proof PI_bounds. rewrite sinc_real, sinc_pos_arg by lra. pose proof (arg_range s H) as Ar.
  assert (S0 : 0 <= sin (s * PI)) by (apply sin_ge_0; lra). assert (D : 0 < (s + INR k) * PI) by (apply Rmult_lt_0_compat; lra).
  destruct (Rlt_dec _ _) as [A|A].
  - assert (s <> 0) by (intros ->; lra). apply (Rmult_le_reg_r (s * ((s + INR k) * PI))); [apply Rmult_lt_0_compat; lra|].
    replace (sin (s * PI) / (s * PI) * (s * ((s + INR k) * PI))) with (sin (s * PI) * (s + INR k)) by (field; lra).
    replace ((INR k + 1) * (sin (s * PI) / ((s + INR k) * PI)) * (s * ((s + INR k) * PI))) with (sin (s * PI) * ((INR k + 1) * s)) by (field; split; lra).
    apply Rmult_le_compat_l; [lra|]. assert (0 <= (INR k) * (1 - s)) by (apply Rmult_le_pos; lra). lra.
  - pose proof (sin_le_x (s * PI) ltac:(lra)) as S. rewrite Rabs_right in S by lra. apply (Rmult_le_reg_r ((s + INR k) * PI)); [auto|].
    replace ((INR k + 1) * (sin (s * PI) / ((s + INR k) * PI)) * ((s + INR k) * PI)) with (sin (s * PI) * (INR k + 1)) by (field; split; lra).
    assert (sin (s * PI) * (INR k + 1) <= s * PI * (INR k + 1)) by (apply Rmult_le_compat_r; lra).
    assert (0 <= INR k * (1 - s) * PI) by (apply Rmult_le_pos; [apply Rmult_le_pos|]; lra). lra.
Qed.

(** ** The kernel *)
Notation L := (lanczos reals PI sin 4).
Lemma one4 : (1 <= 4)%Z.
Proof. lia. Qed.
Lemma L_real s : 0 <= s <= 4 -> L s = sincr s * sincr (s / 4).
Proof. intro H. rewrite lanczos_real, Rabs_right by lra. destruct (Rle_dec _ _); [reflexivity|lra]. Qed.
Lemma L_first s : 0 <= s <= 1 -> 0 <= L s.
Proof. intro H. rewrite L_real by lra. apply Rmult_le_pos; apply sinc_nonneg; lra. Qed.
Lemma L_falls s t : 0 <= s <= t -> t <= 1 -> L t <= L s.
Proof. intros H T. rewrite !L_real by lra. apply Rmult_le_compat; try (apply sinc_nonneg; lra); apply sinc_falls; lra. Qed.
Lemma L_ratio k s : (1 <= k <= 3)%nat -> 0 <= s <= 1 -> (INR k + 1) * Rabs (L (s + INR k)) <= L s.
Proof.
  intros [K K3] H. pose proof (sinc_ratio k s K H). apply le_INR in K, K3. cbn [INR] in K, K3. rewrite !L_real, Rabs_mult by lra.
  pose proof (sinc_nonneg ((s + INR k) / 4) ltac:(lra)). rewrite (Rabs_right (sincr (_ / 4))) by lra. rewrite <- Rmult_assoc.
  apply Rmult_le_compat; try lra; [|apply sinc_falls; lra]. apply Rmult_le_pos; [lra|apply Rabs_pos].
Qed.
Lemma L_lobe k c s : (1 <= k <= 3)%nat -> 0 <= s <= 1 -> s * (1 - s) <= c * (s + INR k) -> Rabs (L (s + INR k)) * (PI * PI) <= 4 * c * (4 - INR k).
Proof.
  intros [K K3] H C. pose proof (sinc_lobe k s K H) as E. apply le_INR in K, K3. cbn [INR] in K, K3. pose proof PI_bounds. rewrite L_real, Rabs_mult by lra.
  pose proof (sinc_nonneg ((s + INR k) / 4) ltac:(lra)). rewrite (Rabs_right (sincr (_ / 4))) by lra. rewrite E.
  replace (sin (s * PI) / ((s + INR k) * PI) * sincr ((s + INR k) / 4) * (PI * PI)) with (sin (s * PI) / (s + INR k) * (sincr ((s + INR k) / 4) * PI)) by (field; lra).
  pose proof (sinc_quarters ((s + INR k) / 4) ltac:(lra)) as Q. pose proof (sin_upper s H) as U. pose proof (arg_range s H) as Ar.
  assert (S0 : 0 <= sin (s * PI)) by (apply sin_ge_0; lra).
  assert (sin (s * PI) / (s + INR k) <= 4 * c).
  { apply (Rmult_le_reg_r (s + INR k)); [lra|]. replace (sin (s * PI) / (s + INR k) * (s + INR k)) with (sin (s * PI)) by (field; lra). lra. }
  apply Rmult_le_compat; try lra; [|apply Rmult_le_pos; lra]. apply Rmult_le_pos; [lra|]. left. apply Rinv_0_lt_compat. lra.
Qed.
(** How deep the lobes below 0 are *)
Definition b1 : R := 211 / 1000.
Definition b3 : R := 30 / 1000.
Lemma deep1 x : 1 <= x <= 2 -> Rabs (L x) <= b1.
Proof.
  intro H. pose proof (L_lobe 1 (172 / 1000) (x - 1) ltac:(lia) ltac:(lra)) as G. cbn [INR] in G. replace (x - 1 + 1) with x in G by lra.
  pose proof (Rle_0_sqr (x - 1414 / 1000)) as Q. unfold Rsqr in Q. specialize (G ltac:(lra)). pose proof PI_bounds. assert (97969 / 10000 <= PI * PI) by nra. unfold b1.
  pose proof (Rabs_pos (L x)). nra.
Qed.
Lemma deep3 x : 3 <= x <= 4 -> Rabs (L x) <= b3.
Proof.
  intro H. pose proof (L_lobe 3 (72 / 1000) (x - 3) ltac:(lia) ltac:(lra)) as G. cbn [INR] in G. replace (x - 3 + (1 + 1 + 1)) with x in G by lra.
  pose proof (Rle_0_sqr (x - 3464 / 1000)) as Q. unfold Rsqr in Q. specialize (G ltac:(lra)). pose proof PI_bounds. assert (97969 / 10000 <= PI * PI) by nra. unfold b3.
  pose proof (Rabs_pos (L x)). nra.
Qed.
Lemma L_two u v : 0 <= u -> 0 <= v -> u + v = 1 -> 97 / 100 <= L u + L v.
Proof.
  intros U V E. rewrite !L_real by lra. pose proof (sinc_lower u ltac:(lra)). pose proof (sinc_lower v ltac:(lra)).
  pose proof (sinc_square (u / 4) ltac:(lra)). pose proof (sinc_square (v / 4) ltac:(lra)).
  assert (u * u <= 1) by nra. assert (v * v <= 1) by nra.
  assert ((1 - u) * (1 - 11 / 6 * (u / 4 * (u / 4))) <= sincr u * sincr (u / 4)) by (apply Rmult_le_compat; lra).
  assert ((1 - v) * (1 - 11 / 6 * (v / 4 * (v / 4))) <= sincr v * sincr (v / 4)) by (apply Rmult_le_compat; lra).
  replace v with (1 - u) in * by lra. assert (0 <= (u - 1 / 2) * (u - 1 / 2)) by (apply Rle_0_sqr). nra.
Qed.
Lemma L_half s : 0 <= s <= 1 / 2 -> 485 / 1000 <= L s.
Proof. intro H. pose proof (L_falls s (1 / 2) ltac:(lra) ltac:(lra)). pose proof (L_two (1 / 2) (1 / 2) ltac:(lra) ltac:(lra) ltac:(lra)). lra. Qed.

(** ** Sums *)
Fixpoint sumn (g : nat -> R) (n : nat) : R := match n with O => 0 | S n' => sumn g n' + g n' end.
Lemma sumn_le g g' n : (forall j, g j <= g' j) -> sumn g n <= sumn g' n.
Proof. intro H. induction n as [|n IH]; cbn [sumn]; [lra|]. specialize (H n). lra. Qed.
Lemma sumn_more g n m : (forall j, 0 <= g j) -> (n <= m)%nat -> sumn g n <= sumn g m.
Proof. intros H N. induction N as [|m N IH]; cbn [sumn]; [lra|]. specialize (H m). lra. Qed.
Lemma sumn_first g n : sumn g (S n) = g O + sumn (fun j => g (S j)) n.
Proof. induction n as [|n IH]; [cbn; lra|]. change (sumn g (S (S n))) with (sumn g (S n) + g (S n)). rewrite IH. cbn [sumn]. lra. Qed.
(** Terms that vanish at first, and are then, but for two, at most [c] times earlier ones *)
Lemma sumn_pair (a d : nat -> R) (b c : R) (m : nat) : (forall j, 0 <= a j) -> 0 <= b -> 0 <= c -> (1 <= m)%nat ->
  (forall j, (j + 1 < m)%nat -> d j = 0) -> (forall j, d j <= b) -> (forall j, d (m + S j)%nat <= c * a (S j)) ->
  forall n, sumn d (S n) <= 2 * b + c * sumn (fun j => a (S j)) n.
Proof.
  intros A B C M D0 Db Dc n.
  assert (N0 : forall k, (k + 1 <= m)%nat -> sumn d k = 0).
  { induction k as [|k IH]; intro K; cbn [sumn]; [lra|]. rewrite IH, D0 by lia. lra. }
  assert (N1 : forall k, sumn d (m + S k) <= 2 * b + c * sumn (fun j => a (S j)) k).
  { induction k as [|k IH].
    - replace (m + 1)%nat with (S (S (m - 1))) by lia. cbn [sumn]. rewrite N0 by lia. pose proof (Db (m - 1)%nat). pose proof (Db (S (m - 1))). lra.
    - replace (m + S (S k))%nat with (S (m + S k)) by lia. cbn [sumn]. specialize (Dc k). lra. }
  assert (P : forall k, 0 <= c * sumn (fun j => a (S j)) k).
  { intro k. apply Rmult_le_pos; [auto|]. apply (sumn_more (fun j => a (S j)) 0 k); [auto|lia]. }
  destruct (le_dec (S n) (m - 1)) as [K|K]; [rewrite N0 by lia; pose proof (P n); lra|].
  destruct (Nat.eq_dec (S n) m) as [E|E].
  { cbn [sumn]. rewrite N0 by lia. pose proof (Db n). pose proof (P n). lra. }
  replace (S n) with (m + S (n - m))%nat by lia. pose proof (N1 (n - m)%nat).
  assert (c * sumn (fun j => a (S j)) (n - m) <= c * sumn (fun j => a (S j)) n) by (apply Rmult_le_compat_l; [auto|]; apply sumn_more; [auto|lia]). lra.
Qed.

(** ** One side: values at distance [h], from [y] on *)
Section Side.
Variables (h y : R).
Hypotheses (Hh : 0 < h <= 1) (Hy : 0 <= y <= h).
Definition pt (j : nat) : R := y + INR j * h.
Definition first (x : R) : R := if Rle_dec x 1 then L x else 0.
Definition lobe (k : nat) (x : R) : R := if Rle_dec (INR k) x then if Rle_dec x (INR k + 1) then Rabs (L x) else 0 else 0.
Lemma pt_nonneg j : 0 <= pt j.
Proof. unfold pt. pose proof (pos_INR j). assert (0 <= INR j * h) by (apply Rmult_le_pos; lra). lra. Qed.
Lemma pt_up j k : (j <= k)%nat -> pt j <= pt k.
Proof. intro H. apply le_INR in H. unfold pt. assert (INR j * h <= INR k * h) by (apply Rmult_le_compat_r; lra). lra. Qed.
Lemma first_nonneg j : 0 <= first (pt j).
Proof. unfold first. destruct (Rle_dec _ _); [|lra]. apply L_first. pose proof (pt_nonneg j). lra. Qed.
Lemma split_lobes x : 0 <= x -> first x - lobe 1 x - lobe 3 x <= L x.
Proof.
  intro H. unfold first, lobe. cbn [INR]. pose proof (lanczos_sign 4 one4 2%nat x) as S. pose proof (lanczos_far 4 one4 x) as F. rewrite (Rabs_right x) in S, F by lra. cbn [INR pow] in S.
  pose proof (Rle_abs (- L x)) as A. rewrite Rabs_Ropp in A. pose proof (Rabs_pos (L x)).
  repeat destruct (Rle_dec _ _); lra.
Qed.
(** The number of steps in [k] *)
Lemma steps k : (1 <= k)%nat -> exists m, (1 <= m)%nat /\ INR k <= INR m * h /\ (INR m - 1) * h < INR k.
Proof.
  intro K. apply le_INR in K. cbn [INR] in K. set (r := INR k / h). assert (R1 : r * h = INR k) by (unfold r; field; lra).
  assert (R0 : 0 < r) by (apply Rdiv_lt_0_compat; lra).
  destruct (archimed r) as [U1 U2]. assert (C : exists c, IZR c - 1 < r <= IZR c) by (destruct (Req_EM_T (IZR (up r) - 1) r); [exists (up r - 1)%Z; rewrite minus_IZR; lra|exists (up r); lra]).
  destruct C as [c C]. assert (0 < c)%Z by (apply lt_IZR; lra). exists (Z.to_nat c). split; [lia|]. rewrite (INR_IZR_INZ (Z.to_nat c)), Z2Nat.id by lia. rewrite <- R1. split.
  - apply Rmult_le_compat_r; lra.
  - apply Rmult_lt_compat_r; lra.
Qed.
Lemma lobe_sum k b n : (1 <= k <= 3)%nat -> (forall x, INR k <= x <= INR k + 1 -> Rabs (L x) <= b) -> 0 <= b ->
  sumn (fun j => lobe k (pt j)) (S n) <= 2 * b + / (INR k + 1) * sumn (fun j => first (pt (S j))) n.
Proof.
  intros K B B0. destruct (steps k ltac:(lia)) as (m & M & M1 & M2). pose proof (pos_INR k) as Kp. assert (I : 0 < / (INR k + 1)) by (apply Rinv_0_lt_compat; lra).
  apply (sumn_pair (fun j => first (pt j)) (fun j => lobe k (pt j)) b (/ (INR k + 1)) m); auto using first_nonneg.
  - lra.
  - intros j J. unfold lobe. destruct (Rle_dec _ _) as [A|A]; [|auto]. exfalso. pose proof (pt_up j (m - 2) ltac:(lia)) as U.
    unfold pt at 2 in U. rewrite minus_INR in U by lia. cbn [INR] in U. lra.
  - intro j. unfold lobe. repeat destruct (Rle_dec _ _); auto.
  - intro j. pose proof (first_nonneg (S j)) as F. assert (P : 0 <= / (INR k + 1) * first (pt (S j))) by (apply Rmult_le_pos; lra).
    unfold lobe. destruct (Rle_dec _ _) as [A|A]; [|auto]. destruct (Rle_dec _ _) as [A'|A']; [|auto].
    assert (E : pt (m + S j) = INR m * h + pt (S j)) by (unfold pt; rewrite plus_INR; lra). pose proof (pt_nonneg (S j)).
    unfold first. destruct (Rle_dec _ _) as [Q|Q]; [|lra].
    pose proof (L_ratio k (pt (m + S j) - INR k) ltac:(lia) ltac:(lra)) as T. replace (pt (m + S j) - INR k + INR k) with (pt (m + S j)) in T by lra.
    pose proof (L_falls (pt (S j)) (pt (m + S j) - INR k) ltac:(lra) ltac:(lra)) as W.
    apply (Rmult_le_reg_l (INR k + 1)); [lra|]. rewrite <- Rmult_assoc, Rinv_r by lra. lra.
Qed.
Lemma side_sum n : L y - 2 * (b1 + b3) <= sumn (fun j => L (pt j)) (S n).
Proof.
  pose proof (lobe_sum 1 b1 n ltac:(lia)) as S1. pose proof (lobe_sum 3 b3 n ltac:(lia)) as S3. cbn [INR] in S1, S3.
  specialize (S1 ltac:(intros x Hx; apply deep1; lra) ltac:(unfold b1; lra)). specialize (S3 ltac:(intros x Hx; apply deep3; lra) ltac:(unfold b3; lra)).
  pose proof (sumn_le (fun j => first (pt j) - lobe 1 (pt j) - lobe 3 (pt j)) (fun j => L (pt j)) (S n) (fun j => split_lobes _ (pt_nonneg j))) as T.
  assert (E : forall k, sumn (fun j => first (pt j) - lobe 1 (pt j) - lobe 3 (pt j)) k = sumn (fun j => first (pt j)) k - sumn (fun j => lobe 1 (pt j)) k - sumn (fun j => lobe 3 (pt j)) k).
  { induction k as [|k IH]; cbn [sumn]; [lra|]. rewrite IH. lra. }
  rewrite E in T. rewrite (sumn_first (fun j => first (pt j))) in T. replace (first (pt 0)) with (L y) in T.
  2:{ unfold first, pt. cbn [INR]. replace (y + 0 * h) with y by lra. destruct (Rle_dec _ _); [auto|lra]. }
  pose proof (sumn_more (fun j => first (pt (S j))) 0 n (fun j => first_nonneg (S j)) ltac:(lia)) as P. cbn [sumn] in P. lra.
Qed.
End Side.

(** ** Both sides *)
Lemma sum_right p h m : forall c, rsum (map (fun i => L ((IZR i - p) * h)) (range c (Z.of_nat m))) = sumn (fun j => L (pt h ((IZR c - p) * h) j)) m.
Proof.
  induction m as [|m IH]; intro c; [rewrite range_nil by lia; reflexivity|]. replace (Z.of_nat (S m)) with (Z.of_nat m + 1)%Z by lia.
  rewrite range_snoc, map_app, rsum_app, IH by lia. cbn [map rsum sumn]. unfold pt at 3. rewrite plus_IZR, <- INR_IZR_INZ, Rplus_0_r. do 2 f_equal. ring.
Qed.
Lemma sum_left p h m : forall c, rsum (map (fun i => L ((IZR i - p) * h)) (range (c - Z.of_nat m) (Z.of_nat m))) = sumn (fun j => L (pt h ((p - (IZR c - 1)) * h) j)) m.
Proof.
  induction m as [|m IH]; intro c; [rewrite range_nil by lia; reflexivity|]. rewrite range_cons by lia. cbn [map rsum sumn].
  replace (Z.of_nat (S m) - 1)%Z with (Z.of_nat m) by lia. replace (c - Z.of_nat (S m) + 1)%Z with (c - Z.of_nat m)%Z by lia. rewrite IH, Rplus_comm. f_equal.
  rewrite <- (lanczos_even 4). f_equal. unfold pt. rewrite minus_IZR, <- INR_IZR_INZ, S_INR. ring.
Qed.
Lemma lanczos4_sum p h lo n : 0 < h <= 1 -> (1 <= n)%Z -> IZR lo - 1 / 2 <= p <= IZR (lo + n) - 1 / 2 ->
  0 < rsum (map (fun i => L ((IZR i - p) * h)) (range lo n)).
Proof.
  intros Hh Hn [P1 P2]. destruct (archimed p) as [U1 U2].
  assert (C : exists c, IZR c - 1 < p <= IZR c) by (destruct (Req_EM_T (IZR (up p) - 1) p); [exists (up p - 1)%Z; rewrite minus_IZR; lra|exists (up p); lra]).
  destruct C as [c C].
  assert (lo <= c)%Z by (apply Z.lt_succ_r, lt_IZR; rewrite succ_IZR; lra).
  assert (c <= lo + n)%Z by (apply Z.lt_succ_r, lt_IZR; rewrite succ_IZR; lra).
  replace n with ((c - lo) + (lo + n - c))%Z by lia. rewrite range_split, map_app, rsum_app by lia. replace (lo + (c - lo))%Z with c by lia.
  rewrite <- (Z2Nat.id (lo + n - c)) by lia. rewrite sum_right. rewrite <- (Z2Nat.id (c - lo)) by lia.
  replace lo with (c - Z.of_nat (Z.to_nat (c - lo)))%Z at 1 by lia. rewrite sum_left.
  set (u := IZR c - p). set (v := p - (IZR c - 1)). assert (U : 0 <= u * h <= h) by (unfold u; split; [apply Rmult_le_pos; lra|rewrite <- (Rmult_1_l h) at 2; apply Rmult_le_compat_r; lra]).
  assert (V : 0 <= v * h <= h) by (unfold v; split; [apply Rmult_le_pos; lra|rewrite <- (Rmult_1_l h) at 2; apply Rmult_le_compat_r; lra]).
  assert (Lu : L u <= L (u * h)) by (unfold u in *; apply L_falls; [split; [lra|]; rewrite <- Rmult_1_r; apply Rmult_le_compat_l; lra|lra]).
  assert (Lv : L v <= L (v * h)) by (unfold v in *; apply L_falls; [split; [lra|]; rewrite <- Rmult_1_r; apply Rmult_le_compat_l; lra|lra]).
  pose proof (fun m => side_sum h (u * h) Hh U m) as Su. pose proof (fun m => side_sum h (v * h) Hh V m) as Sv. unfold b1, b3 in *.
  destruct (Z.to_nat (c - lo)) as [|l] eqn:El; destruct (Z.to_nat (lo + n - c)) as [|r] eqn:Er; [lia|..].
  - cbn [sumn] in *. assert (c = lo) by lia. subst c. specialize (Su r). pose proof (L_half u ltac:(unfold u; lra)). cbn [sumn] in Su. lra.
  - cbn [sumn] in *. assert (c = lo + n)%Z by lia. subst c. specialize (Sv l). pose proof (L_half v ltac:(unfold v; lra)). cbn [sumn] in Sv. lra.
  - specialize (Su r). specialize (Sv l). pose proof (L_two u v ltac:(unfold u; lra) ltac:(unfold v; lra) ltac:(unfold u, v; lra)). lra.
Qed.
Lemma usable_lanczos4 rate lo n x : (1 <= numerator rate)%Z -> (1 <= denominator rate)%Z -> (1 <= n)%Z -> inside rate lo n x ->
  usable_weights reals (weight reals L rate x) lo n.
Proof.
  intros N D Hn I. apply usable_sum. unfold weight. rewrite quotient_real. cbn [f_mul f_sub f_int reals].
  apply lanczos4_sum; [apply scale_real; auto|exact Hn|apply inside_real; exact I].
Qed.
