(** Proofs about rounding to nearest. *)
From Coq Require Import ZArith QArith Qabs Qround Qpower List Bool Lia Lqa.
From Verif Require Import RoundingProps RoundingCases Tac Base Interval Shape Memory Ref Spec SpecMem SpecEin Rational SpecRational Resample SpecResample
  ResampleExact Rounding SpecRounding RoundingFacts ResRounding SpecResRounding ResRoundingFacts ResRoundingProps ResRoundingExact Float SpecFloat.
Import ListNotations.
Local Open Scope Q_scope.

Lemma two_pow_mono i j : (i <= j)%Z -> 2 ^ i <= 2 ^ j.
Proof.
  intros H. replace j with (i + (j - i))%Z by lia. rewrite Qpower_plus by discriminate. pose proof (two_pow_pos i) as P.
  assert (1 <= 2 ^ (j - i)). { rewrite two_pow_Z by lia. change 1 with (inject_Z 1). rewrite <- Zle_Qle. pose proof (Z.pow_pos_nonneg 2 (j - i)). lia. }
  assert (0 <= 2 ^ i * (2 ^ (j - i) - 1)) by (apply Qmult_le_0_compat; lra). lra.
Qed.
Lemma two_pow_succ i : 2 ^ (i + 1) == 2 * 2 ^ i.
Proof. rewrite Qpower_plus by discriminate. change (2 ^ 1) with 2. ring. Qed.
Lemma exponent_spec x : ~ x == 0 -> 2 ^ exponent x <= Qabs x /\ Qabs x < 2 ^ (exponent x + 1).
Proof.
  intros Hx. unfold exponent. set (n := Z.abs (Qnum x)). set (d := Zpos (Qden x)).
  assert (Hn : (0 < n)%Z). { assert (Qnum x <> 0)%Z by (intros E; apply Hx; unfold Qeq; cbn; lia). unfold n. lia. }
  set (a := Z.log2 n). set (b := Z.log2 d). pose proof (Z.log2_spec n Hn) as [A1 A2]. pose proof (Z.log2_spec d eq_refl) as [B1 B2]. fold a in A1, A2. fold b in B1, B2.
  pose proof (Z.log2_nonneg n) as Pa. pose proof (Z.log2_nonneg d) as Pb. fold a in Pa. fold b in Pb. rewrite Z.pow_succ_r in A2, B2 by auto.
  assert (EA : Qabs x == inject_Z n / inject_Z d).
  { destruct x as [n0 d0]. unfold n, d. cbn [Qnum Qden]. change (Qabs (n0 # d0)) with (Z.abs n0 # d0). rewrite (Qmake_Qdiv (Z.abs n0) d0). reflexivity. }
  assert (Pd : 0 < inject_Z d) by reflexivity.
  assert (E : forall k, 2 ^ (k + (a - b)) == 2 ^ k * inject_Z (2 ^ a) / inject_Z (2 ^ b)).
  { intros k. assert (Pb3 : 0 < 2 ^ b) by apply two_pow_pos. rewrite <- !two_pow_Z by auto. unfold Z.sub. rewrite !Qpower_plus, Qpower_opp by discriminate. field. lra. }
  assert (Pb2 : 0 < inject_Z (2 ^ b)) by (rewrite <- two_pow_Z by auto; apply two_pow_pos).
  assert (U : Qabs x < 2 ^ (a - b + 1)).
  { replace (a - b + 1)%Z with (1 + (a - b))%Z by lia. rewrite E, EA. change (2 ^ 1) with 2. apply Qlt_shift_div_r; [exact Pd|].
    setoid_replace (2 * inject_Z (2 ^ a) / inject_Z (2 ^ b) * inject_Z d) with (2 * inject_Z (2 ^ a) * inject_Z d / inject_Z (2 ^ b)) by (field; lra).
    apply Qlt_shift_div_l; [exact Pb2|]. change 2 with (inject_Z 2). rewrite <- !inject_Z_mult, <- Zlt_Qlt. nia. }
  assert (L : 2 ^ (a - b - 1) <= Qabs x).
  { replace (a - b - 1)%Z with (-1 + (a - b))%Z by lia. rewrite E, EA. change (2 ^ (-1)) with (1 # 2). apply Qle_shift_div_l; [exact Pd|].
    setoid_replace ((1 # 2) * inject_Z (2 ^ a) / inject_Z (2 ^ b) * inject_Z d) with (inject_Z (2 ^ a) * inject_Z d / (2 * inject_Z (2 ^ b))) by (field; lra).
    apply Qle_shift_div_r; [lra|]. change 2 with (inject_Z 2). rewrite <- !inject_Z_mult, <- Zle_Qle. nia. }
  destruct (Qle_bool (2 ^ (a - b)) (Qabs x)) eqn:C.
  - apply Qle_bool_iff in C. split; assumption.
  - assert (C' : Qabs x < 2 ^ (a - b)) by (apply Qnot_le_lt; intros G; apply Qle_bool_iff in G; congruence). split; [exact L|]. replace (a - b - 1 + 1)%Z with (a - b)%Z by lia. exact C'.
Qed.
Lemma exponent_unique x e : ~ x == 0 -> 2 ^ e <= Qabs x -> Qabs x < 2 ^ (e + 1) -> exponent x = e.
Proof.
  intros Hx H1 H2. destruct (exponent_spec x Hx) as [E1 E2]. destruct (Z.lt_trichotomy (exponent x) e) as [G|[G|G]]; [|exact G|].
  - pose proof (two_pow_mono (exponent x + 1) e ltac:(lia)). lra.
  - pose proof (two_pow_mono (e + 1) (exponent x) ltac:(lia)). lra.
Qed.
Lemma exponent_comp x y : ~ x == 0 -> x == y -> exponent x = exponent y.
Proof.
  intros Hx E. assert (Hy : ~ y == 0) by (rewrite <- E; exact Hx). destruct (exponent_spec y Hy) as [E1 E2]. apply exponent_unique; auto; rewrite E; assumption.
Qed.
Lemma half_even_near y : Qabs (inject_Z (half_even y) - y) <= 1 # 2.
Proof.
  unfold half_even. pose proof (Qfloor_le y) as F1. pose proof (Qlt_floor y) as F2. rewrite inject_Z_plus in F2. change (inject_Z 1) with 1 in F2. set (k := Qfloor y) in *.
  destruct (Qcompare (y - inject_Z k) (1 # 2)) eqn:C.
  - apply Qeq_alt in C. destruct (Z.even k); rewrite ?inject_Z_plus; change (inject_Z 1) with 1; apply abs_le; lra.
  - apply Qlt_alt in C. apply abs_le. lra.
  - apply Qgt_alt in C. rewrite inject_Z_plus. change (inject_Z 1) with 1. apply abs_le. lra.
Qed.
Lemma half_even_comp y z : y == z -> half_even y = half_even z.
Proof. intros E. unfold half_even. rewrite (Qfloor_comp _ _ E), (Qcompare_comp (y - inject_Z (Qfloor z)) (z - inject_Z (Qfloor z)) ltac:(rewrite E; reflexivity) (1 # 2) (1 # 2) (Qeq_refl _)). reflexivity. Qed.
Lemma half_even_Z k : half_even (inject_Z k) = k.
Proof.
  unfold half_even. rewrite Qfloor_Z. rewrite (Qcompare_comp (inject_Z k - inject_Z k) 0 ltac:(ring) (1 # 2) (1 # 2) (Qeq_refl _)). reflexivity.
Qed.
Lemma half_even_le y k : y <= inject_Z k -> (half_even y <= k)%Z.
Proof.
  intros H. pose proof (Qfloor_le y) as F1. assert (L : (Qfloor y <= k)%Z) by (rewrite Zle_Qle; lra).
  destruct (Z.eq_dec (Qfloor y) k) as [E|E].
  - assert (Ey : y == inject_Z k) by (rewrite E in F1; lra). rewrite (half_even_comp _ _ Ey), half_even_Z. lia.
  - unfold half_even. destruct (Qcompare _ _); [destruct (Z.even _)| |]; lia.
Qed.
Lemma half_even_ge y k : inject_Z k <= y -> (k <= half_even y)%Z.
Proof.
  intros H. assert (L : (k <= Qfloor y)%Z) by (rewrite <- (Qfloor_Z k); apply Qfloor_resp_le; exact H). unfold half_even. destruct (Qcompare _ _); [destruct (Z.even _)| |]; lia.
Qed.
Lemma half_even_mono y z : y <= z -> (half_even y <= half_even z)%Z.
Proof.
  intros H. pose proof (Qfloor_resp_le _ _ H) as F. destruct (Z.eq_dec (Qfloor y) (Qfloor z)) as [E|E].
  - unfold half_even. rewrite E. set (k := Qfloor z) in *. destruct (Qcompare (y - inject_Z k) (1 # 2)) eqn:C1, (Qcompare (z - inject_Z k) (1 # 2)) eqn:C2; try lia; try (destruct (Z.even k); lia);
      try (apply Qeq_alt in C1); try (apply Qgt_alt in C1); try (apply Qlt_alt in C2); try (apply Qeq_alt in C2); lra.
  - transitivity (Qfloor y + 1)%Z; [unfold half_even; destruct (Qcompare _ _); [destruct (Z.even _)| |]; lia|]. apply half_even_ge. pose proof (Qfloor_le z). assert (inject_Z (Qfloor y + 1) <= inject_Z (Qfloor z)) by (rewrite <- Zle_Qle; lia). lra.
Qed.

Section Nearest.
Variable p : Z.
Lemma nearest_zero x : x == 0 -> nearest p x = 0.
Proof. intros E. unfold nearest. apply Qeq_bool_iff in E. rewrite E. reflexivity. Qed.
Lemma nearest_not x : ~ x == 0 -> nearest p x = inject_Z (half_even (x * 2 ^ (p - 1 - exponent x))) * 2 ^ (- (p - 1 - exponent x)).
Proof. intros N. unfold nearest. destruct (Qeq_bool x 0) eqn:E; [apply Qeq_bool_iff in E; tauto|reflexivity]. Qed.
Lemma nearest_comp x y : x == y -> nearest p x = nearest p y.
Proof.
  intros E. destruct (Qeq_dec x 0) as [Z0|N]; [rewrite !nearest_zero; [reflexivity|rewrite <- E; exact Z0|exact Z0]|].
  assert (Ny : ~ y == 0) by (rewrite <- E; exact N). rewrite !nearest_not, (exponent_comp x y) by auto. rewrite (half_even_comp _ (y * 2 ^ (p - 1 - exponent y))) by (rewrite E; reflexivity). reflexivity.
Qed.
Lemma nearest_rounds : rounds (2 ^ (- p)) 0 (nearest p).
Proof.
  pose proof (two_pow_pos (- p)) as Pp. split; [lra|]. split; [lra|]. intros x. destruct (Qeq_dec x 0) as [E|Hx].
  { rewrite nearest_zero by auto. assert (0 <= 2 ^ (- p) * Qabs x) by (apply Qmult_le_0_compat; [lra|apply Qabs_nonneg]). apply abs_le. lra. }
  rewrite nearest_not by auto. set (s := (p - 1 - exponent x)%Z). pose proof (two_pow_pos (- s)) as Ps. pose proof (two_pow_opp s) as Es.
  assert (E : inject_Z (half_even (x * 2 ^ s)) * 2 ^ (- s) - x == (inject_Z (half_even (x * 2 ^ s)) - x * 2 ^ s) * 2 ^ (- s)).
  { setoid_replace ((inject_Z (half_even (x * 2 ^ s)) - x * 2 ^ s) * 2 ^ (- s)) with (inject_Z (half_even (x * 2 ^ s)) * 2 ^ (- s) - x * (2 ^ s * 2 ^ (- s))) by ring. rewrite Es. ring. }
  rewrite E, Qabs_Qmult, (Qabs_pos (2 ^ (- s))) by lra. pose proof (half_even_near (x * 2 ^ s)) as F. destruct (exponent_spec x Hx) as [L _].
  assert (E2 : (1 # 2) * 2 ^ (- s) == 2 ^ (- p) * 2 ^ exponent x).
  { unfold s. replace (- (p - 1 - exponent x))%Z with (1 + (- p + exponent x))%Z by lia. rewrite (Qpower_plus 2 1), Qpower_plus by discriminate. change (2 ^ 1) with 2. ring. }
  assert (Qabs (inject_Z (half_even (x * 2 ^ s)) - x * 2 ^ s) * 2 ^ (- s) <= (1 # 2) * 2 ^ (- s)) by (apply Qmult_le_compat_r; [exact F|lra]).
  assert (2 ^ (- p) * 2 ^ exponent x <= 2 ^ (- p) * Qabs x) by (rewrite !(Qmult_comm (2 ^ (- p))); apply Qmult_le_compat_r; [exact L|lra]). lra.
Qed.
(** Numbers of the format are not changed *)
Lemma nearest_exact x k : ~ x == 0 -> x * 2 ^ (p - 1 - exponent x) == inject_Z k -> nearest p x == x.
Proof.
  intros Hx E. rewrite nearest_not by auto. rewrite (half_even_comp _ _ E), half_even_Z, <- E, <- Qmult_assoc, two_pow_opp. ring.
Qed.
Hypothesis Hp : (1 <= p)%Z.
Lemma nearest_integers : keeps_integers (2 ^ p) (nearest p).
Proof.
  intros x z E Hz. destruct (Qeq_dec x 0) as [Z0|Hx]; [rewrite nearest_zero by auto; rewrite Z0; reflexivity|].
  destruct (exponent_spec x Hx) as [L U]. assert (Bx : Qabs x <= 2 ^ p). { rewrite E, two_pow_Z by lia. change (Qabs (inject_Z z)) with (inject_Z (Z.abs z)). rewrite <- Zle_Qle. exact Hz. }
  destruct (Z_lt_ge_dec (p - 1) (exponent x)) as [G|G].
  - (* exactly 2 ^ p *)
    assert (Ep : exponent x = p). { destruct (Z.eq_dec (exponent x) p) as [e|e]; [exact e|]. exfalso. pose proof (two_pow_mono (p + 1) (exponent x) ltac:(lia)) as M. rewrite two_pow_succ in M. pose proof (two_pow_pos p). lra. }
    rewrite Ep in L. assert (Ea : Z.abs z = (2 ^ p)%Z). { assert (inject_Z (2 ^ p) <= inject_Z (Z.abs z)) by (rewrite <- two_pow_Z by lia; rewrite E in L; exact L). rewrite <- Zle_Qle in H. lia. }
    assert (P2 : (2 ^ p = 2 * 2 ^ (p - 1))%Z) by (rewrite <- Z.pow_succ_r by lia; f_equal; lia).
    assert (exists k, z = 2 * k)%Z as (k & K) by (destruct (Z.abs_spec z) as [[_ A]|[_ A]]; [exists (2 ^ (p - 1))%Z|exists (- 2 ^ (p - 1))%Z]; lia).
    apply (nearest_exact x k Hx). rewrite Ep. replace (p - 1 - p)%Z with (-1)%Z by lia. rewrite E, K, inject_Z_mult. change (inject_Z 2) with 2. change (2 ^ (-1)) with (1 # 2). ring.
  - apply (nearest_exact x (z * 2 ^ (p - 1 - exponent x)) Hx). rewrite E at 1. rewrite (two_pow_Z (p - 1 - exponent x)), <- inject_Z_mult by lia. reflexivity.
Qed.
Lemma nearest_half : keeps_half (nearest p).
Proof.
  assert (Ex : forall x, ~ x == 0 -> Qabs x <= 1 # 2 -> (exponent x <= -1)%Z).
  { intros x Hx H. destruct (exponent_spec x Hx) as [L _]. destruct (Z_lt_ge_dec (-1) (exponent x)) as [G|G]; [|lia]. pose proof (two_pow_mono 0 (exponent x) ltac:(lia)) as M. change (2 ^ 0) with 1 in M. lra. }
  split.
  - intros x H. destruct (Qeq_dec x 0) as [E|Hx]; [rewrite nearest_zero by auto; cbn; lra|]. specialize (Ex x Hx H). rewrite nearest_not by auto. set (s := (p - 1 - exponent x)%Z).
    assert (Hs : (1 <= s)%Z) by (unfold s; lia). pose proof (two_pow_pos s) as Ps. pose proof (two_pow_pos (- s)) as Pn. pose proof (two_pow_opp s) as Es.
    assert (Eh : inject_Z (2 ^ (s - 1)) == (1 # 2) * 2 ^ s). { rewrite (two_pow_Z s) by lia. replace s with (1 + (s - 1))%Z at 2 by lia. rewrite Z.pow_add_r, inject_Z_mult by lia. change (inject_Z (2 ^ 1)) with 2. ring. }
    rewrite abs_le in H. assert (0 <= ((1 # 2) - x) * 2 ^ s) by (apply Qmult_le_0_compat; lra). assert (0 <= (x + (1 # 2)) * 2 ^ s) by (apply Qmult_le_0_compat; lra).
    assert (F1 : (half_even (x * 2 ^ s) <= 2 ^ (s - 1))%Z) by (apply half_even_le; lra). assert (F2 : (- 2 ^ (s - 1) <= half_even (x * 2 ^ s))%Z) by (apply half_even_ge; rewrite inject_Z_opp; lra).
    rewrite Zle_Qle in F1, F2. rewrite inject_Z_opp in F2. rewrite Eh in F1, F2. set (k := inject_Z (half_even (x * 2 ^ s))) in *.
    assert (G1 : 0 <= ((1 # 2) * 2 ^ s - k) * 2 ^ (- s)) by (apply Qmult_le_0_compat; lra). assert (G2 : 0 <= (k + (1 # 2) * 2 ^ s) * 2 ^ (- s)) by (apply Qmult_le_0_compat; lra).
    set (v := 2 ^ s * 2 ^ (- s)) in *. assert (E1 : ((1 # 2) * 2 ^ s - k) * 2 ^ (- s) == (1 # 2) * v - k * 2 ^ (- s)) by (unfold v; ring).
    assert (E2 : (k + (1 # 2) * 2 ^ s) * 2 ^ (- s) == (1 # 2) * v + k * 2 ^ (- s)) by (unfold v; ring). rewrite E1 in G1. rewrite E2 in G2. apply abs_le. lra.
  - intros x E. assert (Hx : ~ x == 0) by lra. assert (Ee : exponent x = (-1)%Z) by (apply exponent_unique; [exact Hx| |]; rewrite E; cbn; lra).
    rewrite (nearest_exact x (2 ^ (p - 1))); [exact E|exact Hx|]. rewrite Ee, E. replace (p - 1 - -1)%Z with (1 + (p - 1))%Z by lia. rewrite Qpower_plus by discriminate. rewrite (two_pow_Z (p - 1)) by lia. change (2 ^ 1) with 2. ring.
Qed.
End Nearest.
