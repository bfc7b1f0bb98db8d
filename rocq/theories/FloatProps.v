(** Proofs about rounding to nearest, against its specification, and about the kernels of resample.h in floats. *)
From Coq Require Import ZArith QArith Qabs Qround Qpower List Bool Lia Lqa.
From Verif Require Import RoundingProps RoundingCases Tac Base Interval Shape Memory Ref Spec SpecMem SpecEin Rational SpecRational Resample SpecResample
  ResampleExact Rounding SpecRounding RoundingFacts ResRounding SpecResRounding ResRoundingFacts ResRoundingProps ResRoundingExact Float SpecFloat FloatFacts.
Import ListNotations.
Local Open Scope Q_scope.

(** ** Nearest *)
Lemma half_even_nearest y k : Qabs (inject_Z (half_even y) - y) <= Qabs (inject_Z k - y).
Proof.
  pose proof (half_even_near y) as N. destruct (Z.eq_dec k (half_even y)) as [->|D]; [apply Qle_refl|]. set (r := half_even y) in *. clearbody r.
  apply abs_le in N. assert (C : (k + 1 <= r \/ r + 1 <= k)%Z) by lia. destruct C as [C|C]; rewrite Zle_Qle, inject_Z_plus in C; change (inject_Z 1) with 1 in C.
  - rewrite (Qabs_neg (inject_Z k - y)) by lra. apply abs_le. lra.
  - rewrite (Qabs_pos (inject_Z k - y)) by lra. apply abs_le. lra.
Qed.
Lemma grid_nearest p x k : ~ x == 0 -> Qabs (nearest p x - x) <= Qabs (inject_Z k * 2 ^ (- (p - 1 - exponent x)) - x).
Proof.
  intros Hx. rewrite nearest_not by auto. set (s := (p - 1 - exponent x)%Z). pose proof (two_pow_pos (- s)) as Ps. pose proof (two_pow_opp s) as Es.
  assert (E : forall z, Qabs (inject_Z z * 2 ^ (- s) - x) == Qabs (inject_Z z - x * 2 ^ s) * 2 ^ (- s)).
  { intros z. rewrite <- (Qabs_pos (2 ^ (- s))) at 2 by lra. rewrite <- Qabs_Qmult.
    setoid_replace ((inject_Z z - x * 2 ^ s) * 2 ^ (- s)) with (inject_Z z * 2 ^ (- s) - x * (2 ^ s * 2 ^ (- s))) by ring. rewrite Es, Qmult_1_r. reflexivity. }
  rewrite !E. apply Qmult_le_compat_r; [apply half_even_nearest|lra].
Qed.
Section Nearest.
Variable p : Z.
Hypothesis Hp : (1 <= p)%Z.
Lemma nearest_number x : float_number p (nearest p x).
Proof.
  destruct (Qeq_dec x 0) as [E|Hx]; [rewrite nearest_zero by auto; exists 0%Z, 0%Z; split; [cbn; lia|reflexivity]|].
  rewrite nearest_not by auto. set (s := (p - 1 - exponent x)%Z). exists (half_even (x * 2 ^ s)), (- s)%Z. split; [|reflexivity].
  destruct (exponent_spec x Hx) as [_ U]. pose proof (two_pow_pos s) as Ps.
  assert (B : Qabs (x * 2 ^ s) <= inject_Z (2 ^ p)).
  { rewrite <- two_pow_Z, Qabs_Qmult, (Qabs_pos (2 ^ s)) by (lia || lra). apply Qle_trans with (2 ^ (exponent x + 1) * 2 ^ s); [apply Qmult_le_compat_r; lra|].
    rewrite <- Qpower_plus by discriminate. unfold s. replace (exponent x + 1 + (p - 1 - exponent x))%Z with p by lia. apply Qle_refl. }
  apply abs_le in B. destruct B as [B1 B2]. apply half_even_le in B2. rewrite <- inject_Z_opp in B1. apply half_even_ge in B1. lia.
Qed.
Lemma nearest_nearest x : nearest_to p x (nearest p x).
Proof.
  split; [apply nearest_number|]. intros y (k & e & Hk & Ey). destruct (Qeq_dec x 0) as [E|Hx].
  { rewrite nearest_zero by auto. setoid_replace (0 - x) with 0 by (rewrite E; ring). apply Qabs_nonneg. }
  set (s := (p - 1 - exponent x)%Z). destruct (exponent_spec x Hx) as [L _]. destruct (Z_le_gt_dec (- s) e) as [G|G].
  - assert (Ey' : y == inject_Z (k * 2 ^ (e + s)) * 2 ^ (- s)).
    { rewrite Ey, inject_Z_mult, <- two_pow_Z, <- Qmult_assoc, <- Qpower_plus by (lia || discriminate). replace (e + s + - s)%Z with e by lia. reflexivity. }
    rewrite Ey'. apply grid_nearest. exact Hx.
  - (* finer than the grid at x: the number is not above the power of 2 at or below x *)
    assert (By : Qabs y <= 2 ^ exponent x).
    { rewrite Ey, Qabs_Qmult, (Qabs_pos (2 ^ e)) by (pose proof (two_pow_pos e); lra). change (Qabs (inject_Z k)) with (inject_Z (Z.abs k)).
      apply Qle_trans with (2 ^ p * 2 ^ e); [apply Qmult_le_compat_r; [rewrite two_pow_Z, <- Zle_Qle by lia; exact Hk|pose proof (two_pow_pos e); lra]|].
      rewrite <- Qpower_plus by discriminate. apply two_pow_mono. unfold s in G. lia. }
    assert (E2 : inject_Z (2 ^ (p - 1)) * 2 ^ (- s) == 2 ^ exponent x). { rewrite <- two_pow_Z, <- Qpower_plus by (lia || discriminate). unfold s. replace (p - 1 + - (p - 1 - exponent x))%Z with (exponent x) by lia. reflexivity. }
    pose proof (grid_nearest p x (2 ^ (p - 1)) Hx) as N1. pose proof (grid_nearest p x (- 2 ^ (p - 1)) Hx) as N2. fold s in N1, N2.
    rewrite inject_Z_opp in N2. setoid_replace (- inject_Z (2 ^ (p - 1)) * 2 ^ (- s)) with (- (inject_Z (2 ^ (p - 1)) * 2 ^ (- s))) in N2 by ring. rewrite E2 in N1, N2.
    set (t := 2 ^ exponent x) in *. set (n := Qabs (nearest p x - x)) in *. clearbody n t. clear E2. apply abs_le in By.
    destruct (Qlt_le_dec x 0) as [Sg|Sg].
    + rewrite (Qabs_neg x) in L by lra. apply Qle_trans with (1 := N2). rewrite !Qabs_pos by lra. lra.
    + rewrite (Qabs_pos x) in L by lra. apply Qle_trans with (1 := N1). rewrite !Qabs_neg by lra. lra.
Qed.
Lemma number_exact x : float_number p x -> nearest p x == x.
Proof.
  intros H. destruct (nearest_nearest x) as [_ N]. specialize (N x H). assert (E : Qabs (x - x) == 0) by (setoid_replace (x - x) with 0 by ring; reflexivity). rewrite E in N. apply abs_le in N. lra.
Qed.
Lemma nearest_mono x y : x <= y -> nearest p x <= nearest p y.
Proof.
  intros H. destruct (Qlt_le_dec (nearest p y) (nearest p x)) as [G|G]; [|exact G]. exfalso.
  destruct (nearest_nearest x) as [Fx Nx], (nearest_nearest y) as [Fy Ny]. specialize (Nx _ Fy). specialize (Ny _ Fx).
  assert (E : x == y).
  { set (a := nearest p x) in *. set (b := nearest p y) in *. clearbody a b.
    assert (M1 : a + b <= 2 * x). { destruct (Qlt_le_dec x b) as [C|C]; [rewrite !Qabs_pos in Nx by lra; lra|]. rewrite (Qabs_neg (b - x)) in Nx by lra. apply abs_le in Nx. lra. }
    assert (M2 : 2 * y <= a + b). { destruct (Qlt_le_dec a y) as [C|C]; [rewrite !Qabs_neg in Ny by lra; lra|]. rewrite (Qabs_pos (a - y)) in Ny by lra. apply abs_le in Ny. lra. }
    lra. }
  rewrite (nearest_comp p x y E) in G. lra.
Qed.
(** Of two numbers as near, the one with an even last digit is chosen *)
Lemma half_even_tie y k : ~ inject_Z k == inject_Z (half_even y) -> Qabs (inject_Z k - y) == Qabs (inject_Z (half_even y) - y) -> Z.even (half_even y) = true.
Proof.
  intros D E. pose proof (half_even_near y) as N. assert (D' : k <> half_even y) by (intros ->; apply D; reflexivity).
  assert (H : Qabs (inject_Z (half_even y) - y) == 1 # 2).
  { set (r := half_even y) in *. clearbody r. apply abs_le in N as N'. assert (C : (k + 1 <= r \/ r + 1 <= k)%Z) by lia. destruct C as [C|C]; rewrite Zle_Qle, inject_Z_plus in C; change (inject_Z 1) with 1 in C.
    - rewrite (Qabs_neg (inject_Z k - y)) in E by lra. apply Qle_antisym; [exact N|]. lra.
    - rewrite (Qabs_pos (inject_Z k - y)) in E by lra. apply Qle_antisym; [exact N|]. lra. }
  unfold half_even in *. pose proof (Qfloor_le y) as F1. pose proof (Qlt_floor y) as F2. rewrite inject_Z_plus in F2. change (inject_Z 1) with 1 in F2. set (j := Qfloor y) in *.
  destruct (Qcompare (y - inject_Z j) (1 # 2)) eqn:C.
  - destruct (Z.even j) eqn:Ev; [exact Ev|]. rewrite Z.even_add, Ev. reflexivity.
  - apply Qlt_alt in C. rewrite Qabs_neg in H by lra. lra.
  - apply Qgt_alt in C. rewrite inject_Z_plus in H. change (inject_Z 1) with 1 in H. rewrite Qabs_pos in H by lra. lra.
Qed.
Lemma nearest_even x r : nearest_to p x r -> ~ r == nearest p x -> even_number p (nearest p x).
Proof.
  intros [Fr Nr] D. destruct (nearest_nearest x) as [Fn Nn]. assert (E : Qabs (r - x) == Qabs (nearest p x - x)) by (apply Qle_antisym; [apply Nr; exact Fn|apply Nn; exact Fr]).
  destruct (Qeq_dec x 0) as [E0|Hx].
  { exfalso. apply D. rewrite (nearest_zero p x E0) in *. rewrite E0 in E. assert (E' : Qabs (r - 0) <= 0) by (rewrite E; discriminate). apply abs_le in E'. lra. }
  destruct Fr as (k & e & Hk & Er). set (s := (p - 1 - exponent x)%Z). pose proof (two_pow_pos (- s)) as Ps. pose proof (two_pow_pos s) as Ps'. pose proof (two_pow_opp s) as Es.
  assert (Ee : forall h : Z, Z.even h = true -> (Z.abs h <= 2 ^ p)%Z -> nearest p x == inject_Z h * 2 ^ (- s) -> even_number p (nearest p x)).
  { intros h Ev Hh En. apply Z.even_spec in Ev. destruct Ev as [q Eq]. exists q, (1 + - s)%Z. split.
    - assert (P2 : (2 ^ p = 2 * 2 ^ (p - 1))%Z) by (rewrite <- Z.pow_succ_r by lia; f_equal; lia). lia.
    - rewrite En, Eq, Qpower_plus, inject_Z_mult by discriminate. change (2 ^ 1) with (inject_Z 2). ring. }
  pose proof (nearest_not p x Hx) as En. fold s in En.
  assert (Hh : (Z.abs (half_even (x * 2 ^ s)) <= 2 ^ p)%Z).
  { destruct (exponent_spec x Hx) as [_ U]. assert (B : Qabs (x * 2 ^ s) <= inject_Z (2 ^ p)).
    { rewrite <- two_pow_Z, Qabs_Qmult, (Qabs_pos (2 ^ s)) by (lia || lra). apply Qle_trans with (2 ^ (exponent x + 1) * 2 ^ s); [apply Qmult_le_compat_r; lra|].
      rewrite <- Qpower_plus by discriminate. unfold s. replace (exponent x + 1 + (p - 1 - exponent x))%Z with p by lia. apply Qle_refl. }
    apply abs_le in B. destruct B as [B1 B2]. apply half_even_le in B2. rewrite <- inject_Z_opp in B1. apply half_even_ge in B1. lia. }
  destruct (exponent_spec x Hx) as [L _]. destruct (Z_le_gt_dec (- s) e) as [G|G].
  - set (k' := (k * 2 ^ (e + s))%Z). assert (Er' : r == inject_Z k' * 2 ^ (- s)).
    { unfold k'. rewrite Er, inject_Z_mult, <- two_pow_Z, <- Qmult_assoc, <- Qpower_plus by (lia || discriminate). replace (e + s + - s)%Z with e by lia. reflexivity. }
    apply (Ee (half_even (x * 2 ^ s))); [|exact Hh|rewrite En; reflexivity]. apply (half_even_tie (x * 2 ^ s) k').
    + intros Eq. apply D. rewrite Er', Eq, En. reflexivity.
    + assert (Sc : forall z, Qabs (inject_Z z * 2 ^ (- s) - x) == Qabs (inject_Z z - x * 2 ^ s) * 2 ^ (- s)).
      { intros z. rewrite <- (Qabs_pos (2 ^ (- s))) at 2 by lra. rewrite <- Qabs_Qmult.
        setoid_replace ((inject_Z z - x * 2 ^ s) * 2 ^ (- s)) with (inject_Z z * 2 ^ (- s) - x * (2 ^ s * 2 ^ (- s))) by ring. rewrite Es, Qmult_1_r. reflexivity. }
      rewrite Er', En, !Sc in E. apply Qmult_inj_r in E; [exact E|lra].
  - (* then the nearest is a power of 2 *)
    assert (By : Qabs r <= 2 ^ exponent x).
    { rewrite Er, Qabs_Qmult, (Qabs_pos (2 ^ e)) by (pose proof (two_pow_pos e); lra). change (Qabs (inject_Z k)) with (inject_Z (Z.abs k)).
      apply Qle_trans with (2 ^ p * 2 ^ e); [apply Qmult_le_compat_r; [rewrite two_pow_Z, <- Zle_Qle by lia; exact Hk|pose proof (two_pow_pos e); lra]|].
      rewrite <- Qpower_plus by discriminate. apply two_pow_mono. unfold s in G. lia. }
    assert (Fp : forall sg : Z, sg = 1%Z \/ sg = (-1)%Z -> float_number p (inject_Z sg * 2 ^ exponent x)).
    { intros sg Hs. exists sg, (exponent x). split; [|reflexivity]. pose proof (Z.pow_pos_nonneg 2 p). lia. }
    pose proof (Nr _ (Fp 1%Z (or_introl eq_refl))) as R1. pose proof (Nr _ (Fp (-1)%Z (or_intror eq_refl))) as R2.
    change (inject_Z 1) with 1 in R1. change (inject_Z (-1)) with (-(1)) in R2.
    assert (Hr : r == 2 ^ exponent x /\ 0 <= x \/ r == - 2 ^ exponent x /\ x < 0).
    { set (t := 2 ^ exponent x) in *. clearbody t. apply abs_le in By. destruct (Qlt_le_dec x 0) as [Sg|Sg].
      - rewrite (Qabs_neg x) in L by lra. rewrite !Qabs_pos in R2 by lra. right. split; [lra|exact Sg].
      - rewrite (Qabs_pos x) in L by lra. rewrite !Qabs_neg in R1 by lra. left. split; [lra|exact Sg]. }
    assert (E2 : inject_Z (2 ^ (p - 1)) * 2 ^ (- s) == 2 ^ exponent x). { rewrite <- two_pow_Z, <- Qpower_plus by (lia || discriminate). unfold s. replace (p - 1 + - (p - 1 - exponent x))%Z with (exponent x) by lia. reflexivity. }
    assert (Er' : exists k', r == inject_Z k' * 2 ^ (- s)).
    { destruct Hr as [[Hr _]|[Hr _]]; [exists (2 ^ (p - 1))%Z; rewrite Hr, E2; reflexivity|exists (- 2 ^ (p - 1))%Z; rewrite Hr, inject_Z_opp, <- E2; ring]. }
    destruct Er' as [k' Er']. apply (Ee (half_even (x * 2 ^ s))); [|exact Hh|rewrite En; reflexivity]. apply (half_even_tie (x * 2 ^ s) k').
    + intros Eq. apply D. rewrite Er', Eq, En. reflexivity.
    + assert (Sc : forall z, Qabs (inject_Z z * 2 ^ (- s) - x) == Qabs (inject_Z z - x * 2 ^ s) * 2 ^ (- s)).
      { intros z. rewrite <- (Qabs_pos (2 ^ (- s))) at 2 by lra. rewrite <- Qabs_Qmult.
        setoid_replace ((inject_Z z - x * 2 ^ s) * 2 ^ (- s)) with (inject_Z z * 2 ^ (- s) - x * (2 ^ s * 2 ^ (- s))) by ring. rewrite Es, Qmult_1_r. reflexivity. }
      rewrite Er', En, !Sc in E. apply Qmult_inj_r in E; [exact E|lra].
Qed.
End Nearest.

(** ** Kernels *)
Lemma lt_comp a b a' b' : a == a' -> b == b' -> f_lt float32 a b = f_lt float32 a' b'.
Proof. intros Ea Eb. cbn [float32 rounded f_lt]. f_equal. rewrite Ea, Eb. reflexivity. Qed.
Lemma abs_comp s t : s == t -> f_abs float32 s == f_abs float32 t.
Proof.
  intros E. unfold f_abs. rewrite (lt_comp s (f0 float32) t (f0 float32) E (Qeq_refl _)). destruct (f_lt _ _ _); [|exact E].
  cbn [float32 rounded f_sub f0]. rewrite (nearest_comp 24 (0 - s) (0 - t)); [reflexivity|rewrite E; reflexivity].
Qed.
Lemma mul_comp a b a' b' : a == a' -> b == b' -> f_mul float32 a b = f_mul float32 a' b'.
Proof. intros Ea Eb. cbn [float32 rounded f_mul]. unfold rmul. apply nearest_comp. rewrite Ea, Eb. reflexivity. Qed.
Lemma sub_comp a b a' b' : a == a' -> b == b' -> f_sub float32 a b = f_sub float32 a' b'.
Proof. intros Ea Eb. cbn [float32 rounded f_sub]. apply nearest_comp. rewrite Ea, Eb. reflexivity. Qed.
Lemma box_comp s t : s == t -> box_kernel float32 s = box_kernel float32 t.
Proof. intros E. unfold box_kernel, f_le. rewrite (lt_comp _ (f_abs float32 s) _ (f_abs float32 t) (Qeq_refl _) (abs_comp s t E)). reflexivity. Qed.
Lemma linear_comp s t : s == t -> linear float32 s = linear float32 t.
Proof. intros E. unfold linear. rewrite (sub_comp _ (f_abs float32 s) _ (f_abs float32 t) (Qeq_refl _) (abs_comp s t E)). reflexivity. Qed.
Lemma quadratic_comp r s t : s == t -> quadratic_family float32 s r = quadratic_family float32 t r.
Proof.
  intros E. unfold quadratic_family. pose proof (abs_comp s t E) as A. set (a := f_abs float32 s) in *. set (b := f_abs float32 t) in *. clearbody a b. cbv zeta.
  rewrite !(lt_comp a _ b _ A (Qeq_refl _)), (mul_comp a a b b A A). rewrite (mul_comp _ a _ b (Qeq_refl _) A). reflexivity.
Qed.
Lemma cubic_comp B C s t : s == t -> cubic_family float32 s B C = cubic_family float32 t B C.
Proof.
  intros E. unfold cubic_family, f_le. pose proof (abs_comp s t E) as A. set (a := f_abs float32 s) in *. set (b := f_abs float32 t) in *. clearbody a b. cbv zeta.
  rewrite !(lt_comp _ a _ b (Qeq_refl _) A), (mul_comp a a b b A A). rewrite !(mul_comp _ a _ b (Qeq_refl _) A). reflexivity.
Qed.
Lemma far_abs s z : s == inject_Z z -> (3 <= Z.abs z)%Z -> 5 # 2 < f_abs float32 s.
Proof.
  intros E H. unfold f_abs. cbn [float32 rounded f_lt f0 f_sub]. rewrite Zle_Qle in H. change (inject_Z 3) with 3 in H. change (inject_Z (Z.abs z)) with (Qabs (inject_Z z)) in H. rewrite <- E in H.
  destruct (Qle_bool 0 s) eqn:C; cbn [negb].
  - apply Qle_bool_iff in C. rewrite Qabs_pos in H by exact C. lra.
  - assert (C' : s < 0) by (apply Qnot_le_lt; intros G; apply Qle_bool_iff in G; congruence). destruct (nearest_rounds 24) as (_ & _ & R). specialize (R (0 - s)).
    change (2 ^ (- (24))) with (1 # 16777216) in R. rewrite (Qabs_pos (0 - s)) in R by lra. apply abs_le in R. rewrite Qabs_neg in H by lra. lra.
Qed.
Lemma far_kernels s z : s == inject_Z z -> (3 <= Z.abs z)%Z ->
  box_kernel float32 s = 0 /\ linear float32 s = 0 /\ interpolating_quadratic float32 s = 0 /\ interpolating_cubic float32 s = 0.
Proof.
  intros E H. pose proof (far_abs s z E H) as A. unfold box_kernel, linear, interpolating_quadratic, interpolating_cubic, quadratic_family, cubic_family, f_le, f_max. set (a := f_abs float32 s) in *. clearbody a. cbv zeta.
  assert (L : forall c, c <= 5 # 2 -> f_lt float32 c a = true /\ f_lt float32 a c = false).
  { intros c Hc. cbn [float32 rounded f_lt]. split; [apply negb_true_iff|apply negb_false_iff].
    - destruct (Qle_bool a c) eqn:G; [apply Qle_bool_iff in G; lra|reflexivity].
    - apply Qle_bool_iff. lra. }
  assert (C : lit float32 1 2 <= 5 # 2 /\ lit float32 3 2 <= 5 # 2 /\ lit float32 2 1 <= 5 # 2 /\ f1 float32 <= 5 # 2) by (vm_compute; repeat split; discriminate).
  destruct C as (C1 & C2 & C3 & C4). rewrite (proj1 (L _ C1)), (proj2 (L _ C1)), (proj2 (L _ C2)), (proj1 (L _ C3)), (proj1 (L _ C4)).
  repeat split; try reflexivity. assert (N : f_sub float32 (f1 float32) a <= 0). { cbn [float32 rounded f_sub f1]. change 0 with (nearest 24 0). apply nearest_mono; [lia|]. lra. }
  destruct (f_lt float32 (f0 float32) (f_sub float32 (f1 float32) a)) eqn:G; [|reflexivity]. exfalso. cbn [float32 rounded f_lt f0] in G. apply negb_true_iff in G. apply Qle_bool_iff in N. cbn [float32 rounded] in N. congruence.
Qed.
Lemma kernels_interpolating :
  interpolating (box_kernel float32) /\ interpolating (linear float32) /\ interpolating (interpolating_quadratic float32) /\ interpolating (interpolating_cubic float32).
Proof.
  assert (S : forall z, (3 <= Z.abs z \/ z = -2 \/ z = -1 \/ z = 0 \/ z = 1 \/ z = 2)%Z) by lia.
  assert (N : forall z, (3 <= Z.abs z)%Z -> (z =? 0)%Z = false) by (intros; lia).
  split; [|split; [|split]]; intros s z E; destruct (S z) as [H | H];
    try (destruct (far_kernels s z E H) as (K1 & K2 & K3 & K4); rewrite (N z H), ?K1, ?K2, ?K3, ?K4; reflexivity).
  - rewrite (box_comp s (inject_Z z) E). destruct H as [H|[H|[H|[H|H]]]]; subst z; vm_compute; reflexivity.
  - rewrite (linear_comp s (inject_Z z) E). destruct H as [H|[H|[H|[H|H]]]]; subst z; vm_compute; reflexivity.
  - unfold interpolating_quadratic. rewrite (quadratic_comp _ s (inject_Z z) E). destruct H as [H|[H|[H|[H|H]]]]; subst z; vm_compute; reflexivity.
  - unfold interpolating_cubic. rewrite (cubic_comp _ _ s (inject_Z z) E). destruct H as [H|[H|[H|[H|H]]]]; subst z; vm_compute; reflexivity.
Qed.
Lemma float_same : forall (nd : bool) (h : heap Q) (I O : aref) (f : list Z -> Q) (rx ry : rational) (kernel : Q -> Q) (ix iy ic ox oy oc : dim),
  resampling float32 h I O f rx ry kernel ix iy ic ox oy oc ->
  kernel = box_kernel float32 \/ kernel = linear float32 \/ kernel = interpolating_quadratic float32 \/ kernel = interpolating_cubic float32 ->
  numerator rx = 1%Z -> denominator rx = 1%Z -> numerator ry = 1%Z -> denominator ry = 1%Z ->
  (forall x, in_dim ox x -> in_dim ix x) -> (forall y, in_dim oy y -> in_dim iy y) ->
  (Z.abs (dmin ix) + 2 * dext ix <= 16777216)%Z -> (Z.abs (dmin iy) + 2 * dext iy <= 16777216)%Z ->
  (forall i, in_bounds (r_shape I) i -> float_number 24 (f i)) ->
  image_with (resample float32 nd I O rx ry kernel h) O (fun x y c q => q == f [x; y; c]).
Proof.
  intros nd h I O f rx ry kernel ix iy ic ox oy oc R K N1 D1 N2 D2 Sx Sy Bx By Fi. destruct kernels_interpolating as (K1 & K2 & K3 & K4).
  apply (rounded_same 16777216 (nearest 24)) with (ix := ix) (iy := iy) (ic := ic) (ox := ox) (oy := oy) (oc := oc); auto; try lia.
  - apply (nearest_integers 24). lia.
  - destruct K as [K|[K|[K|K]]]; rewrite K; assumption.
  - intros i q Hi E. rewrite (nearest_comp 24 q (f i) E), E. apply number_exact; [lia|auto].
Qed.
