(** Proofs about how far weights in floats are from exact ones. *)
From Coq Require Import ZArith QArith Qabs Qround Qpower List Bool Lia Lqa.
From Verif Require Import RoundingProps RoundingCases Tac Base Interval Shape Memory Ref Spec SpecMem SpecEin Rational SpecRational Resample SpecResample
  ResampleExact Rounding SpecRounding RoundingFacts ResRounding SpecResRounding ResRoundingFacts ResRoundingProps ResRoundingExact Float SpecFloat FloatFacts FloatProps FloatNear FloatUse.
Import ListNotations.
Local Open Scope Q_scope.

(** ** Slopes of exact kernels *)
Definition slope (L : Q) (F : Q -> Q) (a b : Q) : Prop := - (L * (b - a)) <= F b - F a <= L * (b - a).
Lemma slope_glue L F c1 c2 : 0 <= c1 -> c1 <= c2 -> (forall a b, 0 <= a -> a <= b -> b <= c1 -> slope L F a b) ->
  (forall a b, c1 <= a -> a <= b -> b <= c2 -> slope L F a b) -> (forall a b, c2 <= a -> a <= b -> slope L F a b) ->
  forall a b, 0 <= a -> a <= b -> slope L F a b.
Proof.
  intros C1 C2 P1 P2 P3 a b A B.
  assert (T : forall x y z, slope L F x y -> slope L F y z -> slope L F x z) by (unfold slope; intros; lra).
  destruct (Qlt_le_dec b c1); [apply P1; lra|]. destruct (Qlt_le_dec a c1) as [A1|A1].
  - apply (T _ c1); [apply P1; lra|]. destruct (Qlt_le_dec b c2); [apply P2; lra|]. apply (T _ c2); [apply P2; lra|apply P3; lra].
  - destruct (Qlt_le_dec a c2) as [A2|A2]; [|apply P3; lra]. destruct (Qlt_le_dec b c2); [apply P2; lra|]. apply (T _ c2); [apply P2; lra|apply P3; lra].
Qed.
Lemma slope_by L F a b q : a <= b -> F b - F a == (b - a) * q -> - L <= q <= L -> slope L F a b.
Proof.
  intros H E Q0. unfold slope. rewrite E. assert (0 <= (b - a) * (L - q)) by (apply Qmult_le_0_compat; lra). assert (0 <= (b - a) * (L + q)) by (apply Qmult_le_0_compat; lra). lra.
Qed.
Lemma steep_abs L F k : 0 <= L -> (forall s, k s == F (f_abs exact s)) -> (forall a b, 0 <= a -> a <= b -> slope L F a b) -> steep L k.
Proof.
  intros L0 E P s t. rewrite !E. pose proof (abs_nonneg s) as S0. pose proof (abs_nonneg t) as T0.
  assert (D : Qabs (f_abs exact s - f_abs exact t) <= Qabs (s - t)) by (rewrite !abs_exact; apply Qabs_Qle_condition; pose proof (Qabs_triangle (s - t) t) as A; pose proof (Qabs_triangle (t - s) s) as B;
    setoid_replace (s - t + t) with s in A by ring; setoid_replace (t - s + s) with t in B by ring; setoid_replace (t - s) with (- (s - t)) in B by ring; rewrite Qabs_opp in B; lra).
  set (a := f_abs exact s) in *. set (b := f_abs exact t) in *. clearbody a b. apply Qle_trans with (L * Qabs (a - b)); [|rewrite !(Qmult_comm L); apply Qmult_le_compat_r; auto].
  destruct (Qlt_le_dec a b).
  - rewrite (Qabs_neg (a - b)) by lra. destruct (P a b ltac:(lra) ltac:(lra)). apply abs_le. lra.
  - rewrite (Qabs_pos (a - b)) by lra. destruct (P b a ltac:(lra) ltac:(lra)). apply abs_le. lra.
Qed.
Lemma quad_pieces r a : (a <= 1 # 2 -> quad r a == - (2) * r * (a * a) + (1 # 2) * (r + 1)) /\
  (1 # 2 <= a -> a <= 3 # 2 -> quad r a == r * (a * a) + (- (2) * r - (1 # 2)) * a + (3 # 4) * (r + 1)) /\ (3 # 2 <= a -> quad r a == 0).
Proof.
  unfold quad. tests; repeat split; intros; try lra; try reflexivity.
  all: first [assert (E : a == 1 # 2) by lra; rewrite E; ring|assert (E : a == 3 # 2) by lra; rewrite E; ring].
Qed.
Lemma cubic_pieces B C a : (a <= 1 -> cubic B C a == (2 - B * (3 # 2) - C) * (a * a * a) + (- (3) + 2 * B + C) * (a * a) + (1 - B / 3)) /\
  (1 <= a -> a <= 2 -> cubic B C a == (- B / 6 - C) * (a * a * a) + (B + 5 * C) * (a * a) + (- (2) * B - 8 * C) * a + (B * 4 / 3 + 4 * C)) /\ (2 <= a -> cubic B C a == 0).
Proof.
  unfold cubic. tests; repeat split; intros; try lra; try reflexivity.
  all: first [assert (E : a == 1) by lra; rewrite E; field|assert (E : a == 2) by lra; rewrite E; field].
Qed.
Lemma linear_steep : steep 1 (linear exact).
Proof.
  apply (steep_abs 1 (fun a => if Qlt_le_dec a 1 then 1 - a else 0)); [lra| |].
  - intros s. rewrite exact_linear. pose proof (abs_exact s). destruct (Qlt_le_dec (Qabs s) 1), (Qlt_le_dec (f_abs exact s) 1); lra.
  - intros a b A B. unfold slope. destruct (Qlt_le_dec a 1), (Qlt_le_dec b 1); lra.
Qed.
Lemma quad_steep r L : 0 <= r -> 2 * r <= L -> 1 <= L -> r <= 1 -> steep L (fun s => quadratic_family exact s r).
Proof.
  intros R0 R1 L1 R2. apply (steep_abs L (quad r)); [lra|intros s; apply quad_val|]. apply (slope_glue _ _ (1 # 2) (3 # 2)); [lra..| | |]; intros a b A Ab; try intros B.
  - apply (slope_by _ _ _ _ (- (2) * r * (a + b))); [lra| |].
    + rewrite (proj1 (quad_pieces r a)), (proj1 (quad_pieces r b)) by lra. ring.
    + assert (0 <= r * (a + b)) by (apply Qmult_le_0_compat; lra). assert (0 <= r * (1 - (a + b))) by (apply Qmult_le_0_compat; lra). lra.
  - apply (slope_by _ _ _ _ (r * (a + b) + (- (2) * r - (1 # 2)))); [lra| |].
    + rewrite (proj1 (proj2 (quad_pieces r a))), (proj1 (proj2 (quad_pieces r b))) by lra. ring.
    + assert (0 <= r * (a + b - 1)) by (apply Qmult_le_0_compat; lra). assert (0 <= r * (3 - (a + b))) by (apply Qmult_le_0_compat; lra). lra.
  - apply (slope_by _ _ _ _ 0); [lra| |lra]. rewrite (proj2 (proj2 (quad_pieces r a))), (proj2 (proj2 (quad_pieces r b))) by lra. ring.
Qed.
Lemma square_nonneg (q : Q) : 0 <= q * q.
Proof. destruct (Qlt_le_dec q 0); [setoid_replace (q * q) with ((- q) * (- q)) by ring|]; apply Qmult_le_0_compat; lra. Qed.
Lemma cubic_bspline_steep : steep (2 # 3) (cubic_bspline exact).
Proof.
  apply (steep_abs _ (cubic 1 0)); [lra|intros s; apply cubic_val|]. apply (slope_glue _ _ 1 2); [lra..| | |]; intros a b A Ab; try intros B.
  - apply (slope_by _ _ _ _ ((1 # 2) * (a * a + a * b + b * b) - (a + b))); [lra| |].
    + rewrite (proj1 (cubic_pieces 1 0 a)), (proj1 (cubic_pieces 1 0 b)) by lra. field.
    + pose proof (square_nonneg (a - b)). pose proof (square_nonneg (a + b - (4 # 3))). assert (0 <= a * (1 - a)) by (apply Qmult_le_0_compat; lra). assert (0 <= b * (1 - b)) by (apply Qmult_le_0_compat; lra).
      lra.
  - apply (slope_by _ _ _ _ (- (1 # 6) * ((2 - a) * (2 - a) + (2 - a) * (2 - b) + (2 - b) * (2 - b)))); [lra| |].
    + rewrite (proj1 (proj2 (cubic_pieces 1 0 a))), (proj1 (proj2 (cubic_pieces 1 0 b))) by lra. field.
    + set (c := 2 - a). set (d := 2 - b). assert (0 <= c <= 1) by (unfold c; lra). assert (0 <= d <= 1) by (unfold d; lra). assert (0 <= c * c) by (apply Qmult_le_0_compat; lra). assert (0 <= c * d) by (apply Qmult_le_0_compat; lra).
      assert (0 <= d * d) by (apply Qmult_le_0_compat; lra). assert (0 <= c * (1 - c)) by (apply Qmult_le_0_compat; lra). assert (0 <= c * (1 - d)) by (apply Qmult_le_0_compat; lra). assert (0 <= d * (1 - d)) by (apply Qmult_le_0_compat; lra). lra.
  - apply (slope_by _ _ _ _ 0); [lra| |lra]. rewrite (proj2 (proj2 (cubic_pieces 1 0 a))), (proj2 (proj2 (cubic_pieces 1 0 b))) by lra. ring.
Qed.
Lemma interpolating_cubic_steep : steep (25 # 18) (interpolating_cubic exact).
Proof.
  assert (E0 : lit exact 1 2 == 1 # 2) by reflexivity. apply (steep_abs _ (cubic 0 (lit exact 1 2))); [lra|intros s; apply cubic_val|]. set (C := lit exact 1 2) in *. clearbody C.
  apply (slope_glue _ _ 1 2); [lra..| | |]; intros a b A Ab; try intros B.
  - apply (slope_by _ _ _ _ ((3 # 2) * (a * a + a * b + b * b) - (5 # 2) * (a + b))); [lra| |].
    + rewrite (proj1 (cubic_pieces 0 C a)), (proj1 (cubic_pieces 0 C b)) by lra. rewrite E0. field.
    + pose proof (square_nonneg (a - b)). pose proof (square_nonneg (a + b - (10 # 9))). assert (0 <= a * (1 - a)) by (apply Qmult_le_0_compat; lra). assert (0 <= b * (1 - b)) by (apply Qmult_le_0_compat; lra).
      lra.
  - set (c := 2 - a). set (d := 2 - b). apply (slope_by _ _ _ _ ((1 # 2) * (c + d) - (1 # 2) * (c * c + c * d + d * d))); [lra| |].
    + rewrite (proj1 (proj2 (cubic_pieces 0 C a))), (proj1 (proj2 (cubic_pieces 0 C b))) by lra. rewrite E0. unfold c, d. field.
    + assert (0 <= c <= 1) by (unfold c; lra). assert (0 <= d <= 1) by (unfold d; lra). assert (0 <= c * c) by (apply Qmult_le_0_compat; lra). assert (0 <= c * d) by (apply Qmult_le_0_compat; lra).
      assert (0 <= d * d) by (apply Qmult_le_0_compat; lra). assert (0 <= c * (1 - c)) by (apply Qmult_le_0_compat; lra). assert (0 <= c * (1 - d)) by (apply Qmult_le_0_compat; lra). assert (0 <= d * (1 - d)) by (apply Qmult_le_0_compat; lra). lra.
  - apply (slope_by _ _ _ _ 0); [lra| |lra]. rewrite (proj2 (proj2 (cubic_pieces 0 C a))), (proj2 (proj2 (cubic_pieces 0 C b))) by lra. ring.
Qed.
Lemma kernels_steep : steep 1 (linear exact) /\ steep 2 (interpolating_quadratic exact) /\ steep 1 (quadratic_bspline exact) /\
  steep (25 # 18) (interpolating_cubic exact) /\ steep (2 # 3) (cubic_bspline exact).
Proof.
  assert (E0 : lit exact 1 2 == 1 # 2) by reflexivity.
  split; [exact linear_steep|]. split; [apply (quad_steep (f1 exact)); cbn [f1 exact]; lra|]. split; [apply (quad_steep (lit exact 1 2)); lra|]. split; [exact interpolating_cubic_steep|exact cubic_bspline_steep].
Qed.

(** ** Weights *)
Lemma weights_near kernel kernel0 d L rate x lo n i : near_kernels kernel kernel0 d -> 0 <= L -> steep L kernel0 ->
  (1 <= numerator rate)%Z -> (1 <= denominator rate)%Z -> (1 <= n)%Z -> SpecResample.inside rate lo n x -> (lo <= i < lo + n)%Z ->
  Qabs (weight float32 kernel rate x i - weight exact kernel0 rate x i) <=
    d + L * (7 # 16777216) * (inject_Z (Z.abs lo + n) + Qabs (inject_Z i - position (val rate) x)).
Proof.
  intros K L0 S N1 D1 Hn Hin Hi. assert (R : rounds (1 # 16777216) 0 (nearest 24)) by exact (nearest_rounds 24).
  pose proof (argument_near (1 # 16777216) (nearest 24) R ltac:(lra) rate x lo n N1 D1 Hn Hin i Hi) as A. cbv zeta in A. set (p := position (val rate) x) in *.
  pose proof (proj1 (scale_exact (1 # 16777216) (nearest 24) R ltac:(lra) rate N1 D1)) as Sb.
  assert (E : weight exact kernel0 rate x i = kernel0 ((inject_Z i - inject_Z (Qnum p) / inject_Z (QDen p)) * at_most_1 exact (quotient exact (numerator rate) (denominator rate)))) by reflexivity. rewrite E.
  set (s := at_most_1 exact _) in *. clearbody s. clear E.
  assert (Ep : inject_Z (Qnum p) / inject_Z (QDen p) == p) by (destruct p as [c b]; cbn [Qnum Qden]; rewrite (Qmake_Qdiv c b); reflexivity).
  unfold weight. cbn [float32 rounded f_mul f_sub f_int]. unfold rmul. fold p. set (g := nearest 24 _) in A |- * at 1. assert (Fg : float_number 24 g) by (apply nearest_number; lia).
  specialize (K g Fg). set (e := (inject_Z i - inject_Z (Qnum p) / inject_Z (QDen p)) * s). assert (Ee : e == (inject_Z i - p) * s) by (unfold e; rewrite Ep; reflexivity).
  rewrite <- Ee in A at 1. clearbody e. specialize (S g e). rewrite Qabs_Qmult, (Qabs_pos s) in A by lra. set (T := Qabs (inject_Z i - p)) in *. assert (T0 : 0 <= T) by apply Qabs_nonneg. clearbody T.
  set (B := inject_Z (Z.abs lo + n)) in *. assert (B0 : 0 <= B) by (change 0 with (inject_Z 0); unfold B; rewrite <- Zle_Qle; lia). clearbody B.
  assert (0 <= (B + T) * (1 - s)) by (apply Qmult_le_0_compat; lra). assert (A' : Qabs (g - e) <= (7 # 16777216) * (B + T)) by lra.
  assert (0 <= L * ((7 # 16777216) * (B + T) - Qabs (g - e))) by (apply Qmult_le_0_compat; lra).
  pose proof (Qabs_triangle (kernel g - kernel0 g) (kernel0 g - kernel0 e)) as Tr. setoid_replace (kernel g - kernel0 g + (kernel0 g - kernel0 e)) with (kernel g - kernel0 e) in Tr by ring. lra.
Qed.
