(** Proofs of how far the kernels of resample.h in floats are from the exact ones. *)
From Coq Require Import ZArith QArith Qabs Qround Qpower List Bool Lia Lqa.
From Verif Require Import RoundingProps RoundingCases Tac Base Interval Shape Memory Ref Spec SpecMem SpecEin Rational SpecRational Resample SpecResample
  ResampleExact Rounding SpecRounding RoundingFacts ResRounding SpecResRounding ResRoundingFacts ResRoundingProps ResRoundingExact Float SpecFloat FloatFacts FloatProps.
Import ListNotations.
Local Open Scope Q_scope.

Definition approx (x X A e : Q) : Prop := Qabs X <= A /\ Qabs (x - X) <= e.
Lemma approx_pos x X A e : approx x X A e -> 0 <= A /\ 0 <= e.
Proof. intros [H1 H2]. split; eapply Qle_trans; try eassumption; apply Qabs_nonneg. Qed.
Lemma approx_c c C : approx c C (Qabs C) (Qabs (c - C)).
Proof. split; apply Qle_refl. Qed.
Lemma approx_to x X A e d : approx x X A e -> e <= d -> Qabs (x - X) <= d.
Proof. intros [_ H] L. eapply Qle_trans; eassumption. Qed.
Lemma rnd32 z Z B d : Qabs Z <= B -> Qabs (z - Z) <= d -> Qabs (nearest 24 z - Z) <= d + (1 # 16777216) * (B + d).
Proof.
  intros H1 H2. destruct (nearest_rounds 24) as (_ & _ & R). specialize (R z). change (2 ^ (- (24))) with (1 # 16777216) in R.
  assert (N : Qabs z <= B + d) by (apply abs_le in H1, H2; apply abs_le; lra). assert (Qabs z * (1 # 16777216) <= (B + d) * (1 # 16777216)) by (apply Qmult_le_compat_r; [exact N|discriminate]).
  apply abs_le in R, H2. apply abs_le. lra.
Qed.
Lemma approx_add x y X Y A B e f : approx x X A e -> approx y Y B f -> approx (f_add float32 x y) (f_add exact X Y) (A + B) (e + f + (1 # 16777216) * (A + B + (e + f))).
Proof.
  intros [H1 H2] [H3 H4]. cbn [float32 rounded exact f_add]. unfold radd. assert (M : Qabs (X + Y) <= A + B) by (apply abs_le in H1, H3; apply abs_le; lra). split; [exact M|].
  apply rnd32; [exact M|]. apply abs_le in H2, H4. apply abs_le. lra.
Qed.
Lemma approx_sub x y X Y A B e f : approx x X A e -> approx y Y B f -> approx (f_sub float32 x y) (f_sub exact X Y) (A + B) (e + f + (1 # 16777216) * (A + B + (e + f))).
Proof.
  intros [H1 H2] [H3 H4]. cbn [float32 rounded exact f_sub]. assert (M : Qabs (X - Y) <= A + B) by (apply abs_le in H1, H3; apply abs_le; lra). split; [exact M|].
  apply rnd32; [exact M|]. apply abs_le in H2, H4. apply abs_le. lra.
Qed.
Lemma approx_mul x y X Y A B e f : approx x X A e -> approx y Y B f ->
  approx (f_mul float32 x y) (f_mul exact X Y) (A * B) (e * B + f * A + e * f + (1 # 16777216) * (A * B + (e * B + f * A + e * f))).
Proof.
  intros H1 H2. destruct (approx_pos _ _ _ _ H1) as [PA Pe], (approx_pos _ _ _ _ H2) as [PB Pf]. destruct H1 as [H1 H2'], H2 as [H3 H4]. cbn [float32 rounded exact f_mul]. unfold rmul.
  assert (P : forall a b c d, Qabs a <= b -> Qabs c <= d -> 0 <= b -> Qabs (a * c) <= b * d).
  { intros a b c d Ha Hc Hb. rewrite Qabs_Qmult. apply Qle_trans with (b * Qabs c); [apply Qmult_le_compat_r; [exact Ha|apply Qabs_nonneg]|]. rewrite !(Qmult_comm b). apply Qmult_le_compat_r; assumption. }
  assert (M : Qabs (X * Y) <= A * B) by (apply P; assumption). split; [exact M|]. apply rnd32; [exact M|].
  setoid_replace (x * y - X * Y) with ((x - X) * Y + (y - Y) * X + (x - X) * (y - Y)) by ring.
  pose proof (P _ _ _ _ H2' H3 Pe) as Q1. pose proof (P _ _ _ _ H4 H1 Pf) as Q2. pose proof (P _ _ _ _ H2' H4 Pe) as Q3. apply abs_le in Q1, Q2, Q3. apply abs_le. lra.
Qed.
Lemma float_opp p s : float_number p s -> float_number p (0 - s).
Proof. intros (k & e & Hk & E). exists (- k)%Z, e. split; [lia|]. rewrite E, inject_Z_opp. ring. Qed.
Lemma abs32 s : float_number 24 s -> f_abs float32 s == f_abs exact s /\ 0 <= f_abs exact s.
Proof.
  intros H. unfold f_abs. cbn [float32 rounded exact f_lt f_sub f0]. destruct (Qle_bool 0 s) eqn:C; cbn [negb].
  - apply Qle_bool_iff in C. split; [reflexivity|exact C].
  - assert (C' : s < 0) by (apply Qnot_le_lt; intros G; apply Qle_bool_iff in G; congruence). split; [apply number_exact; [lia|apply float_opp; exact H]|lra].
Qed.
Lemma lt32 a b A B : a == A -> b == B -> f_lt float32 a b = f_lt exact A B.
Proof. intros E1 E2. cbn [float32 rounded exact f_lt]. rewrite E1, E2. reflexivity. Qed.
Lemma lit32 n d : In (n, d) [(1, 2); (3, 2); (2, 1)]%Z -> lit float32 n d == lit exact n d.
Proof. intros [E|[E|[E|[]]]]; inversion E; vm_compute; reflexivity. Qed.
Lemma le_exact a b : f_lt exact a b = false -> b <= a.
Proof. cbn [exact f_lt]. intros H. apply negb_false_iff in H. apply Qle_bool_iff. exact H. Qed.
Lemma lt_exact a b : f_lt exact a b = true -> a < b.
Proof. cbn [exact f_lt]. intros H. apply negb_true_iff in H. apply Qnot_le_lt. intros G. apply Qle_bool_iff in G. congruence. Qed.
Lemma approx_self a A M : a == A -> 0 <= A -> A <= M -> approx a A M 0.
Proof. intros E P L. split; [rewrite Qabs_pos by exact P; exact L|]. apply abs_le. lra. Qed.

Ltac far := apply (approx_to _ _ _ _ _ (approx_c _ _)); vm_compute; discriminate.
Lemma cubic_bspline_near : near_kernels (cubic_bspline float32) (cubic_bspline exact) (1 # 262144).
Proof.
  intros s Hs. destruct (abs32 s Hs) as [Ea Pa]. unfold cubic_bspline, cubic_family, f_le. set (a := f_abs float32 s) in *. set (b := f_abs exact s) in *. clearbody a b. cbv zeta.
  rewrite (lt32 (f1 float32) a (f1 exact) b (Qeq_refl _) Ea), (lt32 (lit float32 2 1) a (lit exact 2 1) b (lit32 2 1 ltac:(cbn; tauto)) Ea).
  destruct (f_lt exact (f1 exact) b) eqn:C1; cbn [negb]; [destruct (f_lt exact (lit exact 2 1) b) eqn:C2; cbn [negb]|].
  - far.
  - apply le_exact in C2. assert (S1 : approx a b 2 0) by (apply approx_self; auto). eapply approx_to.
    + apply approx_add; [apply approx_add; [apply approx_add|]|apply approx_c].
      * apply approx_mul; [apply approx_c|]. apply approx_mul; [apply approx_mul; exact S1|exact S1].
      * apply approx_mul; [apply approx_c|]. apply approx_mul; exact S1.
      * apply approx_mul; [apply approx_c|exact S1].
    + vm_compute. discriminate.
  - apply le_exact in C1. assert (S1 : approx a b 1 0) by (apply approx_self; auto). eapply approx_to.
    + apply approx_add; [apply approx_add|apply approx_c].
      * apply approx_mul; [apply approx_c|]. apply approx_mul; [apply approx_mul; exact S1|exact S1].
      * apply approx_mul; [apply approx_c|]. apply approx_mul; exact S1.
    + vm_compute. discriminate.
Qed.
Lemma interpolating_cubic_near : near_kernels (interpolating_cubic float32) (interpolating_cubic exact) (1 # 131072).
Proof.
  intros s Hs. destruct (abs32 s Hs) as [Ea Pa]. unfold interpolating_cubic, cubic_family, f_le. set (a := f_abs float32 s) in *. set (b := f_abs exact s) in *. clearbody a b. cbv zeta.
  rewrite (lt32 (f1 float32) a (f1 exact) b (Qeq_refl _) Ea), (lt32 (lit float32 2 1) a (lit exact 2 1) b (lit32 2 1 ltac:(cbn; tauto)) Ea).
  destruct (f_lt exact (f1 exact) b) eqn:C1; cbn [negb]; [destruct (f_lt exact (lit exact 2 1) b) eqn:C2; cbn [negb]|].
  - far.
  - apply le_exact in C2. assert (S1 : approx a b 2 0) by (apply approx_self; auto). eapply approx_to.
    + apply approx_add; [apply approx_add; [apply approx_add|]|apply approx_c].
      * apply approx_mul; [apply approx_c|]. apply approx_mul; [apply approx_mul; exact S1|exact S1].
      * apply approx_mul; [apply approx_c|]. apply approx_mul; exact S1.
      * apply approx_mul; [apply approx_c|exact S1].
    + vm_compute. discriminate.
  - apply le_exact in C1. assert (S1 : approx a b 1 0) by (apply approx_self; auto). eapply approx_to.
    + apply approx_add; [apply approx_add|apply approx_c].
      * apply approx_mul; [apply approx_c|]. apply approx_mul; [apply approx_mul; exact S1|exact S1].
      * apply approx_mul; [apply approx_c|]. apply approx_mul; exact S1.
    + vm_compute. discriminate.
Qed.
Lemma quadratic_bspline_near : near_kernels (quadratic_bspline float32) (quadratic_bspline exact) (1 # 1048576).
Proof.
  intros s Hs. destruct (abs32 s Hs) as [Ea Pa]. unfold quadratic_bspline, quadratic_family. set (a := f_abs float32 s) in *. set (b := f_abs exact s) in *. clearbody a b. cbv zeta.
  rewrite (lt32 a (lit float32 1 2) b (lit exact 1 2) Ea (lit32 1 2 ltac:(cbn; tauto))), (lt32 a (lit float32 3 2) b (lit exact 3 2) Ea (lit32 3 2 ltac:(cbn; tauto))).
  destruct (f_lt exact b (lit exact 1 2)) eqn:C1; [|destruct (f_lt exact b (lit exact 3 2)) eqn:C2; [|far]].
  - apply lt_exact in C1. assert (S1 : approx a b (1 # 2) 0) by (apply approx_self; auto; apply Qlt_le_weak; exact C1). eapply approx_to.
    + apply approx_add; [|apply approx_c]. apply approx_mul; [apply approx_c|]. apply approx_mul; exact S1.
    + vm_compute. discriminate.
  - apply lt_exact in C2. assert (S1 : approx a b (3 # 2) 0) by (apply approx_self; auto; apply Qlt_le_weak; exact C2). eapply approx_to.
    + apply approx_add; [apply approx_add|apply approx_c].
      * apply approx_mul; [apply approx_c|]. apply approx_mul; exact S1.
      * apply approx_mul; [apply approx_c|exact S1].
    + vm_compute. discriminate.
Qed.
Lemma interpolating_quadratic_near : near_kernels (interpolating_quadratic float32) (interpolating_quadratic exact) (1 # 524288).
Proof.
  intros s Hs. destruct (abs32 s Hs) as [Ea Pa]. unfold interpolating_quadratic, quadratic_family. set (a := f_abs float32 s) in *. set (b := f_abs exact s) in *. clearbody a b. cbv zeta.
  rewrite (lt32 a (lit float32 1 2) b (lit exact 1 2) Ea (lit32 1 2 ltac:(cbn; tauto))), (lt32 a (lit float32 3 2) b (lit exact 3 2) Ea (lit32 3 2 ltac:(cbn; tauto))).
  destruct (f_lt exact b (lit exact 1 2)) eqn:C1; [|destruct (f_lt exact b (lit exact 3 2)) eqn:C2; [|far]].
  - apply lt_exact in C1. assert (S1 : approx a b (1 # 2) 0) by (apply approx_self; auto; apply Qlt_le_weak; exact C1). eapply approx_to.
    + apply approx_add; [|apply approx_c]. apply approx_mul; [apply approx_c|]. apply approx_mul; exact S1.
    + vm_compute. discriminate.
  - apply lt_exact in C2. assert (S1 : approx a b (3 # 2) 0) by (apply approx_self; auto; apply Qlt_le_weak; exact C2). eapply approx_to.
    + apply approx_add; [apply approx_add|apply approx_c].
      * apply approx_mul; [apply approx_c|]. apply approx_mul; exact S1.
      * apply approx_mul; [apply approx_c|exact S1].
    + vm_compute. discriminate.
Qed.
Lemma box_near : near_kernels (box_kernel float32) (box_kernel exact) 0.
Proof.
  intros s Hs. destruct (abs32 s Hs) as [Ea Pa]. unfold box_kernel, f_le. rewrite (lt32 (lit float32 1 2) _ (lit exact 1 2) _ (lit32 1 2 ltac:(cbn; tauto)) Ea). destruct (f_lt exact _ _); vm_compute; discriminate.
Qed.
Lemma linear_near : near_kernels (linear float32) (linear exact) (1 # 16777216).
Proof.
  intros s Hs. destruct (abs32 s Hs) as [Ea Pa]. unfold linear, f_max. set (a := f_abs float32 s) in *. set (b := f_abs exact s) in *. clearbody a b.
  cbn [float32 rounded exact f_sub f_lt f1 f0]. rewrite (nearest_comp 24 (1 - a) (1 - b)) by (rewrite Ea; reflexivity).
  destruct (nearest_rounds 24) as (_ & _ & R). specialize (R (1 - b)). change (2 ^ (- (24))) with (1 # 16777216) in R.
  pose proof (nearest_mono 24 ltac:(lia) (1 - b) 1 ltac:(lra)) as M1. change (nearest 24 1) with (8388608 * 2 ^ (-23)) in M1.
  destruct (Qlt_le_dec 0 (1 - b)) as [G|G].
  - pose proof (nearest_mono 24 ltac:(lia) 0 (1 - b) ltac:(lra)) as M0. change (nearest 24 0) with 0 in M0. rewrite (Qabs_pos (1 - b)) in R by lra.
    destruct (Qle_bool (1 - b) 0) eqn:D1; [apply Qle_bool_iff in D1; lra|]. cbn [negb]. destruct (Qle_bool (nearest 24 (1 - b)) 0) eqn:D2; cbn [negb]; apply abs_le in R; apply abs_le.
    + apply Qle_bool_iff in D2. lra.
    + lra.
  - pose proof (nearest_mono 24 ltac:(lia) (1 - b) 0 ltac:(lra)) as M0. change (nearest 24 0) with 0 in M0. apply Qle_bool_iff in G, M0. rewrite G, M0. cbn [negb]. vm_compute. discriminate.
Qed.
Lemma kernels_near :
  near_kernels (box_kernel float32) (box_kernel exact) 0 /\ near_kernels (linear float32) (linear exact) (1 # 16777216) /\
  near_kernels (interpolating_quadratic float32) (interpolating_quadratic exact) (1 # 524288) /\
  near_kernels (quadratic_bspline float32) (quadratic_bspline exact) (1 # 1048576) /\
  near_kernels (interpolating_cubic float32) (interpolating_cubic exact) (1 # 131072) /\
  near_kernels (cubic_bspline float32) (cubic_bspline exact) (1 # 262144).
Proof.
  exact (conj box_near (conj linear_near (conj interpolating_quadratic_near (conj quadratic_bspline_near (conj interpolating_cubic_near cubic_bspline_near))))).
Qed.
(** Nowhere negative exactly, but negative in floats *)
Lemma bsplines_negative :
  (exists s, float_number 24 s /\ cubic_bspline float32 s < 0) /\ (exists s, float_number 24 s /\ quadratic_bspline float32 s < 0).
Proof.
  split; [exists 2%Q|exists (12582906 # 8388608)]; (split; [|vm_compute; reflexivity]).
  - exists 2%Z, 0%Z. split; [discriminate|reflexivity].
  - exists 12582906%Z, (-23)%Z. split; [discriminate|reflexivity].
Qed.
Lemma negative_pixel : exists g : Z -> Q, (forall i, 0 <= g i /\ float_number 24 (g i)) /\
  weighted float32 (weight float32 (cubic_bspline float32) (mkQ 1 1) 0) 0 3 g < 0.
Proof.
  exists (fun i => if (i =? 2)%Z then 255 else 0). split; [|vm_compute; reflexivity].
  intros i. destruct (i =? 2)%Z; (split; [discriminate|]); [exists 255%Z, 0%Z|exists 0%Z, 0%Z]; (split; [discriminate|reflexivity]).
Qed.
