(** Proofs about B-splines. *)
From Coq Require Import ZArith QArith Qabs List Bool Lia Lqa.
From Verif Require Import Resample SpecResample ResampleExact SpecFloat FloatUse FloatSteep SpecMoments MomentsProps SpecBSplines.
Local Open Scope Q_scope.

Lemma tent t : (- (1) <= t -> t <= 0 -> linear exact t == 1 + t) /\ (0 <= t -> t <= 1 -> linear exact t == 1 - t) /\ (1 <= t \/ t <= - (1) -> linear exact t == 0).
Proof.
  split; [|split; [|apply linear_far]]; intros A B; rewrite linear_val; [assert (E : f_abs exact t == - t) by (apply abs_neg; lra)|assert (E : f_abs exact t == t) by (apply abs_pos; lra)]; set (a := f_abs exact t) in *; tests; lra.
Qed.
Lemma spline2 t : (- (1 # 2) <= t -> t <= 1 # 2 -> quadratic_bspline exact t == (3 # 4) - t * t) /\ (1 # 2 <= t -> t <= 3 # 2 -> quadratic_bspline exact t == (1 # 2) * (((3 # 2) - t) * ((3 # 2) - t))) /\
  (- (3 # 2) <= t -> t <= - (1 # 2) -> quadratic_bspline exact t == (1 # 2) * (((3 # 2) + t) * ((3 # 2) + t))) /\ (3 # 2 <= t \/ t <= - (3 # 2) -> quadratic_bspline exact t == 0).
Proof.
  assert (E0 : lit exact 1 2 == 1 # 2) by reflexivity. split; [|split; [|split; [|apply quadratic_far]]]; intros A B; unfold quadratic_bspline; rewrite quad_val.
  - destruct (abs_cases t) as [[P E]|[P E]]; rewrite (proj1 (quad_pieces _ _)) by lra; rewrite E, E0; ring.
  - pose proof (abs_pos t ltac:(lra)) as E. rewrite (proj1 (proj2 (quad_pieces _ _))) by lra. rewrite E, E0. ring.
  - pose proof (abs_neg t ltac:(lra)) as E. rewrite (proj1 (proj2 (quad_pieces _ _))) by lra. rewrite E, E0. ring.
Qed.
Lemma spline3 t : (0 <= t -> t <= 1 -> cubic_bspline exact t == (2 # 3) - t * t + (1 # 2) * (t * t * t)) /\ (- (1) <= t -> t <= 0 -> cubic_bspline exact t == (2 # 3) - t * t - (1 # 2) * (t * t * t)) /\
  (1 <= t -> t <= 2 -> cubic_bspline exact t == (1 # 6) * ((2 - t) * (2 - t) * (2 - t))) /\ (- (2) <= t -> t <= - (1) -> cubic_bspline exact t == (1 # 6) * ((2 + t) * (2 + t) * (2 + t))) /\
  (2 <= t \/ t <= - (2) -> cubic_bspline exact t == 0).
Proof.
  split; [|split; [|split; [|split; [|apply cubic_far]]]]; intros A B; unfold cubic_bspline; rewrite cubic_val; cbn [f0 f1 exact].
  - pose proof (abs_pos t ltac:(lra)) as E. rewrite (proj1 (cubic_pieces _ _ _)) by lra. rewrite E. field.
  - pose proof (abs_neg t ltac:(lra)) as E. rewrite (proj1 (cubic_pieces _ _ _)) by lra. rewrite E. field.
  - pose proof (abs_pos t ltac:(lra)) as E. rewrite (proj1 (proj2 (cubic_pieces _ _ _))) by lra. rewrite E. field.
  - pose proof (abs_neg t ltac:(lra)) as E. rewrite (proj1 (proj2 (cubic_pieces _ _ _))) by lra. rewrite E. field.
Qed.
Lemma box_spline s : ~ s == 0 -> next_spline 1 (box_kernel exact) (linear exact) s.
Proof.
  intros N. unfold next_spline. rewrite !box_val. assert (N' : s < 0 \/ 0 < s) by (destruct (Qlt_le_dec s 0) as [L|L]; [auto|]; right; apply Qle_lteq in L as [L|L]; [exact L|]; destruct N; symmetry; exact L).
  destruct (Qlt_le_dec s (- (1))); [|destruct (Qlt_le_dec s 0); [|destruct (Qlt_le_dec 1 s)]].
  - rewrite (proj2 (proj2 (tent s))) by lra. pose proof (abs_neg (s + (1 # 2)) ltac:(lra)) as E1. pose proof (abs_neg (s - (1 # 2)) ltac:(lra)) as E2. set (a := f_abs exact (s + _)) in *. set (b := f_abs exact (s - _)) in *. tests; try lra; field.
  - rewrite (proj1 (tent s)) by lra. assert (E1 : f_abs exact (s + (1 # 2)) <= 1 # 2) by (apply abs_half; lra). pose proof (abs_neg (s - (1 # 2)) ltac:(lra)) as E2. set (a := f_abs exact (s + _)) in *. set (b := f_abs exact (s - _)) in *. tests; try lra; field.
  - rewrite (proj2 (proj2 (tent s))) by lra. pose proof (abs_pos (s + (1 # 2)) ltac:(lra)) as E1. pose proof (abs_pos (s - (1 # 2)) ltac:(lra)) as E2. set (a := f_abs exact (s + _)) in *. set (b := f_abs exact (s - _)) in *. tests; try lra; field.
  - rewrite (proj1 (proj2 (tent s))) by lra. pose proof (abs_pos (s + (1 # 2)) ltac:(lra)) as E1. assert (E2 : f_abs exact (s - (1 # 2)) <= 1 # 2) by (apply abs_half; lra). set (a := f_abs exact (s + _)) in *. set (b := f_abs exact (s - _)) in *. tests; try lra; field.
Qed.
Lemma quadratic_spline s : next_spline 2 (linear exact) (quadratic_bspline exact) s.
Proof.
  unfold next_spline. destruct (tent (s + (1 # 2))) as (T1 & T2 & T3). destruct (tent (s - (1 # 2))) as (U1 & U2 & U3). destruct (spline2 s) as (Q1 & Q2 & Q3 & Q4).
  destruct (Qlt_le_dec s (- (3 # 2))); [rewrite T3, U3, Q4 by lra; field|]. destruct (Qlt_le_dec s (- (1 # 2))); [rewrite T1, U3, Q3 by lra; field|].
  destruct (Qlt_le_dec s (1 # 2)); [rewrite T2, U1, Q1 by lra; field|]. destruct (Qlt_le_dec s (3 # 2)); [rewrite T3, U2, Q2 by lra; field|]. rewrite T3, U3, Q4 by lra. field.
Qed.
Lemma cubic_spline s : next_spline 3 (quadratic_bspline exact) (cubic_bspline exact) s.
Proof.
  unfold next_spline. destruct (spline2 (s + (1 # 2))) as (T1 & T2 & T3 & T4). destruct (spline2 (s - (1 # 2))) as (U1 & U2 & U3 & U4). destruct (spline3 s) as (Q1 & Q2 & Q3 & Q4 & Q5).
  destruct (Qlt_le_dec s (- (2))); [rewrite T4, U4, Q5 by lra; field|]. destruct (Qlt_le_dec s (- (1))); [rewrite T3, U4, Q4 by lra; field|].
  destruct (Qlt_le_dec s 0); [rewrite T1, U3, Q2 by lra; field|]. destruct (Qlt_le_dec s 1); [rewrite T2, U1, Q1 by lra; field|].
  destruct (Qlt_le_dec s 2); [rewrite T4, U2, Q3 by lra; field|]. rewrite T4, U4, Q5 by lra. field.
Qed.

(** ** Interpolating members *)
Lemma quadratic_iff r : interpolating (fun s => quadratic_family exact s r) <-> r == 1.
Proof.
  split.
  - intros H. specialize (H 1 1%Z ltac:(reflexivity)). change (quadratic_family exact 1 r == 0) in H. rewrite quad_val in H. rewrite (proj1 (proj2 (quad_pieces r _))) in H by (change (f_abs exact 1) with 1; lra). change (f_abs exact 1) with 1 in H. lra.
  - intros E s z Hs. destruct (Z.eqb_spec z 0) as [->|N].
    + change (inject_Z 0) with 0 in Hs. assert (A : f_abs exact s == 0) by (rewrite abs_pos by lra; exact Hs). rewrite quad_val, (proj1 (quad_pieces r _)) by lra. rewrite A, E. ring.
    + destruct (Z_le_gt_dec 2 (Z.abs z)) as [L|L].
      * apply quadratic_far. assert (F : (2 <= z \/ z <= -2)%Z) by lia. destruct F as [F|F]; rewrite Zle_Qle in F; [change (inject_Z 2) with 2 in F|change (inject_Z (-2)) with (- (2)) in F]; lra.
      * assert (A : f_abs exact s == 1) by (assert (F : (z = 1 \/ z = -1)%Z) by lia; destruct F as [-> | ->]; [change (inject_Z 1) with 1 in Hs; rewrite abs_pos by lra|change (inject_Z (-1)) with (- (1)) in Hs; rewrite abs_neg by lra]; lra).
        rewrite quad_val, (proj1 (proj2 (quad_pieces r _))) by lra. rewrite A, E. ring.
Qed.
Lemma cubic_iff B C : interpolating (fun s => cubic_family exact s B C) <-> B == 0.
Proof.
  split.
  - intros H. specialize (H 0 0%Z ltac:(reflexivity)). change (cubic_family exact 0 B C == 1) in H. rewrite cubic_val in H. rewrite (proj1 (cubic_pieces B C _)) in H by (change (f_abs exact 0) with 0; lra). change (f_abs exact 0) with 0 in H.
    assert (E : (2 - B * (3 # 2) - C) * (0 * 0 * 0) + (- (3) + 2 * B + C) * (0 * 0) + (1 - B / 3) == 1 - (1 # 3) * B) by field. rewrite E in H. lra.
  - intros E s z Hs. destruct (Z.eqb_spec z 0) as [->|N].
    + change (inject_Z 0) with 0 in Hs. assert (A : f_abs exact s == 0) by (rewrite abs_pos by lra; exact Hs). rewrite cubic_val, (proj1 (cubic_pieces B C _)) by lra. rewrite A, E. field.
    + destruct (Z_le_gt_dec 2 (Z.abs z)) as [L|L].
      * apply cubic_far. assert (F : (2 <= z \/ z <= -2)%Z) by lia. destruct F as [F|F]; rewrite Zle_Qle in F; [change (inject_Z 2) with 2 in F|change (inject_Z (-2)) with (- (2)) in F]; lra.
      * assert (A : f_abs exact s == 1) by (assert (F : (z = 1 \/ z = -1)%Z) by lia; destruct F as [-> | ->]; [change (inject_Z 1) with 1 in Hs; rewrite abs_pos by lra|change (inject_Z (-1)) with (- (1)) in Hs; rewrite abs_neg by lra]; lra).
        rewrite cubic_val, (proj1 (cubic_pieces B C _)) by lra. rewrite A, E. field.
Qed.
Lemma catmull_iff B C : (interpolating (fun s => cubic_family exact s B C) /\ balanced (fun s => cubic_family exact s B C) 2 4) <-> (B == 0 /\ C == 1 # 2).
Proof. rewrite cubic_iff, cubic_balanced. split; intros [H1 H2]; split; lra. Qed.
