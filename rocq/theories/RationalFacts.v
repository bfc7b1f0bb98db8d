(** rational.h agrees with exact rational arithmetic (Coq's Q) for positive denominators. *)
From Coq Require Import QArith Qround Znumtheory Zquot.
From Verif Require Import Tac Rational SpecRational.
Open Scope Z_scope.

Lemma shiftr63 x : index_min <= x <= index_max -> Z.shiftr x 63 = if x <? 0 then -1 else 0.
Proof.
  unfold index_min, index_max. intros H. rewrite Z.shiftr_div_pow2 by lia.
  destruct (x <? 0) eqn:E; symmetry.
  - apply Z.div_unique with (x + 2 ^ 63); lia.
  - apply Z.div_unique with x; lia.
Qed.

Lemma euclidean_div_spec a b : index_min < b <= index_max -> b <> 0 -> index_min < a ->
  exists q, euclidean_div a b = Ok q /\ 0 <= a - b * q < Z.abs b.
Proof.
  intros Hb Hb0 Ha. unfold euclidean_div, c_div.
  replace (b =? 0) with false by lia. replace (a =? index_min) with false by lia. cbn [orb andb bind].
  eexists. split; [reflexivity|].
  pose proof (Z.quot_rem' a b) as E. pose proof (Z.rem_bound_abs a b Hb0) as B.
  set (q := Z.quot a b) in *. set (r := Z.rem a b) in *.
  replace (a - q * b) with r by lia.
  rewrite (shiftr63 b) by lia. rewrite (shiftr63 r) by (unfold index_min, index_max in *; lia).
  destruct (b <? 0) eqn:E1; destruct (r <? 0) eqn:E2;
    [change (Z.land (-1) (-1)) with (-1) | change (Z.land 0 (-1)) with 0 | change (Z.land (-1) 0) with 0 | change (Z.land 0 0) with 0];
    [change (Z.land (-1) (Z.lnot (-1))) with 0 | change (Z.land 0 (Z.lnot (-1))) with 0
     | change (Z.land (-1) (Z.lnot 0)) with (-1) | change (Z.land 0 (Z.lnot 0)) with 0]; nia.
Qed.
Lemma euclidean_mod_spec a b : index_min < b <= index_max -> b <> 0 -> index_min < a ->
  exists m q, euclidean_mod a b = Ok m /\ 0 <= m < Z.abs b /\ a = b * q + m.
Proof.
  intros Hb Hb0 Ha. unfold euclidean_mod, c_mod.
  replace (b =? 0) with false by lia. replace (a =? index_min) with false by lia. cbn [orb andb bind].
  pose proof (Z.quot_rem' a b) as E. pose proof (Z.rem_bound_abs a b Hb0) as B.
  set (q := Z.quot a b) in *. set (r := Z.rem a b) in *.
  rewrite (shiftr63 r) by (unfold index_min, index_max in *; lia).
  destruct (r <? 0) eqn:E2.
  - rewrite Z.land_m1_l. exists (r + Z.abs b), (q - Z.sgn b). split; auto. split; [lia|]. 
    destruct (Z.sgn_spec b) as [[H1 H2]|[[H1 H2]|[H1 H2]]]; nia.
  - rewrite Z.land_0_l. exists (r + 0), q. split; auto. lia.
Qed.

Lemma gcd_loop_spec fuel : forall a b, Z.abs b <= Z.of_nat fuel -> 0 <= b <= index_max -> index_min < a ->
  exists g, gcd_loop fuel a b = Ok g /\ (0 < b -> g = Z.gcd a b) /\ (b = 0 -> g = a).
Proof.
  induction fuel as [|f IH]; intros a b Hf Hb Ha; cbn [gcd_loop].
  - replace b with 0 by lia. cbn. exists a. split; auto. split; auto; lia.
  - destruct (Z.eqb_spec b 0) as [->|Hb0]; [exists a; split; auto; split; auto; lia|].
    destruct (euclidean_mod_spec a b) as [m [q [E [H1 H2]]]]; try (unfold index_min, index_max in *; lia).
    rewrite E. cbn [bind]. destruct (IH b m) as [g [Eg [G1 G2]]]; try (unfold index_min, index_max in *; lia).
    exists g. split; auto. split; [intros _|lia].
    rewrite H2. rewrite Z.gcd_comm, Z.add_comm, Z.mul_comm, Z.gcd_add_mult_diag_r.
    destruct (Z.eq_dec m 0) as [->|Hm].
    + rewrite G2 by auto. rewrite Z.gcd_0_r. lia.
    + apply G1. lia.
Qed.
Lemma gcd_spec a b : 0 < b <= index_max -> index_min < a -> gcd a b = Ok (Z.gcd a b).
Proof.
  intros Hb Ha. unfold gcd. destruct (gcd_loop_spec (S (Z.to_nat (Z.abs b))) a b) as [g [E [G _]]]; try lia.
  rewrite E, G by lia. auto.
Qed.
Lemma make_rational_spec n d : 0 < d <= index_max -> index_min < n ->
  exists r, make_rational n d = Ok r /\ ok_den r /\ reduced r /\ (val r == n # Z.to_pos d)%Q /\
    denominator r <= d /\ Z.abs (numerator r) <= Z.abs n.
Proof.
  intros Hd Hn. unfold make_rational. rewrite gcd_spec by auto. cbn [bind].
  pose proof (Z.gcd_nonneg n d) as G0.
  assert (G1 : Z.gcd n d <> 0) by (intros G; apply Z.gcd_eq_0_r in G; lia).
  set (g := Z.gcd n d) in *. unfold c_div.
  replace (g =? 0) with false by lia. replace (g =? -1) with false by lia. rewrite !andb_false_r. cbn [orb bind].
  destruct (Z.gcd_divide_l n d) as [n' Hn']. destruct (Z.gcd_divide_r n d) as [d' Hd']. fold g in Hn', Hd'.
  assert (Eg : Z.gcd n' d' = 1).
  { assert (E : Z.gcd (n' * g) (d' * g) = Z.gcd n' d' * g) by (rewrite Z.gcd_mul_mono_r_nonneg; auto).
    rewrite <- Hn', <- Hd' in E. fold g in E. nia. }
  assert (En : Z.quot n g = n') by (rewrite Hn'; apply Z.quot_mul; auto).
  assert (Ed : Z.quot d g = d') by (rewrite Hd'; apply Z.quot_mul; auto).
  rewrite En, Ed. eexists. split; [reflexivity|].
  assert (0 < d') by nia. assert (d' <= d) by nia.
  split; [unfold ok_den; cbn [denominator]; lia|]. split; [exact Eg|]. split.
  - unfold val, Qeq. cbn [numerator denominator Qnum Qden]. rewrite !Z2Pos.id by lia. 
    transitivity (n' * (d' * g)); [f_equal; exact Hd'|]. transitivity (n' * g * d'); [ring|]. f_equal. auto.
  - cbn [numerator denominator]. split; auto.
    assert (A : Z.abs n = Z.abs n' * g) by (transitivity (Z.abs (n' * g)); [f_equal; exact Hn'|rewrite Z.abs_mul; f_equal; lia]). nia.
Qed.


Lemma q_mul_spec l r : ok_den l -> ok_den r ->
  fits (numerator l * numerator r) -> fits (denominator l * denominator r) ->
  exists x, q_mul l r = Ok x /\ ok_den x /\ reduced x /\ (val x == val l * val r)%Q.
Proof.
  unfold ok_den, fits. intros Hl Hr H1 H2. destruct (make_rational_spec (numerator l * numerator r) (denominator l * denominator r))
    as [x [E [X1 [X2 [X3 _]]]]]; try nia.
  exists x. split; auto. split; auto. split; auto. rewrite X3.
  unfold val, Qeq, Qmult. cbn [Qnum Qden]. rewrite Pos2Z.inj_mul, !Z2Pos.id by nia. ring.
Qed.
Lemma q_add_spec l r : ok_den l -> ok_den r ->
  fits (numerator l * denominator r + numerator r * denominator l) -> fits (denominator l * denominator r) ->
  exists x, q_add l r = Ok x /\ ok_den x /\ reduced x /\ (val x == val l + val r)%Q.
Proof.
  unfold ok_den, fits. intros Hl Hr H1 H2.
  destruct (make_rational_spec (numerator l * denominator r + numerator r * denominator l) (denominator l * denominator r))
    as [x [E [X1 [X2 [X3 _]]]]]; try nia.
  exists x. split; auto. split; auto. split; auto. rewrite X3.
  unfold val, Qeq, Qplus. cbn [Qnum Qden]. rewrite Pos2Z.inj_mul, !Z2Pos.id by nia. ring.
Qed.
Lemma q_sub_spec l r : ok_den l -> ok_den r ->
  fits (numerator l * denominator r - numerator r * denominator l) -> fits (denominator l * denominator r) ->
  exists x, q_sub l r = Ok x /\ ok_den x /\ reduced x /\ (val x == val l - val r)%Q.
Proof.
  unfold ok_den, fits. intros Hl Hr H1 H2.
  destruct (make_rational_spec (numerator l * denominator r - numerator r * denominator l) (denominator l * denominator r))
    as [x [E [X1 [X2 [X3 _]]]]]; try nia.
  exists x. split; auto. split; auto. split; auto. rewrite X3.
  unfold val, Qeq, Qminus, Qplus, Qopp. cbn [Qnum Qden]. rewrite Pos2Z.inj_mul, !Z2Pos.id by nia. ring.
Qed.
Lemma q_div_spec l r : ok_den l -> ok_den r -> 0 < numerator r ->
  fits (numerator l * denominator r) -> fits (denominator l * numerator r) ->
  exists x, q_div l r = Ok x /\ ok_den x /\ reduced x /\ (val x == val l / val r)%Q.
Proof.
  unfold ok_den, fits. intros Hl Hr Hn H1 H2.
  destruct (make_rational_spec (numerator l * denominator r) (denominator l * numerator r))
    as [x [E [X1 [X2 [X3 _]]]]]; try nia.
  exists x. split; auto. split; auto. split; auto. rewrite X3.
  unfold val, Qeq, Qdiv, Qmult, Qinv. cbn [Qnum Qden].
  destruct (numerator r) as [|p|p]; try lia. cbn [Qnum Qden].
  rewrite ?Pos2Z.inj_mul, !Z2Pos.id by nia. ring.
Qed.
Lemma cmp_spec l r : ok_den l -> ok_den r ->
  (q_lt l r = true <-> (val l < val r)%Q) /\ (q_le l r = true <-> (val l <= val r)%Q) /\
  (q_gt l r = true <-> (val r < val l)%Q) /\ (q_ge l r = true <-> (val r <= val l)%Q) /\
  (q_eq l r = true <-> (val l == val r)%Q) /\ (q_ne l r = true <-> ~ (val l == val r)%Q).
Proof.
  unfold ok_den. intros Hl Hr. unfold q_lt, q_le, q_gt, q_ge, q_eq, q_ne, val, Qlt, Qle, Qeq. cbn [Qnum Qden].
  rewrite !Z2Pos.id by lia. repeat split; lia.
Qed.
Lemma minmax_spec l r : ok_den l -> ok_den r ->
  ((q_min l r = l /\ val l <= val r) \/ (q_min l r = r /\ val r <= val l))%Q /\
  ((q_max l r = l /\ val r <= val l) \/ (q_max l r = r /\ val l <= val r))%Q.
Proof.
  intros Hl Hr. destruct (cmp_spec l r Hl Hr) as [H1 [_ [H2 _]]]. unfold q_min, q_max. split.
  - destruct (q_lt l r); [left|right]; split; auto.
    + apply Qlt_le_weak. apply H1. auto.
    + apply Qnot_lt_le. intros C. apply H1 in C. discriminate.
  - destruct (q_gt l r); [left|right]; split; auto.
    + apply Qlt_le_weak. apply H2. auto.
    + apply Qnot_lt_le. intros C. apply H2 in C. discriminate.
Qed.

Lemma Qfloor_val n d : 0 < d -> Qfloor (n # Z.to_pos d) = n / d.
Proof. intros. unfold Qfloor. rewrite Z2Pos.id by lia. auto. Qed.
Lemma ediv_floor a b : 0 < b <= index_max -> index_min < a -> euclidean_div a b = Ok (a / b).
Proof.
  intros Hb Ha. destruct (euclidean_div_spec a b) as [q [E H]]; try (unfold index_min, index_max in *; lia).
  rewrite E. f_equal. apply Z.div_unique with (a - b * q); [lia|ring].
Qed.
Lemma q_floor_spec r : ok_den r -> index_min < numerator r -> q_floor r = Ok (Qfloor (val r)).
Proof. intros Hd Hn. unfold q_floor. rewrite ediv_floor by auto. unfold val. rewrite Qfloor_val; auto. apply Hd. Qed.
Lemma q_ceil_spec r : ok_den r -> index_min < numerator r + denominator r - 1 -> q_ceil r = Ok (Qceiling (val r)).
Proof.
  intros Hd Hn. unfold q_ceil. rewrite ediv_floor by auto. f_equal. unfold ok_den in Hd.
  unfold Qceiling, val, Qopp. cbn [Qnum Qden]. rewrite Qfloor_val by lia.
  set (n := numerator r) in *. set (d := denominator r) in *.
  pose proof (Z.div_mod (-n) d). pose proof (Z.mod_pos_bound (-n) d).
  symmetry. apply Z.div_unique with (d - 1 - (-n) mod d); nia.
Qed.
Lemma q_round_spec r : 0 < 2 * denominator r <= index_max -> index_min < 2 * numerator r + denominator r ->
  q_round r = Ok (Qfloor (val r + (1 # 2))).
Proof.
  intros Hd Hn. unfold q_round. rewrite ediv_floor by auto. f_equal.
  unfold val, Qplus. cbn [Qnum Qden]. unfold Qfloor. rewrite Pos2Z.inj_mul, Z2Pos.id by lia.
  f_equal; ring.
Qed.
Lemma q_frac_spec r : ok_den r -> index_min < numerator r ->
  exists x, q_frac r = Ok x /\ ok_den x /\ reduced x /\ (val x == val r - inject_Z (Qfloor (val r)))%Q /\
    (0 <= val x < 1)%Q.
Proof.
  intros Hd Hn. unfold q_frac.
  destruct (euclidean_mod_spec (numerator r) (denominator r)) as [m [q [E [H1 H2]]]];
    try (unfold ok_den, index_min, index_max in *; lia).
  rewrite E. cbn [bind].
  destruct (make_rational_spec m (denominator r) Hd) as [x [Ex [X1 [X2 [X3 _]]]]]; [unfold index_min; lia|].
  exists x. split; auto. split; auto. split; auto. unfold ok_den in Hd.
  split.
  - rewrite X3. unfold val. rewrite Qfloor_val by lia.
    replace (numerator r / denominator r) with q by (apply Z.div_unique with m; lia).
    unfold Qeq, Qminus, Qplus, Qopp, inject_Z. cbn [Qnum Qden]. rewrite Pos2Z.inj_mul, !Z2Pos.id by lia.
    assert (Em : m = numerator r - denominator r * q) by lia. rewrite Em. ring.
  - rewrite X3. unfold Qle, Qlt. cbn [Qnum Qden]. rewrite !Z2Pos.id by lia. lia.
Qed.

(** A negative denominator survives and makes < and floor wrong. *)
Lemma negative_den : exists l r x : rational, ok_den l /\ ok_den r /\ q_div l r = Ok x /\ denominator x < 0 /\
  (val l / val r < val (of_int 0))%Q /\ q_lt x (of_int 0) = false /\
  q_floor x <> Ok (Qfloor (val l / val r)).
Proof.
  exists (of_int 3), (of_int (-2)), (mkQ 3 (-2)).
  unfold ok_den. cbn [of_int denominator]. repeat split; try (unfold index_max; lia); try reflexivity.
  vm_compute. discriminate.
Qed.
