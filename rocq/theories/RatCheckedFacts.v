(** Rational numbers in 64-bit arithmetic: exactly when they are defined, and then they agree with
    unbounded integers. *)
From Coq Require Import QArith Qround Znumtheory Zquot.
From Verif Require Import Tac Interval Checked Overflow Rational SpecRational SpecChecked Spec SpecOverflow SpecResample Resample MatrixFacts
  RationalFacts ResampleFacts CheckedFacts OverflowFacts RatChecked SpecRatChecked TraverseFacts.
Import ListNotations.
Open Scope Z_scope.

Lemma chk_not x : ~ is_index x -> chk x = UB.
Proof. unfold is_index, chk, index_min, index_max. intros H. replace (_ && _) with false by lia. auto. Qed.
Lemma is_index_dec x : {is_index x} + {~ is_index x}.
Proof.
  unfold is_index. destruct (Z_le_dec (-9223372036854775808) x), (Z_le_dec x 9223372036854775807); (left; lia) || (right; lia).
Defined.
Lemma chk_inv x y : chk x = Ok y -> y = x /\ is_index x.
Proof. destruct (is_index_dec x) as [H|H]; [rewrite (chk_ok x H)|rewrite (chk_not x H)]; intros E; inversion E; subst; auto. Qed.

(** ** Division *)
Lemma quot_half a b q r : a = b * q + r -> Z.abs r < Z.abs b -> (0 <= a -> 0 <= r) -> (a <= 0 -> r <= 0) ->
  Z.abs r <= Z.abs a /\ (2 <= Z.abs b -> 2 * Z.abs q <= Z.abs a) /\ Z.abs q <= Z.abs a.
Proof.
  intros H1 H2 H3 H4.
  assert (P : Z.abs (b * q) = Z.abs b * Z.abs q) by apply Z.abs_mul.
  assert (K : Z.abs a = Z.abs b * Z.abs q + Z.abs r).
  { rewrite <- P. destruct (Z.eq_dec q 0) as [->|Q]; [lia|].
    assert (Z.abs b <= Z.abs (b * q)) by (rewrite P; nia). lia. }
  assert (0 <= Z.abs q) by lia. assert (0 < Z.abs b) by lia.
  split; [nia|]. split; [intros; nia|nia].
Qed.
Lemma quot_facts a b : b <> 0 -> a = b * Z.quot a b + Z.rem a b /\ Z.abs (Z.rem a b) < Z.abs b /\
  (0 <= a -> 0 <= Z.rem a b) /\ (a <= 0 -> Z.rem a b <= 0).
Proof.
  intros H. split; [apply Z.quot_rem'|]. split; [apply Z.rem_bound_abs; auto|]. split.
  - intros. apply Z.rem_nonneg; auto.
  - intros. apply Z.rem_nonpos; auto.
Qed.
Lemma k_div_ok a b : is_index a -> is_index b -> b <> 0 -> ~ (a = -9223372036854775808 /\ b = -1) ->
  exists q, k_euclidean_div a b = Ok q /\ euclidean_div a b = Ok q /\ 0 <= a - b * q < Z.abs b.
Proof.
  intros Ha Hb Hb0 Hm. unfold k_euclidean_div, euclidean_div, c_div.
  replace (b =? 0) with false by lia. unfold index_min.
  replace ((a =? -9223372036854775808) && (b =? -1)) with false by lia. cbn [orb bind].
  destruct (quot_facts a b Hb0) as [E [B [S T]]].
  set (q := Z.quot a b) in *. set (r := Z.rem a b) in *. clearbody q r.
  destruct (quot_half a b q r E B S T) as [R1 [R2 R3]].
  assert (Hq : is_index (q * b)) by (unfold is_index in *; lia).
  rewrite (chk_ok _ Hq). cbn [bind]. replace (a - q * b) with r by lia.
  assert (Hr : is_index r) by (unfold is_index in *; lia).
  rewrite (chk_ok _ Hr). cbn [bind].
  rewrite (shiftr63 b), (shiftr63 r) by (unfold is_index, index_min, index_max in *; lia).
  destruct (b <? 0) eqn:E1; destruct (r <? 0) eqn:E2;
    [change (Z.land (-1) (-1)) with (-1) | change (Z.land 0 (-1)) with 0 | change (Z.land (-1) 0) with 0 | change (Z.land 0 0) with 0];
    [change (Z.land (-1) (Z.lnot (-1))) with 0 | change (Z.land 0 (Z.lnot (-1))) with 0
     | change (Z.land (-1) (Z.lnot 0)) with (-1) | change (Z.land 0 (Z.lnot 0)) with 0];
    (rewrite chk_ok by (unfold is_index in *; lia)); cbn [bind]; (rewrite chk_ok by (unfold is_index in *; lia));
    eexists; (split; [reflexivity|]); (split; [reflexivity|]); lia.
Qed.
Lemma k_div_ub a b : is_index a -> is_index b -> b = 0 \/ (a = -9223372036854775808 /\ b = -1) -> k_euclidean_div a b = UB.
Proof.
  intros _ _ H. unfold k_euclidean_div, c_div, index_min.
  replace ((b =? 0) || ((a =? -9223372036854775808) && (b =? -1))) with true by lia. auto.
Qed.
Lemma k_mod_ok a b : is_index a -> is_index b -> b <> 0 -> b <> -9223372036854775808 -> ~ (a = -9223372036854775808 /\ b = -1) ->
  exists m q, k_euclidean_mod a b = Ok m /\ euclidean_mod a b = Ok m /\ 0 <= m < Z.abs b /\ a = b * q + m.
Proof.
  intros Ha Hb Hb0 Hb1 Hm. unfold k_euclidean_mod, euclidean_mod, c_mod.
  replace (b =? 0) with false by lia. unfold index_min.
  replace ((a =? -9223372036854775808) && (b =? -1)) with false by lia. cbn [orb bind].
  destruct (quot_facts a b Hb0) as [E [B _]].
  set (q := Z.quot a b) in *. set (r := Z.rem a b) in *. clearbody q r.
  assert (Ka : k_abs b = Ok (Z.abs b)).
  { unfold k_abs. destruct (b >=? 0) eqn:E1; [f_equal; lia|]. rewrite chk_ok by (unfold is_index in *; lia). f_equal. lia. }
  rewrite Ka. cbn [bind]. rewrite (shiftr63 r) by (unfold is_index, index_min, index_max in *; lia).
  destruct (r <? 0) eqn:E2.
  - rewrite Z.land_m1_l. rewrite chk_ok by (unfold is_index in *; lia).
    exists (r + Z.abs b), (q - Z.sgn b). split; auto. split; auto. split; [lia|].
    destruct (Z.sgn_spec b) as [[H1 H2]|[[H1 H2]|[H1 H2]]]; nia.
  - rewrite Z.land_0_l. rewrite chk_ok by (unfold is_index in *; lia). exists (r + 0), q. split; auto. split; auto. lia.
Qed.
Lemma k_mod_ub a b : is_index a -> is_index b ->
  b = 0 \/ b = -9223372036854775808 \/ (a = -9223372036854775808 /\ b = -1) -> k_euclidean_mod a b = UB.
Proof.
  intros Ha Hb [H|[H|H]]; unfold k_euclidean_mod, c_mod, index_min.
  - subst. auto.
  - replace ((b =? 0) || ((a =? -9223372036854775808) && (b =? -1))) with false by lia. cbn [bind]. subst. reflexivity.
  - replace ((b =? 0) || ((a =? -9223372036854775808) && (b =? -1))) with true by lia. auto.
Qed.

(** ** Lowest terms *)
Lemma gcd_step a b m q : a = b * q + m -> Z.gcd a b = Z.gcd b m.
Proof. intros ->. rewrite Z.gcd_comm, Z.add_comm, Z.mul_comm, Z.gcd_add_mult_diag_r. reflexivity. Qed.
Lemma k_gcd_loop_ok fuel : forall a b, Z.abs b <= Z.of_nat fuel -> 0 <= b -> is_index b -> is_index a ->
  exists g, k_gcd_loop fuel a b = Ok g /\ gcd_loop fuel a b = Ok g /\ (0 < b -> g = Z.gcd a b) /\ (b = 0 -> g = a).
Proof.
  induction fuel as [|f IH]; intros a b Hf Hb Hi Ha; cbn [k_gcd_loop gcd_loop].
  - replace b with 0 by lia. cbn. exists a. repeat split; auto; lia.
  - destruct (Z.eqb_spec b 0) as [->|Hb0]; [exists a; repeat split; auto; lia|].
    destruct (k_mod_ok a b) as [m [q [E [E' [H1 H2]]]]]; try lia; auto.
    rewrite E, E'. cbn [bind]. destruct (IH b m) as [g [Eg [Eg' [G1 G2]]]]; try (unfold is_index in *; lia).
    exists g. split; auto. split; auto. split; [intros _|lia].
    rewrite (gcd_step a b m q H2). destruct (Z.eq_dec m 0) as [->|Hm].
    + rewrite G2 by auto. rewrite Z.gcd_0_r. lia.
    + apply G1. lia.
Qed.
Lemma k_gcd_ok n d : is_index n -> is_index d -> reducible n d ->
  exists g, k_gcd n d = Ok g /\ gcd n d = Ok g /\ Z.abs g = Z.gcd n d /\ (0 < d -> 0 < g) /\ (g = -1 -> d = -1 \/ n = -1).
Proof.
  intros Hn Hd [H1 [H2 H3]]. unfold k_gcd, gcd. destruct (Z_le_dec 0 d) as [P|P].
  - destruct (k_gcd_loop_ok (S (Z.to_nat (Z.abs d))) n d) as [g [E [E' [G1 G2]]]]; auto; try lia.
    exists g. split; auto. split; auto. destruct (Z.eq_dec d 0) as [->|D].
    + rewrite G2 by auto. rewrite Z.gcd_0_r. split; auto. split; [lia|]. auto.
    + rewrite G1 by lia. pose proof (Z.gcd_nonneg n d). split; [lia|]. split; [|lia]. intros _.
      assert (Z.gcd n d <> 0) by (intros C; apply Z.gcd_eq_0_r in C; lia). lia.
  - cbn [k_gcd_loop gcd_loop]. replace (d =? 0) with false by lia.
    destruct (k_mod_ok n d) as [m [q [E [E' [M1 M2]]]]]; auto; try lia. rewrite E, E'. cbn [bind].
    destruct (k_gcd_loop_ok (Z.to_nat (Z.abs d)) d m) as [g [Eg [Eg' [G1 G2]]]]; try (unfold is_index in *; lia).
    exists g. split; auto. split; auto. rewrite (gcd_step n d m q M2). split; [|split; [lia|]].
    + destruct (Z.eq_dec m 0) as [->|Hm]; [rewrite G2 by auto; rewrite Z.gcd_0_r; auto|].
      rewrite G1 by lia. pose proof (Z.gcd_nonneg d m). lia.
    + intros ->. destruct (Z.eq_dec m 0) as [->|Hm]; [left; rewrite G2; auto|].
      pose proof (Z.gcd_nonneg d m). rewrite <- G1 in H by lia. lia.
Qed.
Lemma halved n' n g : Z.abs n = Z.abs n' * Z.abs g -> 2 <= Z.abs g -> 2 * Z.abs n' <= Z.abs n.
Proof. intros ->. intros H. assert (0 <= Z.abs n') by lia. nia. Qed.
Lemma smaller n n' g : -9223372036854775808 <= n <= 9223372036854775807 -> n = n' * g -> g <> 0 ->
  (n =? -9223372036854775808) && (g =? -1) = false -> -9223372036854775808 <= n' <= 9223372036854775807.
Proof.
  intros Hn En G0 N1. destruct (Z.eq_dec g 1) as [->|G1]; [lia|]. destruct (Z.eq_dec g (-1)) as [->|G2]; [lia|].
  assert (2 * Z.abs n' <= Z.abs n); [|lia]. apply (halved _ _ g); [|lia]. rewrite <- Z.abs_mul. f_equal. auto.
Qed.
Lemma same_sign d d' g : d = d' * g -> 0 < d -> 0 < g -> 0 < d'.
Proof. nia. Qed.
Lemma unit_gcd G g : g <> 0 -> Z.abs g = G * Z.abs g -> G = 1.
Proof. intros H E. assert (0 < Z.abs g) by lia. nia. Qed.
Lemma k_make_ok n d : is_index n -> is_index d -> reducible n d ->
  exists r, k_make_rational n d = Ok r /\ make_rational n d = Ok r /\ is_rational r /\ lowest n d r.
Proof.
  intros Hn Hd R. destruct (k_gcd_ok n d Hn Hd R) as [g [E [E' [G1 [G2 G3]]]]].
  unfold k_make_rational, make_rational. rewrite E, E'. cbn [bind]. destruct R as [R1 [R2 R3]].
  assert (G0 : g <> 0).
  { intros ->. cbn in G1. symmetry in G1. apply R2. split; [apply Z.gcd_eq_0_l in G1; auto|apply Z.gcd_eq_0_r in G1; auto]. }
  unfold c_div, index_min. replace (g =? 0) with false by lia.
  assert (N1 : (n =? -9223372036854775808) && (g =? -1) = false) by lia.
  assert (D1 : (d =? -9223372036854775808) && (g =? -1) = false) by lia.
  rewrite N1, D1. cbn [orb bind].
  destruct (Z.gcd_divide_l n d) as [n0 Hn0]. destruct (Z.gcd_divide_r n d) as [d0 Hd0].
  assert (exists n', n = n' * g) as [n' En].
  { destruct (Z.abs_spec g) as [[_ A]|[_ A]]; rewrite <- G1, A in Hn0; [exists n0; lia|exists (- n0); lia]. }
  assert (exists d', d = d' * g) as [d' Ed].
  { destruct (Z.abs_spec g) as [[_ A]|[_ A]]; rewrite <- G1, A in Hd0; [exists d0; lia|exists (- d0); lia]. }
  assert (Qn : Z.quot n g = n') by (rewrite En; apply Z.quot_mul; auto).
  assert (Qd : Z.quot d g = d') by (rewrite Ed; apply Z.quot_mul; auto).
  rewrite Qn, Qd. exists (mkQ n' d'). split; auto. split; auto.
  assert (An : Z.abs n = Z.abs n' * Z.abs g) by (rewrite <- Z.abs_mul; f_equal; auto).
  assert (Ad : Z.abs d = Z.abs d' * Z.abs g) by (rewrite <- Z.abs_mul; f_equal; auto).
  split; [|split; [|split]]; cbn [numerator denominator].
  - split; cbn [numerator denominator]; unfold is_index in *.
    + apply (smaller n n' g); auto.
    + apply (smaller d d' g); auto.
  - rewrite En, Ed. ring.
  - assert (E1 : Z.gcd (n' * g) (d' * g) = Z.gcd n' d' * Z.abs g) by apply Z.gcd_mul_mono_r.
    rewrite <- En, <- Ed, <- G1 in E1. apply (unit_gcd _ g); auto.
  - intros P. apply (same_sign d d' g); auto.
Qed.
Lemma k_make_ub n d : is_index n -> is_index d -> ~ reducible n d -> k_make_rational n d = UB.
Proof.
  intros Hn Hd R. unfold k_make_rational, k_gcd.
  destruct (Z.eq_dec d 0) as [->|D0].
  - assert (n = 0) as -> by (unfold reducible in R; lia). reflexivity.
  - cbn [k_gcd_loop]. replace (d =? 0) with false by lia.
    rewrite k_mod_ub; auto. unfold reducible in R. lia.
Qed.

(** ** Positive denominators *)
Lemma positive_ok r : positive r -> ok_den r.
Proof. intros [[_ H] P]. unfold ok_den, is_index, index_max in *. lia. Qed.
Lemma k_make_pos n d : is_index n -> is_index d -> 0 < d ->
  exists r, k_make_rational n d = Ok r /\ make_rational n d = Ok r /\ positive r /\ reduced r /\ (val r == n # Z.to_pos d)%Q /\
    denominator r <= d /\ Z.abs (numerator r) <= Z.abs n.
Proof.
  intros Hn Hd P. destruct (k_make_ok n d Hn Hd) as [r [E [E' [I [L1 [L2 L3]]]]]].
  { unfold reducible. lia. }
  specialize (L3 P). exists r. split; auto. split; auto. split; [split; auto|]. split; auto.
  assert (V : (val r == n # Z.to_pos d)%Q) by (unfold val, Qeq; cbn [Qnum Qden]; rewrite !Z2Pos.id by lia; exact L1).
  split; auto.
  assert (Dv : (denominator r | d)).
  { apply Z.gauss with (numerator r); [exists n; lia|rewrite Z.gcd_comm; auto]. }
  destruct Dv as [k Hk]. assert (0 < k) by (clear - Hk P L3; nia).
  assert (En : n = k * numerator r).
  { apply (Z.mul_cancel_r _ _ (denominator r)); [lia|]. rewrite <- L1, Hk. ring. }
  clear - En Hk H L3. split; [nia|]. rewrite En, Z.abs_mul. nia.
Qed.
Lemma k_make_lowest n d : is_index n -> is_index d -> 0 < d -> Z.gcd n d = 1 -> k_make_rational n d = Ok (mkQ n d).
Proof.
  intros Hn Hd P G. destruct (k_gcd_ok n d Hn Hd) as [g [E [_ [G1 [G2 _]]]]]; [unfold reducible; lia|].
  assert (g = 1) as -> by (specialize (G2 P); lia).
  unfold k_make_rational. rewrite E. cbn [bind]. unfold c_div. rewrite !andb_false_r. cbn [Z.eqb orb bind].
  rewrite !Z.quot_1_r. reflexivity.
Qed.

(** If the 64-bit computation is defined it agrees with that in unbounded integers *)
Lemma make_refines n d x : is_index n -> is_index d -> k_make_rational n d = Ok x -> make_rational n d = Ok x.
Proof.
  intros Hn Hd E. assert (D : reducible n d \/ ~ reducible n d) by (unfold reducible; lia).
  destruct D as [R|R].
  - destruct (k_make_ok n d Hn Hd R) as [r [E1 [E2 _]]]. rewrite E1 in E. rewrite E2. exact E.
  - rewrite k_make_ub in E by auto. discriminate.
Qed.
Ltac unchk := repeat match goal with
  | H : bind (chk ?x) _ = Ok _ |- _ => let E := fresh "E" in destruct (chk x) eqn:E; try discriminate; cbn [bind] in H;
      apply chk_inv in E; destruct E as [-> E]
  end.
Lemma arith_refines l r x :
  (k_q_add l r = Ok x -> q_add l r = Ok x) /\ (k_q_sub l r = Ok x -> q_sub l r = Ok x) /\
  (k_q_mul l r = Ok x -> q_mul l r = Ok x) /\ (k_q_div l r = Ok x -> q_div l r = Ok x).
Proof.
  unfold k_q_add, k_q_sub, k_q_mul, k_q_div, q_add, q_sub, q_mul, q_div.
  split; [|split; [|split]]; intros H; unchk; apply make_refines; auto.
Qed.

Ltac fits := repeat match goal with
  | H : is_index ?x |- context [chk ?x] => rewrite (chk_ok x H); cbn [bind]
  end.
Ltac nofit := repeat match goal with
  | |- context [chk ?x] => let H := fresh "I" in destruct (is_index_dec x) as [H|H];
      [rewrite (chk_ok x H); cbn [bind]|rewrite (chk_not x H); cbn [bind]; try reflexivity]
  end.

Lemma k_add_ok l r : positive l -> positive r ->
  is_index (numerator l * denominator r) -> is_index (numerator r * denominator l) ->
  is_index (numerator l * denominator r + numerator r * denominator l) -> is_index (denominator l * denominator r) ->
  exists x, k_q_add l r = Ok x /\ positive x /\ reduced x /\ (val x == val l + val r)%Q.
Proof.
  intros Hl Hr H1 H2 H3 H4. unfold k_q_add. fits.
  destruct (k_make_pos _ _ H3 H4) as [x [E [_ [X1 [X2 [X3 _]]]]]]; [apply Z.mul_pos_pos; [apply Hl|apply Hr]|].
  exists x. split; auto. split; auto. split; auto. rewrite X3. destruct Hl as [_ Hl], Hr as [_ Hr].
  unfold val, Qeq, Qplus. cbn [Qnum Qden]. rewrite Pos2Z.inj_mul, !Z2Pos.id by nia. ring.
Qed.
Lemma k_sub_ok l r : positive l -> positive r ->
  is_index (numerator l * denominator r) -> is_index (numerator r * denominator l) ->
  is_index (numerator l * denominator r - numerator r * denominator l) -> is_index (denominator l * denominator r) ->
  exists x, k_q_sub l r = Ok x /\ positive x /\ reduced x /\ (val x == val l - val r)%Q.
Proof.
  intros Hl Hr H1 H2 H3 H4. unfold k_q_sub. fits.
  destruct (k_make_pos _ _ H3 H4) as [x [E [_ [X1 [X2 [X3 _]]]]]]; [apply Z.mul_pos_pos; [apply Hl|apply Hr]|].
  exists x. split; auto. split; auto. split; auto. rewrite X3. destruct Hl as [_ Hl], Hr as [_ Hr].
  unfold val, Qeq, Qminus, Qplus, Qopp. cbn [Qnum Qden]. rewrite Pos2Z.inj_mul, !Z2Pos.id by nia. ring.
Qed.
Lemma k_mul_ok l r : positive l -> positive r ->
  is_index (numerator l * numerator r) -> is_index (denominator l * denominator r) ->
  exists x, k_q_mul l r = Ok x /\ positive x /\ reduced x /\ (val x == val l * val r)%Q.
Proof.
  intros Hl Hr H3 H4. unfold k_q_mul. fits.
  destruct (k_make_pos _ _ H3 H4) as [x [E [_ [X1 [X2 [X3 _]]]]]]; [apply Z.mul_pos_pos; [apply Hl|apply Hr]|].
  exists x. split; auto. split; auto. split; auto. rewrite X3. destruct Hl as [_ Hl], Hr as [_ Hr].
  unfold val, Qeq, Qmult. cbn [Qnum Qden]. rewrite Pos2Z.inj_mul, !Z2Pos.id by nia. ring.
Qed.
Lemma k_div_q_ok l r : positive l -> positive r -> 0 < numerator r ->
  is_index (numerator l * denominator r) -> is_index (denominator l * numerator r) ->
  exists x, k_q_div l r = Ok x /\ positive x /\ reduced x /\ (val x == val l / val r)%Q /\
    denominator x <= denominator l * numerator r /\ Z.abs (numerator x) <= Z.abs (numerator l * denominator r).
Proof.
  intros Hl Hr Hn H3 H4. unfold k_q_div. fits.
  destruct (k_make_pos _ _ H3 H4) as [x [E [_ [X1 [X2 [X3 [X4 X5]]]]]]]; [apply Z.mul_pos_pos; [apply Hl|auto]|].
  exists x. split; auto. split; auto. split; auto. split; auto. rewrite X3. destruct Hl as [_ Hl], Hr as [_ Hr].
  unfold val, Qeq, Qdiv, Qmult, Qinv. cbn [Qnum Qden].
  destruct (numerator r) as [|p|p]; try lia. cbn [Qnum Qden].
  rewrite ?Pos2Z.inj_mul, !Z2Pos.id by nia. ring.
Qed.

(** ** The statements of C67 *)
Lemma c67_div : forall a b : Z, is_index a -> is_index b ->
  (b <> 0 -> ~ (a = -9223372036854775808 /\ b = -1) ->
     exists q, k_euclidean_div a b = Ok q /\ 0 <= a - b * q < Z.abs b) /\
  (b = 0 \/ (a = -9223372036854775808 /\ b = -1) -> k_euclidean_div a b = UB).
Proof.
  intros a b Ha Hb. split; [|apply k_div_ub; auto]. intros H1 H2.
  destruct (k_div_ok a b Ha Hb H1 H2) as [q [E [_ B]]]. eauto.
Qed.
Lemma c67_mod : forall a b : Z, is_index a -> is_index b ->
  (b <> 0 -> b <> -9223372036854775808 -> ~ (a = -9223372036854775808 /\ b = -1) ->
     exists m q, k_euclidean_mod a b = Ok m /\ a = b * q + m /\ 0 <= m < Z.abs b) /\
  (b = 0 \/ b = -9223372036854775808 \/ (a = -9223372036854775808 /\ b = -1) -> k_euclidean_mod a b = UB).
Proof.
  intros a b Ha Hb. split; [|apply k_mod_ub; auto]. intros H1 H2 H3.
  destruct (k_mod_ok a b Ha Hb H1 H2 H3) as [m [q [E [_ [B C]]]]]. eauto.
Qed.
Lemma c67_make : forall n d : Z, is_index n -> is_index d ->
  (reducible n d -> exists r, k_make_rational n d = Ok r /\ is_rational r /\ lowest n d r) /\
  (~ reducible n d -> k_make_rational n d = UB).
Proof.
  intros n d Hn Hd. split; [|apply k_make_ub; auto]. intros R.
  destruct (k_make_ok n d Hn Hd R) as [r [E [_ [I L]]]]. eauto.
Qed.
Ltac both := split; [|intros N; unfold k_q_add, k_q_sub, k_q_mul, k_q_div, k_q_cmp, k_q_round; nofit; exfalso; apply N;
  unfold add_fits, sub_fits, mul_fits, div_fits, cmp_fits, round_fits; auto].
Lemma c67_add : forall l r : rational, positive l -> positive r -> exactly_if (add_fits l r) (k_q_add l r) (val l + val r).
Proof. intros l r Hl Hr. both. intros [[H1 H2] [H3 H4]]. apply k_add_ok; auto. Qed.
Lemma c67_sub : forall l r : rational, positive l -> positive r -> exactly_if (sub_fits l r) (k_q_sub l r) (val l - val r).
Proof. intros l r Hl Hr. both. intros [[H1 H2] [H3 H4]]. apply k_sub_ok; auto. Qed.
Lemma c67_mul : forall l r : rational, positive l -> positive r -> exactly_if (mul_fits l r) (k_q_mul l r) (val l * val r).
Proof. intros l r Hl Hr. both. intros [H3 H4]. apply k_mul_ok; auto. Qed.
Lemma c67_quotient : forall l r : rational, positive l -> positive r -> 0 < numerator r ->
  exactly_if (div_fits l r) (k_q_div l r) (val l / val r).
Proof.
  intros l r Hl Hr Hn. both. intros [H3 H4]. destruct (k_div_q_ok l r Hl Hr Hn H3 H4) as [x [E [X1 [X2 [X3 _]]]]]. eauto.
Qed.
Lemma c67_compare : forall l r : rational, positive l -> positive r ->
  value_if (cmp_fits l r) (k_q_lt l r) (fun b => b = true <-> (val l < val r)%Q) /\
  value_if (cmp_fits l r) (k_q_le l r) (fun b => b = true <-> (val l <= val r)%Q) /\
  value_if (cmp_fits l r) (k_q_gt l r) (fun b => b = true <-> (val r < val l)%Q) /\
  value_if (cmp_fits l r) (k_q_ge l r) (fun b => b = true <-> (val r <= val l)%Q) /\
  value_if (cmp_fits l r) (k_q_eq l r) (fun b => b = true <-> (val l == val r)%Q) /\
  value_if (cmp_fits l r) (k_q_ne l r) (fun b => b = true <-> ~ (val l == val r)%Q).
Proof.
  intros l r Hl Hr. destruct (cmp_spec l r (positive_ok l Hl) (positive_ok r Hr)) as [C1 [C2 [C3 [C4 [C5 C6]]]]].
  repeat match goal with |- _ /\ _ => split end; try (unfold k_q_lt, k_q_le, k_q_gt, k_q_ge, k_q_eq, k_q_ne; both);
    intros [H1 H2]; unfold k_q_cmp; fits; eexists; (split; [reflexivity|]); assumption.
Qed.
Lemma c67_min_max : forall l r : rational, positive l -> positive r ->
  value_if (cmp_fits l r) (k_q_min l r) (fun x => (x = l /\ val l <= val r \/ x = r /\ val r <= val l)%Q) /\
  value_if (cmp_fits l r) (k_q_max l r) (fun x => (x = l /\ val r <= val l \/ x = r /\ val l <= val r)%Q).
Proof.
  intros l r Hl Hr. destruct (minmax_spec l r (positive_ok l Hl) (positive_ok r Hr)) as [C1 C2].
  split; (unfold k_q_min, k_q_max, k_q_lt, k_q_gt; both); intros [H1 H2]; unfold k_q_cmp; fits;
    eexists; (split; [reflexivity|]); assumption.
Qed.
Lemma pos_div n d : is_index n -> is_index d -> 0 < d -> k_euclidean_div n d = Ok (n / d).
Proof.
  intros Hn Hd P. destruct (k_div_ok n d Hn Hd) as [q [E [_ B]]]; [lia|lia|]. rewrite E. f_equal.
  apply Z.div_unique with (n - d * q); lia.
Qed.
Lemma c67_floor : forall r : rational, positive r -> k_q_floor r = Ok (Qfloor (val r)).
Proof. intros r [[Hn Hd] P]. unfold k_q_floor. rewrite pos_div by auto. unfold val. rewrite Qfloor_val; auto. Qed.
Lemma c67_ceil : forall r : rational, positive r ->
  value_if (is_index (numerator r + denominator r)) (k_q_ceil r) (eq (Qceiling (val r))).
Proof.
  intros r [[Hn Hd] P]. split.
  - intros H. unfold k_q_ceil. fits. assert (H' : is_index (numerator r + denominator r - 1)) by (unfold is_index in *; lia).
    fits. rewrite pos_div by auto. eexists. split; [reflexivity|].
    unfold Qceiling, val, Qopp. cbn [Qnum Qden]. rewrite Qfloor_val by lia.
    set (n := numerator r) in *. set (d := denominator r) in *. clearbody n d.
    pose proof (Z.div_mod (-n) d). pose proof (Z.mod_pos_bound (-n) d).
    apply Z.div_unique with (d - 1 - (-n) mod d); clear Hn Hd H H'; lia.
  - intros H. unfold k_q_ceil. rewrite chk_not by auto. reflexivity.
Qed.
Lemma c67_round : forall r : rational, positive r -> value_if (round_fits r) (k_q_round r) (eq (Qfloor (val r + (1 # 2)))).
Proof.
  intros r [[Hn Hd] P]. split.
  - intros [H1 [H2 H3]]. unfold k_q_round. fits. rewrite pos_div by (auto; lia). eexists. split; [reflexivity|].
    unfold val, Qplus. cbn [Qnum Qden]. unfold Qfloor. rewrite Pos2Z.inj_mul, Z2Pos.id by lia. f_equal; ring.
  - intros N. unfold k_q_round. nofit. exfalso. apply N. unfold round_fits. auto.
Qed.
Lemma c67_frac : forall r : rational, positive r ->
  exists x, k_q_frac r = Ok x /\ positive x /\ reduced x /\ (val x == val r - inject_Z (Qfloor (val r)))%Q /\ (0 <= val x < 1)%Q.
Proof.
  intros r [[Hn Hd] P]. unfold k_q_frac.
  destruct (k_mod_ok (numerator r) (denominator r)) as [m [q [E [_ [H1 H2]]]]]; auto; try lia.
  rewrite E. cbn [bind].
  destruct (k_make_pos m (denominator r)) as [x [Ex [_ [X1 [X2 [X3 _]]]]]]; auto; [unfold is_index in *; lia|].
  exists x. split; auto. split; auto. split; auto. split.
  - rewrite X3. unfold val. rewrite Qfloor_val by lia.
    replace (numerator r / denominator r) with q by (apply Z.div_unique with m; lia).
    unfold Qeq, Qminus, Qplus, Qopp, inject_Z. cbn [Qnum Qden]. rewrite Pos2Z.inj_mul, !Z2Pos.id by lia.
    assert (Em : m = numerator r - denominator r * q) by lia. rewrite Em. ring.
  - rewrite X3. unfold Qle, Qlt. cbn [Qnum Qden]. rewrite !Z2Pos.id by lia. lia.
Qed.
Lemma small_mul a b : Z.abs a <= 2147483647 -> Z.abs b <= 2147483647 -> Z.abs (a * b) <= 4611686014132420609.
Proof. intros Ha Hb. rewrite Z.abs_mul. assert (0 <= Z.abs a) by lia. assert (0 <= Z.abs b) by lia. nia. Qed.
Lemma c67_small : forall l r : rational, small l -> small r ->
  positive l /\ cmp_fits l r /\ add_fits l r /\ sub_fits l r /\ mul_fits l r /\ div_fits l r /\
  is_index (numerator l + denominator l) /\ round_fits l.
Proof.
  intros l r [L1 L2] [R1 R2].
  pose proof (small_mul (numerator l) (denominator r) ltac:(lia) ltac:(lia)).
  pose proof (small_mul (numerator r) (denominator l) ltac:(lia) ltac:(lia)).
  pose proof (small_mul (denominator l) (denominator r) ltac:(lia) ltac:(lia)).
  pose proof (small_mul (numerator l) (numerator r) ltac:(lia) ltac:(lia)).
  pose proof (small_mul (denominator l) (numerator r) ltac:(lia) ltac:(lia)).
  unfold positive, is_rational, cmp_fits, add_fits, sub_fits, mul_fits, div_fits, round_fits, cmp_fits, is_index. 
  repeat match goal with |- _ /\ _ => split end; lia.
Qed.
Lemma c67_refines : forall l r x : rational,
  (k_q_add l r = Ok x -> q_add l r = Ok x) /\ (k_q_sub l r = Ok x -> q_sub l r = Ok x) /\
  (k_q_mul l r = Ok x -> q_mul l r = Ok x) /\ (k_q_div l r = Ok x -> q_div l r = Ok x).
Proof. exact arith_refines. Qed.
Lemma c67_ceil_refuted : exists r : rational, positive r /\ reduced r /\ is_index (Qceiling (val r)) /\ k_q_ceil r = UB.
Proof. exists (of_int 9223372036854775807). unfold positive, is_rational, reduced, is_index. cbn. repeat split; lia. Qed.
Lemma c67_compare_refuted : exists l r : rational, positive l /\ positive r /\ reduced l /\ reduced r /\
  (val l < 0 /\ 0 < val r)%Q /\ k_q_lt l r = UB.
Proof.
  exists (mkQ (-4294967296) 3), (mkQ 1 4294967296). unfold positive, is_rational, reduced, is_index. cbn. repeat split; lia.
Qed.

(** ** Positions *)
Lemma k_half : k_make_rational 1 2 = Ok (mkQ 1 2).
Proof. reflexivity. Qed.
Lemma odd_lowest x : Z.gcd (2 * x + 1) 2 = 1.
Proof.
  rewrite Z.gcd_comm. replace (2 * x + 1) with (1 + x * 2) by ring. rewrite Z.gcd_add_mult_diag_r. reflexivity.
Qed.
Lemma k_plus_half x : is_index (2 * x) -> k_q_add (of_int x) (mkQ 1 2) = Ok (mkQ (2 * x + 1) 2).
Proof.
  intros H. unfold k_q_add. cbn [of_int numerator denominator]. replace (x * 2) with (2 * x) by ring. fits.
  change (chk (1 * 1)) with (@Ok Z 1). change (chk (1 * 2)) with (@Ok Z 2). cbn [bind].
  assert (H' : is_index (2 * x + 1)) by (unfold is_index in *; lia). fits.
  apply k_make_lowest; auto; [unfold is_index; lia|lia|apply odd_lowest].
Qed.
Lemma c67_position : forall (rate : rational) (x : Z), positive rate -> 0 < numerator rate ->
  2 * (Z.abs (2 * x + 1) * denominator rate) + 2 * numerator rate <= 9223372036854775807 -> 4 * numerator rate <= 9223372036854775807 ->
  exists q, k_sample_position rate x = Ok q /\ numerator q = Qnum (position (val rate) x) /\ denominator q = QDen (position (val rate) x).
Proof.
  intros rate x Hr Hn H1 H2. unfold k_sample_position. rewrite k_half. cbn [bind]. pose proof Hr as [_ Pd].
  set (P := Z.abs (2 * x + 1) * denominator rate) in *.
  assert (HP : Z.abs (2 * x + 1) <= P) by (subst P; assert (0 <= Z.abs (2 * x + 1)) by lia; nia).
  rewrite k_plus_half by (unfold is_index; clearbody P; lia). cbn [bind].
  assert (Ha : positive (mkQ (2 * x + 1) 2)) by (unfold positive, is_rational, is_index; cbn [numerator denominator]; clearbody P; lia).
  assert (Pa : Z.abs ((2 * x + 1) * denominator rate) = P).
  { rewrite Z.abs_mul. subst P. f_equal. lia. }
  destruct (k_div_q_ok (mkQ (2 * x + 1) 2) rate Ha Hr Hn) as [b [Eb [Hb [Rb [Vb [B1 B2]]]]]]; cbn [numerator denominator] in *.
  { unfold is_index. clearbody P. lia. }
  { unfold is_index. clearbody P. lia. }
  rewrite Eb. cbn [bind]. rewrite Pa in B2. clearbody P. pose proof Hb as [_ Pb].
  destruct (k_sub_ok b (mkQ 1 2) Hb) as [q [Eq [Hq [Rq Vq]]]]; try (unfold positive, is_rational, is_index; cbn [numerator denominator]; lia).
  rewrite Eq. exists q. split; auto. apply reduced_unique; auto; [apply positive_ok; auto|].
  rewrite Vq, Vb. change (val (mkQ 1 2)) with (1 # 2)%Q.
  assert (E : (val {| numerator := 2 * x + 1; denominator := 2 |} == inject_Z x + (1 # 2))%Q) by (clear; unfold val, Qeq, Qplus, inject_Z; cbn [numerator denominator Qnum Qden Z.to_pos]; change (QDen (x # 1)) with 1; lia).
  rewrite E. reflexivity.
Qed.
Lemma mapM_spec {A B C} (f : A -> outcome B) (g : A -> C) (k : B -> C) l : (forall a, In a l -> exists b, f a = Ok b /\ k b = g a) ->
  exists r, mapM f l = Ok r /\ map k r = map g l.
Proof.
  induction l as [|a l IH]; intros H; cbn [mapM].
  - exists []. auto.
  - destruct (H a (or_introl eq_refl)) as [b [E K]]. destruct IH as [r [Er Kr]]; [intros; apply H; right; auto|].
    rewrite E, Er. cbn [bind]. exists (b :: r). cbn [map]. rewrite K, Kr. auto.
Qed.
Lemma mapM_ub {A B} (f : A -> outcome B) l a : In a l -> f a = UB -> (forall x, In x l -> f x <> AssertFail) -> mapM f l = UB.
Proof.
  induction l as [|b l IH]; intros Hi E H; [destruct Hi|]. cbn [mapM]. destruct Hi as [->|Hi].
  - rewrite E. reflexivity.
  - pose proof (H b (or_introl eq_refl)). destruct (f b); try congruence; auto. cbn [bind].
    rewrite IH; auto. intros; apply H; right; auto.
Qed.
Lemma k_positions_ok rate out : is_interval out -> (forall x, in_interval out x ->
    exists q, k_sample_position rate x = Ok q /\ numerator q = Qnum (position (val rate) x) /\ denominator q = QDen (position (val rate) x)) ->
  exists l, k_positions rate out = Ok l /\
    map fraction l = map (fun x => fraction_q (position (val rate) x)) (SpecEin.range (imin out) (iext out)).
Proof.
  intros Hi H. unfold k_positions. rewrite k_for_interval_ok by auto. rewrite for_interval_range by apply Hi. cbn [bind].
  apply mapM_spec. intros x Hx. apply in_interval_range in Hx. destruct (H x Hx) as [q [E [N D]]].
  exists q. split; auto. unfold fraction, fraction_q. rewrite N, D. auto.
Qed.

Lemma scale_room n m x : 1 <= n <= 1073741824 -> 1 <= m <= 1073741824 -> 0 <= x < m -> forall rn rd, 1 <= rn <= m -> 1 <= rd <= n ->
  2 * (Z.abs (2 * x + 1) * rd) + 2 * rn <= 9223372036854775807.
Proof.
  intros Hn Hm Hx rn rd Hr Hd. rewrite Z.abs_eq by lia.
  assert ((2 * x + 1) * rd <= 2147483648 * 1073741824); [|lia]. apply Z.mul_le_mono_nonneg; lia.
Qed.
Lemma c67_scale : forall n m : Z, 1 <= n <= 1073741824 -> 1 <= m <= 1073741824 ->
  exists l, k_scale n m = Ok l /\
    map fraction l = map (fun x => fraction_q (position (inject_Z m / inject_Z n) x)) (SpecEin.range 0 m).
Proof.
  intros n m Hn Hm. unfold k_scale.
  destruct (k_make_pos m n) as [r [E [_ [Hr [_ [V [B1 B2]]]]]]]; try (unfold is_index; lia).
  rewrite E. cbn [bind]. pose proof Hr as [_ Pd].
  assert (Pn : 0 < numerator r).
  { unfold val, Qeq in V. cbn [Qnum Qden] in V. rewrite !Z2Pos.id in V by lia. clear - V Hn Hm Pd. nia. }
  destruct (k_positions_ok r (mkI 0 m)) as [l [El Kl]].
  { unfold is_interval, is_index. cbn [imin iext]. lia. }
  { intros x Hx. unfold in_interval in Hx. cbn [imin iext] in Hx. apply c67_position; auto; [|lia].
    apply (scale_room n m); lia. }
  exists l. split; auto. rewrite Kl. cbn [imin iext]. apply map_ext. intros x. f_equal. unfold position. apply Qred_complete.
  assert (Vr : (val r == inject_Z m / inject_Z n)%Q).
  { rewrite V. unfold Qdiv, Qinv, Qeq, Qmult, inject_Z. cbn [Qnum Qden]. destruct n; try lia. cbn [Qnum Qden Z.to_pos]. lia. }
  rewrite Vr. reflexivity.
Qed.
Lemma chk_no_assert x : chk x <> AssertFail.
Proof. unfold chk. destruct (_ && _); discriminate. Qed.
Lemma make_no_assert n d : is_index n -> is_index d -> k_make_rational n d <> AssertFail.
Proof.
  intros Hn Hd. assert (D : reducible n d \/ ~ reducible n d) by (unfold reducible; lia). destruct D as [R|R].
  - destruct (k_make_ok n d Hn Hd R) as [r [E _]]. rewrite E. discriminate.
  - rewrite k_make_ub by auto. discriminate.
Qed.
Lemma arith_no_assert l r : k_q_add l r <> AssertFail /\ k_q_sub l r <> AssertFail /\ k_q_div l r <> AssertFail.
Proof. unfold k_q_add, k_q_sub, k_q_div. repeat split; nofit; try discriminate; apply make_no_assert; auto. Qed.
Lemma position_no_assert rate x : k_sample_position rate x <> AssertFail.
Proof.
  unfold k_sample_position. rewrite k_half. cbn [bind].
  pose proof (proj1 (arith_no_assert (of_int x) (mkQ 1 2))). destruct (k_q_add _ _) as [a| |]; cbn [bind]; try congruence.
  pose proof (proj2 (proj2 (arith_no_assert a rate))). destruct (k_q_div _ _) as [b| |]; cbn [bind]; try congruence.
  apply arith_no_assert.
Qed.
Lemma c67_scale_refuted : exists n m : Z, 1 <= n <= 2147483647 /\ 1 <= m <= 2147483647 /\ k_scale n m = UB.
Proof.
  exists 2147483647, 2147483646. split; [lia|]. split; [lia|]. unfold k_scale.
  rewrite k_make_lowest by (try (unfold is_index; lia); try lia; vm_compute; reflexivity). cbn [bind].
  unfold k_positions. rewrite k_for_interval_ok by (unfold is_interval, is_index; cbn [imin iext]; lia).
  rewrite for_interval_range by (cbn [iext]; lia). cbn [bind imin iext].
  apply (mapM_ub _ _ 2147483645).
  - apply (in_interval_range (mkI 0 2147483646)). unfold in_interval. cbn [imin iext]. lia.
  - unfold k_sample_position. rewrite k_half. cbn [bind]. rewrite k_plus_half by (unfold is_index; lia). cbn [bind].
    unfold k_q_div. cbn [numerator denominator].
    rewrite !chk_ok by (unfold is_index; lia). cbn [bind].
    rewrite k_make_lowest by (try (unfold is_index; lia); try lia; vm_compute; reflexivity). reflexivity.
  - intros. apply position_no_assert.
Qed.
Lemma c67_example :
  map (fun p => k_euclidean_div (fst p) (snd p)) [(-7, 2); (7, -2); (-7, -2); (-9223372036854775808, -9223372036854775808); (-9223372036854775808, -1)]
    = [Ok (-4); Ok (-3); Ok 4; Ok 1; UB] /\
  map (fun p => k_euclidean_mod (fst p) (snd p)) [(-7, 2); (-7, -2); (5, -9223372036854775808); (-9223372036854775808, -1)] = [Ok 1; Ok 1; UB; UB] /\
  map (fun p => k_make_rational (fst p) (snd p)) [(6, -4); (4, -2); (-3, 0); (0, 0); (-9223372036854775808, 6)]
    = [Ok (mkQ 3 (-2)); Ok (mkQ (-2) 1); Ok (mkQ 1 0); UB; Ok (mkQ (-4611686018427387904) 3)].
Proof. repeat split; vm_compute; reflexivity. Qed.
Lemma c67_arith_example :
  let l := mkQ (-3) 2 in let r := mkQ 1 6 in
  positive l /\ positive r /\ add_fits l r /\ small l /\ small r /\
  k_q_add l r = Ok (mkQ (-4) 3) /\ k_q_sub l r = Ok (mkQ (-5) 3) /\ k_q_mul l r = Ok (mkQ (-1) 4) /\ k_q_div l r = Ok (mkQ (-9) 1) /\
  k_q_lt l r = Ok true /\ k_q_floor l = Ok (-2) /\ k_q_ceil l = Ok (-1) /\ k_q_round l = Ok (-1) /\ k_q_frac (mkQ (-4) 3) = Ok (mkQ 2 3) /\
  ~ mul_fits (mkQ 4294967296 1) (mkQ 4294967296 1) /\ k_q_mul (mkQ 4294967296 1) (mkQ 4294967296 1) = UB.
Proof.
  unfold positive, small, add_fits, cmp_fits, mul_fits, is_rational, is_index. cbn [numerator denominator].
  repeat match goal with |- _ /\ _ => split end; try (vm_compute; reflexivity); lia.
Qed.
Lemma c67_scale_example :
  k_scale 2 3 = Ok [mkQ (-1) 6; mkQ 1 2; mkQ 7 6] /\ k_sample_position (mkQ 3 2) (2 ^ 60) = Ok (mkQ 1537228672809129301 2) /\
  k_sample_position (mkQ 2 3) (2 ^ 61) = UB.
Proof. repeat split; vm_compute; reflexivity. Qed.
