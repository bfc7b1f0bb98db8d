(** Rounding errors of the versions of matrix products and convolutions. *)
From Coq Require Import ZArith QArith Qabs List Bool Lia Lqa Qfield.
From Verif Require Import Base Interval Shape Memory Ref Container Ein Matrix Conv Rounding.
From Verif Require Import Spec SpecMem SpecContainer SpecStatic SpecEin SpecMatrix SpecConv SpecRounding.
From Verif Require Import IntervalFacts EinMake MatrixFacts MatrixProd MatrixEin MatrixTiles MatrixZ MatrixOrder ConvFacts RoundingFacts RelateFacts.
Import ListNotations.
Local Open Scope Q_scope.

Lemma bound_eq u e d m a b : a == b -> error_bound u e d m a == error_bound u e d m b.
Proof. intros E. unfold error_bound. rewrite E. reflexivity. Qed.
Lemma dot_near u e rnd f g ks i j : rounds u e rnd ->
  near u e (S (length ks)) (2 * length ks) f g ks i j (inner_product 0 (radd rnd) (rmul rnd) f g ks i j).
Proof.
  intros Hr. unfold near. rewrite <- (dot_computed f g i j rnd ks), <- (dot_meant f g i j ks), <- (bound_eq _ _ _ _ _ _ (dot_size f g i j ks)).
  apply tree_error; auto. { apply dot_depth. } rewrite dot_roundings. auto.
Qed.
Lemma multiplies_near u e rnd h run C f g ks : rounds u e rnd -> multiplies 0 (radd rnd) (rmul rnd) h run C f g ks ->
  leaves h run C (near u e (S (length ks)) (2 * length ks) f g ks).
Proof.
  intros Hr (h' & E & H & O). exists h'. split; auto. split; auto. intros i j Hij. eexists. split; [apply H; auto|]. apply dot_near; auto.
Qed.
Lemma range_length lo n : length (range lo n) = Z.to_nat n.
Proof. unfold range. rewrite map_length, seq_length. reflexivity. Qed.

(** ** In blocks *)
Lemma range_split lo n m : (0 <= n)%Z -> (0 <= m)%Z -> range lo (n + m) = range lo n ++ range (lo + n)%Z m.
Proof. exact (range_app 0%Z Z.add Z.mul (fun _ => 0%Z) (fun _ => 0%Z) Z.add_assoc Z.add_0_l lo n m). Qed.
Lemma blocks_range l : forall a e, consecutive a (a + e)%Z l -> Forall (fun p => (1 <= iext p)%Z) l ->
  concat (map (fun p => range (imin p) (iext p)) l) = range a e.
Proof.
  induction l as [|b l IH]; intros a e Co Fo.
  - inversion Co; subst. replace e with 0%Z by lia. reflexivity.
  - inversion Co as [|a' e' b' l' Co']; subst. inversion Fo as [|? ? H1 H2]; subst. cbn [iext] in H1.
    assert (e' <= e)%Z. { apply consecutive_in with (x := 0%Z) in Co'; [lia|]. eapply Forall_impl; [|eassumption]. cbn beta. lia. }
    cbn [map concat imin iext]. rewrite (IH (a + e')%Z (e - e')%Z); auto; [|replace (a + e' + (e - e'))%Z with (a + e)%Z by lia; auto].
    replace e with (e' + (e - e'))%Z at 2 by lia. rewrite range_split by lia. reflexivity.
Qed.
Lemma blocks_count tk l : forall b a e, consecutive a (a + e)%Z (b :: l) -> Forall (fun p => (1 <= iext p <= tk)%Z) (b :: l) ->
  Forall (fun p => iext p = tk) (removelast (b :: l)) -> (Z.of_nat (length l) * tk < e)%Z.
Proof.
  induction l as [|c l IH]; intros b a e Co Fo Rl.
  - inversion Co as [|a' e' b' l' Co']; subst. inversion Co'; subst. inversion Fo; subst. cbn in *. lia.
  - inversion Co as [|a' e' b' l' Co']; subst. inversion Fo; subst. change (removelast (mkI a e' :: c :: l)) with (mkI a e' :: removelast (c :: l)) in Rl.
    inversion Rl as [|? ? E R]; subst. cbn [iext] in *.
    specialize (IH c (a + e')%Z (e - e')%Z). replace (a + e' + (e - e'))%Z with (a + e)%Z in IH by lia. specialize (IH Co' H2 R). cbn [length]. lia.
Qed.
Section ZOrder.
Variables (rnd : Q -> Q) (h0 : heap Q) (A B C : aref) (f g : list Z -> Q) (ai ak bk bj ci cj : dim) (N1 N2 tile_k : Z) (nd : bool).
Hypothesis Se : setting h0 A B C f g ai ak bk bj ci cj.
Hypotheses (HN1 : (1 <= N1 <= dext ci)%Z) (HN2 : (1 <= N2 <= dext cj)%Z) (HK : (1 <= tile_k)%Z).
Hypotheses (X1 : (dext ci <= 2 ^ 62)%Z) (X2 : (dext cj <= 2 ^ 62)%Z) (X3 : (1 <= dext ak)%Z).
Hypotheses (D1 : (dext ci mod N1 = 0)%Z) (D2 : (dext cj mod N2 = 0)%Z).
Let run := multiply_reduce_tiles_z_order 0 (radd rnd) (rmul rnd) nd N1 N2 tile_k A B C h0.
Lemma z_order_blocks : exists b r, b ++ concat r = range (dmin ak) (dext ak) /\ (length b <= Z.to_nat tile_k)%nat /\
  Forall (fun a => (length a <= Z.to_nat tile_k)%nat) r /\ (length r <= Z.to_nat ((dext ak - 1) / tile_k))%nat /\
  leaves h0 run C (fun i j v => v = computed rnd (blocks f g i j b r)).
Proof.
  destruct (z_order_exact 0 (radd rnd) (rmul rnd) h0 A B C f g ai ak bk bj ci cj N1 N2 tile_k nd Se HN1 HN2 HK X1 X2 X3)
    as (b & r & h' & Co & Fo & Rl & E & S' & O').
  set (R := fun p => range (imin p) (iext p)). exists (R b), (map R r). split.
  { change (R b ++ concat (map R r)) with (concat (map R (b :: r))). apply blocks_range; auto. eapply Forall_impl; [|exact Fo]. cbn beta. lia. }
  pose proof (blocks_count tile_k r b _ _ Co Fo Rl) as Len. inversion Fo as [|? ? F1 F2]; subst.
  split; [unfold R; rewrite range_length; lia|]. split.
  { apply Forall_map. eapply Forall_impl; [|exact F2]. cbn beta. intros p Hp. unfold R. rewrite range_length. lia. }
  split. { rewrite map_length. assert (Z.of_nat (length r) <= (dext ak - 1) / tile_k)%Z by (apply Z.div_le_lower_bound; lia). lia. }
  exists h'. split; [exact E|]. split; [|exact O']. intros i j Hij. eexists. split; [apply S'; auto|].
  rewrite (flat_map_ext _ (fun p => [inner_product 0 (radd rnd) (rmul rnd) f g (R p) i j])) by (intro p; rewrite !tile_count_even by auto; reflexivity).
  unfold blocks. rewrite loop_computed, !map_map, dot_computed. rewrite (map_ext _ (fun p => inner_product 0 (radd rnd) (rmul rnd) f g (R p) i j)).
  - f_equal.
  - intros p. apply dot_computed.
Qed.
Lemma z_order_near u e : rounds u e rnd ->
  let d := (S (Z.to_nat tile_k) + Z.to_nat ((dext ak - 1) / tile_k))%nat in
  let m := (2 * Z.to_nat (dext ak) + Z.to_nat ((dext ak - 1) / tile_k))%nat in
  leaves h0 run C (near u e d m f g (range (dmin ak) (dext ak))).
Proof.
  intros Hr d m. destruct z_order_blocks as (b & r & E & Lb & Lr & Len & h' & Er & H & O). exists h'. split; auto. split; auto.
  intros i j Hij. destruct (H i j Hij) as (v & Hv & ->). eexists. split; [exact Hv|]. unfold near. rewrite <- E.
  rewrite <- (blocks_meant f g i j b r), <- (bound_eq _ _ _ _ _ _ (blocks_size f g i j b r)). apply tree_error; auto.
  - pose proof (blocks_depth f g i j b r _ Lb Lr). unfold d. lia.
  - rewrite blocks_roundings, E, range_length. unfold m. lia.
Qed.
Lemma z_order_integers m : keeps_integers m rnd ->
  (forall i j k, in_bounds (r_shape C) [i; j] -> In k (range (dmin ak) (dext ak)) -> integer (f [i; k]) /\ integer (g [k; j])) ->
  (forall i j, in_bounds (r_shape C) [i; j] -> abs_product f g (range (dmin ak) (dext ak)) i j <= inject_Z m) ->
  leaves h0 run C (fun i j v => v == product f g (range (dmin ak) (dext ak)) i j).
Proof.
  intros Hk Hi Hm. destruct z_order_blocks as (b & r & E & Lb & Lr & Len & h' & Er & H & O). exists h'. split; auto. split; auto.
  intros i j Hij. destruct (H i j Hij) as (v & Hv & ->). eexists. split; [exact Hv|]. rewrite <- E in *. rewrite <- (blocks_meant f g i j b r).
  apply (tree_exact m); auto.
  - apply blocks_integers. intros k Hkk. apply Hi; auto.
  - rewrite blocks_size. apply Hm; auto.
Qed.
End ZOrder.
Lemma multiplies_integers m rnd h run C f g ks : keeps_integers m rnd -> multiplies 0 (radd rnd) (rmul rnd) h run C f g ks ->
  (forall i j k, in_bounds (r_shape C) [i; j] -> In k ks -> integer (f [i; k]) /\ integer (g [k; j])) ->
  (forall i j, in_bounds (r_shape C) [i; j] -> abs_product f g ks i j <= inject_Z m) ->
  leaves h run C (fun i j v => v == product f g ks i j).
Proof.
  intros Hk (h' & E & H & O) Hi Hm. exists h'. split; auto. split; auto. intros i j Hij. eexists. split; [apply H; auto|].
  rewrite <- (dot_computed f g i j rnd ks), <- (dot_meant f g i j ks). apply (tree_exact m); auto.
  - apply dot_integers. intros k Hkk. apply Hi; auto.
  - rewrite dot_size. apply Hm; auto.
Qed.

(** ** Convolutions *)
Section Convolution.
Variables (rnd : Q -> Q) (f g b : list Z -> Q) (cis dys dxs : list Z) (co x y n : Z).
Definition tap (ci dy dx : Z) : sum_tree := Times (g [co; dx; dy; ci]) (f [ci; x + dx; y + dy; n])%Z.
Definition taps : list sum_tree := flat_map (fun ci => flat_map (fun dy => map (tap ci dy) dxs) dys) cis.
Definition conv_tree : sum_tree := loop taps (Given (b [co])).
Lemma map_taps {A} (F : sum_tree -> A) : map F taps = flat_map (fun ci => flat_map (fun dy => map (fun dx => F (tap ci dy dx)) dxs) dys) cis.
Proof.
  unfold taps. induction cis as [|c l IH]; [reflexivity|]. cbn [flat_map]. rewrite map_app, IH. f_equal. clear IH.
  induction dys as [|d l' IH]; [reflexivity|]. cbn [flat_map]. rewrite map_app, map_map, IH. reflexivity.
Qed.
Lemma conv_computed : computed rnd conv_tree = conv_sum (radd rnd) (rmul rnd) f g b cis dys dxs co x y n.
Proof. unfold conv_tree. rewrite loop_computed, map_taps. reflexivity. Qed.
Lemma conv_meant : meant conv_tree == convolution f g b cis dys dxs co x y n.
Proof. unfold conv_tree, convolution, conv_sum. rewrite loop_meant, fold_qsum, map_taps. reflexivity. Qed.
Lemma conv_size : size conv_tree == abs_convolution f g b cis dys dxs co x y n.
Proof.
  unfold conv_tree, abs_convolution, conv_sum. rewrite loop_size, fold_qsum, map_taps. apply Qplus_comp; [reflexivity|]. unfold conv_terms.
  induction cis as [|c l IH]; [reflexivity|]. cbn [flat_map]. rewrite !qsum_app, IH. apply Qplus_comp; [|reflexivity]. clear IH.
  induction dys as [|d l' IH]; [reflexivity|]. cbn [flat_map]. rewrite !qsum_app, IH. apply Qplus_comp; [|reflexivity]. clear IH.
  induction dxs as [|d' l'' IH]; [reflexivity|]. cbn [map qsum fold_right]. unfold qsum in IH. rewrite IH. apply Qplus_comp; [|reflexivity].
  unfold tap. cbn [size]. apply Qabs_Qmult.
Qed.
Let N := (length cis * (length dys * length dxs))%nat.
Lemma taps_length : length taps = N.
Proof.
  unfold taps, N. induction cis as [|c l IH]; [reflexivity|]. cbn [flat_map length]. rewrite app_length, IH. clear IH.
  replace (length (flat_map (fun dy => map (tap c dy) dxs) dys)) with (length dys * length dxs)%nat; [lia|].
  induction dys as [|d l' IH]; [reflexivity|]. cbn [flat_map length]. rewrite app_length, map_length, <- IH. lia.
Qed.
Lemma taps_times : Forall (fun t => depth t = 1%nat /\ roundings t = 1%nat) taps.
Proof.
  apply Forall_forall. intros t H. unfold taps in H. apply in_flat_map in H. destruct H as (c & _ & H). apply in_flat_map in H. destruct H as (d & _ & H).
  apply in_map_iff in H. destruct H as (d' & <- & _). auto.
Qed.
Lemma conv_near u e : rounds u e rnd ->
  Qabs (conv_sum (radd rnd) (rmul rnd) f g b cis dys dxs co x y n - convolution f g b cis dys dxs co x y n)
    <= error_bound u e (S N) (2 * N) (abs_convolution f g b cis dys dxs co x y n).
Proof.
  intros Hr. rewrite <- conv_computed, <- conv_meant, <- (bound_eq _ _ _ _ _ _ conv_size). apply tree_error; auto.
  - unfold conv_tree. pose proof (loop_depth 1 taps) as L. specialize (L ltac:(eapply Forall_impl; [|exact taps_times]; cbn beta; lia) (Given (b [co])) 1%nat).
    cbn [depth] in L. rewrite taps_length in L. lia.
  - unfold conv_tree. rewrite loop_roundings, taps_length. cbn [roundings].
    assert (E : list_sum (map roundings taps) = length taps); [|rewrite taps_length in E; lia].
    pose proof taps_times as F. induction F as [|t l [_ R] _ IH]; [reflexivity|]. cbn [map list_sum fold_right length]. rewrite R. unfold list_sum in IH. rewrite IH. reflexivity.
Qed.
End Convolution.
Lemma relu_close a b t : Qabs (a - b) <= t -> Qabs (relu a - relu b) <= t.
Proof.
  intros H. assert (0 <= t) by (pose proof (Qabs_nonneg (a - b)); lra). unfold relu. destruct (Qlt_le_dec a 0), (Qlt_le_dec b 0); rewrite abs_le in *; lra.
Qed.

(** ** The comparison in main *)
Lemma max_cases a b : let m := if Qle_bool a b then b else a in (m == a \/ m == b) /\ a <= m /\ b <= m.
Proof.
  cbv zeta. destruct (Qle_bool a b) eqn:E.
  - apply Qle_bool_iff in E. split; [right; reflexivity|lra].
  - assert (~ a <= b) by (intros H; apply Qle_bool_iff in H; congruence). split; [left; reflexivity|lra].
Qed.
Lemma differs_spec tol a b : 0 <= a -> 0 <= b -> 0 <= tol ->
  (differs tol a b = false <-> Qabs (a - b) <= tol * (if Qle_bool a b then b else a)).
Proof.
  intros Ha Hb Ht. pose proof (max_cases a b) as M. cbv zeta in M. unfold differs. set (m := if Qle_bool a b then b else a) in *. destruct M as (_ & Ma & Mb).
  destruct (Qeq_bool m 0) eqn:E.
  - apply Qeq_bool_iff in E. assert (a == b) by lra. rewrite (proj2 (Qeq_bool_iff a b)) by auto. split; [intros _|reflexivity].
    rewrite abs_le. rewrite E. lra.
  - apply Qeq_bool_neq in E. assert (0 < m) by lra. rewrite negb_false_iff, Qle_bool_iff. split; intros H1.
    + apply Qmult_le_compat_r with (z := m) in H1; [|lra]. setoid_replace (Qabs (a - b) / m * m) with (Qabs (a - b)) in H1 by (field; lra). exact H1.
    + apply Qle_shift_div_r; auto.
Qed.
Lemma differs_negative tol a b : a < 0 -> b < 0 -> 0 <= tol -> differs tol a b = false.
Proof.
  intros Ha Hb Ht. pose proof (max_cases a b) as M. cbv zeta in M. unfold differs. set (m := if Qle_bool a b then b else a) in *. destruct M as (M & _ & _).
  assert (m < 0) by lra. destruct (Qeq_bool m 0) eqn:E; [apply Qeq_bool_iff in E; lra|]. rewrite negb_false_iff, Qle_bool_iff.
  apply Qle_trans with 0; auto. pose proof (Qabs_nonneg (a - b)) as P. unfold Qdiv.
  assert (/ m < 0). { assert (0 < / - m) by (apply Qinv_lt_0_compat; lra). setoid_replace (/ m) with (- / - m) by (field; lra). lra. }
  assert (0 <= Qabs (a - b) * - / m) by (apply Qmult_le_0_compat; lra). lra.
Qed.
Lemma differs_same tol a b : a == b -> 0 <= tol -> differs tol a b = false.
Proof.
  intros E Ht. unfold differs. rewrite (proj2 (Qeq_bool_iff a b)) by auto. destruct (Qeq_bool _ 0); [reflexivity|].
  rewrite negb_false_iff, Qle_bool_iff. setoid_replace (a - b) with 0 by lra. change (Qabs 0) with 0. unfold Qdiv. lra.
Qed.
Lemma accepts_iff tol M N c1 c2 : accepts tol M N c1 c2 = true <-> forall i j, (0 <= i < M)%Z -> (0 <= j < N)%Z -> differs tol (c1 i j) (c2 i j) = false.
Proof.
  assert (I : forall n k, In k (map Z.of_nat (seq 0 (Z.to_nat n))) <-> (0 <= k < n)%Z).
  { intros n k. rewrite in_map_iff. split.
    - intros (a & <- & H). apply in_seq in H. lia.
    - intros H. exists (Z.to_nat k). rewrite in_seq. lia. }
  unfold accepts. rewrite forallb_forall. split.
  - intros H i j Hi Hj. specialize (H i (proj2 (I M i) Hi)). rewrite forallb_forall in H. specialize (H j (proj2 (I N j) Hj)).
    rewrite negb_true_iff in H. exact H.
  - intros H i Hi. apply I in Hi. rewrite forallb_forall. intros j Hj. apply I in Hj. rewrite negb_true_iff. auto.
Qed.
Lemma abs_same f g ks i j : (forall k, In k ks -> 0 <= f [i; k] /\ 0 <= g [k; j]) -> abs_product f g ks i j == product f g ks i j /\ 0 <= product f g ks i j.
Proof.
  intros H. unfold abs_product, product, inner_product. rewrite !fold_qsum.
  induction ks as [|k ks IH]; [cbn [map qsum fold_right]; split; lra|]. cbn [map qsum fold_right].
  destruct (H k (or_introl eq_refl)) as [Hf Hg]. destruct IH as [E P]; [intros; apply H; right; auto|]. unfold qsum in *.
  assert (0 <= f [i; k] * g [k; j]) by (apply Qmult_le_0_compat; auto). rewrite !Qabs_pos by auto. split; lra.
Qed.
Lemma close_accepted S g1 g2 a b tol : 0 <= S -> 0 <= g1 -> 0 <= g2 -> 0 <= tol -> g2 <= 1 -> g1 <= 1 -> g1 + g2 <= tol * (1 - g2) ->
  Qabs (a - S) <= g1 * S -> Qabs (b - S) <= g2 * S -> differs tol a b = false.
Proof.
  intros HS H1 H2 Ht L2 L1 Hb A B. rewrite abs_le in A, B.
  assert (0 <= (1 - g1) * S) by (apply Qmult_le_0_compat; lra). assert (0 <= (1 - g2) * S) by (apply Qmult_le_0_compat; lra).
  apply differs_spec; [lra|lra|auto|]. pose proof (max_cases a b) as M. cbv zeta in M. set (m := if Qle_bool a b then b else a) in *. destruct M as (_ & _ & Mb).
  assert (0 <= tol * (m - (1 - g2) * S)) by (apply Qmult_le_0_compat; lra).
  assert (0 <= (tol * (1 - g2) - (g1 + g2)) * S) by (apply Qmult_le_0_compat; lra). rewrite abs_le. lra.
Qed.

(** ** The theorems *)
Section All.
Variables (u e : Q) (rnd : Q -> Q).
Hypothesis Hr : rounds u e rnd.
Lemma products_near (h : heap Q) (A B C : aref) (f g : list Z -> Q) (ai ak bk bj ci cj : dim) : setting h A B C f g ai ak bk bj ci cj ->
  let K := Z.to_nat (dext ak) in
  let ok run := leaves h run C (near u e (S K) (2 * K) f g (range (dmin ak) (dext ak))) in
  ok (multiply_reduce_cols 0 (radd rnd) (rmul rnd) A B C h) /\ ok (multiply_reduce_rows 0 (radd rnd) (rmul rnd) A B C h) /\
  ok (multiply_reduce_matrix 0 (radd rnd) (rmul rnd) A B C h) /\
  (forall (nd : bool) (i j k : nat), i <> j -> i <> k -> j <> k -> spans ci ai -> spans cj bj -> same_bounds ak bk ->
     ok (multiply_ein 0 (radd rnd) (rmul rnd) nd i j k A B C h)) /\
  (forall (nd : bool) (N1 N2 : Z), (1 <= N1 <= dext ci)%Z -> (1 <= N2 <= dext cj)%Z ->
     ok (multiply_reduce_tiles 0 (radd rnd) (rmul rnd) nd N1 N2 A B C h) /\
     (same_bounds ak bk -> ok (multiply_ein_reduce_tiles 0 (radd rnd) (rmul rnd) nd N1 N2 A B C h))).
Proof.
  intros Se K ok.
  assert (W : forall run, multiplies 0 (radd rnd) (rmul rnd) h run C f g (range (dmin ak) (dext ak)) -> ok run).
  { intros run M. unfold ok, K. rewrite <- (range_length (dmin ak) (dext ak)). apply (multiplies_near u e rnd); auto. }
  split; [eapply W, reduce_cols; eauto|]. split; [eapply W, reduce_rows; eauto|]. split; [eapply W, reduce_matrix; eauto|]. split.
  - intros. eapply W, multiply_ein_ok; eauto.
  - intros. split; [eapply W, reduce_tiles; eauto|]. intros. eapply W, ein_reduce_tiles; eauto.
Qed.
Lemma plain_near (h : heap Q) (pA pB pC : ptr) (M K N : Z) (f g : list Z -> Q) :
  (0 <= M <= 2147483647)%Z -> (0 <= K <= 2147483647)%Z -> (0 <= N <= 2147483647)%Z ->
  (M * K <= 2147483648)%Z -> (K * N <= 2147483648)%Z -> (M * N <= 2147483648)%Z ->
  operands_of h (flat_matrix pA M K) (flat_matrix pB K N) (flat_matrix pC M N) f g -> usable_heap h ->
  leaves h (multiply_ref 0 (radd rnd) (rmul rnd) pA pB pC M K N h) (flat_matrix pC M N) (near u e (S (Z.to_nat K)) (2 * Z.to_nat K) f g (range 0 K)).
Proof.
  intros. rewrite <- (range_length 0 K). apply (multiplies_near u e rnd); auto. apply multiply_ref_ok; auto.
Qed.
Lemma less_relu s : (if less s 0 then 0 else s) == relu s /\ (if less 0 s then s else 0) == relu s.
Proof.
  unfold less, relu. pose proof (Qle_bool_iff 0 s) as L1. pose proof (Qle_bool_iff s 0) as L2.
  destruct (Qlt_le_dec s 0), (Qle_bool 0 s), (Qle_bool s 0); cbn [negb]; split; try lra;
    try (pose proof (proj1 L1 eq_refl); lra); try (pose proof (proj1 L2 eq_refl); lra).
  all: try (assert (~ 0 <= s) by (intros H; apply L1 in H; discriminate)); try (assert (~ s <= 0) by (intros H; apply L2 in H; discriminate)); lra.
Qed.
Lemma convolutions_near (h : heap Q) (I F B O : aref) (f g b : list Z -> Q) (dco dx dy dn fx fy fc : dim) :
  conv_setting h I F B O f g b dco dx dy dn fx fy fc ->
  let N := (Z.to_nat (dext fc) * (Z.to_nat (dext fy) * Z.to_nat (dext fx)))%nat in
  let rc := range (dmin fc) (dext fc) in let ry := range (dmin fy) (dext fy) in let rx := range (dmin fx) (dext fx) in
  let ok run := exists h', run = Ok h' /\
    (forall co x y n, in_bounds (r_shape O) [co; x; y; n] -> exists v, holds h' (elem (r_base O) (r_shape O) [co; x; y; n]) v /\
       Qabs (v - relu (convolution f g b rc ry rx co x y n)) <= error_bound u e (S N) (2 * N) (abs_convolution f g b rc ry rx co x y n)) /\
    (forall p, ~ is_elem (r_base O) (r_shape O) p -> peek h' p = peek h p) in
  ok (conv2d_naive 0 (radd rnd) (rmul rnd) less I F B O h) /\
  (forall (nd : bool) (tile_co tile_x : Z), (1 <= tile_co <= dext dco)%Z -> (1 <= tile_x <= dext dx)%Z ->
     ok (conv2d_tiled 0 (radd rnd) (rmul rnd) less nd tile_co tile_x I F B O h)).
Proof.
  intros Cs N rc ry rx ok.
  assert (Nr : forall co x y n v, v == relu (conv_sum (radd rnd) (rmul rnd) f g b rc ry rx co x y n) ->
    Qabs (v - relu (convolution f g b rc ry rx co x y n)) <= error_bound u e (S N) (2 * N) (abs_convolution f g b rc ry rx co x y n)).
  { intros co x y n v E. rewrite E. apply relu_close. pose proof (conv_near rnd f g b rc ry rx co x y n u e Hr) as H.
    cbv zeta in H. unfold rc, ry, rx in H. rewrite !range_length in H. exact H. }
  split.
  - destruct (conv_naive 0 (radd rnd) (rmul rnd) less h I F B O f g b dco dx dy dn fx fy fc Cs) as (h' & E & H & P). exists h'. split; auto. split; auto.
    intros co x y n Hi. eexists. split; [apply H; auto|]. apply Nr. cbv zeta. apply less_relu.
  - intros nd t1 t2 H1 H2. destruct (conv_tiled 0 (radd rnd) (rmul rnd) less h I F B O f g b dco dx dy dn fx fy fc Cs nd t1 t2 H1 H2) as (h' & E & H & P).
    exists h'. split; auto. split; auto. intros co x y n Hi. eexists. split; [apply H; auto|]. apply Nr. cbv zeta. apply less_relu.
Qed.
(** The two convolutions sum up in the same order *)
Lemma convolutions_same tol (h : heap Q) (I F B O : aref) (f g b : list Z -> Q) (dco dx dy dn fx fy fc : dim) (nd : bool) (tile_co tile_x : Z) :
  conv_setting h I F B O f g b dco dx dy dn fx fy fc -> (1 <= tile_co <= dext dco)%Z -> (1 <= tile_x <= dext dx)%Z -> 0 <= tol ->
  exists h1 h2, conv2d_naive 0 (radd rnd) (rmul rnd) less I F B O h = Ok h1 /\ conv2d_tiled 0 (radd rnd) (rmul rnd) less nd tile_co tile_x I F B O h = Ok h2 /\
    forall co x y n v1 v2, in_bounds (r_shape O) [co; x; y; n] -> holds h1 (elem (r_base O) (r_shape O) [co; x; y; n]) v1 ->
      holds h2 (elem (r_base O) (r_shape O) [co; x; y; n]) v2 -> differs tol v1 v2 = false.
Proof.
  intros Cs H1 H2 Ht.
  destruct (conv_naive 0 (radd rnd) (rmul rnd) less h I F B O f g b dco dx dy dn fx fy fc Cs) as (h1 & E1 & V1 & _).
  destruct (conv_tiled 0 (radd rnd) (rmul rnd) less h I F B O f g b dco dx dy dn fx fy fc Cs nd tile_co tile_x H1 H2) as (h2 & E2 & V2 & _).
  exists h1, h2. split; auto. split; auto. intros co x y n v1 v2 Hi P1 P2. specialize (V1 co x y n Hi). specialize (V2 co x y n Hi). cbv zeta in V1, V2.
  rewrite (holds_det _ _ _ _ P1 V1), (holds_det _ _ _ _ P2 V2). apply differs_same; auto.
  destruct (less_relu (conv_sum (radd rnd) (rmul rnd) f g b (range (dmin fc) (dext fc)) (range (dmin fy) (dext fy)) (range (dmin fx) (dext fx)) co x y n)) as [L1 L2].
  rewrite L1, L2. reflexivity.
Qed.
End All.
Lemma products_integers m rnd (h : heap Q) (A B C : aref) (f g : list Z -> Q) (ai ak bk bj ci cj : dim) : keeps_integers m rnd ->
  setting h A B C f g ai ak bk bj ci cj ->
  (forall i j k, in_bounds (r_shape C) [i; j] -> In k (range (dmin ak) (dext ak)) -> integer (f [i; k]) /\ integer (g [k; j])) ->
  (forall i j, in_bounds (r_shape C) [i; j] -> abs_product f g (range (dmin ak) (dext ak)) i j <= inject_Z m) ->
  let ok run := leaves h run C (fun i j v => v == product f g (range (dmin ak) (dext ak)) i j) in
  ok (multiply_reduce_cols 0 (radd rnd) (rmul rnd) A B C h) /\ ok (multiply_reduce_rows 0 (radd rnd) (rmul rnd) A B C h) /\
  ok (multiply_reduce_matrix 0 (radd rnd) (rmul rnd) A B C h) /\
  (forall (nd : bool) (i j k : nat), i <> j -> i <> k -> j <> k -> spans ci ai -> spans cj bj -> same_bounds ak bk ->
     ok (multiply_ein 0 (radd rnd) (rmul rnd) nd i j k A B C h)) /\
  (forall (nd : bool) (N1 N2 : Z), (1 <= N1 <= dext ci)%Z -> (1 <= N2 <= dext cj)%Z ->
     ok (multiply_reduce_tiles 0 (radd rnd) (rmul rnd) nd N1 N2 A B C h) /\
     (same_bounds ak bk -> ok (multiply_ein_reduce_tiles 0 (radd rnd) (rmul rnd) nd N1 N2 A B C h)) /\
     (forall tile_k, (1 <= tile_k)%Z -> (dext ci <= 2 ^ 62)%Z -> (dext cj <= 2 ^ 62)%Z -> (1 <= dext ak)%Z ->
        (dext ci mod N1 = 0)%Z -> (dext cj mod N2 = 0)%Z ->
        ok (multiply_reduce_tiles_z_order 0 (radd rnd) (rmul rnd) nd N1 N2 tile_k A B C h))).
Proof.
  intros Hk Se Hi Hm ok.
  assert (W : forall run, multiplies 0 (radd rnd) (rmul rnd) h run C f g (range (dmin ak) (dext ak)) -> ok run).
  { intros run M. apply (multiplies_integers m rnd); auto. }
  split; [eapply W, reduce_cols; eauto|]. split; [eapply W, reduce_rows; eauto|]. split; [eapply W, reduce_matrix; eauto|]. split.
  - intros. eapply W, multiply_ein_ok; eauto.
  - intros. split; [eapply W, reduce_tiles; eauto|]. split; [intros; eapply W, ein_reduce_tiles; eauto|]. intros.
    eapply z_order_integers; eauto.
Qed.

Section Check.
Variables (u : Q) (rnd : Q -> Q).
Hypothesis Hr : rounds u 0 rnd.
Variables (M K N : Z) (f g : list Z -> Q).
Hypotheses (HM : (1 <= M <= 2147483647)%Z) (HKK : (1 <= K <= 2147483647)%Z) (HN : (1 <= N <= 2147483647)%Z).
Hypotheses (Z1 : (M * K <= 2147483648)%Z) (Z2 : (K * N <= 2147483648)%Z) (Z3 : (M * N <= 2147483648)%Z).
Variables (h : heap Q) (pA pB pC : ptr).
Hypothesis Op : operands_of h (flat_matrix pA M K) (flat_matrix pB K N) (flat_matrix pC M N) f g.
Hypothesis Us : usable_heap h.
Variables (h2 : heap Q) (A B C : aref) (ai ak bk bj ci cj : dim).
Hypothesis Se : setting h2 A B C f g ai ak bk bj ci cj.
Hypotheses (Ci : dmin ci = 0%Z /\ dext ci = M) (Cj : dmin cj = 0%Z /\ dext cj = N) (Ck : dmin ak = 0%Z /\ dext ak = K).
Lemma both_bounds i j : (0 <= i < M)%Z -> (0 <= j < N)%Z -> in_bounds (r_shape C) [i; j] /\ in_bounds (r_shape (flat_matrix pC M N)) [i; j].
Proof.
  intros Hi Hj. rewrite (s_C _ _ _ _ _ _ _ _ _ _ _ _ Se). split; repeat constructor; unfold in_dim; cbn [dmin dext]; lia.
Qed.
Lemma check_same run tol : multiplies 0 (radd rnd) (rmul rnd) h2 run C f g (range 0 K) -> 0 <= tol ->
  exists h1 h3, multiply_ref 0 (radd rnd) (rmul rnd) pA pB pC M K N h = Ok h1 /\ run = Ok h3 /\
    forall c_ref c, (forall i j, (0 <= i < M)%Z -> (0 <= j < N)%Z ->
       holds h1 (elem (r_base (flat_matrix pC M N)) (r_shape (flat_matrix pC M N)) [i; j]) (c_ref i j) /\ holds h3 (elem (r_base C) (r_shape C) [i; j]) (c i j)) ->
    accepts tol M N c_ref c = true.
Proof.
  intros (h3 & E3 & H3 & _) Ht.
  destruct (multiply_ref_ok 0 (radd rnd) (rmul rnd) h pA pB pC M K N f g) as (h1 & E1 & H1 & _); auto; try lia.
  exists h1, h3. split; auto. split; auto. intros c1 c2 Hc. apply accepts_iff. intros i j Hi Hj. destruct (both_bounds i j Hi Hj) as [B1 B2].
  destruct (Hc i j Hi Hj) as [V1 V2]. rewrite (holds_det _ _ _ _ V1 (H1 i j B2)), (holds_det _ _ _ _ V2 (H3 i j B1)). apply differs_same; auto. reflexivity.
Qed.
Hypotheses (Pf : forall i k, (0 <= i < M)%Z -> (0 <= k < K)%Z -> 0 <= f [i; k]) (Pg : forall k j, (0 <= k < K)%Z -> (0 <= j < N)%Z -> 0 <= g [k; j]).
Variables (N1 N2 tile_k : Z) (nd : bool).
Hypotheses (HN1 : (1 <= N1 <= M)%Z) (HN2 : (1 <= N2 <= N)%Z) (HT : (1 <= tile_k)%Z) (D1 : (M mod N1 = 0)%Z) (D2 : (N mod N2 = 0)%Z).
Variable tol : Q.
Let g1 := grow u (S (Z.to_nat K)) - 1.
Let g2 := grow u (S (Z.to_nat tile_k) + Z.to_nat ((K - 1) / tile_k)) - 1.
Hypotheses (L1 : g1 <= 1) (L2 : g2 <= 1) (Ht : 0 <= tol) (Hb : g1 + g2 <= tol * (1 - g2)).
Lemma check_z_order :
  exists h1 h3, multiply_ref 0 (radd rnd) (rmul rnd) pA pB pC M K N h = Ok h1 /\
    multiply_reduce_tiles_z_order 0 (radd rnd) (rmul rnd) nd N1 N2 tile_k A B C h2 = Ok h3 /\
    forall c_ref c, (forall i j, (0 <= i < M)%Z -> (0 <= j < N)%Z ->
       holds h1 (elem (r_base (flat_matrix pC M N)) (r_shape (flat_matrix pC M N)) [i; j]) (c_ref i j) /\ holds h3 (elem (r_base C) (r_shape C) [i; j]) (c i j)) ->
    accepts tol M N c_ref c = true.
Proof.
  destruct (plain_near u 0 rnd Hr h pA pB pC M K N f g) as (h1 & E1 & H1 & _); auto; try lia.
  destruct Ci as [Ci1 Ci2], Cj as [Cj1 Cj2], Ck as [Ck1 Ck2].
  destruct (z_order_near rnd h2 A B C f g ai ak bk bj ci cj N1 N2 tile_k nd Se ltac:(lia) ltac:(lia) HT ltac:(lia) ltac:(lia) ltac:(lia)
    ltac:(rewrite Ci2; exact D1) ltac:(rewrite Cj2; exact D2) u 0 Hr) as (h3 & E3 & H3 & _).
  exists h1, h3. split; auto. split; auto. intros c1 c2 Hc. apply accepts_iff. intros i j Hi Hj. destruct (both_bounds i j Hi Hj) as [B1 B2].
  destruct (Hc i j Hi Hj) as [V1 V2]. destruct (H1 i j B2) as (v1 & W1 & Q1), (H3 i j B1) as (v2 & W2 & Q2).
  rewrite (holds_det _ _ _ _ V1 W1), (holds_det _ _ _ _ V2 W2). rewrite Ck1, Ck2 in Q2.
  destruct (abs_same f g (range 0 K) i j) as [Ea Ep].
  { intros k Hk. unfold range in Hk. apply in_map_iff in Hk. destruct Hk as (a & <- & Ha). apply in_seq in Ha. split; [apply Pf|apply Pg]; lia. }
  unfold near, error_bound in Q1, Q2. rewrite Ea in Q1, Q2. fold g1 in Q1. fold g2 in Q2.
  assert (0 <= g1) by (unfold g1; pose proof (grow_ge u 0 rnd Hr (S (Z.to_nat K))); lra).
  assert (0 <= g2) by (unfold g2; pose proof (grow_ge u 0 rnd Hr (S (Z.to_nat tile_k) + Z.to_nat ((K - 1) / tile_k))); lra).
  apply (close_accepted (product f g (range 0 K) i j) g1 g2); auto; [eapply Qle_trans; [exact Q1|]|eapply Qle_trans; [exact Q2|]]; lra.
Qed.
End Check.
Lemma grow_mono u d d' : 0 <= u -> (d <= d')%nat -> grow u d <= grow u d'.
Proof.
  intros Hu H. assert (G : forall n, 1 <= grow u n).
  { induction n as [|n IH]; cbn [grow]; [lra|]. assert (0 <= u * grow u n) by (apply Qmult_le_0_compat; lra). lra. }
  induction H as [|d' _ IH]; [lra|]. cbn [grow]. specialize (G d'). assert (0 <= u * grow u d') by (apply Qmult_le_0_compat; lra). lra.
Qed.
(** The sizes in main *)
Lemma main_sizes K (tol : Q) rnd : rounds (1 # 16777216) 0 rnd -> (1 <= K)%Z -> ((K <= 1536)%Z /\ 108 # 1000000 <= tol) \/ ((K <= 1408)%Z /\ 1 # 10000 <= tol) ->
  let g1 := grow (1 # 16777216) (S (Z.to_nat K)) - 1 in
  let g2 := grow (1 # 16777216) (S (Z.to_nat 256) + Z.to_nat ((K - 1) / 256)) - 1 in
  g1 <= 1 /\ g2 <= 1 /\ 0 <= tol /\ g1 + g2 <= tol * (1 - g2).
Proof.
  intros Hr HK Hc g1 g2.
  assert (B : forall d n, (d <= n)%nat -> inject_Z (Z.of_nat n) * (1 # 16777216) < 1 ->
    grow (1 # 16777216) d - 1 <= inject_Z (Z.of_nat n) * (1 # 16777216) / (1 - inject_Z (Z.of_nat n) * (1 # 16777216))).
  { intros d n L Hn. pose proof (grow_mono (1 # 16777216) d n ltac:(lra) L). pose proof (grow_gamma (1 # 16777216) 0 rnd Hr n Hn). lra. }
  assert (D : ((K - 1) / 256 <= 5 /\ 0 <= (K - 1) / 256)%Z). { split; [assert ((K - 1) / 256 < 6)%Z by (apply Z.div_lt_upper_bound; lia); lia|apply Z.div_pos; lia]. }
  pose proof (B (S (Z.to_nat 256) + Z.to_nat ((K - 1) / 256))%nat 262%nat ltac:(lia) ltac:(reflexivity)) as B2. fold g2 in B2.
  assert (C2 : g2 <= (16 # 1000000)) by (eapply Qle_trans; [exact B2|]; vm_compute; discriminate). clear B2.
  destruct Hc as [[Hc Ht]|[Hc Ht]].
  - pose proof (B (S (Z.to_nat K)) 1537%nat ltac:(lia) ltac:(reflexivity)) as B1. fold g1 in B1.
    assert (C1 : g1 <= (91622 # 1000000000)) by (eapply Qle_trans; [exact B1|]; vm_compute; discriminate). clear B1.
    split; [lra|]. split; [lra|]. split; [lra|]. assert (0 <= (tol - (108 # 1000000)) * (1 - g2)) by (apply Qmult_le_0_compat; lra). lra.
  - pose proof (B (S (Z.to_nat K)) 1409%nat ltac:(lia) ltac:(reflexivity)) as B1. fold g1 in B1.
    assert (C1 : g1 <= (83992 # 1000000000)) by (eapply Qle_trans; [exact B1|]; vm_compute; discriminate). clear B1.
    split; [lra|]. split; [lra|]. split; [lra|]. assert (0 <= (tol - (1 # 10000)) * (1 - g2)) by (apply Qmult_le_0_compat; lra). lra.
Qed.
