(** Results about the product in z-order, and about matrices smaller than a tile. *)
From Coq Require Import Sorted Permutation.
From Verif Require Import Tac Interval Shape Traverse Memory Ref Spec SpecMem SpecContainer Static SpecStatic Container Ein SpecEin
  ZOrder SpecZ Matrix SpecMatrix
  ShapeFacts IntervalFacts ResolveFacts ShapeProps TraverseFacts MemFacts RefFacts SliceFacts ContainerFacts StaticFacts EinFacts EinSum EinMake EinUses
  ZOrderFacts TileFacts MatrixFacts MatrixProd MatrixEin MatrixTiles MatrixZ.
Import ListNotations.
Open Scope Z_scope.

Lemma tile_count_even N d x : dext d mod N = 0 -> tile_count N d x = 1%nat.
Proof. intro H. unfold tile_count. rewrite H. reflexivity. Qed.

Section Order.
Context {V : Type} (zero : V) (add mul : V -> V -> V).
Variables (h0 : heap V) (A B C : aref) (f g : list Z -> V) (ai ak bk bj ci cj : dim) (N1 N2 tile_k : Z) (nd : bool).
Hypotheses (Se : setting h0 A B C f g ai ak bk bj ci cj)
  (HN1 : 1 <= N1 <= dext ci) (HN2 : 1 <= N2 <= dext cj) (HK : 1 <= tile_k)
  (X1 : dext ci <= 2 ^ 62) (X2 : dext cj <= 2 ^ 62).
Let run := multiply_reduce_tiles_z_order zero add mul nd N1 N2 tile_k A B C h0.
Let ip (b : interval) (i j : Z) := inner_product zero add mul f g (range (imin b) (iext b)) i j.

Lemma z_order_exact : 1 <= dext ak -> exists b r h',
  consecutive (dmin ak) (dmin ak + dext ak) (b :: r) /\ Forall (fun p => 1 <= iext p <= tile_k) (b :: r) /\
  Forall (fun p => iext p = tile_k) (removelast (b :: r)) /\
  run = Ok h' /\
  (forall i j, in_bounds (r_shape C) [i; j] -> holds h' (elem (r_base C) (r_shape C) [i; j])
     (fold_left add (flat_map (fun p => repeat (ip p i j) (tile_count N1 ci i * tile_count N2 cj j)) r) (ip b i j))) /\
  (forall p, ~ is_elem (r_base C) (r_shape C) p -> peek h' p = peek h0 p).
Proof.
  intro X3. destruct (dynamic_tiles tile_k (d_interval ak) HK) as (l & El & Co & Fo & Rl & _); [cbn; lia|].
  cbn [d_interval imin iext] in Co. destruct l as [|b r]; [inv Co; lia|]. exists b, r.
  destruct (alive_shows zero h0 C) as [w Hw]; [apply (s_op _ _ _ _ _ _ _ _ _ _ _ _ Se)|].
  destruct (z_order_refines zero add mul h0 A B C f g ai ak bk bj ci cj N1 N2 Se HN1 HN2 nd tile_k (b :: r) X1 X2 El Co) with (h := h0) (g := w)
    as (h' & E & _ & S' & O').
  - eapply Forall_impl; [|exact Fo]. cbn beta. intros p [Q1 Q2]. split; [lia|exact Q2].
  - split; [apply (s_us _ _ _ _ _ _ _ _ _ _ _ _ Se)|]. split; [exact Hw|auto].
  - exists h'. split; [exact Co|]. split; [eapply Forall_impl; [|exact Fo]; cbn beta; tauto|]. split; [exact Rl|].
    split; [exact E|]. split; [|exact O']. intros i j Hij. apply S' in Hij. exact Hij.
Qed.
(** Nothing is written if there is nothing to sum up *)
Lemma z_order_empty : dext ak = 0 -> run = Ok h0.
Proof.
  intro X3. destruct (dynamic_tiles tile_k (d_interval ak) HK) as (l & El & Co & Fo & Rl & _); [cbn; lia|].
  cbn [d_interval imin iext] in Co. destruct l as [|b r].
  - unfold run, multiply_reduce_tiles_z_order. rewrite (set_depth _ _ _ _ _ _ _ _ _ _ _ _ Se), El. reflexivity.
  - exfalso. inv Fo. destruct H1 as [Q1 Q2]. specialize (Q2 (imin b)). unfold in_interval in Q2. cbn in Q2. lia.
Qed.
Lemma z_order_one_block : 1 <= dext ak <= tile_k -> multiplies zero add mul h0 run C f g (range (dmin ak) (dext ak)).
Proof.
  intro X3. destruct (z_order_exact ltac:(lia)) as (b & r & h' & Co & Fo & Rl & E & S' & O').
  assert (r = [] /\ b = mkI (dmin ak) (dext ak)) as [-> ->].
  { inversion Co as [|a0 e b0 l0 Co']; subst. destruct r as [|b' r].
    - inversion Co'. split; [reflexivity|]. f_equal. lia.
    - exfalso. inversion Rl as [|q0 q1 Q1 Q2]; subst. inversion Co' as [|a0 e' b0 l0 Co'']; subst. cbn [iext] in *.
      inversion Fo as [|q2 q3 Q3 Q4]; subst. inversion Q4 as [|q4 q5 Q5 Q6]; subst. cbn [iext] in *.
      apply consecutive_in with (x := 0) in Co''; [lia|]. eapply Forall_impl; [|exact Q6]. cbn beta. lia. }
  exists h'. split; [exact E|]. split; [exact S'|exact O'].
Qed.
Hypotheses (assoc : forall a b c, add a (add b c) = add (add a b) c) (unit : forall a, add zero a = a).
Lemma add_sum l a : l <> [] -> add a (fold_left add l zero) = fold_left add l a.
Proof.
  destruct l as [|x l]; [congruence|]. intros _. cbn [fold_left]. rewrite unit. revert a x.
  induction l as [|y l IH]; intros a x; cbn [fold_left]; [reflexivity|]. rewrite IH, assoc. reflexivity.
Qed.
Lemma range_app lo n m : 0 <= n -> 0 <= m -> range lo (n + m) = range lo n ++ range (lo + n) m.
Proof.
  intros Hn Hm. unfold range. rewrite Z2Nat.inj_add by lia. rewrite seq_app, map_app. f_equal.
  assert (Q : forall m s, map (fun k => lo + Z.of_nat k) (seq (s + Z.to_nat n) m) = map (fun k => lo + n + Z.of_nat k) (seq s m)).
  { clear m Hm. induction m as [|m IH]; intro s; cbn [seq map]; [reflexivity|]. f_equal; [lia|]. apply (IH (S s)). }
  apply Q.
Qed.
Lemma blocks_sum i j l : forall a e w, consecutive a (a + e) l -> Forall (fun p => 1 <= iext p) l ->
  fold_left add (map (fun p => ip p i j) l) w = fold_left add (map (fun k => mul (f [i; k]) (g [k; j])) (range a e)) w.
Proof.
  induction l as [|b l IH]; intros a e w Co Fo.
  - inv Co. replace e with 0 by lia. reflexivity.
  - inversion Co as [|a' e' b' l' Co']; subst. inv Fo. cbn [iext] in H1.
    assert (e' <= e). { apply consecutive_in with (x := 0) in Co'; [lia|]. eapply Forall_impl; [|eassumption]. cbn beta. lia. }
    replace e with (e' + (e - e')) by lia. rewrite range_app, map_app, fold_left_app by lia. cbn [map fold_left].
    unfold ip at 2. cbn [imin iext]. unfold inner_product. rewrite add_sum.
    + apply IH; auto. replace (a + e' + (e - e')) with (a + e) by lia. auto.
    + unfold range. destruct (Z.to_nat e') eqn:Q; [lia|]. discriminate.
Qed.
Lemma z_order_even : 1 <= dext ak -> dext ci mod N1 = 0 -> dext cj mod N2 = 0 ->
  multiplies zero add mul h0 run C f g (range (dmin ak) (dext ak)).
Proof.
  intros X3 D1 D2. destruct (z_order_exact X3) as (b & r & h' & Co & Fo & Rl & E & S' & O').
  exists h'. split; [exact E|]. split; [|exact O']. intros i j Hij. specialize (S' i j Hij).
  rewrite (flat_map_ext _ (fun p => [ip p i j])) in S' by (intro p; rewrite !tile_count_even by auto; reflexivity).
  rewrite flat_map_sing in S'. replace (inner_product zero add mul f g (range (dmin ak) (dext ak)) i j)
    with (fold_left add (map (fun p => ip p i j) r) (ip b i j)); [exact S'|].
  rewrite <- (unit (ip b i j)). change (fold_left add (map (fun p => ip p i j) (b :: r)) zero = inner_product zero add mul f g (range (dmin ak) (dext ak)) i j).
  apply blocks_sum; auto. eapply Forall_impl; [|exact Fo]. cbn beta. lia.
Qed.
End Order.

(** Matrices smaller than a tile *)
Lemma split_small N v : iext v < N -> split_static false N v = AssertFail.
Proof. intro H. unfold split_static, assert_. replace (iext v >=? N) with false by lia. reflexivity. Qed.
Lemma small_tiles {V} N1 N2 C body (h : heap V) ci cj : r_shape C = [ci; cj] -> 1 <= N1 ->
  dext ci < N1 \/ (N1 <= dext ci /\ dext cj < N2) -> for_tiles false N1 N2 C body h = AssertFail.
Proof.
  intros SC HN H. unfold for_tiles, row_dim, col_dim. rewrite SC. cbn [nth]. destruct H as [H|[H1 H2]].
  - rewrite split_small by auto. reflexivity.
  - destruct (static_tiles false N1 (d_interval ci)) as (r & l & E & F & _ & _ & _ & _ & T); [cbn; lia|].
    rewrite E. cbn [bind]. unfold for_in. rewrite F. cbn [bind]. destruct l as [|a l].
    + specialize (T (dmin ci) 0). unfold in_interval in T. cbn in T. assert (1 <= dext ci) by lia.
      pose proof (tile_count_pos N1 (mkD (dmin ci) (dext ci) 0) (dmin ci)). lia.
    + cbn [foldM]. rewrite split_small by auto. reflexivity.
Qed.
Section Small.
Context {V : Type} (zero : V) (add mul : V -> V -> V).
Lemma small_z N1 N2 tk A B C (h : heap V) ai ak ci cj : r_shape A = [ai; ak] -> r_shape C = [ci; cj] -> 1 <= tk -> 1 <= dext ak ->
  1 <= N1 -> dext ci < N1 \/ (N1 <= dext ci /\ dext cj < N2) -> multiply_reduce_tiles_z_order zero add mul false N1 N2 tk A B C h = AssertFail.
Proof.
  intros SA SC HK X HN H. unfold multiply_reduce_tiles_z_order, row_dim, col_dim. rewrite SA, SC. cbn [nth].
  destruct (dynamic_tiles tk (d_interval ak) HK) as (l & El & Co & _); [cbn; lia|]. unfold for_in at 1. rewrite El. cbn [bind].
  destruct l as [|b l]; [cbn in Co; inv Co; lia|]. cbn [foldM]. destruct H as [H|[H1 H2]].
  - rewrite split_small by auto. reflexivity.
  - destruct (static_tiles false N1 (d_interval ci)) as (r & l' & E & _); [cbn; lia|].
    rewrite E. cbn [bind]. rewrite split_small by auto. reflexivity.
Qed.
End Small.
