(** Facts about the matrix products by Einstein reductions and by plain loops over pointers. *)
From Coq Require Import Sorted Permutation.
From Verif Require Import Tac Interval Shape Traverse Memory Ref Spec SpecMem SpecContainer Static SpecStatic Container Ein SpecEin
  ZOrder SpecZ Matrix SpecMatrix
  ShapeFacts IntervalFacts ResolveFacts ShapeProps TraverseFacts MemFacts RefFacts SliceFacts ContainerFacts StaticFacts EinFacts EinSum EinMake EinUses
  ZOrderFacts MatrixFacts MatrixProd.
Import ListNotations.
Open Scope Z_scope.

Lemma foldM_ub {A S} (f : S -> A -> outcome S) l a : (forall s x, f s x <> AssertFail) -> In a l -> (forall s, f s a = UB) ->
  forall s, foldM f l s = UB.
Proof.
  intros N. induction l as [|b l IH]; intros I U s; [destruct I|]. destruct I as [->|I]; cbn [foldM].
  - rewrite U. reflexivity.
  - specialize (N s b). destruct (f s b); cbn [bind]; [apply IH; auto|congruence|reflexivity].
Qed.
Lemma foldM_no_assert {A S} (f : S -> A -> outcome S) l : (forall s x, f s x <> AssertFail) -> forall s, foldM f l s <> AssertFail.
Proof.
  intros N. induction l as [|b l IH]; intro s; cbn [foldM]; [discriminate|].
  specialize (N s b). destruct (f s b); cbn [bind]; [apply IH|congruence|discriminate].
Qed.

Ltac labels_ := repeat (match goal with |- context [Nat.eqb ?a ?b] => destruct (Nat.eqb_spec a b); subst end;
  cbn [fst snd option_map dmin dext] in *); try congruence; try lia.
Ltac ops_ := repeat match goal with
  | H : addressed _ _ _ |- _ => destruct H as (? & ? & ? & ?); cbn [In] in *
  | H : _ \/ _ |- _ => destruct H
  | H : False |- _ => destruct H
  | H : (_, _) = (_, _) |- _ => inv H
  | E : r_shape ?r = _, H : In _ (combine _ (r_shape ?r)) |- _ => rewrite E in H; cbn [combine In] in H
  end.
Ltac pick_ := cbn [In]; repeat first [left; reflexivity | right].
Ltac ranks_ := repeat constructor; cbn [fst snd length];
  repeat match goal with E : r_shape ?r = _ |- context [r_shape ?r] => rewrite E end; reflexivity.
Ltac lt_ := match goal with L : loops ?n _ |- (?k < ?n)%nat => apply (loops_in _ _ _ L); pick_ end.
Ltac out_ := let l := fresh in let I := fresh in intros l I; cbn [In] in I; repeat (destruct I as [I|I]); try contradiction; subst l.
Ltac values_ := match goal with
  | V : shows _ ?r _ |- holds _ (elem (r_base ?r) _ (values_of _ (env_of ?n ?a))) _ =>
      rewrite env_of_values by (repeat constructor; lt_); cbn [map]; unfold set_at
  end.

Section Matrix.
Context {V : Type} (zero : V) (add mul : V -> V -> V).
Implicit Types (h : heap V) (A B C : aref) (f g : list Z -> V).

Lemma usable_only_changes P h h' : only_changes P h h' -> usable_heap h -> usable_heap h'.
Proof.
  intros (_ & Nx & Bl) (U1 & U2 & U3). unfold usable_heap. rewrite Nx. split; [auto|].
  assert (Q : forall k, h_blk h k = None -> h_blk h' k = None).
  { intros k E. specialize (Bl k). rewrite E in Bl. destruct (h_blk h' k); [discriminate|auto]. }
  split; auto.
Qed.

Lemma ein_product nd h0 A B C f g ai ak bk bj ci cj i j k : i <> j -> i <> k -> j <> k ->
  r_shape A = [ai; ak] -> r_shape B = [bk; bj] -> r_shape C = [ci; cj] -> extents_ge 0 [ci; cj; ak] ->
  spans ci ai -> spans cj bj -> same_bounds ak bk ->
  shows h0 A f -> shows h0 B g -> injective_layout (r_shape C) ->
  (forall i, in_bounds (r_shape A) i -> ~ is_elem (r_base C) (r_shape C) (elem (r_base A) (r_shape A) i)) ->
  (forall i, in_bounds (r_shape B) i -> ~ is_elem (r_base C) (r_shape C) (elem (r_base B) (r_shape B) i)) ->
  refines C h0 (fun h => ein_reduce nd add h C [i; j] (EBin mul (EArr A [i; k]) (EArr B [k; j])))
    (fun p w => fold_left add (map (fun z => mul (f [nth 0 p 0; z]) (g [z; nth 1 p 0])) (range (dmin ak) (dext ak))) w).
Proof.
  intros Nij Nik Njk SA SB SC X PI PJ PK VA VB Inj AA AB h w St.
  assert (VA' : shows h A f) by (eapply mstate_shows; eauto). assert (VB' : shows h B g) by (eapply mstate_shows; eauto).
  destruct St as (U & SW & O).
  set (Bn := fun l : nat => if (l =? i)%nat then (dmin ci, dext ci) else if (l =? k)%nat then (dmin ak, dext ak) else
            if (l =? j)%nat then (dmin cj, dext cj) else (0, 1)).
  set (e := EBin mul (EArr A [i; k]) (EArr B [k; j])).
  destruct (loops_exist ([i; j] ++ labels e)) as [n L].
  inv X. inv H2. inv H4. clear H5.
  destruct (ein_reduce_index nd add h C [i; j] e Bn n) as (h' & E & Oc & F); auto.
  - ranks_.
  - split; [|split; [|split]].
    + intro l. unfold Bn. labels_.
    + intros l d Ad. unfold Bn, span_is. ops_; labels_; auto.
    + intros l d Ad. unfold e in Ad. cbn [operands app] in Ad.
      assert (Q : (l = i /\ d = ai) \/ (l = k /\ (d = ak \/ d = bk)) \/ (l = j /\ d = bj)) by (ops_; auto).
      assert (Rn : forall l' D, addressed [(C, [i; j])] l' D -> (l' = i /\ D = ci) \/ (l' = j /\ D = cj)) by (intros l' D Ad'; ops_; auto).
      assert (Ci : addressed [(C, [i; j])] i ci) by (exists C, [i; j]; rewrite SC; cbn; auto).
      assert (Cj : addressed [(C, [i; j])] j cj) by (exists C, [i; j]; rewrite SC; cbn; auto).
      destruct PK as [PK1 PK2].
      assert (Bi : Bn i = (dmin ci, dext ci)) by (unfold Bn; labels_).
      assert (Bj : Bn j = (dmin cj, dext cj)) by (unfold Bn; labels_).
      assert (Bk : Bn k = (dmin ak, dext ak)) by (unfold Bn; labels_).
      unfold span_is, span_within.
      destruct Q as [[-> ->]|[[-> Q]|[-> ->]]]; rewrite ?Bi, ?Bj, ?Bk; cbn [fst snd].
      * destruct PI as [[? ?]|(? & ? & ?)]; [left; auto|]. right. split; [auto|]. split; [eauto|].
        intros D HD. destruct (Rn _ _ HD) as [[_ ->]|[? _]]; congruence.
      * left. destruct Q as [-> | ->]; auto.
      * destruct PJ as [[? ?]|(? & ? & ?)]; [left; auto|]. right. split; [auto|]. split; [eauto|].
        intros D HD. destruct (Rn _ _ HD) as [[? _]|[_ ->]]; congruence.
    + intros l N. unfold Bn. labels_; exfalso.
      * apply (N ci). exists C, [i; j]. rewrite SC. cbn. auto.
      * apply (N ak). exists A, [i; k]. rewrite SA. cbn. auto.
      * apply (N cj). exists C, [i; j]. rewrite SC. cbn. auto.
  - intros r is_ o I Ho. cbn [e operands app In] in I.
    destruct I as [I|[I|[I|[]]]]; inv I; eexists; [apply SW|apply VA'|apply VB']; auto.
  - intros r is_ o I Ho. cbn [e operands app In] in I. destruct I as [I|[I|[]]]; inv I; auto.
  - exists h'. split; [exact E|]. split; [eapply usable_only_changes; eauto|]. split.
    2:{ intros p Hp. destruct Oc as [Oc _]. rewrite Oc by auto. auto. }
    intros o Ho. destruct (F o (w o) Ho (SW o Ho)) as (v' & Hv & Rw). unfold holds in *. rewrite Hv. do 2 f_equal.
    rewrite SC in Ho. apply in_bounds_2 in Ho. destruct Ho as (u & v & -> & Iu & Iv). cbn [nth].
    assert (Lk : (k < n)%nat) by lt_.
    set (a := fun l : nat => if (l =? i)%nat then u else if (l =? j)%nat then v else 0).
    assert (Bk : Bn k = (dmin ak, dext ak)) by (unfold Bn; labels_).
    apply (reduces_line h add _ _ (w [u; v]) v' n a k (dmin ak) (dext ak) (fun z => mul (f [u; z]) (g [z; v])) Rw Lk).
    + pose proof (env_line Bn n [i; j] [u; v] a k) as EL. rewrite Bk in EL. apply EL; auto.
      * out_; lt_.
      * intros [?|[?|[]]]; congruence.
      * intros l _ N. unfold Bn, a. cbn [In]. labels_; auto.
      * unfold in_dim in *. out_; unfold Bn, a; labels_.
      * unfold a. cbn [map]. labels_.
    + destruct PK as [PK1 PK2]. intros z Hz. unfold e. constructor; constructor; values_.
      * replace [_; _] with [u; z] by (unfold a; labels_). apply VA'. rewrite SA. apply in_bounds_pair. unfold in_dim in *.
        destruct PI as [[? ?]|(? & ? & ?)]; lia.
      * replace [_; _] with [z; v] by (unfold a; labels_). apply VB'. rewrite SB. apply in_bounds_pair. unfold in_dim in *.
        destruct PJ as [[? ?]|(? & ? & ?)]; lia.
Qed.

Lemma fill_refines h0 C ci cj v : r_shape C = [ci; cj] -> 0 <= dext ci -> 0 <= dext cj -> injective_layout (r_shape C) ->
  refines C h0 (fun h => fill_matrix h C v) (fun _ _ => v).
Proof.
  intros SC Xi Xj Inj. unfold fill_matrix, row_dim, col_dim. rewrite SC. cbn [nth].
  unfold values_matrix. destruct (matrix_value_visits ci cj (snd (r_base C)) Xi Xj) as (l & [N En] & _ & E).
  rewrite E. cbn [bind]. rewrite map_map.
  match goal with |- context [map ?F l] => assert (M : map F l = map (ref_ptr C) l) end.
  { apply map_ext. intro k. unfold to_ptr, ref_ptr, ptr_off. rewrite SC. reflexivity. }
  rewrite M. clear M E.
  assert (Q : forall h, foldM (fun h p => store h p v) (map (ref_ptr C) l) h = foldM (fun h k => store h (ref_ptr C k) v) l h).
  { clear. induction l as [|a l IH]; intro h; cbn [map foldM]; [reflexivity|]. destruct (store h (ref_ptr C a) v); cbn [bind]; auto. }
  intros h w St. rewrite Q. revert h w St.
  change (refines C h0 (foldM (fun h k => store h (ref_ptr C k) v) l) (fun _ _ => v)).
  eapply refines_ext; [|apply (refines_fold C h0 l _ (fun a k w => if list_eq_dec Z.eq_dec k a then v else w))].
  - cbn beta. intros i w Hi. rewrite (fold_once _ l w i); auto.
    + destruct (list_eq_dec Z.eq_dec i i); congruence.
    + apply En. rewrite <- SC. auto.
    + intros s x _ Nx. destruct (list_eq_dec Z.eq_dec i x); congruence.
  - intros a Ha. apply refines_store; auto. rewrite SC. apply En. auto.
Qed.

Lemma multiply_ein_ok nd h0 A B C f g ai ak bk bj ci cj i j k : i <> j -> i <> k -> j <> k ->
  setting h0 A B C f g ai ak bk bj ci cj -> spans ci ai -> spans cj bj -> same_bounds ak bk ->
  multiplies zero add mul h0 (multiply_ein zero add mul nd i j k A B C h0) C f g (range (dmin ak) (dext ak)).
Proof.
  intros Nij Nik Njk S PI PJ PK. apply (conclude _ _ _ _ _ _ _ _ _ _ _ _ _ _ _ S). unfold multiply_ein.
  destruct S as [SA SB SC (X1 & X2 & X3) _ (OA & OB & _ & Inj & PA & PB) _].
  eapply refines_ext; [|apply refines_seq; [eapply fill_refines; eauto|
    eapply (ein_product nd h0 A B C f g ai ak bk bj ci cj); eauto; repeat constructor; auto]].
  cbn beta. intros p w Hp. reflexivity.
Qed.

(** ** Plain C *)
Lemma flat_elem p m n i j : elem (r_base (flat_matrix p m n)) (r_shape (flat_matrix p m n)) [i; j] = ptr_off p (i * n + j).
Proof. unfold elem, flat_matrix, ptr_off. cbn [r_base r_shape offset dmin dstr]. f_equal. lia. Qed.
Lemma flat_injective p m n : injective_layout (r_shape (flat_matrix p m n)).
Proof.
  unfold flat_matrix. cbn [r_shape]. intros i j Hi Hj E.
  apply in_bounds_2 in Hi. destruct Hi as (a & b & -> & Ia & Ib). apply in_bounds_2 in Hj. destruct Hj as (c & d & -> & Ic & Id).
  unfold in_dim in *. cbn [dmin dext dstr offset] in *.
  assert (a = c) by nia. subst c. f_equal. f_equal. lia.
Qed.
Lemma int_ok x : -2147483648 <= x <= 2147483647 -> int_ x = Ok x.
Proof. intro H. unfold int_. replace ((-2147483648 <=? x) && (x <=? 2147483647)) with true; [reflexivity|]. symmetry. apply andb_true_iff. lia. Qed.
Lemma int_index_ok p m n i j : 0 <= i < m -> 0 <= j < n -> m * n <= 2147483648 -> int_index p i n j = Ok (ptr_off p (i * n + j)).
Proof. intros Hi Hj H. unfold int_index. rewrite int_ok by nia. cbn [bind]. rewrite int_ok by nia. reflexivity. Qed.
Lemma int_index_ub p m n : 0 <= m -> 0 <= n -> 2147483648 < m * n -> int_index p (m - 1) n (n - 1) = UB.
Proof.
  intros Hm Hn H. unfold int_index. unfold int_ at 1. destruct (_ && _); cbn [bind]; [|reflexivity].
  unfold int_. replace (_ && _) with false; [reflexivity|]. symmetry. apply andb_false_iff. right. nia.
Qed.
Lemma int_no_assert x : int_ x <> AssertFail.
Proof. unfold int_. destruct (_ && _); discriminate. Qed.
Lemma int_index_no_assert p i w j : int_index p i w j <> AssertFail.
Proof.
  unfold int_index. pose proof (int_no_assert (i * w)). destruct (int_ (i * w)) as [x| |]; cbn [bind]; try congruence.
  pose proof (int_no_assert (x + j)). destruct (int_ (x + j)); cbn [bind]; congruence.
Qed.

Lemma multiply_ref_ok h0 pA pB pC M K N f g : 0 <= M <= 2147483647 -> 0 <= K <= 2147483647 -> 0 <= N <= 2147483647 ->
  M * K <= 2147483648 -> K * N <= 2147483648 -> M * N <= 2147483648 ->
  operands_of h0 (flat_matrix pA M K) (flat_matrix pB K N) (flat_matrix pC M N) f g -> usable_heap h0 ->
  multiplies zero add mul h0 (multiply_ref zero add mul pA pB pC M K N h0) (flat_matrix pC M N) f g (range 0 K).
Proof.
  intros HM HK HN B1 B2 B3 (OA & OB & OC & Inj & PA & PB) U.
  set (A := flat_matrix pA M K) in *. set (B := flat_matrix pB K N) in *. set (C := flat_matrix pC M N) in *.
  apply (refines_multiplies zero add mul h0 C f g (range 0 K) _ (fun x => x)); auto.
  { apply (alive_shows zero). auto. } { exists (mkD 0 M N), (mkD 0 N 1). reflexivity. }
  unfold multiply_ref.
  pose (body := fun h i j => sum <- foldM (fun sum k =>
             pa <- int_index pA i K k ;; a <- load h pa ;;
             pb <- int_index pB k N j ;; b <- load h pb ;;
             Ok (add sum (mul a b))) (zseq 0 (Z.to_nat K)) zero ;;
    pc <- int_index pC i N j ;; store h pc sum).
  pose proof (refines_nest C h0 (mkD 0 M N) (mkD 0 N 1) body (fun i j _ => inner_product zero add mul f g (range 0 K) i j)) as Ne.
  rewrite !for_dim_range in Ne by (cbn; lia). cbn [dmin dext] in Ne. rewrite <- !zseq_range in Ne.
  rewrite <- (zseq_range 0 K). apply Ne; auto; try (cbn; lia).
  clear Ne. intros i j Hi Hj. unfold in_dim in Hi, Hj. cbn [dmin dext] in Hi, Hj.
  apply (refines_update C h0 [i; j] _ (fun _ => inner_product zero add mul f g (zseq 0 (Z.to_nat K)) i j)).
  - exact Inj.
  - apply in_bounds_pair. unfold in_dim. cbn. lia.
  - intros h c St. assert (SA : shows h A f) by (eapply mstate_shows; eauto). assert (SB : shows h B g) by (eapply mstate_shows; eauto).
    unfold body.
    assert (Fo : forall l w, (forall k, In k l -> 0 <= k < K) ->
      foldM (fun sum k =>
             pa <- int_index pA i K k ;; a <- load h pa ;;
             pb <- int_index pB k N j ;; b <- load h pb ;;
             Ok (add sum (mul a b))) l w = Ok (fold_left add (map (fun k => mul (f [i; k]) (g [k; j])) l) w)).
    { induction l as [|k l IH]; intros w Hl; cbn [foldM map fold_left]; [reflexivity|].
      assert (Hk : 0 <= k < K) by (apply Hl; left; auto).
      rewrite (int_index_ok pA M K) by lia. cbn [bind]. rewrite <- (flat_elem pA M K). fold A.
      rewrite (proj2 (load_holds _ _ (f [i; k]))) by (apply SA, in_bounds_pair; unfold in_dim; cbn; lia). cbn [bind].
      rewrite (int_index_ok pB K N) by lia. cbn [bind]. rewrite <- (flat_elem pB K N). fold B.
      rewrite (proj2 (load_holds _ _ (g [k; j]))) by (apply SB, in_bounds_pair; unfold in_dim; cbn; lia). cbn [bind].
      apply IH. intros; apply Hl; right; auto. }
    rewrite Fo by (intros k Hk; apply zseq_In in Hk; lia). cbn [bind]. rewrite (int_index_ok pC M N) by lia. cbn [bind].
    unfold inner_product. rewrite <- (flat_elem pC M N). fold C. rewrite elem_ref. reflexivity.
Qed.

Lemma multiply_ref_overflow h pA pB pC M K N : 1 <= M -> 1 <= K -> 1 <= N ->
  2147483648 < M * K \/ 2147483648 < K * N \/ 2147483648 < M * N ->
  multiply_ref zero add mul pA pB pC M K N h = UB.
Proof.
  intros HM HK HN Ov. unfold multiply_ref.
  set (inner := fun (h : heap V) i j (sum : V) k => pa <- int_index pA i K k ;; a <- load h pa ;;
             pb <- int_index pB k N j ;; b <- load h pb ;; Ok (add sum (mul a b))).
  assert (L : forall (h : heap V) p, load h p <> AssertFail).
  { intros h' p. unfold load. destruct (peek h' p) as [[|]|]; discriminate. }
  assert (N1 : forall h i j s k, inner h i j s k <> AssertFail).
  { intros h' i j s k. unfold inner. pose proof (int_index_no_assert pA i K k). destruct (int_index pA i K k) as [pa| |]; cbn [bind]; try congruence.
    pose proof (L h' pa). destruct (load h' pa) as [a| |]; cbn [bind]; try congruence.
    pose proof (int_index_no_assert pB k N j). destruct (int_index pB k N j) as [pb| |]; cbn [bind]; try congruence.
    pose proof (L h' pb). destruct (load h' pb) as [b| |]; cbn [bind]; congruence. }
  set (cell_ := fun i h j => sum <- foldM (inner h i j) (zseq 0 (Z.to_nat K)) zero ;; pc <- int_index pC i N j ;; store h pc sum).
  assert (N2 : forall i h j, cell_ i h j <> AssertFail).
  { intros i h' j. unfold cell_. pose proof (foldM_no_assert (inner h' i j) (zseq 0 (Z.to_nat K)) (N1 h' i j) zero).
    destruct (foldM (inner h' i j) (zseq 0 (Z.to_nat K)) zero) as [s| |]; cbn [bind]; try congruence.
    pose proof (int_index_no_assert pC i N j). destruct (int_index pC i N j) as [pc| |]; cbn [bind]; try congruence.
    unfold store. destruct (peek h' pc) as [[|]|]; discriminate. }
  assert (Z1 : forall n x, 0 <= x < n -> In x (zseq 0 (Z.to_nat n))) by (intros; apply zseq_In; lia).
  change (foldM (fun h i => foldM (cell_ i) (zseq 0 (Z.to_nat N)) h) (zseq 0 (Z.to_nat M)) h = UB).
  apply (foldM_ub _ _ (M - 1)); [intros; apply foldM_no_assert; auto|apply Z1; lia|].
  apply (foldM_ub _ _ (N - 1)); [auto|apply Z1; lia|]. intro h'. unfold cell_.
  destruct (Z_lt_dec 2147483648 (M * K)) as [O1|O1]; [|destruct (Z_lt_dec 2147483648 (K * N)) as [O2|O2]].
  - rewrite (foldM_ub _ _ (K - 1)); [reflexivity|auto|apply Z1; lia|]. intro s. unfold inner.
    rewrite int_index_ub by lia. reflexivity.
  - rewrite (foldM_ub _ _ (K - 1)); [reflexivity|auto|apply Z1; lia|]. intro s. unfold inner.
    rewrite (int_index_ok pA M K) by lia. cbn [bind]. pose proof (L h' (ptr_off pA ((M - 1) * K + (K - 1)))).
    destruct (load h' _); cbn [bind]; try congruence. rewrite int_index_ub by lia. reflexivity.
  - pose proof (foldM_no_assert (inner h' (M - 1) (N - 1)) (zseq 0 (Z.to_nat K)) (N1 h' _ _) zero).
    destruct (foldM _ _ zero); cbn [bind]; try congruence. rewrite int_index_ub by lia. reflexivity.
Qed.

End Matrix.
