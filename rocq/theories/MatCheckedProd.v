(** The matrix products compute the same in 64 bits. *)
From Coq Require Import Sorted Permutation.
From Verif Require Import Tac Interval Shape Traverse Memory Ref Static Ein ZOrder Matrix Checked Overflow ViewChecked MatChecked
  Spec SpecMem SpecZ SpecStatic SpecEin SpecChecked SpecOverflow SpecViewChecked SpecMatrix SpecMatChecked
  ShapeFacts IntervalFacts ResolveFacts TraverseFacts MemFacts RefFacts SliceFacts StaticFacts TileFacts
  CheckedFacts OverflowFacts EinFacts EinUses ViewCheckedFacts ZOrderFacts MatrixFacts MatrixProd MatrixEin MatrixTiles MatrixZ MatrixOrder
  MatCheckedFacts.
Import ListNotations.
Open Scope Z_scope.

Notation big := 9223372036854775807 (only parsing).

Lemma k_make_compact_tile nd N1 N2 buf a b s1 s2 : 1 <= N1 -> 1 <= N2 -> buffer_fits N1 N2 ->
  k_accumulator nd N1 N2 buf [mkD a N1 s1; mkD b N2 s2] = Ok (mkR buf [mkD a N1 N2; mkD b N2 1]).
Proof.
  intros H1 H2 F. unfold buffer_fits in F. unfold k_accumulator, tile_type, k_make_compact. cbn [combine map fst snd].
  assert (Nx : compact_next [mkDT dynamic N1 dynamic; mkDT dynamic N2 1] = N2).
  { unfold compact_next. cbn [map tstr text]. unfold static_abs. rewrite (proj2 (static_pos N2 H2)).
    change (dynamic =? 1) with false. change (1 =? 1) with true. cbn [variadic_max vany vall map negb]. unfold cmax, cabs, index_min.
    change (vany _) with false. change (vall _) with false. cbv iota. ifs; unfold dynamic in *; lia. }
  rewrite Nx. cbn [k_make_compact_from tmin text tstr dmin dext].
  assert (P1 : 1 <= N2 * N1) by nia. assert (P2 : N2 * N1 <= N1 * N2 * N2) by nia.
  unfold k_static_mul, is_dynamic2. rewrite (proj2 (static_pos N2 H2)), (proj2 (static_pos N1 H1)). cbn [orb].
  rewrite chk_ok by (unfold is_index; lia). cbn [bind].
  change (is_static dynamic) with false. change (is_static 1) with true. cbv iota.
  rewrite (proj2 (static_pos (N2 * N1) P1)). cbn [orb]. rewrite chk_ok by (unfold is_index; nia). cbn [bind].
  unfold make_dim, default_stride. cbn [tmin text tstr]. rewrite (proj1 (static_pos N2 H2)).
  change (is_static 1) with true. cbv iota. rewrite !cindex_dynamic, !cindex_same by lia. cbn [bind map fst snd].
  assert (R : k_resolve [mkD a N1 N2; mkD b N2 1] = Ok [mkD a N1 N2; mkD b N2 1]).
  { apply k_resolve_known. unfold unknown_stride. repeat constructor; cbn; lia. }
  cbn [combine map snd]. rewrite R. cbn [bind combine map snd]. unfold k_make_ref. rewrite R. reflexivity.
Qed.
Lemma acc_roomy N1 N2 buf io jo : is_interval io -> is_interval jo -> iext io = N1 -> iext jo = N2 -> 1 <= N1 -> 1 <= N2 -> buffer_fits N1 N2 ->
  roomy (r_shape (acc_of N1 N2 buf io jo)).
Proof.
  intros (A1 & A2 & A3 & A4 & A5) (B1 & B2 & B3 & B4 & B5) <- <- H1 H2 F. unfold buffer_fits, acc_of in *. cbn [r_shape].
  assert (iext io * iext jo <= big) by nia.
  unfold roomy, ends_fit, is_dim, unknown_stride, reach. cbn [map fold_right]. repeat constructor; cbn [dmin dext dstr]; auto; unfold is_index in *; try lia; try nia.
Qed.

Section Products.
Context {V : Type} (zero : V) (add mul : V -> V -> V).
Implicit Types (h : heap V) (A B C : aref).

Lemma k_mac_same A B C h i j k : roomy (r_shape A) -> roomy (r_shape B) -> roomy (r_shape C) ->
  in_bounds (r_shape A) [i; k] -> in_bounds (r_shape B) [k; j] -> in_bounds (r_shape C) [i; j] ->
  k_mac add mul A B C h i j k = mac add mul A B C h i j k.
Proof.
  intros RA RB RC IA IB IC. unfold k_mac, mac. rewrite !k_at_same, k_ptr_at by auto. reflexivity.
Qed.
Lemma k_set_same C v h i j : roomy (r_shape C) -> in_bounds (r_shape C) [i; j] -> k_set_elem C v h i j = set_elem C v h i j.
Proof. intros R I. unfold k_set_elem, set_elem. rewrite k_ptr_at by auto. reflexivity. Qed.

Section Shapes.
Context (A B C : aref) (ai ak bk bj ci cj : dim).
Hypothesis (SA : r_shape A = [ai; ak]) (SB : r_shape B = [bk; bj]) (SC : r_shape C = [ci; cj]).
Hypothesis (HI : inside ci ai /\ inside ak bk /\ inside cj bj).
Hypothesis (HF : matrices_fit A B C).

Lemma rows_C : row_dim C = ci. Proof. unfold row_dim. rewrite SC. reflexivity. Qed.
Lemma cols_C : col_dim C = cj. Proof. unfold col_dim. rewrite SC. reflexivity. Qed.
Lemma cols_A : col_dim A = ak. Proof. unfold col_dim. rewrite SA. reflexivity. Qed.
Lemma over_i {S} (f g : S -> Z -> outcome S) s : (forall s x, in_dim ci x -> f s x = g s x) ->
  for_in (k_for_dim ci) f s = for_in (for_dim ci) g s.
Proof. apply (for_dim_same ci [ci; cj]); [rewrite <- SC; apply HF|left; auto]. Qed.
Lemma over_j {S} (f g : S -> Z -> outcome S) s : (forall s x, in_dim cj x -> f s x = g s x) ->
  for_in (k_for_dim cj) f s = for_in (for_dim cj) g s.
Proof. apply (for_dim_same cj [ci; cj]); [rewrite <- SC; apply HF|right; left; auto]. Qed.
Lemma over_k {S} (f g : S -> Z -> outcome S) s : (forall s x, in_dim ak x -> f s x = g s x) ->
  for_in (k_for_dim ak) f s = for_in (for_dim ak) g s.
Proof. apply (for_dim_same ak [ai; ak]); [rewrite <- SA; apply HF|right; left; auto]. Qed.
Lemma mac_in h i j k : in_dim ci i -> in_dim cj j -> in_dim ak k -> k_mac add mul A B C h i j k = mac add mul A B C h i j k.
Proof.
  intros Hi Hj Hk. destruct HI as (I1 & I2 & I3), HF as (F1 & F2 & F3).
  apply k_mac_same; auto; rewrite ?SA, ?SB, ?SC; apply in_bounds_pair; auto.
Qed.
Lemma set_in v h i j : in_dim ci i -> in_dim cj j -> k_set_elem C v h i j = set_elem C v h i j.
Proof. intros Hi Hj. destruct HF as (F1 & F2 & F3). apply k_set_same; auto. rewrite SC. apply in_bounds_pair; auto. Qed.

Lemma k_cols_same h : k_multiply_reduce_cols zero add mul A B C h = multiply_reduce_cols zero add mul A B C h.
Proof.
  unfold k_multiply_reduce_cols, multiply_reduce_cols. rewrite rows_C, cols_C, cols_A.
  apply over_i. intros h1 i Hi. apply over_j. intros h2 j Hj. rewrite set_in by auto. apply bind_same; [reflexivity|]. intro h3.
  apply over_k. intros h4 k Hk. apply mac_in; auto.
Qed.
Lemma k_rows_same h : k_multiply_reduce_rows zero add mul A B C h = multiply_reduce_rows zero add mul A B C h.
Proof.
  unfold k_multiply_reduce_rows, multiply_reduce_rows. rewrite rows_C, cols_C, cols_A.
  apply over_i. intros h1 i Hi. apply bind_same; [apply over_j; intros; apply set_in; auto|]. intro h3.
  apply over_k. intros h4 k Hk. apply over_j. intros h5 j Hj. apply mac_in; auto.
Qed.
Lemma k_matrix_same h : k_multiply_reduce_matrix zero add mul A B C h = multiply_reduce_matrix zero add mul A B C h.
Proof.
  unfold k_multiply_reduce_matrix, multiply_reduce_matrix. rewrite rows_C, cols_C, cols_A.
  apply bind_same; [apply over_i; intros; apply over_j; intros; apply set_in; auto|]. intro h3.
  apply over_k. intros h4 k Hk. apply over_i. intros h5 i Hi. apply over_j. intros h6 j Hj. apply mac_in; auto.
Qed.

(** ** Einstein reductions *)
Lemma k_fill_matrix_same h v : k_fill_matrix h C v = fill_matrix h C v.
Proof.
  unfold k_fill_matrix, fill_matrix. rewrite rows_C, cols_C. apply bind_same; [|reflexivity].
  destruct HF as (_ & _ & R). rewrite SC in R. pose proof R as (R1 & R2 & R3 & R4).
  unfold k_values_matrix, values_matrix, matrix_for_each_value. rewrite k_matrix_index_ok by auto.
  assert (X : 0 <= dext ci /\ 0 <= dext cj) by (split; apply (roomy_in _ _ R); cbn; auto).
  destruct (matrix_index_visits ci cj) as (l & E & [_ En] & _); [apply X|apply X|].
  rewrite E. cbn [bind]. rewrite (mapM_ok _ (ref_ptr C)).
  - f_equal. rewrite map_map. apply map_ext. intro k. unfold to_ptr, ref_ptr, ptr_off. rewrite SC. reflexivity.
  - apply Forall_forall. intros x Hx. assert (Ix : in_bounds [ci; cj] x) by (apply En; auto).
    rewrite k_flat_offset_ok by auto. cbn [bind]. f_equal. unfold ref_ptr. rewrite SC. rewrite <- flat_offset_spec. reflexivity.
Qed.
End Shapes.
Lemma k_ein_product nd h A B C ai ak bk bj ci cj i j k : i <> j -> i <> k -> j <> k ->
  r_shape A = [ai; ak] -> r_shape B = [bk; bj] -> r_shape C = [ci; cj] -> extents_ge 0 [ci; cj; ak] ->
  spans ci ai -> spans cj bj -> same_bounds ak bk -> matrices_fit A B C ->
  k_ein_reduce nd add h C [i; j] (EBin mul (EArr A [i; k]) (EArr B [k; j])) =
  ein_reduce nd add h C [i; j] (EBin mul (EArr A [i; k]) (EArr B [k; j])).
Proof.
  intros Nij Nik Njk SA SB SC X PI PJ PK (FA & FB & FC).
  set (Bn := fun l : nat => if (l =? i)%nat then (dmin ci, dext ci) else if (l =? k)%nat then (dmin ak, dext ak) else
            if (l =? j)%nat then (dmin cj, dext cj) else (0, 1)).
  set (e := EBin mul (EArr A [i; k]) (EArr B [k; j])).
  destruct (loops_exist ([i; j] ++ labels e)) as [n L].
  inv X. inv H2. inv H4. clear H5.
  apply (k_ein_reduce_ok nd add h C [i; j] e Bn n); auto.
  - ranks_.
  - split; [|split; [|split]].
    + intro l. unfold Bn. labels_.
    + intros l d Ad. unfold Bn, span_is. ops_; labels_; auto.
    + intros l d Ad. unfold e in Ad. cbn [operands app] in Ad.
      assert (Q : (l = i /\ d = ai) \/ (l = k /\ (d = ak \/ d = bk)) \/ (l = j /\ d = bj)) by (ops_; auto).
      assert (Rn : forall l' D, addressed [(C, [i; j])] l' D -> (l' = i /\ D = ci) \/ (l' = j /\ D = cj)) by (intros l' D Ad'; ops_; auto).
      assert (Ci : addressed [(C, [i; j])] i ci) by (exists C, [i; j]; rewrite SC; cbn; auto).
      assert (Cj : addressed [(C, [i; j])] j cj) by (exists C, [i; j]; rewrite SC; cbn; auto).
      destruct PK as [PK1 PK2].
      assert (Bi : Bn i = (dmin ci, dext ci)) by (unfold Bn; labels_).
      assert (Bj : Bn j = (dmin cj, dext cj)) by (unfold Bn; labels_).
      assert (Bk : Bn k = (dmin ak, dext ak)) by (unfold Bn; labels_).
      unfold span_is, span_within.
      destruct Q as [[-> ->]|[[-> Q]|[-> ->]]]; rewrite ?Bi, ?Bj, ?Bk; cbn [fst snd].
      * destruct PI as [[? ?]|(? & ? & ?)]; [left; auto|]. right. split; [auto|]. split; [eauto|].
        intros D HD. destruct (Rn _ _ HD) as [[_ ->]|[? _]]; congruence.
      * left. destruct Q as [-> | ->]; auto.
      * destruct PJ as [[? ?]|(? & ? & ?)]; [left; auto|]. right. split; [auto|]. split; [eauto|].
        intros D HD. destruct (Rn _ _ HD) as [[? _]|[_ ->]]; congruence.
    + intros l N. unfold Bn. labels_; exfalso.
      * apply (N ci). exists C, [i; j]. rewrite SC. cbn. auto.
      * apply (N ak). exists A, [i; k]. rewrite SA. cbn. auto.
      * apply (N cj). exists C, [i; j]. rewrite SC. cbn. auto.
  - apply Forall_cons; [exact FC|]. apply Forall_cons; [exact FA|]. apply Forall_cons; [exact FB|]. apply Forall_nil.
Qed.
Lemma k_ein_same nd h A B C ai ak bk bj ci cj i j k : i <> j -> i <> k -> j <> k ->
  r_shape A = [ai; ak] -> r_shape B = [bk; bj] -> r_shape C = [ci; cj] -> extents_ge 0 [ci; cj; ak] ->
  spans ci ai -> spans cj bj -> same_bounds ak bk -> matrices_fit A B C ->
  k_multiply_ein zero add mul nd i j k A B C h = multiply_ein zero add mul nd i j k A B C h.
Proof.
  intros Nij Nik Njk SA SB SC X PI PJ PK F. unfold k_multiply_ein, multiply_ein.
  rewrite (k_fill_matrix_same A B C ci cj SC F). apply bind_same; [reflexivity|]. intro h1.
  eapply k_ein_product; eauto.
Qed.

(** ** Tiles *)
Section Tiles.
Context (A B C : aref) (ai ak bk bj ci cj : dim) (N1 N2 : Z).
Hypothesis (SA : r_shape A = [ai; ak]) (SB : r_shape B = [bk; bj]) (SC : r_shape C = [ci; cj]).
Hypothesis (HI : inside ci ai /\ inside ak bk /\ inside cj bj).
Hypothesis (HF : matrices_fit A B C).
Hypothesis (HN1 : 1 <= N1 <= dext ci) (HN2 : 1 <= N2 <= dext cj) (Hb : buffer_fits N1 N2).
Notation tile_ok := (MatrixZ.tile_ok ci cj N1 N2).

Lemma tile_intervals io jo : tile_ok io jo -> is_interval io /\ is_interval jo.
Proof.
  intros (E1 & E2 & I1 & I2). pose proof (proj2 (proj2 HF)) as R. rewrite SC in R.
  split; [apply (sub_interval (d_interval ci) io N1)|apply (sub_interval (d_interval cj) jo N2)]; auto; try lia;
    apply (roomy_in _ _ R); cbn; auto.
Qed.
Lemma tile_slice io jo : tile_ok io jo ->
  k_ref_slice C [AInt io; AInt jo] = Ok (tile_of C io jo) /\ roomy (r_shape (tile_of C io jo)) /\
  r_shape (tile_of C io jo) = [mkD (imin io) N1 (dstr ci); mkD (imin jo) N2 (dstr cj)].
Proof.
  intros (E1 & E2 & I1 & I2). unfold tile_of. destruct (k_slice_same C [AInt io; AInt jo]) as [K R].
  - apply HF.
  - rewrite SC. apply Forall2_cons; [eapply sub_part; eauto; lia|]. apply Forall2_cons; [eapply sub_part; eauto; lia|]. apply Forall2_nil.
  - split; [exact K|]. split; [exact R|]. unfold ref_slice, make_array_ref_at. cbn [r_shape]. rewrite SC, <- E1, <- E2. reflexivity.
Qed.
Lemma size_fits : is_index (N1 * N2).
Proof. unfold buffer_fits, is_index in *. nia. Qed.
(** The body of the loops over tiles, up to what it does with the buffer *)
Lemma tile_body nd io jo (kb ub : aref -> aref -> heap V -> outcome (heap V)) h : tile_ok io jo ->
  (forall buf h, kb (tile_of C io jo) (acc_of N1 N2 buf io jo) h = ub (tile_of C io jo) (acc_of N1 N2 buf io jo) h) ->
  (T <- k_ref_slice C [AInt io; AInt jo] ;;
   n <- chk (N1 * N2) ;;
   let '(h1, buf) := push_buffer zero h n in
   acc <- k_accumulator nd N1 N2 buf (r_shape T) ;;
   h3 <- kb T acc h1 ;; Ok (pop_buffer h3 buf)) =
  (let T := tile_of C io jo in
   let '(h1, buf) := push_buffer zero h (N1 * N2) in
   acc <- accumulator nd N1 N2 buf (r_shape T) ;;
   h3 <- ub T acc h1 ;; Ok (pop_buffer h3 buf)).
Proof.
  intros Ht H. destruct (tile_slice io jo Ht) as (-> & _ & Sh). cbn [bind]. rewrite chk_ok by apply size_fits. cbn [bind].
  unfold push_buffer. cbn zeta. rewrite Sh. rewrite k_make_compact_tile, accumulator_is by (auto; lia). cbn [bind].
  change (mkR (h_next h, 0) [mkD (imin io) N1 N2; mkD (imin jo) N2 1]) with (acc_of N1 N2 (h_next h, 0) io jo).
  rewrite H. reflexivity.
Qed.
Lemma acc_mac io jo buf h i j k : tile_ok io jo -> in_interval io i -> in_interval jo j -> in_dim ak k ->
  k_mac add mul A B (acc_of N1 N2 buf io jo) h i j k = mac add mul A B (acc_of N1 N2 buf io jo) h i j k.
Proof.
  intros Ht Hi Hj Hk. destruct (tile_intervals io jo Ht) as [Q1 Q2]. destruct Ht as (E1 & E2 & I1 & I2).
  destruct HI as (J1 & J2 & J3), HF as (F1 & F2 & F3). apply k_mac_same; auto.
  - apply acc_roomy; auto; lia.
  - rewrite SA. apply in_bounds_pair. auto.
  - rewrite SB. apply in_bounds_pair. auto.
  - apply acc_tile; auto.
Qed.
Lemma tile_store (f : V -> V -> V) io jo buf h i j : tile_ok io jo -> in_interval io i -> in_interval jo j ->
  let T := tile_of C io jo in let acc := acc_of N1 N2 buf io jo in
  (v <- k_ref_at h acc [i; j] ;; p <- k_ref_ptr T [i; j] ;; store h p v) = (v <- ref_at h acc [i; j] ;; store h (ref_ptr T [i; j]) v) /\
  (v <- k_ref_at h acc [i; j] ;; p <- k_ref_ptr T [i; j] ;; old <- load h p ;; store h p (f old v)) =
  (v <- ref_at h acc [i; j] ;; old <- ref_at h T [i; j] ;; store h (ref_ptr T [i; j]) (f old v)).
Proof.
  intros Ht Hi Hj T acc. destruct (tile_intervals io jo Ht) as [Q1 Q2]. destruct (tile_slice io jo Ht) as (_ & R & Sh).
  destruct Ht as (E1 & E2 & I1 & I2).
  assert (RA : roomy (r_shape acc)) by (apply acc_roomy; auto; lia).
  assert (IA : in_bounds (r_shape acc) [i; j]) by (apply acc_tile; auto).
  assert (IT : in_bounds (r_shape T) [i; j]).
  { unfold T. rewrite Sh. apply in_bounds_pair. unfold in_interval, in_dim in *. cbn. lia. }
  split; rewrite k_at_same, k_ptr_at by auto; reflexivity.
Qed.
Lemma k_tiles_same nd kb ub h : tiles_fit N1 ci -> tiles_fit N2 cj ->
  (forall h io jo, tile_ok io jo -> kb h io jo = ub h io jo) ->
  @k_for_tiles V nd N1 N2 C kb h = for_tiles nd N1 N2 C ub h.
Proof.
  intros [_ T1] [_ T2] H. unfold k_for_tiles, for_tiles. pose proof (proj2 (proj2 HF)) as R. rewrite SC in R.
  rewrite (rows_C C ci cj SC), (cols_C C ci cj SC).
  destruct (roomy_in ci _ R) as (_ & _ & Ji); [cbn; auto|]. destruct (roomy_in cj _ R) as (_ & _ & Jj); [cbn; auto|].
  destruct (k_static_tiles nd N1 (d_interval ci) Ji HN1 T1) as (ri & li & E1 & E1' & G1 & G1' & _ & K1 & _).
  destruct (k_static_tiles nd N2 (d_interval cj) Jj HN2 T2) as (rj & lj & E2 & E2' & G2 & G2' & _ & K2 & _).
  rewrite E1, E1'. cbn [bind]. apply for_in_same; [congruence|]. intros li' El s io Hio. rewrite E2, E2'. cbn [bind].
  apply for_in_same; [congruence|]. intros lj' Ej t jo Hjo. apply H. rewrite G1' in El. rewrite G2' in Ej. inv El. inv Ej.
  rewrite Forall_forall in K1, K2. destruct (K1 io Hio) as [Q1 Q2], (K2 jo Hjo) as [Q3 Q4]. repeat split; auto;
    intros; unfold in_dim; apply Q2 in H0 || apply Q4 in H0; apply H0.
Qed.
Lemma tile_dims io jo : tile_ok io jo ->
  row_dim (tile_of C io jo) = mkD (imin io) N1 (dstr ci) /\ col_dim (tile_of C io jo) = mkD (imin jo) N2 (dstr cj).
Proof. intro Ht. destruct (tile_slice io jo Ht) as (_ & _ & Sh). unfold row_dim, col_dim. rewrite Sh. auto. Qed.
Lemma over_tile_i {S} io jo (f g : S -> Z -> outcome S) s : tile_ok io jo -> (forall s x, in_interval io x -> f s x = g s x) ->
  for_in (k_for_dim (row_dim (tile_of C io jo))) f s = for_in (for_dim (row_dim (tile_of C io jo))) g s.
Proof.
  intros Ht H. destruct (tile_slice io jo Ht) as (_ & R & Sh). rewrite Sh in R. destruct (tile_dims io jo Ht) as [-> _].
  eapply for_dim_same; [exact R|left; auto|]. intros t x Hx. apply H. destruct Ht as (E1 & _). unfold in_dim, in_interval in *. cbn in Hx. lia.
Qed.
Lemma over_tile_j {S} io jo (f g : S -> Z -> outcome S) s : tile_ok io jo -> (forall s x, in_interval jo x -> f s x = g s x) ->
  for_in (k_for_dim (col_dim (tile_of C io jo))) f s = for_in (for_dim (col_dim (tile_of C io jo))) g s.
Proof.
  intros Ht H. destruct (tile_slice io jo Ht) as (_ & R & Sh). rewrite Sh in R. destruct (tile_dims io jo Ht) as [_ ->].
  eapply for_dim_same; [exact R|right; left; auto|]. intros t x Hx. apply H. destruct Ht as (_ & E2 & _). unfold in_dim, in_interval in *. cbn in Hx. lia.
Qed.
Lemma store_tile_same io jo buf h : tile_ok io jo -> let T := tile_of C io jo in
  k_store_tile (k_for_dim (row_dim T)) (k_for_dim (col_dim T)) T (acc_of N1 N2 buf io jo) h =
  store_tile (for_dim (row_dim T)) (for_dim (col_dim T)) T (acc_of N1 N2 buf io jo) h.
Proof.
  intros Ht T. unfold k_store_tile, store_tile. apply over_tile_i; auto. intros h1 i Hi. apply over_tile_j; auto. intros h2 j Hj.
  apply (tile_store (fun _ x => x)); auto.
Qed.
Lemma k_reduce_tiles_same nd h : tiles_fit N1 ci -> tiles_fit N2 cj ->
  k_multiply_reduce_tiles zero add mul nd N1 N2 A B C h = multiply_reduce_tiles zero add mul nd N1 N2 A B C h.
Proof.
  intros T1 T2. unfold k_multiply_reduce_tiles, multiply_reduce_tiles. apply k_tiles_same; auto.
  intros h1 io jo Ht.
  pose proof (tile_body nd io jo
    (fun T acc h => h2 <- k_mac_tile add mul (k_for_dim (col_dim A)) (k_for_dim (row_dim T)) (k_for_dim (col_dim T)) A B acc h ;;
                    k_store_tile (k_for_dim (row_dim T)) (k_for_dim (col_dim T)) T acc h2)
    (fun T acc h => h2 <- mac_tile add mul (for_dim (col_dim A)) (for_dim (row_dim T)) (for_dim (col_dim T)) A B acc h ;;
                    store_tile (for_dim (row_dim T)) (for_dim (col_dim T)) T acc h2) h1 Ht) as Q.
  cbn beta in Q. etransitivity; [|etransitivity; [apply Q|]].
  - apply bind_same; [reflexivity|]. intro T. apply bind_same; [reflexivity|]. intro n. unfold push_buffer.
    apply bind_same; [reflexivity|]. intro acc. destruct (k_mac_tile _ _ _ _ _ _ _ _ _); reflexivity.
  - intros buf h2. rewrite (cols_A A ai ak SA). unfold k_mac_tile, mac_tile. apply bind_same; [|intro; apply store_tile_same; auto].
    apply (over_k A B C ai ak SA HF). intros h4 k Hk. apply over_tile_i; auto. intros h5 i Hi. apply over_tile_j; auto. intros h6 j Hj.
    apply acc_mac; auto.
  - cbn zeta. unfold push_buffer. apply bind_same; [reflexivity|]. intro acc. destruct (mac_tile _ _ _ _ _ _ _ _ _); reflexivity.
Qed.
Lemma k_ein_tiles_same nd h : tiles_fit N1 ci -> tiles_fit N2 cj -> same_bounds ak bk -> 0 <= dext ak ->
  k_multiply_ein_reduce_tiles zero add mul nd N1 N2 A B C h = multiply_ein_reduce_tiles zero add mul nd N1 N2 A B C h.
Proof.
  intros T1 T2 Sb Xk. unfold k_multiply_ein_reduce_tiles, multiply_ein_reduce_tiles. apply k_tiles_same; auto.
  intros h1 io jo Ht.
  set (e := EBin mul (EArr A [1; 2]%nat) (EArr B [2; 0]%nat)).
  pose proof (tile_body nd io jo
    (fun T acc h => h2 <- k_ein_reduce nd add h acc [1; 0]%nat e ;;
                    k_store_tile (k_for_dim (row_dim T)) (k_for_dim (col_dim T)) T acc h2)
    (fun T acc h => h2 <- ein_reduce nd add h acc [1; 0]%nat e ;;
                    store_tile (for_dim (row_dim T)) (for_dim (col_dim T)) T acc h2) h1 Ht) as Q.
  cbn beta in Q. etransitivity; [|etransitivity; [apply Q|]].
  - apply bind_same; [reflexivity|]. intro T. apply bind_same; [reflexivity|]. intro n. unfold push_buffer.
    apply bind_same; [reflexivity|]. intro acc. destruct (k_ein_reduce _ _ _ _ _ _); reflexivity.
  - intros buf h2. apply bind_same; [|intro; apply store_tile_same; auto].
    destruct (tile_intervals io jo Ht) as [Q1 Q2]. pose proof Ht as (E1 & E2 & I1 & I2). destruct HI as (J1 & J2 & J3), HF as (F1 & F2 & F3).
    assert (Sp : forall (I : interval) N d s, 1 <= N -> iext I = N -> s <> 0 -> (forall x, in_interval I x -> in_dim d x) -> spans (mkD (imin I) N s) d).
    { intros I N d s HN E Hs H. right. cbn [dmin dext dstr]. pose proof (H (imin I)) as Ha. pose proof (H (imin I + N - 1)) as Hb'.
      unfold in_interval, in_dim in *. lia. }
    apply (k_ein_product nd h2 A B (acc_of N1 N2 buf io jo) ai ak bk bj (mkD (imin io) N1 N2) (mkD (imin jo) N2 1)); auto.
    + repeat constructor; cbn; lia.
    + apply Sp; auto; lia.
    + apply Sp; auto; lia.
    + split; [auto|]. split; [auto|]. apply acc_roomy; auto; lia.
  - cbn zeta. unfold push_buffer. apply bind_same; [reflexivity|]. intro acc. destruct (ein_reduce _ _ _ _ _ _); reflexivity.
Qed.
(** ** Tiles in z-order *)
Lemma prefetch_ok line io jo k : prefetch_fits line N1 N2 A B -> tile_ok io jo -> in_dim ak k ->
  k_prefetch line A B io jo k = Ok tt.
Proof.
  intros (L & L1 & L2 & P) (E1 & E2 & I1 & I2) Hk. destruct HI as (J1 & J2 & J3). rewrite SA, SB in P. destruct P as [PA PB].
  unfold k_prefetch.
  destruct (stepped_ok line L (Z.to_nat (iext io)) 0 (iext io)) as (li & -> & Fi); try lia.
  destruct (stepped_ok line L (Z.to_nat (iext jo)) 0 (iext jo)) as (lj & -> & Fj); try lia. cbn [bind].
  edestruct (@mapM_defined Z ptr) as [pi ->]; [|cbn [bind]; edestruct (@mapM_defined Z ptr) as [pj ->]; [|reflexivity]].
  - eapply Forall_impl; [|exact Fi]. cbn beta. intros x Hx.
    assert (Q : in_dim ai (imin io + x)) by (apply J1, I1; unfold in_interval; lia).
    assert (W : in_dim (wider 8 ak) (k + 8)) by (apply wider_in; [lia|auto]).
    rewrite !chk_ok by (eapply roomy_index; [exact PA| |eassumption]; cbn; auto). cbn [bind].
    eapply wider_ptr_1; [exact SA|exact PA|]. apply in_bounds_pair; auto.
  - eapply Forall_impl; [|exact Fj]. cbn beta. intros x Hx.
    assert (Q : in_dim bj (imin jo + x)) by (apply J3, I2; unfold in_interval; lia).
    assert (W : in_dim (wider 4 bk) (k + 4)) by (apply wider_in; [lia|auto]).
    rewrite !chk_ok by (eapply roomy_index; [exact PB| |eassumption]; cbn; auto). cbn [bind].
    eapply wider_ptr_0; [exact SB|exact PB|]. apply in_bounds_pair; auto.
Qed.
Lemma k_z_tiles nd : tiles_count N1 ci -> tiles_count N2 cj -> exists ri rj l,
  k_split_static nd N1 (d_interval ci) = Ok ri /\ split_static nd N1 (d_interval ci) = Ok ri /\
  k_split_static nd N2 (d_interval cj) = Ok rj /\ split_static nd N2 (d_interval cj) = Ok rj /\
  k_for_each_in_z_order [k_split_range (Some N1) ri; k_split_range (Some N2) rj] = Ok l /\
  for_each_in_z_order [(sr_size ri, fun n => si_i (sr_at (Some N1) ri n)); (sr_size rj, fun n => si_i (sr_at (Some N2) rj n))] = Ok l /\
  Forall (fun t => exists io jo, t = [io; jo] /\ tile_ok io jo) l.
Proof.
  intros (_ & C1 & C2 & C3) (_ & D1 & D2 & D3). pose proof (proj2 (proj2 HF)) as R. rewrite SC in R.
  destruct (roomy_in ci _ R) as (_ & _ & Ji); [cbn; auto|]. destruct (roomy_in cj _ R) as (_ & _ & Jj); [cbn; auto|].
  destruct (k_static_tiles nd N1 (d_interval ci) Ji HN1) as (ri & li & E1 & E1' & _ & G1 & Z1 & K1 & B1 & A1 & S1); [cbn; lia|].
  destruct (k_static_tiles nd N2 (d_interval cj) Jj HN2) as (rj & lj & E2 & E2' & _ & G2 & Z2 & K2 & B2 & A2 & S2); [cbn; lia|].
  destruct (static_tiles nd N1 (d_interval ci) HN1) as (ri' & li' & Q1 & Q2 & _ & T1 & _).
  rewrite E1' in Q1. injection Q1 as <-. rewrite G1 in Q2. injection Q2 as <-.
  destruct (static_tiles nd N2 (d_interval cj) HN2) as (rj' & lj' & Q3 & Q4 & _ & T2 & _).
  rewrite E2' in Q3. injection Q3 as <-. rewrite G2 in Q4. injection Q4 as <-.
  cbn [d_interval imin iext] in *.
  assert (P1 : 1 <= sr_size ri).
  { pose proof (split_static_access (d_interval ci) N1 nd HN1) as (r & l & X1 & X2 & X3 & X4 & _). rewrite E1' in X1. injection X1 as <-.
    rewrite X3, X4. cbn [d_interval iext]. apply Z.div_le_lower_bound; lia. }
  assert (P2 : 1 <= sr_size rj).
  { pose proof (split_static_access (d_interval cj) N2 nd HN2) as (r & l & X1 & X2 & X3 & X4 & _). rewrite E2' in X1. injection X1 as <-.
    rewrite X3, X4. cbn [d_interval iext]. apply Z.div_le_lower_bound; lia. }
  destruct (z_order_visits [sr_size ri; sr_size rj]) as (idx & V1 & [_ V2] & _); [cbn; lia|repeat constructor; lia|].
  exists ri, rj, (map (fun i => map2 (fun r k => snd r k)
     [(sr_size ri, fun n => si_i (sr_at (Some N1) ri n)); (sr_size rj, fun n => si_i (sr_at (Some N2) rj n))] i) idx).
  split; [exact E1|]. split; [exact E1'|]. split; [exact E2|]. split; [exact E2'|].
  assert (Ix : forall i, In i idx -> exists a b, i = [a; b] /\ 0 <= a < Z.of_nat (length li) /\ 0 <= b < Z.of_nat (length lj)).
  { intros i Hi. apply V2 in Hi. inv Hi. inv H3. inv H5. exists y, y0. rewrite <- Z1, <- Z2. auto. }
  split; [|split].
  - unfold k_for_each_in_z_order, k_split_range. cbn [mapM fst]. rewrite S1, S2 by lia. cbn [bind]. rewrite k_z_order_ok, V1. cbn [bind].
    apply mapM_ok. apply Forall_forall. intros i Hi. destruct (Ix i Hi) as (a & b & -> & Ha & Hb'). cbn [map2M map2 snd].
    rewrite A1, A2 by auto. reflexivity.
  - unfold for_each_in_z_order. cbn [map fst]. rewrite V1. reflexivity.
  - apply Forall_map. apply Forall_forall. intros i Hi. destruct (Ix i Hi) as (a & b & -> & Ha & Hb'). cbn [map2 snd].
    eexists _, _. split; [reflexivity|]. rewrite Forall_forall in K1, K2.
    assert (Na : nth_error li (Z.to_nat a) = Some (si_i (sr_at (Some N1) ri a))) by (rewrite T1 by lia; rewrite Z2Nat.id by lia; reflexivity).
    assert (Nb : nth_error lj (Z.to_nat b) = Some (si_i (sr_at (Some N2) rj b))) by (rewrite T2 by lia; rewrite Z2Nat.id by lia; reflexivity).
    apply nth_error_In in Na, Nb. destruct (K1 _ Na) as [U1 U2], (K2 _ Nb) as [U3 U4].
    split; [exact U1|]. split; [exact U3|]. split; [exact U2|exact U4].
Qed.
Lemma k_z_same nd tile_k line h : tiles_count N1 ci -> tiles_count N2 cj -> blocks_fit tile_k ak -> prefetch_fits line N1 N2 A B ->
  k_multiply_reduce_tiles_z_order zero add mul nd N1 N2 tile_k line A B C h =
  multiply_reduce_tiles_z_order zero add mul nd N1 N2 tile_k A B C h.
Proof.
  intros C1 C2 (K1 & K2) P. pose proof (proj1 HF) as RA. rewrite SA in RA.
  destruct (roomy_in ak _ RA) as (_ & _ & Jk); [cbn; auto|].
  destruct (k_dynamic_tiles tile_k (d_interval ak) Jk K1 K2) as (lk & D1 & D2 & D3 & D4).
  unfold k_multiply_reduce_tiles_z_order, multiply_reduce_tiles_z_order. rewrite (cols_A A ai ak SA), D1. cbn [bind].
  apply for_in_same; [congruence|]. intros lk' El h1 ko Hko. rewrite D3 in El. inv El. rewrite Forall_forall in D4.
  destruct (D4 ko Hko) as [Xk Ik]. assert (Jo : is_interval ko) by (eapply (sub_interval (d_interval ak)); eauto; lia).
  rewrite (rows_C C ci cj SC), (cols_C C ci cj SC).
  destruct (k_z_tiles nd C1 C2) as (ri & rj & l & -> & -> & -> & -> & Kz & Uz & Fz). cbn [bind].
  apply for_in_same; [congruence|]. intros l' El h2 t It. rewrite Uz in El. inv El. rewrite Forall_forall in Fz.
  destruct (Fz t It) as (io & jo & -> & Ht).
  pose proof (tile_body nd io jo
    (fun T acc h => h2 <- k_mac_block add mul line ko io jo A B acc h ;;
                    (if imin ko =? dmin ak then k_store_tile (k_for_interval io) (k_for_interval jo) T acc h2
                     else k_add_tile add (k_for_interval io) (k_for_interval jo) T acc h2))
    (fun T acc h => h2 <- mac_tile add mul (for_interval ko) (for_interval io) (for_interval jo) A B acc h ;;
                    (if imin ko =? dmin ak then store_tile (for_interval io) (for_interval jo) T acc h2
                     else add_tile add (for_interval io) (for_interval jo) T acc h2)) h2 Ht) as Q.
  cbn beta in Q. etransitivity; [|etransitivity; [apply Q|]].
  - apply bind_same; [reflexivity|]. intro T. apply bind_same; [reflexivity|]. intro n. unfold push_buffer.
    apply bind_same; [reflexivity|]. intro acc. destruct (k_mac_block _ _ _ _ _ _ _ _ _ _); reflexivity.
  - intros buf h3. destruct (tile_intervals io jo Ht) as [Oi Oj]. apply bind_same.
    + unfold k_mac_block, mac_tile. apply for_interval_same; auto. intros h4 k Hk. apply Ik in Hk.
      rewrite prefetch_ok by auto. cbn [bind]. apply for_interval_same; auto. intros h5 i Hi.
      apply for_interval_same; auto. intros h6 j Hj. apply acc_mac; auto.
    + intro h4. destruct (imin ko =? dmin ak); (apply for_interval_same; auto; intros h5 i Hi; apply for_interval_same; auto; intros h6 j Hj;
        apply (tile_store add); auto).
  - cbn zeta. unfold push_buffer. apply bind_same; [reflexivity|]. intro acc. destruct (mac_tile _ _ _ _ _ _ _ _ _); reflexivity.
Qed.
End Tiles.
End Products.
