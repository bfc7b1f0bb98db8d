(** Facts about the loops over tiles of the matrix products. *)
From Coq Require Import Sorted Permutation.
From Verif Require Import Tac Interval Shape Traverse Memory Ref Spec SpecMem SpecContainer Static SpecStatic Container Ein SpecEin
  ZOrder SpecZ Matrix SpecMatrix
  ShapeFacts IntervalFacts ResolveFacts ShapeProps TraverseFacts MemFacts RefFacts SliceFacts ContainerFacts StaticFacts EinFacts EinSum EinMake EinUses
  ZOrderFacts TileFacts MatrixFacts MatrixProd MatrixEin MatrixTiles.
Import ListNotations.
Open Scope Z_scope.

(** ** Folds over tiles *)
Lemma fold_cover {A S} (P : A -> bool) (v : S) l s : (exists a, In a l /\ P a = true) ->
  fold_left (fun s a => if P a then v else s) l s = v.
Proof.
  assert (K : forall l, fold_left (fun s a => if P a then v else s) l v = v).
  { clear. induction l as [|a l IH]; cbn [fold_left]; [auto|]. destruct (P a); auto. }
  revert s. induction l as [|a l IH]; intros s (b & I & Hb); [destruct I|]. cbn [fold_left].
  destruct I as [->|I]; [rewrite Hb; auto|]. apply IH. eauto.
Qed.
Lemma iter_inside {S} (f : S -> S) n s : Nat.iter n f (f s) = Nat.iter (Datatypes.S n) f s.
Proof. induction n as [|n IH]; [reflexivity|]. change (f (Nat.iter n f (f s)) = f (Nat.iter (Datatypes.S n) f s)). rewrite IH. reflexivity. Qed.
Lemma fold_count {A S} (P : A -> bool) (f : S -> S) l s :
  fold_left (fun s a => if P a then f s else s) l s = Nat.iter (length (filter P l)) f s.
Proof.
  revert s. induction l as [|a l IH]; intro s; cbn [fold_left filter]; [reflexivity|].
  rewrite IH. destruct (P a); [|reflexivity]. cbn [length]. apply iter_inside.
Qed.
Lemma iter_repeat {S} (add : S -> S -> S) d n s : Nat.iter n (fun w => add w d) s = fold_left add (repeat d n) s.
Proof.
  revert s. induction n as [|n IH]; intro s; [reflexivity|]. cbn [repeat fold_left]. rewrite <- IH. symmetry. apply (iter_inside (fun w => add w d)).
Qed.
Lemma iter_const {S} (d : S) n s : (1 <= n)%nat -> Nat.iter n (fun _ => d) s = d.
Proof. destruct n; [lia|]. reflexivity. Qed.
Lemma filter_perm {A} (P : A -> bool) l l' : Permutation l l' -> length (filter P l) = length (filter P l').
Proof. induction 1; cbn [filter]; auto; try (destruct (P x)); try (destruct (P y)); cbn [length]; congruence. Qed.
Lemma count_product {A} (P Q : A -> bool) l1 l2 :
  length (filter (fun t => match t with [a; b] => P a && Q b | _ => false end) (flat_map (fun a => map (fun b => [a; b]) l2) l1)) =
  (length (filter P l1) * length (filter Q l2))%nat.
Proof.
  induction l1 as [|a l1 IH]; cbn [flat_map filter]; [reflexivity|]. rewrite filter_app, app_length, IH.
  assert (E : length (filter (fun t => match t with [a; b] => P a && Q b | _ => false end) (map (fun b => [a; b]) l2)) =
              if P a then length (filter Q l2) else O).
  { clear. induction l2 as [|b l2 IH]; cbn [map filter]; [destruct (P a); reflexivity|].
    destruct (P a); cbn [andb]; [destruct (Q b); cbn [length]; congruence|auto]. }
  rewrite E. destruct (P a); cbn [length]; lia.
Qed.
Lemma count_in_cover x l : (1 <= count_in x l)%nat -> exists p, In p l /\ in_interval p x.
Proof.
  unfold count_in. destruct (filter (containsb x) l) as [|p q] eqn:E; cbn [length]; [lia|]. intros _.
  assert (I : In p (filter (containsb x) l)) by (rewrite E; left; auto). apply filter_In in I. exists p. rewrite <- containsb_spec. auto.
Qed.
Lemma tile_count_pos N d x : (1 <= tile_count N d x)%nat.
Proof. unfold tile_count. destruct (_ || _); lia. Qed.

Section Matrix.
Context {V : Type} (zero : V) (add mul : V -> V -> V).
Implicit Types (h : heap V) (A B C : aref) (f g : list Z -> V).

(** The two ways to store a tile, written alike *)
Lemma for_in_ext {X} (l : list X) (b b' : heap V -> X -> outcome (heap V)) h : (forall h x, b h x = b' h x) ->
  for_in (Ok l) b h = for_in (Ok l) b' h.
Proof.
  intro H. unfold for_in. cbn [bind]. revert h. induction l as [|x l IH]; intro h; cbn [foldM]; [auto|].
  rewrite H. destruct (b' h x); cbn [bind]; auto.
Qed.
Lemma store_tile_is li lj T acc h :
  store_tile (Ok li) (Ok lj) T acc h = for_in (Ok li) (fun h i => for_in (Ok lj) (fun h j => v <- ref_at h acc [i; j] ;;
       old <- ref_at h T [i; j] ;; store h (ref_ptr T [i; j]) ((fun _ x : V => x) old v)) h) h.
Proof.
  unfold store_tile. apply for_in_ext. intros h' i. apply for_in_ext. intros h'' j.
  destruct (ref_at h'' acc [i; j]) as [v| |]; cbn [bind]; auto.
  unfold ref_at, load, store. destruct (peek h'' (ref_ptr T [i; j])) as [[|w]|]; reflexivity.
Qed.
Lemma add_tile_is li lj T acc h :
  add_tile add (Ok li) (Ok lj) T acc h = for_in (Ok li) (fun h i => for_in (Ok lj) (fun h j => v <- ref_at h acc [i; j] ;;
       old <- ref_at h T [i; j] ;; store h (ref_ptr T [i; j]) (add old v)) h) h.
Proof. reflexivity. Qed.

Section Setting.
Context (h0 : heap V) (A B C : aref) (f g : list Z -> V) (ai ak bk bj ci cj : dim) (N1 N2 : Z).
Hypothesis (Se : setting h0 A B C f g ai ak bk bj ci cj).
Hypothesis (HN1 : 1 <= N1 <= dext ci) (HN2 : 1 <= N2 <= dext cj).

Definition tile_ok (io jo : interval) : Prop := iext io = N1 /\ iext jo = N2 /\
  (forall x, in_interval io x -> in_dim ci x) /\ (forall x, in_interval jo x -> in_dim cj x).

Lemma sums_mac io jo oks ks oli olj : tile_ok io jo -> oks = Ok ks -> (forall k, In k ks -> in_dim ak k) ->
  oli = Ok (range (imin io) (iext io)) -> olj = Ok (range (imin jo) (iext jo)) ->
  sums_up add mul A B f g N1 N2 io jo ks (fun acc h => mac_tile add mul oks oli olj A B acc h).
Proof.
  intros (Ei & Ej & Ii & Ij) Ek Hk Eli Elj h1 buf U HA HB PA PB. unfold mac_tile.
  destruct Se as [SA SB SC _ (I1 & I2 & I3) _ _].
  set (acc := acc_of N1 N2 buf io jo).
  eapply refines_ext; [|apply (refines_for acc h1 ks oks _ (fun k p w => add w (mul (f [nth 0 p 0; k]) (g [k; nth 1 p 0]))) Ek)].
  { cbn beta. intros p w Hp. rewrite fold_map. reflexivity. }
  intros k Ik. specialize (Hk k Ik).
  eapply refines_ext; [|apply (refines_nest_part acc h1 (mkD (imin io) N1 N2) (mkD (imin jo) N2 1) io jo oli olj (fun h i j => mac add mul A B acc h i j k)
    (fun i j w => add w (mul (f [i; k]) (g [k; j])))); auto; try lia].
  - cbn beta. intros p w Hp. unfold acc, acc_of in Hp. cbn [r_shape] in Hp. apply in_bounds_2 in Hp. destruct Hp as (u & v & -> & Iu & Iv).
    cbn [nth]. destruct (in_tile_dec io jo [u; v]) as [|N]; [reflexivity|]. exfalso. apply N. unfold in_tile, in_interval, in_dim in *.
    cbn [nth dmin dext] in *. lia.
  - intros x Hx. unfold in_interval, in_dim in *. cbn. lia.
  - intros x Hx. unfold in_interval, in_dim in *. cbn. lia.
  - intros i j Hi Hj. apply mac_refines; auto.
    + apply acc_injective; lia.
    + intros q Hq (i' & _ & E). apply (PA q Hq). rewrite E. reflexivity.
    + intros q Hq (i' & _ & E). apply (PB q Hq). rewrite E. reflexivity.
    + rewrite SA. apply in_bounds_pair. auto.
    + rewrite SB. apply in_bounds_pair. auto.
    + apply acc_tile; auto.
Qed.
Lemma sums_ein nd io jo : tile_ok io jo -> same_bounds ak bk ->
  (forall x, in_interval io x -> in_dim ai x) -> (forall x, in_interval jo x -> in_dim bj x) ->
  sums_up add mul A B f g N1 N2 io jo (range (dmin ak) (dext ak))
    (fun acc h => ein_reduce nd add h acc [1; 0]%nat (EBin mul (EArr A [1; 2]%nat) (EArr B [2; 0]%nat))).
Proof.
  intros (Ei & Ej & Ii & Ij) Sb Ia Ib h1 buf U HA HB PA PB.
  destruct Se as [SA SB SC (X1 & X2 & X3) (I1 & I2 & I3) _ _].
  assert (Sp : forall (I : interval) N d s, 1 <= N -> iext I = N -> s <> 0 -> (forall x, in_interval I x -> in_dim d x) -> spans (mkD (imin I) N s) d).
  { intros I N d s HN E Hs H. right. cbn [dmin dext dstr]. pose proof (H (imin I)) as Ha. pose proof (H (imin I + N - 1)) as Hb.
    unfold in_interval, in_dim in *. lia. }
  apply (ein_product zero add mul nd h1 A B (acc_of N1 N2 buf io jo) f g ai ak bk bj (mkD (imin io) N1 N2) (mkD (imin jo) N2 1)); auto.
  - repeat constructor; cbn; lia.
  - apply Sp; auto; lia.
  - apply Sp; auto; lia.
  - apply acc_injective; lia.
  - intros q Hq (i' & _ & E). apply (PA q Hq). rewrite E. reflexivity.
  - intros q Hq (i' & _ & E). apply (PB q Hq). rewrite E. reflexivity.
Qed.

(** ** Loops over tiles, one after the other *)
Lemma tiles_refine nd body (v : list Z -> V) :
  (forall io jo, tile_ok io jo -> refines C h0 (fun h => body h io jo) (fun p w => if in_tile_dec io jo p then v p else w)) ->
  refines C h0 (for_tiles nd N1 N2 C body) (fun p _ => v p).
Proof.
  intros H. unfold for_tiles. rewrite (set_rows _ _ _ _ _ _ _ _ _ _ _ _ Se), (set_cols _ _ _ _ _ _ _ _ _ _ _ _ Se).
  destruct (static_tiles nd N1 (d_interval ci) HN1) as (ri & li & E1 & F1 & _ & _ & K1 & _ & T1).
  destruct (static_tiles nd N2 (d_interval cj) HN2) as (rj & lj & E2 & F2 & _ & _ & K2 & _ & T2).
  rewrite E1, E2. cbn [bind].
  pose proof (s_C _ _ _ _ _ _ _ _ _ _ _ _ Se) as SC.
  eapply refines_ext; [|apply (refines_for C h0 li _ _
    (fun io p w => fold_left (fun w jo => if in_tile_dec io jo p then v p else w) lj w) F1)].
  - cbn beta. intros p w Hp. rewrite SC in Hp. apply in_bounds_2 in Hp. destruct Hp as (u & z & -> & Iu & Iz).
    assert (C1 : exists io, In io li /\ in_interval io u).
    { apply count_in_cover. rewrite (T1 u 0); [|exact Iu]. apply tile_count_pos. }
    assert (C2 : exists jo, In jo lj /\ in_interval jo z).
    { apply count_in_cover. rewrite (T2 z 0); [|exact Iz]. apply tile_count_pos. }
    destruct C1 as (io & M1 & N1'), C2 as (jo & M2 & N2').
    set (P := fun io (jo : interval) => if in_tile_dec io jo [u; z] then true else false).
    assert (Inner : forall io s, fold_left (fun w jo => if in_tile_dec io jo [u; z] then v [u; z] else w) lj s =
      if containsb u io then v [u; z] else s).
    { intros io' s. destruct (containsb u io') eqn:Eb.
      - apply containsb_spec in Eb. rewrite (fold_ext _ (fun w jo => if P io' jo then v [u; z] else w)).
        + apply fold_cover. exists jo. split; [exact M2|]. unfold P. destruct (in_tile_dec io' jo [u; z]) as [|N]; [auto|]. exfalso. apply N. split; auto.
        + intros w' x _. unfold P. destruct (in_tile_dec io' x [u; z]); auto.
      - apply fold_id. intros w' x _. destruct (in_tile_dec io' x [u; z]) as [[Q _]|]; [|auto]. apply containsb_spec in Q. cbn [nth] in Q. congruence. }
    rewrite (fold_ext _ (fun w io => if containsb u io then v [u; z] else w)) by (intros; apply Inner).
    apply fold_cover. exists io. split; [exact M1|]. apply containsb_spec. auto.
  - intros io Hio. apply (refines_for C h0 lj _ _ (fun jo p w => if in_tile_dec io jo p then v p else w) F2).
    intros jo Hjo. apply H. rewrite Forall_forall in K1, K2. destruct (K1 io Hio) as [Q1 Q2], (K2 jo Hjo) as [Q3 Q4].
    repeat split; auto; intros; unfold in_dim; apply Q2 in H0 || apply Q4 in H0; apply H0.
Qed.

Lemma tile_loops io jo : tile_ok io jo ->
  for_dim (row_dim (tile_of C io jo)) = Ok (range (imin io) (iext io)) /\
  for_dim (col_dim (tile_of C io jo)) = Ok (range (imin jo) (iext jo)).
Proof.
  intros (Ei & Ej & _ & _). unfold row_dim, col_dim, tile_of, ref_slice, make_array_ref_at. cbn [r_shape].
  rewrite (s_C _ _ _ _ _ _ _ _ _ _ _ _ Se). cbn. split.
  - apply (for_dim_range (mkD (imin io) (iext io) (dstr ci))). cbn. lia.
  - apply (for_dim_range (mkD (imin jo) (iext jo) (dstr cj))). cbn. lia.
Qed.

Lemma reduce_tiles nd : multiplies zero add mul h0 (multiply_reduce_tiles zero add mul nd N1 N2 A B C h0) C f g (range (dmin ak) (dext ak)).
Proof.
  apply (conclude _ _ _ _ _ _ _ _ _ _ _ _ _ _ _ Se). unfold multiply_reduce_tiles.
  apply (tiles_refine nd _ (fun p => inner_product zero add mul f g (range (dmin ak) (dext ak)) (nth 0 p 0) (nth 1 p 0))).
  intros io jo Ht. destruct (tile_loops io jo Ht) as [L1 L2]. pose proof Ht as (Ei & Ej & Ii & Ij).
  apply (tile_kernel zero add mul h0 A B C f g ai ak bk bj ci cj N1 N2 Se ltac:(lia) ltac:(lia) nd io jo (range (dmin ak) (dext ak))
    (fun acc h => mac_tile add mul (for_dim (col_dim A)) (for_dim (row_dim (tile_of C io jo))) (for_dim (col_dim (tile_of C io jo))) A B acc h)
    (fun T acc h => store_tile (for_dim (row_dim (tile_of C io jo))) (for_dim (col_dim (tile_of C io jo))) T acc h) (fun _ x => x)); auto.
  - apply sums_mac; auto.
    + rewrite (set_depth _ _ _ _ _ _ _ _ _ _ _ _ Se). apply (for_depth _ _ _ _ _ _ _ _ _ _ _ _ Se).
    + intros k Hk. apply in_dim_range. auto.
  - intros acc T h. rewrite L1, L2. apply store_tile_is.
Qed.
Lemma ein_reduce_tiles nd : same_bounds ak bk ->
  multiplies zero add mul h0 (multiply_ein_reduce_tiles zero add mul nd N1 N2 A B C h0) C f g (range (dmin ak) (dext ak)).
Proof.
  intro Sb. apply (conclude _ _ _ _ _ _ _ _ _ _ _ _ _ _ _ Se). unfold multiply_ein_reduce_tiles.
  apply (tiles_refine nd _ (fun p => inner_product zero add mul f g (range (dmin ak) (dext ak)) (nth 0 p 0) (nth 1 p 0))).
  intros io jo Ht. destruct (tile_loops io jo Ht) as [L1 L2]. pose proof Ht as (Ei & Ej & Ii & Ij).
  destruct (s_in _ _ _ _ _ _ _ _ _ _ _ _ Se) as (I1 & I2 & I3).
  apply (tile_kernel zero add mul h0 A B C f g ai ak bk bj ci cj N1 N2 Se ltac:(lia) ltac:(lia) nd io jo (range (dmin ak) (dext ak))
    (fun acc h => ein_reduce nd add h acc [1; 0]%nat (EBin mul (EArr A [1; 2]%nat) (EArr B [2; 0]%nat)))
    (fun T acc h => store_tile (for_dim (row_dim (tile_of C io jo))) (for_dim (col_dim (tile_of C io jo))) T acc h) (fun _ x => x)); auto.
  - apply sums_ein; auto.
  - intros acc T h. rewrite L1, L2. apply store_tile_is.
Qed.

(** ** Loops over tiles in z-order *)
Lemma pieces_map (F : Z -> interval) l : (forall k, (k < length l)%nat -> nth_error l k = Some (F (Z.of_nat k))) ->
  l = map F (zseq 0 (length l)).
Proof.
  intro H. apply nth_error_ext'. intro k. destruct (Nat.lt_ge_cases k (length l)) as [Hk|Hk].
  - rewrite H by auto. rewrite nth_error_map. rewrite <- (Nat2Z.id (length l)), zseq_range. unfold range.
    rewrite Nat2Z.id, nth_error_map. rewrite (nth_error_nth' _ 0%nat) by (rewrite seq_length; auto). rewrite seq_nth by auto. reflexivity.
  - rewrite !(proj2 (nth_error_None _ _)); auto. rewrite map_length.
    rewrite <- (Nat2Z.id (length l)), zseq_range. unfold range. rewrite map_length, seq_length. lia.
Qed.
Lemma z_pass nd body (u : list Z -> V -> V) : dext ci <= 2 ^ 62 -> dext cj <= 2 ^ 62 ->
  (forall io jo, tile_ok io jo -> refines C h0 (fun h => body h io jo) (fun p w => if in_tile_dec io jo p then u p w else w)) ->
  refines C h0 (fun h => ri <- split_static nd N1 (d_interval (row_dim C)) ;;
    rj <- split_static nd N2 (d_interval (col_dim C)) ;;
    for_in (for_each_in_z_order [(sr_size ri, fun n => si_i (sr_at (Some N1) ri n));
                                 (sr_size rj, fun n => si_i (sr_at (Some N2) rj n))])
      (fun h t => match t with [io; jo] => body h io jo | _ => UB end) h)
    (fun p w => Nat.iter (tile_count N1 ci (nth 0 p 0) * tile_count N2 cj (nth 1 p 0)) (u p) w).
Proof.
  intros X1 X2 H. rewrite (set_rows _ _ _ _ _ _ _ _ _ _ _ _ Se), (set_cols _ _ _ _ _ _ _ _ _ _ _ _ Se).
  destruct (static_tiles nd N1 (d_interval ci) HN1) as (ri & li & E1 & F1 & Z1 & A1 & K1 & L1 & T1).
  destruct (static_tiles nd N2 (d_interval cj) HN2) as (rj & lj & E2 & F2 & Z2 & A2 & K2 & L2 & T2).
  rewrite E1, E2. cbn [bind].
  pose proof (s_C _ _ _ _ _ _ _ _ _ _ _ _ Se) as SC.
  assert (P1 : (1 <= length li)%nat).
  { assert (Q : (1 <= count_in (dmin ci) li)%nat).
    { rewrite (T1 (dmin ci) 0) by (unfold in_interval; cbn; lia). apply tile_count_pos. }
    unfold count_in in Q. destruct li; cbn in *; lia. }
  assert (P2 : (1 <= length lj)%nat).
  { assert (Q : (1 <= count_in (dmin cj) lj)%nat).
    { rewrite (T2 (dmin cj) 0) by (unfold in_interval; cbn; lia). apply tile_count_pos. }
    unfold count_in in Q. destruct lj; cbn in *; lia. }
  cbn [d_interval iext] in L1, L2.
  destruct (z_order_ranges [(sr_size ri, fun n => si_i (sr_at (Some N1) ri n)); (sr_size rj, fun n => si_i (sr_at (Some N2) rj n))])
    as (L & [Nd En] & _ & EL).
  { cbn. lia. }
  { repeat constructor; cbn [fst]; lia. }
  cbn [map fst] in En.
  set (G := fun i => map2 (fun r k => snd r k) [(sr_size ri, fun n => si_i (sr_at (Some N1) ri n)); (sr_size rj, fun n => si_i (sr_at (Some N2) rj n))] i) in EL.
  pose (L' := flat_map (fun a => map (fun b => [a; b]) (zseq 0 (length lj))) (zseq 0 (length li))).
  assert (Pm : Permutation L L').
  { apply NoDup_Permutation; [exact Nd| |].
    - unfold L'. apply NoDup_flat_map; [apply zseq_NoDup| |].
      + intros a _. apply NoDup_map_inj; [intros; congruence|apply zseq_NoDup].
      + intros a b k _ _ Ha Hb. apply in_map_iff in Ha, Hb. destruct Ha as [? [<- _]], Hb as [? [E _]]. congruence.
    - intro x. rewrite En. unfold L', in_box. rewrite in_flat_map. split.
      + intro Q. inv Q. inv H4. inv H6. exists y. split; [apply zseq_In; lia|]. apply in_map_iff. exists y0. split; auto. apply zseq_In. lia.
      + intros (a & Ha & Q). apply in_map_iff in Q. destruct Q as (b & <- & Hb). apply zseq_In in Ha, Hb. repeat constructor; lia. }
  assert (Gm : map G L' = flat_map (fun a => map (fun b => [a; b]) lj) li).
  { assert (Q : forall l1 l2, map G (flat_map (fun a => map (fun b => [a; b]) l2) l1)
        = flat_map (fun a => map (fun b => [a; b]) (map (fun k => si_i (sr_at (Some N2) rj k)) l2))
            (map (fun k => si_i (sr_at (Some N1) ri k)) l1)).
    { clear. intros. induction l1 as [|a l1 IH]; cbn [flat_map map]; [reflexivity|]. rewrite map_app, IH. f_equal.
      rewrite !map_map. apply map_ext. intro b. reflexivity. }
    unfold L'. rewrite Q. rewrite <- (pieces_map _ _ A1), <- (pieces_map _ _ A2). reflexivity. }
  assert (Mem : forall t, In t (map G L) -> exists io jo, t = [io; jo] /\ tile_ok io jo).
  { intros t Ht. assert (Q : In t (map G L')) by (eapply Permutation_in; [apply Permutation_map; eassumption|auto]).
    rewrite Gm in Q. apply in_flat_map in Q. destruct Q as (io & Hio & Q). apply in_map_iff in Q. destruct Q as (jo & <- & Hjo).
    exists io, jo. split; [auto|]. rewrite Forall_forall in K1, K2. destruct (K1 io Hio) as [Q1 Q2], (K2 jo Hjo) as [Q3 Q4].
    repeat split; auto; intros; unfold in_dim; apply Q2 in H0 || apply Q4 in H0; apply H0. }
  eapply refines_ext; [|apply (refines_for C h0 (map G L) _ _
    (fun t p w => match t with [io; jo] => if in_tile_dec io jo p then u p w else w | _ => w end) EL)].
  - cbn beta. intros p w Hp. rewrite SC in Hp. apply in_bounds_2 in Hp. destruct Hp as (x & y & -> & Ix & Iy). cbn [nth].
    set (P := fun t => match t with [io; jo] => containsb x io && containsb y jo | _ => false end).
    rewrite (fold_ext _ (fun w t => if P t then u [x; y] w else w)).
    + rewrite fold_count. f_equal. rewrite (filter_perm P _ _ (Permutation_map G Pm)), Gm. unfold P. rewrite count_product.
      f_equal; [apply (T1 x (dstr ci))|apply (T2 y (dstr cj))]; auto.
    + intros w' t Ht. destruct (Mem t Ht) as (io & jo & -> & _). unfold P.
      destruct (in_tile_dec io jo [x; y]) as [[Q1 Q2]|N]; cbn [nth] in *.
      * apply containsb_spec in Q1, Q2. rewrite Q1, Q2. reflexivity.
      * destruct (containsb x io && containsb y jo) eqn:Q; [|reflexivity]. exfalso. apply N.
        apply andb_true_iff in Q. destruct Q as [Q1 Q2]. apply containsb_spec in Q1, Q2. split; auto.
  - intros t Ht. destruct (Mem t Ht) as (io & jo & -> & Ok_). apply H. auto.
Qed.

(** The sums over the later blocks of the reduction are added once per tile an element is in *)
Definition z_value (blocks : list interval) (p : list Z) (w : V) : V :=
  match blocks with
  | [] => w
  | b :: r => fold_left add (flat_map (fun b => repeat (inner_product zero add mul f g (range (imin b) (iext b)) (nth 0 p 0) (nth 1 p 0))
                                      (tile_count N1 ci (nth 0 p 0) * tile_count N2 cj (nth 1 p 0))) r)
                (inner_product zero add mul f g (range (imin b) (iext b)) (nth 0 p 0) (nth 1 p 0))
  end.
Lemma z_order_refines nd tile_k blocks : dext ci <= 2 ^ 62 -> dext cj <= 2 ^ 62 -> 
  for_split None (split_dynamic (d_interval ak) tile_k) = Ok blocks ->
  consecutive (dmin ak) (dmin ak + dext ak) blocks -> Forall (fun b => 1 <= iext b /\ forall x, in_interval b x -> in_dim ak x) blocks ->
  refines C h0 (multiply_reduce_tiles_z_order zero add mul nd N1 N2 tile_k A B C) (z_value blocks).
Proof.
  intros X1 X2 Sp Co Fo. unfold multiply_reduce_tiles_z_order. rewrite (set_depth _ _ _ _ _ _ _ _ _ _ _ _ Se).
  set (ip := fun b p => inner_product zero add mul f g (range (imin b) (iext b)) (nth 0 p 0) (nth 1 p 0)).
  set (m := fun p : list Z => (tile_count N1 ci (nth 0 p 0%Z) * tile_count N2 cj (nth 1 p 0%Z))%nat).
  eapply refines_ext; [|apply (refines_for C h0 blocks _ _
    (fun b p w => Nat.iter (m p) ((fun p w => if imin b =? dmin ak then ip b p else add w (ip b p)) p) w) Sp)].
  - cbn beta. intros p w Hp. assert (Hm : (1 <= m p)%nat).
    { unfold m. pose proof (tile_count_pos N1 ci (nth 0 p 0)). pose proof (tile_count_pos N2 cj (nth 1 p 0)). nia. }
    unfold z_value. destruct blocks as [|b r]; [reflexivity|]. cbn [fold_left].
    assert (Eb : imin b = dmin ak) by (inv Co; reflexivity).
    rewrite (proj2 (Z.eqb_eq (imin b) (dmin ak)) Eb), iter_const by auto. fold (ip b p). fold (m p).
    assert (Gt : forall b', In b' r -> imin b' <> dmin ak).
    { intros b' Hb'. inv Fo. inv Co. cbn [iext imin] in *. rewrite Forall_forall in H2.
      destruct (consecutive_in _ _ r (imin b') H4) as [_ Q].
      - apply Forall_forall. intros x Hx. destruct (H2 x Hx). lia.
      - assert (dmin ak + e <= imin b'); [|lia]. apply Q. exists b'. split; [auto|]. unfold in_interval. destruct (H2 b' Hb'). lia. }
    revert Gt. generalize (ip b p) as w0. clear -Hm. induction r as [|b' r IH]; intros w0 Gt; cbn [fold_left flat_map]; [reflexivity|].
    rewrite fold_left_app. destruct (Z.eqb_spec (imin b') (dmin ak)) as [E|_]; [exfalso; eapply Gt; eauto; left; auto|].
    rewrite iter_repeat. fold (ip b' p). apply IH. intros; apply Gt; right; auto.
  - intros b Hb. rewrite Forall_forall in Fo. destruct (Fo b Hb) as [Xb Ib].
    apply (z_pass nd (fun h io jo =>
             let T := tile_of C io jo in
             let '(h1, buf) := push_buffer zero h (N1 * N2) in
             acc <- accumulator nd N1 N2 buf (r_shape T) ;;
             h2 <- mac_tile add mul (for_interval b) (for_interval io) (for_interval jo) A B acc h1 ;;
             h3 <- (if imin b =? dmin ak
                    then store_tile (for_interval io) (for_interval jo) T acc h2
                    else add_tile add (for_interval io) (for_interval jo) T acc h2) ;;
             Ok (pop_buffer h3 buf)) (fun p w => if imin b =? dmin ak then ip b p else add w (ip b p))); auto.
    intros io jo Ht. pose proof Ht as (Ei & Ej & Ii & Ij).
    apply (tile_kernel zero add mul h0 A B C f g ai ak bk bj ci cj N1 N2 Se ltac:(lia) ltac:(lia) nd io jo (range (imin b) (iext b))
      (fun acc h => mac_tile add mul (for_interval b) (for_interval io) (for_interval jo) A B acc h)
      (fun T acc h => if imin b =? dmin ak
                    then store_tile (for_interval io) (for_interval jo) T acc h
                    else add_tile add (for_interval io) (for_interval jo) T acc h)
      (fun w x => if imin b =? dmin ak then x else add w x)); auto.
    + apply sums_mac; auto.
      * apply for_interval_range. lia.
      * intros k Hk. apply Ib. apply in_interval_range. auto.
      * apply for_interval_range. lia.
      * apply for_interval_range. lia.
    + intros acc T h. rewrite !for_interval_range by lia. destruct (imin b =? dmin ak).
      * apply store_tile_is.
      * apply add_tile_is.
Qed.
End Setting.
End Matrix.
