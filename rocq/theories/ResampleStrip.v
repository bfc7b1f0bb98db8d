(** Facts about resampling: strips and the whole image. *)
From Coq Require Import Sorted Permutation.
From Verif Require Import Tac Interval Shape Traverse Memory Ref Spec SpecMem Container SpecContainer Static SpecStatic Ein SpecEin
  Matrix SpecMatrix Conv Rational SpecRational Resample SpecResample
  ShapeFacts IntervalFacts ResolveFacts ShapeProps TraverseFacts MemFacts RefFacts SliceFacts ContainerFacts EinFacts EinSum EinMake EinUses
  TileFacts MatrixFacts MatrixProd MatrixEin LoopFacts RationalFacts ResampleFacts ResampleImage.
Import ListNotations.
Open Scope Z_scope.

Section Strip.
Context {F : Type} (fl : floats F) (nd : bool).
Implicit Types h : heap F.
Notation imc := (image_config fl nd).

(** ** Temporary images *)
Lemma temp_resolved mx ex my ey mc ec : 1 <= ex -> 1 <= ey -> 1 <= ec -> ex * ey * ec < index_max ->
  exists s1 s2, resolve (temp_shape (mkD mx ex 0) (mkD my ey 0) (mkD mc ec 0)) = [mkD mx ex 1; mkD my ey s1; mkD mc ec s2] /\ 1 <= s1 /\ 1 <= s2 /\
    injective_layout [mkD mx ex 1; mkD my ey s1; mkD mc ec s2].
Proof.
  intros X Y C B. set (s := temp_shape (mkD mx ex 0) (mkD my ey 0) (mkD mc ec 0)).
  assert (Bu : stride_budget s = ex * (ey * ec)).
  { unfold stride_budget, max_known_span, unknown_extents, s, temp_shape. cbn [dmin dext known_dims filter unknown_strideb dstr].
    match goal with |- ?a * ?b = _ => assert (a = ex) as ->; [|assert (b = ey * ec) as ->; [|reflexivity]] end.
    - unfold known_dims. cbn. destruct ex; lia.
    - cbn. rewrite !Z.max_r by lia. ring. }
  assert (Bs : stride_budget s < index_max) by (rewrite Bu; lia).
  pose proof (resolve_spec s Bs) as R. pose proof (resolve_injective s Bs) as J.
  assert (N : nested (known_dims s)) by (cbn; split; repeat constructor; cbn; lia). specialize (J N). clear N.
  change (Forall2 resolved_from [mkD mx ex 1; mkD my ey unresolved; mkD mc ec unresolved] (resolve s)) in R.
  remember (resolve s) as rs eqn:E. clear E Bu Bs s B.
  inversion R as [|? d1 ? r1 D1 R1]; subst. inversion R1 as [|? d2 ? r2 D2 R2]; subst. inversion R2 as [|? d3 ? r3 D3 R3]; subst. inversion R3; subst.
  destruct D1 as (_ & _ & D1 & _). rewrite (D1 ltac:(unfold unknown_stride; cbn; lia)) in *. clear D1.
  destruct D2 as (A2 & B2 & _ & D2). destruct D3 as (A3 & B3 & _ & D3). destruct d2 as [u2 v2 s1], d3 as [u3 v3 s2]. cbn [dmin dext dstr] in *. subst.
  exists s1, s2. split; [auto|]. specialize (D2 ltac:(unfold unknown_stride; cbn; auto)). specialize (D3 ltac:(unfold unknown_stride; cbn; auto)).
  split; [lia|]. split; [lia|]. exact J.
Qed.

Lemma make_temp_ok h x y c : heap_ok h -> 1 <= dext x -> 1 <= dext y -> 1 <= dext c -> dext x * dext y * dext c < index_max ->
  exists h' a s1 s2, make_temp_image fl nd h x y c = Ok (h', a) /\ valid imc O h' a /\ has h' a (fun _ => f0 fl) /\
    local h [0%nat] h' [blk a] /\ (h_next h <= blk a)%nat /\ fst (a_base a) = blk a /\
    a_shape a = [mkD (dmin x) (dext x) 1; mkD (dmin y) (dext y) s1; mkD (dmin c) (dext c) s2] /\ 1 <= s1 /\ 1 <= s2.
Proof.
  intros Hh X Y C B. destruct (temp_resolved (dmin x) (dext x) (dmin y) (dext y) (dmin c) (dext c) X Y C B) as (s1 & s2 & R & S1 & S2 & J).
  unfold make_temp_image. change (temp_shape x y c) with (temp_shape (mkD (dmin x) (dext x) 0) (mkD (dmin y) (dext y) 0) (mkD (dmin c) (dext c) 0)).
  destruct (ctor_shape_spec imc O h 0 (temp_shape (mkD (dmin x) (dext x) 0) (mkD (dmin y) (dext y) 0) (mkD (dmin c) (dext c) 0)) Hh) as (h' & a & E & V & Ha & L & Sh & _).
  { split; [reflexivity|]. rewrite R. split; [repeat constructor; cbn; lia|]. split; [repeat constructor; unfold unknown_stride; cbn; lia|].
    split; [exact J|]. right. apply flat_min_nonneg. repeat constructor; cbn; lia. }
  exists h', a, s1, s2. rewrite R in Sh.
  assert (Nz : blk a <> 0%nat /\ fst (a_base a) = blk a).
  { destruct (valid_memory _ _ _ _ V) as [(_ & N & _)|(_ & N & _ & Eb)]; [|auto]. exfalso. rewrite Sh in N.
    apply (N [dmin x; dmin y; dmin c]). apply in_bounds3'. unfold in_dim. cbn. lia. }
  split; [auto|]. split; [auto|]. split; [auto|]. split; [auto|]. split; [|split; [apply Nz|auto]].
  destruct L as (_ & _ & _ & _ & L). destruct (L (blk a) (or_introl eq_refl)) as [[G|[]]|[G|G]]; [exfalso; apply (proj1 Nz); auto|auto|exfalso; apply (proj1 Nz); auto].
Qed.

(** ** Frames *)
Lemma alive_old h p : heap_ok h -> alive h p -> fst p <> 0%nat /\ (fst p < h_next h)%nat.
Proof.
  intros (_ & _ & H) (v & Hv). unfold holds, peek in Hv. destruct (fst p) as [|k] eqn:E; [discriminate|]. split; [auto|].
  destruct (Nat.lt_ge_cases (S k) (h_next h)) as [L|L]; [auto|]. rewrite (H _ L) in Hv. discriminate.
Qed.
Lemma keep_peek h h' K p : heap_ok h -> local h [0%nat] h' K -> alive h p -> peek h' p = peek h p.
Proof.
  intros Hh L A. destruct (alive_old h p Hh A) as [N B]. destruct p as [k z]. apply peek_same_block. cbn [fst] in *.
  destruct L as (_ & _ & L & _ & L'). apply L.
  - intro G. destruct (L' k G) as [[Q|[]]|[Q|Q]]; [congruence|lia|congruence].
  - intros [Q|[]]. congruence.
Qed.
Lemma keep_shows h h' K r f : heap_ok h -> local h [0%nat] h' K -> shows h r f -> shows h' r f.
Proof. intros Hh L S i Hi. unfold holds. rewrite (keep_peek h h' K _ Hh L (ex_intro _ (f i) (S i Hi))). exact (S i Hi). Qed.
Lemma keep_alive h h' K p : heap_ok h -> local h [0%nat] h' K -> alive h p -> alive h' p.
Proof. intros Hh L A. unfold alive, holds in *. rewrite (keep_peek h h' K) by auto. exact A. Qed.
Lemma old_apart h p r : heap_ok h -> alive h p -> (h_next h <= fst (r_base r))%nat -> ~ is_elem (r_base r) (r_shape r) p.
Proof. intros Hh A L (i & _ & ->). destruct (alive_old h _ Hh A) as [_ B]. cbn [elem fst] in B. lia. Qed.
Lemma keep_kernel h h' K ks lo y w ilo n : heap_ok h -> local h [0%nat] h' K -> kernel_at fl h ks lo y w ilo n -> kernel_at fl h' ks lo y w ilo n.
Proof.
  intros Hh L (Ly & a & Ea & Sa & Ha). split; [auto|]. exists a. split; [auto|]. split; [auto|].
  exact (keep_shows h h' K (aref_of a) _ Hh L Ha).
Qed.

(** Running a program that only assigns to the elements of a temporary *)
Lemma assign_temp (run : heap F -> outcome (heap F)) h a f (g : list Z -> F) : heap_ok h -> valid imc O h a -> has h a f ->
  fst (a_base a) = blk a -> refines (aref_of a) h run (fun p _ => g p) -> writes_in (fst (r_base (aref_of a))) run ->
  exists h', run h = Ok h' /\ valid imc O h' a /\ has h' a g /\ local h [blk a] h' [blk a].
Proof.
  intros Hh V Ha B R W. destruct (R h f) as (h' & E & (U & S & O)); [split; [exact Hh|]; split; [exact Ha|auto]|].
  exists h'. split; [exact E|]. pose proof (W _ _ E) as Wr. cbn [aref_of r_base] in Wr. rewrite B in Wr.
  split; [eapply writes_valid; eauto|]. split; [exact S|apply writes_local; auto].
Qed.
Lemma fair_image : fair imc.
Proof.
  split; [|split; [|split; [|left; cbn; lia]]].
  - split; [reflexivity|]. change (c_shape0 imc) with [mkD 0 0 1; mkD 0 0 unresolved; mkD 0 0 unresolved].
    replace (resolve _) with [mkD 0 0 1; mkD 0 0 1; mkD 0 0 1] by (vm_compute; reflexivity).
    split; [repeat constructor; cbn; lia|]. split; [repeat constructor; unfold unknown_stride; cbn; lia|].
    split; [|right; reflexivity]. intros i j Hi. exfalso. apply in_bounds_3_inv in Hi. destruct Hi as (x & y & c & _ & Hx & _). unfold in_dim in Hx. cbn in Hx. lia.
  - repeat constructor; cbn; lia.
  - apply no_index_dense. lia.
Qed.

Lemma local_new h h1 h2 K a : heap_ok h -> local h [0%nat] h1 K -> local h1 [0%nat] h2 [a] -> local h [0%nat] h2 (a :: K).
Proof.
  intros Hh L1 L2. eapply (local_trans h [0%nat] h1 (0%nat :: K)); [auto| |].
  - eapply local_perm; [| |exact (local_frame _ _ _ _ [0%nat] L1)]; intro z; cbn [app In]; tauto.
  - eapply local_perm; [| |exact (local_frame _ _ _ _ K L2)]; intro z; repeat (rewrite ?in_app_iff; cbn [In]); tauto.
Qed.
Lemma local_inside h h1 h2 K a : heap_ok h -> local h [0%nat] h1 (a :: K) -> local h1 [a] h2 [a] -> local h [0%nat] h2 (a :: K).
Proof.
  intros Hh L1 L2. eapply (local_trans h [0%nat] h1 (a :: K)); [auto|auto|].
  eapply local_perm; [| |exact (local_frame _ _ _ _ K L2)]; intro z; repeat (rewrite ?in_app_iff; cbn [In]); tauto.
Qed.

Section Whole.
Variables (I O : aref) (f : list Z -> F) (kx ky : list arr) (wx wy : Z -> Z -> F) (ix iy ic ox oy oc : dim) (hK : heap F).
Notation bO := (fst (r_base O)).
Hypothesis (SI : r_shape I = [ix; iy; ic]) (SO : r_shape O = [ox; oy; oc]).
Hypothesis (Xi : 1 <= dext ix) (Xx : 1 <= dext ox) (Xc : 1 <= dext oc).
Hypothesis (Ch : dmin ic <= dmin oc /\ dmin oc + dext oc <= dmin ic + dext ic).
Hypothesis (Size : 64 * (dext ix + dext ox) * dext oc < 2 ^ 62).
Hypothesis (Kx : forall x, in_dim ox x -> taps fl (wx x) (dmin ix) (dext ix) <> [] /\ kernel_at fl hK kx (dmin ox) x (wx x) (dmin ix) (dext ix)).
Hypothesis (Ky : forall y, in_dim oy y -> taps fl (wy y) (dmin iy) (dext iy) <> [] /\ kernel_at fl hK ky (dmin oy) y (wy y) (dmin iy) (dext iy)).
Hypothesis (Ka : forall a i, In a kx \/ In a ky -> in_bounds (a_shape a) i ->
  alive hK (elem (a_base a) (a_shape a) i) /\ fst (a_base a) <> bO).
Hypothesis (VI : shows hK I f) (Inj : injective_layout (r_shape O)).
Hypothesis (AI : forall i, in_bounds (r_shape I) i -> ~ is_elem (r_base O) (r_shape O) (elem (r_base I) (r_shape I) i)).

Definition px (x y c : Z) : F :=
  weighted fl (wx x) (dmin ix) (dext ix) (fun i => weighted fl (wy y) (dmin iy) (dext iy) (fun j => f [i; j; c])).
Definition sinv h (D : list interval) : Prop :=
  heap_ok h /\ (h_next hK <= h_next h)%nat /\ (forall k, k <> bO -> h_blk h k = h_blk hK k) /\
  (forall x y c, in_bounds (r_shape O) [x; y; c] -> alive h (elem (r_base O) (r_shape O) [x; y; c])) /\
  (forall x y c v, In v D -> in_interval v y -> in_bounds (r_shape O) [x; y; c] -> holds h (elem (r_base O) (r_shape O) [x; y; c]) (px x y c)) /\
  (forall p, ~ is_elem (r_base O) (r_shape O) p -> peek h p = peek hK p).

Lemma sinv_kernel h D ks lo y w ilo n : sinv h D -> (forall a, In a ks -> In a kx \/ In a ky) -> kernel_at fl hK ks lo y w ilo n ->
  kernel_at fl h ks lo y w ilo n.
Proof.
  intros (_ & _ & _ & _ & _ & P) Hk (Ly & a & Ea & Sa & Ha). split; [auto|]. exists a. split; [auto|]. split; [auto|].
  intros i Hi. unfold holds. rewrite P; [apply Ha; auto|]. intros (o & _ & Eo).
  destruct (Ka a i (Hk a (nth_error_In _ _ Ea)) Hi) as [_ N]. apply N. apply (f_equal fst) in Eo. exact Eo.
Qed.
Lemma sinv_alive h D a i : sinv h D -> In a kx \/ In a ky -> in_bounds (a_shape a) i -> alive h (elem (a_base a) (a_shape a) i).
Proof.
  intros (_ & _ & _ & _ & _ & P) Hk Hi. destruct (Ka a i Hk Hi) as [A N]. unfold alive, holds in *. rewrite P; [auto|].
  intros (o & _ & Eo). apply N. apply (f_equal fst) in Eo. exact Eo.
Qed.

Lemma strip_shape yo : r_shape (ref_slice O [ADim ox; AInt yo; ADim oc]) = [ox; mkD (imin yo) (iext yo) (dstr oy); oc].
Proof. unfold ref_slice, make_array_ref_at. cbn [r_shape]. rewrite SO. destruct ox, oc. reflexivity. Qed.
Lemma strip_elem yo x y c : bO <> 0%nat ->
  elem (r_base (ref_slice O [ADim ox; AInt yo; ADim oc])) (r_shape (ref_slice O [ADim ox; AInt yo; ADim oc])) [x; y; c] =
  elem (r_base O) (r_shape O) [x; y; c].
Proof.
  intro N. rewrite <- elem_ref. destruct (slice_denotes O [ADim ox; AInt yo; ADim oc]) as (_ & P & _); [rewrite SO; auto|auto|].
  apply P. reflexivity.
Qed.

Lemma strip_step h D yo : sinv h D -> iext yo = 64 -> (forall y, in_interval yo y -> in_dim oy y) ->
  exists h', resample_strip fl nd I O kx ky h yo = Ok h' /\ sinv h' (yo :: D).
Proof.
  intros Hinv Ey Hy. pose proof Hinv as (Hh & Nx & Bk & Al & Dn & Pk). unfold resample_strip.
  assert (Ly : in_interval yo (imin yo)) by (unfold in_interval; lia).
  assert (Pt : in_bounds (r_shape O) [dmin ox; imin yo; dmin oc]).
  { rewrite SO. apply in_bounds3'. split; [unfold in_dim; lia|]. split; [auto|unfold in_dim; lia]. }
  assert (NO : bO <> 0%nat /\ (bO < h_next h)%nat) by (exact (alive_old h _ Hh (Al _ _ _ Pt))).
  assert (VIh : shows h I f) by (intros i Hi; unfold holds; rewrite Pk by (apply AI; auto); apply VI; auto).
  assert (Kxh : forall x, in_dim ox x -> taps fl (wx x) (dmin ix) (dext ix) <> [] /\ kernel_at fl h kx (dmin ox) x (wx x) (dmin ix) (dext ix)).
  { intros x Hx. destruct (Kx x Hx) as [T K]. split; [auto|]. apply (sinv_kernel h D); auto. }
  assert (Kyh : forall y, in_dim oy y -> taps fl (wy y) (dmin iy) (dext iy) <> [] /\ kernel_at fl h ky (dmin oy) y (wy y) (dmin iy) (dext iy)).
  { intros y Hy'. destruct (Ky y Hy') as [T K]. split; [auto|]. apply (sinv_kernel h D); auto. }
  assert (Kah : forall a i, In a kx \/ In a ky -> in_bounds (a_shape a) i -> alive h (elem (a_base a) (a_shape a) i)).
  { intros a i. apply (sinv_alive h D). auto. }
  assert (IM : index_max = 2 * 2 ^ 62 - 1) by reflexivity.
  assert (Sz : 64 * dext ix * dext oc < index_max /\ 64 * dext ox * dext oc < index_max) by (rewrite IM; nia).
  set (R := ref_slice O [ADim (dim_of O 0); AInt yo; ADim (dim_of O 2)]).
  assert (ER : R = ref_slice O [ADim ox; AInt yo; ADim oc]) by (unfold R, dim_of; rewrite SO; reflexivity).
  set (yd := mkD (imin yo) (iext yo) (dstr oy)).
  assert (SR : r_shape R = [ox; yd; oc]) by (rewrite ER; apply strip_shape).
  replace (dim_of R 0) with ox by (unfold dim_of; rewrite SR; reflexivity).
  replace (dim_of R 1) with yd by (unfold dim_of; rewrite SR; reflexivity).
  replace (dim_of R 2) with oc by (unfold dim_of; rewrite SR; reflexivity).
  replace (dim_of I 0) with ix by (unfold dim_of; rewrite SI; reflexivity).
  replace (dim_of O 0) with ox by (unfold dim_of; rewrite SO; reflexivity).
  replace (dim_of O 1) with oy by (unfold dim_of; rewrite SO; reflexivity).
  (* the strip *)
  destruct (make_temp_ok h ix yd oc Hh) as (h1 & a1 & s1 & s1' & E1 & V1 & H1 & L1 & B1 & Ba1 & S1 & P1 & P1'); cbn [yd dext]; try lia.
  rewrite E1. cbn [bind]. assert (Hh1 : heap_ok h1) by apply L1.
  set (g2 := fun p => weighted fl (wy (nth 1 p 0)) (dmin iy) (dext iy) (fun j => f [nth 0 p 0; j; nth 2 p 0])).
  destruct (assign_temp (resample_y fl nd I (aref_of a1) ky (dmin oy)) h1 a1 _ g2 Hh1 V1 H1 Ba1) as (h2 & E2 & V2 & H2 & L2').
  { apply (resample_y_refines fl nd h1 I (aref_of a1) ky (dmin oy) f wy ix iy ic (mkD (dmin ix) (dext ix) 1) (mkD (imin yo) (iext yo) s1) (mkD (dmin oc) (dext oc) s1'));
      cbn [dmin dext dstr]; auto; try lia.
    - intros y Hy'. destruct (Kyh y) as [T K]; [apply Hy; exact Hy'|]. split; [auto|]. apply (keep_kernel h h1 [blk a1]); auto.
    - apply (keep_shows h h1 [blk a1]); auto.
    - apply (repr_injective _ _ _ _ _ V1).
    - intros i Hi. apply (old_apart h); auto; [exists (f i); auto|]. cbn [aref_of r_base]. rewrite Ba1. auto.
    - intros a i Ia Hi. apply (old_apart h); auto. cbn [aref_of r_base]. rewrite Ba1. auto. }
  { apply resample_y_writes. }
  rewrite E2. cbn [bind]. assert (Hh2 : heap_ok h2) by apply L2'.
  assert (L2 : local h [0%nat] h2 [blk a1]) by (apply (local_inside h h1); auto).
  (* its transpose *)
  destruct (make_temp_ok h2 yd ix oc Hh2) as (h3 & a3 & s3 & s3' & E3 & V3 & H3 & L3' & B3 & Ba3 & S3 & P3 & P3'); cbn [yd dext]; try lia.
  rewrite E3. cbn [bind]. assert (Hh3 : heap_ok h3) by apply L3'.
  assert (L3 : local h [0%nat] h3 [blk a3; blk a1]) by (eapply local_new; eauto).
  assert (H2' : shows h3 (aref_of a1) g2) by (eapply keep_shows; [exact Hh2|exact L3'|exact H2]).
  set (g4 := fun p : list Z => g2 [nth 1 p 0; nth 0 p 0; nth 2 p 0]).
  destruct (assign_temp (transpose_image nd (aref_of a1) (aref_of a3)) h3 a3 _ g4 Hh3 V3 H3 Ba3) as (h4 & E4 & V4 & H4 & L4').
  { apply (transpose_refines nd h3 (aref_of a1) (aref_of a3) g2 (mkD (dmin ix) (dext ix) 1) (mkD (imin yo) (iext yo) s1) (mkD (dmin oc) (dext oc) s1')
      (mkD (imin yo) (iext yo) 1) (mkD (dmin ix) (dext ix) s3) (mkD (dmin oc) (dext oc) s3')); cbn [dmin dext dstr]; auto; try lia.
    - repeat constructor; cbn; lia.
    - apply (repr_injective _ _ _ _ _ V3).
    - intros i Hi. apply (old_apart h2); auto; [exists (g2 i); apply H2; auto|]. cbn [aref_of r_base]. rewrite Ba3. auto. }
  { apply transpose_writes. }
  rewrite E4. cbn [bind]. assert (Hh4 : heap_ok h4) by apply L4'.
  assert (L4 : local h [0%nat] h4 [blk a3; blk a1]) by (eapply local_inside; eauto).
  (* the output, transposed *)
  destruct (make_temp_ok h4 yd ox oc Hh4) as (h5 & a5 & s5 & s5' & E5 & V5 & H5 & L5' & B5 & Ba5 & S5 & P5 & P5'); cbn [yd dext]; try lia.
  rewrite E5. cbn [bind]. assert (Hh5 : heap_ok h5) by apply L5'.
  assert (L5 : local h [0%nat] h5 [blk a5; blk a3; blk a1]) by (eapply local_new; eauto).
  assert (H4' : shows h5 (aref_of a3) g4) by (eapply keep_shows; [exact Hh4|exact L5'|exact H4]).
  set (g6 := fun p => weighted fl (wx (nth 1 p 0)) (dmin ix) (dext ix) (fun j => g4 [nth 0 p 0; j; nth 2 p 0])).
  assert (N5 : (h_next h <= blk a5)%nat) by (destruct L4 as (_ & L4 & _); lia).
  destruct (assign_temp (resample_y fl nd (aref_of a3) (aref_of a5) kx (dmin ox)) h5 a5 _ g6 Hh5 V5 H5 Ba5) as (h6 & E6 & V6 & H6 & L6').
  { apply (resample_y_refines fl nd h5 (aref_of a3) (aref_of a5) kx (dmin ox) g4 wx (mkD (imin yo) (iext yo) 1) (mkD (dmin ix) (dext ix) s3) (mkD (dmin oc) (dext oc) s3')
      (mkD (imin yo) (iext yo) 1) (mkD (dmin ox) (dext ox) s5) (mkD (dmin oc) (dext oc) s5')); cbn [dmin dext dstr]; auto; try lia.
    - intros x Hx. destruct (Kxh x) as [T K]; [exact Hx|]. split; [auto|]. apply (keep_kernel h h5 [blk a5; blk a3; blk a1]); auto.
    - apply (repr_injective _ _ _ _ _ V5).
    - intros i Hi. apply (old_apart h4); auto; [exists (g4 i); apply H4; auto|]. cbn [aref_of r_base]. rewrite Ba5. auto.
    - intros a i Ia Hi. apply (old_apart h); auto. cbn [aref_of r_base]. rewrite Ba5. auto. }
  { apply resample_y_writes. }
  rewrite E6. cbn [bind]. assert (Hh6 : heap_ok h6) by apply L6'.
  assert (L6 : local h [0%nat] h6 [blk a5; blk a3; blk a1]) by (eapply local_inside; eauto).
  (* the output *)
  assert (ERe : forall x y c, elem (r_base R) (r_shape R) [x; y; c] = elem (r_base O) (r_shape O) [x; y; c]) by (intros; rewrite ER; apply strip_elem; apply NO).
  assert (BR : fst (r_base R) = bO) by apply slice_block.
  assert (InR : forall x y c, in_bounds (r_shape R) [x; y; c] -> in_bounds (r_shape O) [x; y; c]).
  { intros x y c. rewrite SR, SO, !in_bounds3'. intros (Q1 & Q2 & Q3). split; [auto|]. split; [apply Hy; exact Q2|auto]. }
  assert (AlR : forall i, in_bounds (r_shape R) i -> alive h6 (elem (r_base R) (r_shape R) i)).
  { intros i Hi. pose proof Hi as Hi'. rewrite SR in Hi'. apply in_bounds_3_inv in Hi'. destruct Hi' as (x & y & c & -> & _). rewrite ERe.
    eapply keep_alive; [exact Hh|exact L6|]. auto. }
  assert (SubR : forall p, is_elem (r_base R) (r_shape R) p -> is_elem (r_base O) (r_shape O) p).
  { intros p (i & Hi & ->). pose proof Hi as Hi'. rewrite SR in Hi'. apply in_bounds_3_inv in Hi'. destruct Hi' as (x & y & c & -> & _).
    rewrite ERe. exists [x; y; c]. auto. }
  assert (Val : exists g0, shows h6 R g0).
  { exists (fun i => match peek h6 (elem (r_base R) (r_shape R) i) with Some (Live v) => v | _ => f0 fl end). intros i Hi.
    destruct (AlR i Hi) as (v & Hv). unfold holds in *. rewrite Hv. auto. }
  destruct Val as (g0 & Vg0).
  destruct (transpose_refines nd h6 (aref_of a5) R g6 (mkD (imin yo) (iext yo) 1) (mkD (dmin ox) (dext ox) s5) (mkD (dmin oc) (dext oc) s5')
      ox yd oc S5 SR) with (h := h6) (g := g0) as (h7 & E7 & M7); cbn [yd dmin dext dstr]; auto.
  { repeat constructor; cbn; lia. }
  { intros i j Hi Hj Eij. pose proof Hi as Hi'. pose proof Hj as Hj'. rewrite SR in Hi', Hj'. apply in_bounds_3_inv in Hi', Hj'.
    destruct Hi' as (x & y & c & -> & _), Hj' as (x' & y' & c' & -> & _). apply Inj; auto. rewrite SO. rewrite SR in Eij. cbn [offset yd dstr dmin] in *. lia. }
  { intros i Hi (o & _ & Eo). apply (f_equal fst) in Eo. change (fst (a_base a5) = fst (r_base R)) in Eo. rewrite Ba5, BR in Eo. lia. }
  { split; [exact Hh6|]. split; [exact Vg0|auto]. }
  rewrite E7. cbn [bind].
  pose proof (transpose_writes (F:=F) nd (aref_of a5) R h6 h7 E7) as W7. rewrite BR in W7.
  pose proof (writes_local _ _ _ Hh6 W7) as L7'. assert (Hh7 : heap_ok h7) by apply L7'.
  (* the end of the temporaries *)
  assert (Nd : blk a1 <> bO /\ blk a3 <> bO /\ blk a5 <> bO /\ blk a1 <> blk a3 /\ blk a1 <> blk a5 /\ blk a3 <> blk a5 /\ blk a1 <> 0%nat /\ blk a3 <> 0%nat /\ blk a5 <> 0%nat).
  { pose proof (proj1 (proj2 L2)). pose proof (proj1 (proj2 L1)). pose proof (proj1 (proj2 L3')). pose proof (proj1 (proj2 L4')). pose proof (proj1 (proj2 L2')).
    destruct Hh as (Hn & _). 
    assert (G : forall hh a n x, heap_ok hh -> valid imc x hh a -> fst (a_base a) = blk a -> a_shape a = n -> forall i, in_bounds n i -> (blk a < h_next hh)%nat).
    { intros hh a n x Hk Vk Bk' Sk i Hi. rewrite <- Sk in Hi. destruct (alive_old hh _ Hk (live_alive _ _ _ _ _ Vk Hi)) as [_ Q]. cbn [elem fst] in Q. congruence. }
    pose proof (G h2 a1 _ _ Hh2 V2 Ba1 S1 [dmin ix; imin yo; dmin oc]) as G1. pose proof (G h4 a3 _ _ Hh4 V4 Ba3 S3 [imin yo; dmin ix; dmin oc]) as G3.
    rewrite in_bounds3' in G1, G3. unfold in_dim in G1, G3. cbn [dmin dext yd] in G1, G3.
    assert (blk a1 < h_next h2)%nat by (apply G1; lia). assert (blk a3 < h_next h4)%nat by (apply G3; lia). lia. }
  destruct Nd as (D1 & D3 & D5 & D13 & D15 & D35 & Z1 & Z3 & Z5).
  assert (V56 : valid imc 0%nat h7 a5) by (eapply writes_valid; eauto).
  assert (Vk : forall a n hh hh' K K', heap_ok hh -> local hh K hh' K' -> valid imc n hh a -> ~ In (blk a) K -> valid imc n hh' a).
  { intros a n hh hh' K K' Q1 Q2 Q3 Q4. apply (frame_local _ _ _ _ _ _ _ _ Q1 Q2 Q3). tauto. }
  assert (V34 : valid imc 0%nat h7 a3).
  { eapply writes_valid; [exact W7|]. apply (Vk a3 _ h5 h6 [blk a5] [blk a5]); auto; [|cbn; intuition]. apply (Vk a3 _ h4 h5 [0%nat] [blk a5]); auto. cbn; intuition. }
  assert (V12 : valid imc 0%nat h7 a1).
  { eapply writes_valid; [exact W7|]. apply (Vk a1 _ h5 h6 [blk a5] [blk a5]); auto; [|cbn; intuition]. apply (Vk a1 _ h4 h5 [0%nat] [blk a5]); auto; [|cbn; intuition].
    apply (Vk a1 _ h3 h4 [blk a3] [blk a3]); auto; [|cbn; intuition]. apply (Vk a1 _ h2 h3 [0%nat] [blk a3]); auto. cbn; intuition. }
  destruct (deallocate_spec imc 0%nat h7 a5 fair_image Hh7 V56) as (h8 & b5 & E8 & _ & Nm5 & L8 & _). rewrite (no_memory_blk _ Nm5) in L8.
  rewrite E8. cbn [bind]. assert (Hh8 : heap_ok h8) by apply L8.
  destruct (deallocate_spec imc 0%nat h8 a3 fair_image Hh8) as (h9 & b3 & E9 & _ & Nm3 & L9 & _).
  { apply (Vk a3 _ h7 h8 [blk a5] [0%nat]); auto. cbn; intuition. }
  rewrite (no_memory_blk _ Nm3) in L9. rewrite E9. cbn [bind]. assert (Hh9 : heap_ok h9) by apply L9.
  destruct (deallocate_spec imc 0%nat h9 a1 fair_image Hh9) as (h10 & b1 & E10 & _ & Nm1 & L10 & _).
  { apply (Vk a1 _ h8 h9 [blk a3] [0%nat]); auto; [|cbn; intuition]. apply (Vk a1 _ h7 h8 [blk a5] [0%nat]); auto. cbn; intuition. }
  rewrite (no_memory_blk _ Nm1) in L10. rewrite E10. cbn [bind]. exists h10. split; [reflexivity|].
  (* what remains *)
  assert (L67 : local h [0%nat; bO] h7 [blk a5; blk a3; blk a1; bO]).
  { eapply (local_trans h _ h6 [blk a5; blk a3; blk a1; bO]); [auto| |].
    - eapply local_perm; [| |exact (local_frame _ _ _ _ [bO] L6)]; intro z; repeat (rewrite ?in_app_iff; cbn [In]); tauto.
    - eapply local_perm; [| |exact (local_frame _ _ _ _ [blk a5; blk a3; blk a1] L7')]; intro z; repeat (rewrite ?in_app_iff; cbn [In]); tauto. }
  assert (L70 : local h7 [blk a5; blk a3; blk a1; bO] h10 [0%nat; bO]).
  { eapply (local_trans h7 _ h8 [0%nat; blk a3; blk a1; bO]); [auto| |].
    - eapply local_perm; [| |exact (local_frame _ _ _ _ [blk a3; blk a1; bO] L8)]; intro z; repeat (rewrite ?in_app_iff; cbn [In]); tauto.
    - eapply (local_trans h8 _ h9 [0%nat; blk a1; bO]); [auto| |].
      + eapply local_perm; [| |exact (local_frame _ _ _ _ [0%nat; blk a1; bO] L9)]; intro z; repeat (rewrite ?in_app_iff; cbn [In]); tauto.
      + eapply local_perm; [| |exact (local_frame _ _ _ _ [0%nat; bO] L10)]; intro z; repeat (rewrite ?in_app_iff; cbn [In]); tauto. }
  assert (L : local h [0%nat; bO] h10 [0%nat; bO]) by (eapply local_trans; eauto).
  assert (Bk10 : forall k, k <> bO -> h_blk h10 k = h_blk h k).
  { intros k Nk. destruct (Nat.eq_dec k 0) as [->|Nk0].
    - destruct L as ((_ & Q & _) & _). rewrite Q. destruct Hh as (_ & Q' & _). auto.
    - destruct L as (_ & _ & Q & _). apply Q; cbn; intuition. }
  assert (BkO : h_blk h10 bO = h_blk h7 bO).
  { assert (Q8 : h_blk h8 bO = h_blk h7 bO) by (destruct L8 as (_ & _ & Q & _); apply Q; cbn; intuition).
    assert (Q9 : h_blk h9 bO = h_blk h8 bO) by (destruct L9 as (_ & _ & Q & _); apply Q; cbn; intuition).
    assert (Q10 : h_blk h10 bO = h_blk h9 bO) by (destruct L10 as (_ & _ & Q & _); apply Q; cbn; intuition). congruence. }
  assert (BkO6 : h_blk h6 bO = h_blk h bO).
  { destruct L6 as (_ & _ & Q & _). apply Q; cbn; intuition. }
  assert (PO7 : forall z, peek h10 (bO, z) = peek h7 (bO, z)) by (intro; apply peek_same_block; auto).
  assert (PO6 : forall z, peek h6 (bO, z) = peek h (bO, z)) by (intro; apply peek_same_block; auto).
  destruct M7 as (_ & M7 & M7').
  assert (Hin : forall x y c, in_interval yo y -> in_bounds (r_shape O) [x; y; c] -> holds h10 (elem (r_base O) (r_shape O) [x; y; c]) (px x y c)).
  { intros x y c Hyo Hb. assert (Hb' : in_bounds (r_shape R) [x; y; c]).
    { rewrite SO in Hb. rewrite SR. rewrite in_bounds3' in *. split; [apply Hb|]. split; [exact Hyo|apply Hb]. }
    specialize (M7 _ Hb'). cbn beta in M7. unfold holds in *. rewrite ERe in M7.
    unfold elem. rewrite PO7. exact M7. }
  assert (Hout : forall p, fst p = bO -> ~ is_elem (r_base R) (r_shape R) p -> peek h10 p = peek h p).
  { intros [k z] Ep Hp. cbn [fst] in Ep. subst k. rewrite PO7, M7' by auto. apply PO6. }
  assert (NotR : forall x y c, ~ in_interval yo y -> in_bounds (r_shape O) [x; y; c] -> ~ is_elem (r_base R) (r_shape R) (elem (r_base O) (r_shape O) [x; y; c])).
  { intros x y c Hyo Hb (i & Hi & Ei). pose proof Hi as Hi'. rewrite SR in Hi'. apply in_bounds_3_inv in Hi'. destruct Hi' as (x' & y' & c' & -> & _ & Hy' & _).
    rewrite ERe in Ei. apply elem_inj in Ei. apply Inj in Ei; auto. inv Ei. apply Hyo. exact Hy'. }
  assert (Dec : forall y, {in_interval yo y} + {~ in_interval yo y}).
  { intro y. unfold in_interval. destruct (Z_le_dec (imin yo) y), (Z_lt_dec y (imin yo + iext yo)); [left; lia|right; lia|right; lia|right; lia]. }
  split; [apply L|]. split; [destruct L as (_ & L & _); lia|]. split; [intros k Nk; rewrite Bk10 by auto; auto|]. split; [|split].
  - intros x y c Hb. destruct (Dec y) as [Q|Q]; [eexists; apply Hin; auto|].
    unfold alive, holds. rewrite Hout; [apply (Al _ _ _ Hb)|reflexivity|apply NotR; auto].
  - intros x y c v Iv Hv Hb. destruct (Dec y) as [Q|Q]; [apply Hin; auto|]. destruct Iv as [<-|Iv]; [contradiction|].
    unfold holds. rewrite Hout; [apply (Dn _ _ _ v); auto|reflexivity|apply NotR; auto].
  - intros [k z] Hp. destruct (Nat.eq_dec k bO) as [->|Nk].
    + rewrite Hout; [auto|reflexivity|]. intro Q. apply Hp, SubR, Q.
    + rewrite <- Pk by auto. apply peek_same_block. auto.
Qed.
End Whole.
End Strip.
