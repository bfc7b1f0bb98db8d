(** Facts about resampling: the kernels. *)
From Coq Require Import QArith Qcanon Sorted Permutation.
From Verif Require Import Tac Interval Shape Traverse Memory Ref Spec SpecMem Container SpecContainer Static SpecStatic Ein SpecEin
  Matrix SpecMatrix Conv Rational SpecRational Resample SpecResample
  ShapeFacts IntervalFacts ResolveFacts ShapeProps TraverseFacts MemFacts RefFacts SliceFacts ContainerFacts EinFacts EinSum EinMake EinUses
  MatrixFacts RationalFacts.
Import ListNotations.
Open Scope Z_scope.

(** ** Positions *)

Lemma reduced_unique q (p : Q) : ok_den q -> reduced q -> (val q == p)%Q ->
  numerator q = Qnum (Qred p) /\ denominator q = QDen (Qred p).
Proof.
  intros [D _] R E. rewrite <- (Qred_complete _ _ E). rewrite Qred_identity.
  - unfold val. cbn [Qnum Qden]. split; [reflexivity|]. rewrite Z2Pos.id; auto.
  - unfold val. cbn [Qnum Qden]. rewrite Z2Pos.id by auto. exact R.
Qed.

Lemma half_ok : make_rational 1 2 = Ok (mkQ 1 2).
Proof. reflexivity. Qed.
Lemma sample_position_spec rate lo n x : rate_ok rate lo n -> lo <= x < lo + n ->
  exists q, sample_position rate x = Ok q /\ numerator q = Qnum (position (val rate) x) /\
    denominator q = QDen (position (val rate) x).
Proof.
  intros (Hn & Hd & Hx) H. specialize (Hx x H). unfold sample_position. rewrite half_ok. cbn [bind].
  unfold q_add, q_div, q_sub. cbn [numerator denominator of_int].
  assert (M : index_max = 2 ^ 63 - 1 /\ index_min = - 2 ^ 63) by (split; reflexivity).
  assert (P60 : 2 ^ 63 = 8 * 2 ^ 60) by reflexivity.
  set (N := 2 ^ 60) in *. clearbody N.
  destruct (make_rational_spec (x * 2 + 1 * 1) (1 * 2)) as (a & Ea & Oa & Ra & Va & Da & Na); [nia|nia|].
  rewrite Ea. cbn [bind].
  destruct (make_rational_spec (numerator a * denominator rate) (denominator a * numerator rate)) as (b & Eb & Ob & Rb & Vb & Db & Nb).
  { unfold ok_den in Oa. nia. }
  { nia. }
  rewrite Eb. cbn [bind].
  assert (B1 : Z.abs (numerator b) <= N) by nia.
  assert (B2 : denominator b <= 2 * N) by (unfold ok_den in Oa; nia).
  destruct (make_rational_spec (numerator b * 2 - 1 * denominator b) (denominator b * 2)) as (q & Eq & Oq & Rq & Vq & Dq & Nq).
  { unfold ok_den in Ob. nia. }
  { unfold ok_den in Ob. nia. }
  rewrite Eq. exists q. split; [reflexivity|]. apply reduced_unique; auto. rewrite Vq.
  assert (Vb' : (val b == (inject_Z x + (1 # 2)) / val rate)%Q).
  { rewrite Vb. assert (Va' : (val a == inject_Z x + (1 # 2))%Q) by (rewrite Va; unfold Qeq; cbn; lia).
    rewrite <- Va'. unfold val, Qdiv, Qinv, Qmult, Qeq. cbn [Qnum Qden].
    destruct (numerator rate) eqn:En; [lia| |lia]. cbn [Qnum Qden].
    unfold ok_den in Oa. rewrite !Pos2Z.inj_mul, !Z2Pos.id by nia. ring. }
  rewrite <- Vb'. unfold val, Qminus, Qopp, Qplus, Qeq. cbn [Qnum Qden]. unfold ok_den in Ob.
  rewrite !Pos2Z.inj_mul, !Z2Pos.id by nia. ring.
Qed.

(** ** Configurations *)
Section Resample.
Context {F : Type} (fl : floats F) (nd : bool).
Implicit Types h : heap F.
Notation kc := (kernel_config fl nd).
Notation bc := (buffer_config fl nd).
Notation ic := (image_config fl nd).

Lemma resolve_dense m e : resolve [mkD m e 1] = [mkD m e 1].
Proof. reflexivity. Qed.
Lemma inj_dense m e : injective_layout [mkD m e 1].
Proof.
  intros i j Hi Hj E. destruct (in_bounds_1 _ _ Hi) as (u & -> & _). destruct (in_bounds_1 _ _ Hj) as (v & -> & _).
  unfold offset in E. cbn in E. f_equal. lia.
Qed.
Lemma proper_dense m e : 0 <= e -> proper_layout [mkD m e 1].
Proof.
  intro H. split; [repeat constructor; auto|]. split; [repeat constructor; unfold unknown_stride; cbn; lia|].
  split; [apply inj_dense|]. right. unfold flat_min. cbn. unfold cmin. cbn. lia.
Qed.
Lemma dense_arg (c : config F) m e : length (c_shape0 c) = 1%nat -> 0 <= e -> shape_arg c [mkD m e 1].
Proof. intros L H. split; [auto|]. rewrite resolve_dense. apply proper_dense; auto. Qed.
Lemma no_index_dense m e st s : e <= 0 -> no_index (mkD m e st :: s).
Proof. intros H i Hi. unfold in_bounds in Hi. inv Hi. unfold in_dim in *. cbn in *. lia. Qed.
Lemma fair_kernel : fair kc.
Proof.
  split; [apply dense_arg; [reflexivity|lia]|]. split; [repeat constructor; cbn; lia|]. split; [apply no_index_dense; lia|].
  right. auto.
Qed.
Lemma fair_buffer : fair bc.
Proof.
  split; [apply dense_arg; [reflexivity|lia]|]. split; [repeat constructor; cbn; lia|]. split; [apply no_index_dense; lia|].
  left. cbn. lia.
Qed.

(** ** Loops that write the elements of a rank 1 array *)
Lemma in_range_dense m e z : In z (range m e) -> in_bounds [mkD m e 1] [z].
Proof. intro H. apply range_In in H. repeat constructor; cbn; lia. Qed.

Definition patched (l : list Z) (v : Z -> F) (f : list Z -> F) (i : list Z) : F :=
  if in_dec Z.eq_dec (nth 0 i 0) l then v (nth 0 i 0) else f i.

Lemma store_loop (c : config F) x a m e l v (body : heap F -> Z -> outcome (heap F)) : a_shape a = [mkD m e 1] ->
  forall h0 f, heap_ok h0 -> valid c x h0 a -> has h0 a f -> (forall z, In z l -> In z (range m e)) ->
  (forall h z, local h0 [blk a] h [blk a] -> In z l -> body h z = store h (ref_ptr (aref_of a) [z]) (v z)) ->
  exists h', foldM body l h0 = Ok h' /\ valid c x h' a /\ has h' a (patched l v f) /\ local h0 [blk a] h' [blk a].
Proof.
  intros Sh. induction l as [|z l IH]; intros h0 f Hh Ha Hf Hin Hb; cbn [foldM].
  - exists h0. split; [auto|]. split; [auto|]. split; [exact Hf|apply local_refl; auto].
  - rewrite Hb by first [left; reflexivity | apply local_refl; auto].
    rewrite elem_ref. destruct (store_spec c x h0 a [z] (v z) f) as (h1 & E & V1 & H1 & L1); auto.
    { rewrite Sh. apply in_range_dense. apply Hin. left. auto. }
    cbn [aref_of r_base r_shape]. rewrite E. cbn [bind].
    destruct (IH h1 (fun j => if idx_dec j [z] then v z else f j)) as (h2 & E2 & V2 & H2 & L2); auto.
    + apply L1.
    + intros; apply Hin; right; auto.
    + intros h y L I. apply Hb; [eapply local_trans; eauto|right; auto].
    + exists h2. split; [auto|]. split; [auto|]. split; [|eapply local_trans; eauto].
      intros i Hi. etransitivity; [exact (H2 i Hi)|]. do 2 f_equal. unfold patched. rewrite Sh in Hi. destruct (in_bounds_1 _ _ Hi) as (u & -> & _). cbn [nth].
      destruct (in_dec Z.eq_dec u l) as [I|I], (in_dec Z.eq_dec u (z :: l)) as [J|J]; auto.
      * exfalso. apply J. right. auto.
      * destruct (idx_dec [u] [z]) as [Q|Q]; [inv Q; auto|]. destruct J as [J|J]; [congruence|contradiction].
      * destruct (idx_dec [u] [z]) as [Q|Q]; [inv Q|auto]. exfalso. apply J. left. auto.
Qed.

Lemma sample_loop (c : config F) x a m e k l : a_shape a = [mkD m e 1] ->
  forall w f, heap_ok (wi_heap w) -> valid c x (wi_heap w) a -> has (wi_heap w) a f -> (forall z, In z l -> In z (range m e)) ->
  let t := filter (fun i => f_ne fl (k i) (f0 fl)) l in
  exists h', foldM (sample_kernel fl a k) l w =
      Ok (mkWi h' (fold_left cmin t (wi_min w)) (fold_left cmax t (wi_max w)) (fold_left (f_add fl) (map k t) (wi_sum w))) /\
    valid c x h' a /\ has h' a (patched l k f) /\ local (wi_heap w) [blk a] h' [blk a].
Proof.
  intros Sh. induction l as [|z l IH]; intros w f Hh Ha Hf Hin; cbn [foldM filter map fold_left].
  - exists (wi_heap w). split; [destruct w; reflexivity|]. split; [auto|]. split; [exact Hf|apply local_refl; auto].
  - unfold sample_kernel at 1.
    rewrite elem_ref. destruct (store_spec c x (wi_heap w) a [z] (k z) f) as (h1 & E & V1 & H1 & L1); auto.
    { rewrite Sh. apply in_range_dense. apply Hin. left. auto. }
    cbn [aref_of r_base r_shape]. rewrite E. cbn [bind].
    match goal with |- context [foldM _ l ?w1] => destruct (IH w1 (fun j => if idx_dec j [z] then k z else f j)) as (h2 & E2 & V2 & H2 & L2) end;
      try (destruct (f_ne fl (k z) (f0 fl)); cbn [wi_heap]; auto; apply L1).
    + intros; apply Hin; right; auto.
    + exists h2. split.
      { etransitivity; [exact E2|]. destruct (f_ne fl (k z) (f0 fl)); reflexivity. }
      split; [auto|]. split; [|eapply local_trans; eauto; destruct (f_ne fl (k z) (f0 fl)); exact L2].
      intros i Hi. etransitivity; [exact (H2 i Hi)|]. do 2 f_equal. unfold patched. rewrite Sh in Hi. destruct (in_bounds_1 _ _ Hi) as (u & -> & _). cbn [nth].
      destruct (in_dec Z.eq_dec u l) as [I|I], (in_dec Z.eq_dec u (z :: l)) as [J|J]; auto.
      * exfalso. apply J. right. auto.
      * destruct (idx_dec [u] [z]) as [Q|Q]; [inv Q; auto|]. destruct J as [J|J]; [congruence|contradiction].
      * destruct (idx_dec [u] [z]) as [Q|Q]; [inv Q|auto]. exfalso. apply J. left. auto.
Qed.

(** The first and last tap *)
Lemma fold_cmin_le l : forall a, (forall z, In z l -> a <= z) -> fold_left cmin l a = a.
Proof.
  induction l as [|z l IH]; intros a H; cbn [fold_left]; [auto|]. assert (cmin a z = a) as -> by (specialize (H z (or_introl eq_refl)); unfold cmin; ifs; lia).
  apply IH. intros; apply H; right; auto.
Qed.
Lemma fold_cmin_sorted l a : l <> [] -> StronglySorted Z.lt l -> (forall z, In z l -> z <= a) -> fold_left cmin l a = hd 0 l.
Proof.
  intros N S H. destruct l as [|z l]; [congruence|]. cbn [fold_left hd]. inv S.
  assert (cmin a z = z) as -> by (specialize (H z (or_introl eq_refl)); unfold cmin; ifs; lia).
  apply fold_cmin_le. rewrite Forall_forall in H3. intros y Hy. specialize (H3 y Hy). lia.
Qed.
Lemma fold_cmax_sorted l : forall a, StronglySorted Z.lt l -> (forall z, In z l -> a <= z) -> fold_left cmax l a = last l a.
Proof.
  induction l as [|z l IH]; intros a S H; [reflexivity|]. cbn [fold_left]. inv S.
  assert (cmax a z = z) as -> by (specialize (H z (or_introl eq_refl)); unfold cmax; ifs; lia).
  rewrite IH; auto.
  - destruct l as [|y l]; [reflexivity|]. clear. revert y. induction l as [|u l IH]; intro y; [reflexivity|]. cbn [last] in *. apply (IH u).
  - rewrite Forall_forall in H3. intros y Hy. specialize (H3 y Hy). lia.
Qed.
Lemma last_def {A} (l : list A) a b : l <> [] -> last l a = last l b.
Proof. induction l as [|x l IH]; [congruence|]. intros _. destruct l; [reflexivity|]. cbn [last] in *. apply IH. discriminate. Qed.
Lemma sorted_filter (p : Z -> bool) l : StronglySorted Z.lt l -> StronglySorted Z.lt (filter p l).
Proof.
  induction 1 as [|a l S IH Ha]; cbn [filter]; [constructor|]. destruct (p a); [|auto]. constructor; [auto|].
  rewrite Forall_forall in *. intros x Hx. apply filter_In in Hx. apply Ha, Hx.
Qed.
Lemma taps_In (w : Z -> F) lo n z : In z (taps fl w lo n) <-> lo <= z < lo + n /\ f_ne fl (w z) (f0 fl) = true.
Proof. unfold taps. rewrite filter_In, range_In. tauto. Qed.
Lemma taps_sorted (w : Z -> F) lo n : StronglySorted Z.lt (taps fl w lo n).
Proof. apply sorted_filter, range_sorted. Qed.
Lemma sorted_hd_last l : l <> [] -> StronglySorted Z.lt l -> In (hd 0 l) l /\ In (last l 0) l /\ forall z, In z l -> hd 0 l <= z <= last l 0.
Proof.
  intros N S. induction S as [|a l S IH Ha]; [congruence|]. cbn [hd]. destruct l as [|b l].
  - cbn. split; [auto|]. split; [auto|]. intros z [->|[]]. lia.
  - destruct IH as (I1 & I2 & I3); [discriminate|]. cbn [last] in *. split; [left; auto|]. split; [right; exact I2|].
    rewrite Forall_forall in Ha. intros z [->|Hz].
    + specialize (Ha _ I2). lia.
    + pose proof (Ha z Hz). pose proof (I3 z Hz). lia.
Qed.
Lemma window_bounds (w : Z -> F) lo n : taps fl w lo n <> [] ->
  fold_left cmin (taps fl w lo n) (lo + n - 1) = first_tap fl w lo n /\
  fold_left cmax (taps fl w lo n) lo = last_tap fl w lo n /\
  lo <= first_tap fl w lo n <= last_tap fl w lo n /\ last_tap fl w lo n < lo + n.
Proof.
  intro N. pose proof (taps_sorted w lo n) as S. destruct (sorted_hd_last _ N S) as (I1 & I2 & I3).
  split; [apply fold_cmin_sorted; auto; intros z Hz; apply taps_In in Hz; lia|].
  split; [|unfold first_tap, last_tap; pose proof (I3 _ I1); apply taps_In in I1, I2; lia].
  rewrite fold_cmax_sorted; auto; [apply last_def; auto|]. intros z Hz. apply taps_In in Hz. lia.
Qed.

(** ** One kernel *)
Lemma set_nth_split {A} (l : list A) k a : nth_error l k = Some a ->
  exists p r, l = p ++ a :: r /\ length p = k /\ forall b, set_nth l k b = p ++ b :: r.
Proof.
  revert k. induction l as [|x l IH]; intros [|k] H; try discriminate; cbn [nth_error] in H.
  - inv H. exists [], l. auto.
  - destruct (IH k H) as (p & r & -> & L & E). exists (x :: p), r. cbn. split; [auto|]. split; [auto|]. intro b. rewrite E. auto.
Qed.
Lemma nth_set_other {A} (l : list A) k a j : j <> k -> nth_error (set_nth l k a) j = nth_error l j.
Proof. revert k j. induction l as [|x l IH]; intros [|k] [|j] H; cbn; try congruence. apply IH. congruence. Qed.
Lemma nth_set_same {A} (l : list A) k a : (k < length l)%nat -> nth_error (set_nth l k a) k = Some a.
Proof. revert k. induction l as [|x l IH]; intros [|k] H; cbn in *; try lia; auto. apply IH. lia. Qed.
Lemma set_nth_length {A} (l : list A) k a : length (set_nth l k a) = length l.
Proof. revert k. induction l as [|x l IH]; intros [|k]; cbn; auto. Qed.

Lemma live_list_local h h' (ks : list arr) k a a' B : nth_error ks k = Some a ->
  local h [B; blk a; 0%nat] h' [B; blk a'; 0%nat] ->
  local h (0%nat :: B :: map blk ks) h' (0%nat :: B :: map blk (set_nth ks k a')).
Proof.
  intros E L. destruct (set_nth_split _ _ _ E) as (p & r & -> & _ & E'). rewrite E'.
  eapply local_perm; [| |exact (local_frame _ _ _ _ (map blk (p ++ r)) L)]; intro z;
    rewrite !map_app; cbn [map]; repeat (rewrite in_app_iff; cbn [In]); tauto.
Qed.

Definition norm_kernel (w : Z -> F) (lo n : Z) (i : list Z) : F := f_div fl (w (nth 0 i 0)) (total fl w lo n).
Definition kernel_ok (h : heap F) (a : arr) (w : Z -> F) (lo n : Z) : Prop :=
  a_shape a = [mkD (first_tap fl w lo n) (last_tap fl w lo n - first_tap fl w lo n + 1) 1] /\ has h a (norm_kernel w lo n).

(** The kernels of a list are valid arrays that share no memory *)
Definition family (name : nat -> nat) (h : heap F) (ks : list arr) : Prop :=
  (forall k a, nth_error ks k = Some a -> valid kc (name k) h a) /\
  (forall k l a b, k <> l -> nth_error ks k = Some a -> nth_error ks l = Some b -> apart a b).

Lemma copyable_dense (b : arr) m e : a_shape b = [mkD m e 1] -> copyable kc b.
Proof. intro E. right. rewrite E. repeat constructor. unfold unknown_stride. cbn. lia. Qed.
Lemma frame_list name h h' K K' ks : heap_ok h -> local h K h' K' -> family name h ks ->
  (forall a, In a ks -> In (blk a) K -> blk a = 0%nat) -> family name h' ks.
Proof.
  intros Hh L [V A] N. split; [|exact A]. intros k a E. destruct (frame_local _ _ _ _ _ _ _ _ Hh L (V k a E)) as (R & _); auto.
  apply N. eapply nth_error_In; eauto.
Qed.

Section Build.
Variables (name : nat -> nat) (tmp : nat) (kernel : F -> F) (rate : rational) (in_ out : interval).
Notation w := (weight fl kernel rate).
Notation lo := (imin in_).
Notation n := (iext in_).
Hypothesis (name_ne : forall k, name k <> tmp).
Hypothesis (n_pos : 0 <= n).

Lemma sampled x q : sample_position rate x = Ok q -> numerator q = Qnum (position (val rate) x) ->
  denominator q = QDen (position (val rate) x) ->
  forall i, kernel (f_mul fl (f_sub fl (f_int fl i) (to_float fl q)) (f_min fl (to_float fl rate) (f1 fl))) = w x i.
Proof. intros _ E1 E2 i. unfold weight, to_float, quotient, f_min, at_most_1. rewrite E1, E2. reflexivity. Qed.

Lemma imax_n : imax in_ = lo + n - 1.
Proof. unfold imax. lia. Qed.
Lemma for_in_n : for_interval in_ = Ok (range lo n).
Proof. apply for_interval_range; auto. Qed.

(** The sampling loop from the initial window *)
Lemma window_spec h buffer (k : Z -> F) x : heap_ok h -> a_shape buffer = [mkD lo n 1] -> valid bc O h buffer ->
  (forall i, k i = w x i) ->
  exists h' mn mx, for_in (for_interval in_) (sample_kernel fl buffer k) (mkWi h (imax in_) (imin in_) (f0 fl)) =
      Ok (mkWi h' mn mx (total fl (w x) lo n)) /\
    (taps fl (w x) lo n <> [] -> mn = first_tap fl (w x) lo n /\ mx = last_tap fl (w x) lo n) /\
    valid bc O h' buffer /\ has h' buffer (fun i => w x (nth 0 i 0)) /\ local h [blk buffer] h' [blk buffer].
Proof.
  intros Hh Sh V K. rewrite for_in_n. cbn [for_in bind].
  destruct (valid_has _ _ _ _ V) as (f & Hf).
  destruct (sample_loop bc O buffer lo n k (range lo n) Sh (mkWi h (imax in_) (imin in_) (f0 fl)) f) as (h' & E & V' & H' & L'); auto.
  cbn [wi_heap wi_min wi_max wi_sum] in E. fold (taps fl k lo n) in E.
  assert (T : taps fl k lo n = taps fl (w x) lo n).
  { unfold taps. apply filter_ext. intro i. rewrite K. auto. }
  rewrite T in E. eexists _, _, _. split; [|split; [|split; [exact V'|split; [|exact L']]]].
  - rewrite E. do 2 f_equal. unfold total. f_equal. apply map_ext. auto.
  - intro N. rewrite imax_n. destruct (window_bounds (w x) lo n N) as (A & B & _). auto.
  - intros i Hi. etransitivity; [exact (H' i Hi)|]. do 2 f_equal. unfold patched. rewrite Sh in Hi.
    destruct (in_bounds_1 _ _ Hi) as (u & -> & Hu). cbn [nth]. destruct (in_dec Z.eq_dec u (range lo n)) as [I|I]; [auto|].
    exfalso. apply I, range_In. exact Hu.
Qed.

Lemma build_kernel_ok h ks x buffer : heap_ok h -> a_shape buffer = [mkD lo n 1] -> valid bc O h buffer ->
  family name h ks -> (forall a, In a ks -> apart a buffer) -> in_interval out x -> (Z.to_nat (iext out) <= length ks)%nat ->
  rate_ok rate (imin out) (iext out) -> usable_weights fl (w x) lo n ->
  exists h' a', let k := Z.to_nat (x - imin out) in
    build_kernel fl nd name tmp kernel rate (f_min fl (to_float fl rate) (f1 fl)) in_ out buffer (h, ks) x = Ok (h', set_nth ks k a') /\
    local h (0%nat :: blk buffer :: map blk ks) h' (0%nat :: blk buffer :: map blk (set_nth ks k a')) /\
    valid bc O h' buffer /\ family name h' (set_nth ks k a') /\ (forall a, In a (set_nth ks k a') -> apart a buffer) /\
    kernel_ok h' a' (w x) lo n /\
    (forall j b f, j <> k -> nth_error ks j = Some b -> has h b f -> has h' b f).
Proof.
  intros Hh Sh V [Vk Ak] Apb Hx Len Hr [Tp Tt]. unfold build_kernel.
  destruct (sample_position_spec rate (imin out) (iext out) x Hr Hx) as (q & Eq & Qn & Qd). rewrite Eq. cbn [bind].
  destruct (window_spec h buffer _ x Hh Sh V (sampled x q Eq Qn Qd)) as (h1 & mn & mx & E1 & Bd & V1 & H1 & L1).
  rewrite E1. cbn [bind wi_heap wi_min wi_max wi_sum]. destruct (Bd Tp) as [-> ->]. clear Bd.
  destruct (window_bounds (w x) lo n Tp) as (_ & _ & B1 & B2).
  set (a := first_tap fl (w x) lo n) in *. set (b := last_tap fl (w x) lo n) in *.
  assert (A1 : assert_ nd (0 <? b - a + 1) = Ok tt) by (unfold assert_; rewrite (proj2 (Z.ltb_lt _ _)) by lia; auto).
  assert (A2 : assert_ nd (f_lt fl (f0 fl) (total fl (w x) lo n)) = Ok tt) by (unfold assert_; rewrite Tt; auto).
  rewrite A1, A2. cbn [bind]. clear A1 A2.
  assert (Hh1 : heap_ok h1) by apply L1.
  destruct (ctor_shape_spec kc tmp h1 0 [mkD a (b - a + 1) 1]) as (h2 & t & E2 & V2 & H2 & L2 & Sh2 & _); auto.
  { apply dense_arg; [reflexivity|lia]. }
  rewrite E2. cbn [bind]. rewrite resolve_dense in Sh2. rewrite Sh2. cbn [nth]. rewrite for_dim_range by (cbn; lia).
  cbn [for_in bind dmin dext]. assert (Hh2 : heap_ok h2) by apply L2.
  (* the buffer does not move *)
  assert (Bt : blk buffer <> 0%nat).
  { destruct (repr_elem _ _ _ _ _ [a] V1) as (? & ? & _); auto. rewrite Sh. repeat constructor; cbn; lia. }
  destruct (frame_local _ _ _ _ _ _ _ _ Hh1 L2 V1) as (V1' & H1' & N1' & _); [intros [G|[]]; congruence|].
  assert (Nt : blk t <> blk buffer) by (intro G; apply Bt, N1'; left; auto).
  destruct (store_loop kc tmp t a (b - a + 1) (range a (b - a + 1)) (fun rx => f_div fl (w x rx) (total fl (w x) lo n))
    (fun h rx => b0 <- ref_at h (aref_of buffer) [rx];; store h (ref_ptr (aref_of t) [rx]) (f_div fl b0 (total fl (w x) lo n)))
    Sh2 h2 _ Hh2 V2 H2) as (h3 & E3 & V3 & H3 & L3); auto.
  { intros g z Lg Iz. apply range_In in Iz.
    destruct (frame_local _ _ _ _ _ _ _ _ Hh2 Lg V1') as (_ & Hg & _); [intros [G|[]]; congruence|].
    unfold ref_at. rewrite (elem_ref (aref_of buffer)). cbn [aref_of r_base r_shape].
    rewrite (proj2 (load_holds g _ (w x z))); [reflexivity|]. apply (Hg _ (H1' _ H1) [z]). rewrite Sh. repeat constructor; cbn; lia. }
  rewrite E3. cbn [bind]. assert (Hh3 : heap_ok h3) by apply L3.
  assert (L13 : local h1 [0%nat] h3 [blk t]) by (eapply local_trans; eauto).
  assert (L03 : local h [blk buffer; 0%nat] h3 [blk buffer; blk t]).
  { eapply local_trans; [auto| |exact (local_frame _ _ _ _ [blk buffer] L13)].
    eapply local_perm; [| |exact (local_frame _ _ _ _ [0%nat] L1)]; intro z; cbn [app In]; tauto. }
  set (k := Z.to_nat (x - imin out)).
  destruct (nth_error ks k) as [a0|] eqn:E0.
  2:{ exfalso. apply nth_error_None in E0. unfold in_interval in Hx. subst k. lia. }
  assert (Ap0 : apart a0 buffer) by (apply Apb; eapply nth_error_In; eauto).
  destruct (frame_local _ _ _ _ _ _ _ _ Hh L03 (Vk k a0 E0)) as (V03 & H03 & N03 & _).
  { intros [G|[G|[]]]; [apply Ap0; auto|auto]. }
  destruct (move_assign_spec kc (name k) tmp h3 a0 t _ fair_kernel Hh3 (name_ne k) V03 V3 H3) as (h4 & a' & t' & E4 & M4 & _).
  { intro G. apply N03. rewrite G. right. left. auto. }
  { eapply copyable_dense; eauto. }
  rewrite E4. cbn [bind]. destruct M4 as (Va & Ha & Vt & Apt & L4 & Sf). assert (Hh4 : heap_ok h4) by apply L4.
  destruct (deallocate_spec kc tmp h4 t' fair_kernel Hh4 Vt) as (h5 & t5 & E5 & V5 & Nm & L5 & _).
  rewrite E5. cbn [bind]. rewrite (no_memory_blk _ Nm) in L5. assert (Hh5 : heap_ok h5) by apply L5.
  (* where everything is *)
  assert (L45 : local h3 [blk a0; blk t] h5 [blk a'; 0%nat]).
  { eapply local_trans; [auto|exact L4|exact (local_frame _ _ _ _ [blk a'] L5)]. }
  assert (L : local h [blk buffer; blk a0; 0%nat] h5 [blk buffer; blk a'; 0%nat]).
  { eapply local_trans; [auto| |exact (local_frame _ _ _ _ [blk buffer] L45)].
    eapply local_perm; [| |exact (local_frame _ _ _ _ [blk a0] L03)]; intro z; cbn [app In]; tauto. }
  destruct (frame_local _ _ _ _ _ _ _ _ Hh2 L3 V1') as (Vb3 & _); [intros [G|[]]; congruence|].
  destruct (frame_local _ _ _ _ _ _ _ _ Hh3 L45 Vb3) as (Vb5 & _ & Nb5 & _).
  { intros [G|[G|[]]]; [|congruence]. rewrite <- G. apply Ap0. auto. }
  destruct (frame_local _ _ _ _ _ _ _ _ Hh4 L5 Va) as (Va5 & Ha5 & Na5 & _).
  { intros [G|[]]. apply Apt. auto. }
  exists h5, a'. cbn zeta. fold k. split; [reflexivity|]. split; [apply live_list_local with a0; auto|].
  split; [exact Vb5|].
  assert (Fr : forall j b0, j <> k -> nth_error ks j = Some b0 ->
    valid kc (name j) h5 b0 /\ (forall f, has h b0 f -> has h5 b0 f) /\ apart b0 a').
  { intros j b0 Nj Ej. destruct (frame_local _ _ _ _ _ _ _ _ Hh L (Vk j b0 Ej)) as (R & Hf & Nf & _).
    - intros [G|[G|[G|[]]]]; auto; [apply (Apb b0); auto; eapply nth_error_In; eauto|]. apply (Ak j k b0 a0); auto.
    - split; [auto|]. split; [auto|]. intro G. apply Nf. rewrite G. right. left. auto. }
  assert (Lk : (k < length ks)%nat) by (apply nth_error_Some; congruence).
  split; [split|].
  - intros j b0 Ej. destruct (Nat.eq_dec j k) as [->|Nj]; [rewrite nth_set_same in Ej by auto; inv Ej; auto|].
    rewrite nth_set_other in Ej by auto. apply Fr; auto.
  - intros i j b0 c0 Nij Ei Ej. destruct (Nat.eq_dec i k) as [->|Ni], (Nat.eq_dec j k) as [->|Nj]; try congruence.
    + rewrite nth_set_same in Ei by auto. inv Ei. rewrite nth_set_other in Ej by auto. apply apart_sym. apply (Fr j); auto.
    + rewrite nth_set_same in Ej by auto. inv Ej. rewrite nth_set_other in Ei by auto. apply (Fr i); auto.
    + rewrite nth_set_other in Ei, Ej by auto. apply (Ak i j); auto.
  - split.
    + intros b0 Ib. apply In_nth_error in Ib. destruct Ib as (j & Ej). destruct (Nat.eq_dec j k) as [->|Nj].
      * rewrite nth_set_same in Ej by auto. inv Ej. intro G. rewrite G. apply Nb5. left. auto.
      * rewrite nth_set_other in Ej by auto. apply Apb. eapply nth_error_In; eauto.
    + split; [|intros j b0 f Nj Ej; apply (Fr j); auto]. split.
      * change (a_shape a' = [mkD a (b - a + 1) 1]). rewrite <- Sh2. apply shape_from_known; auto. rewrite Sh2. repeat constructor. unfold unknown_stride. cbn. lia.
      * intros i Hi. etransitivity; [apply (Ha5 _ Ha i Hi)|]. do 2 f_equal. unfold patched, norm_kernel.
        rewrite (shape_from_known _ _ Sf), Sh2 in Hi by (rewrite Sh2; repeat constructor; unfold unknown_stride; cbn; lia).
        destruct (in_bounds_1 _ _ Hi) as (u & -> & Hu). cbn [nth]. destruct (in_dec Z.eq_dec u (range a (b - a + 1))) as [I|I]; [auto|].
        exfalso. apply I, range_In. exact Hu.
Qed.

(** ** All kernels *)
Lemma default_kernels_ok N : forall h, heap_ok h ->
  exists h' ks, default_kernels fl nd name N h = Ok (h', ks) /\ length ks = N /\ family name h' ks /\
    local h [0%nat] h' (0%nat :: map blk ks).
Proof.
  intros h Hh. unfold default_kernels.
  assert (G : forall m j g ks, heap_ok g -> length ks = j -> family name g ks ->
    exists h' ks', foldM (fun st k => ' (h', a) <- ctor_shape kc (name k) (fst st) 0 [mkD 0 0 1] ;; Ok (h', snd st ++ [a]))
      (seq j m) (g, ks) = Ok (h', ks') /\ length ks' = (j + m)%nat /\ family name h' ks' /\
      local g (0%nat :: map blk ks) h' (0%nat :: map blk ks')).
  { induction m as [|m IH]; intros j g ks Hg Lk Fk; cbn [seq foldM].
    - exists g, ks. split; [auto|]. split; [lia|]. split; [auto|]. apply local_refl; auto.
    - destruct (ctor_shape_spec kc (name j) g 0 [mkD 0 0 1] Hg) as (g1 & a & E & V & _ & L & _ & _); [apply dense_arg; [reflexivity|lia]|].
      cbn [fst snd]. rewrite E. cbn [bind].
      destruct (IH (S j) g1 (ks ++ [a])) as (h' & ks' & E' & Lk' & F' & L').
      + apply L.
      + rewrite app_length. cbn. lia.
      + assert (Fr : forall k b, nth_error ks k = Some b -> valid kc (name k) g1 b /\ apart b a).
        { intros k b Ek. destruct (frame_local _ _ _ _ _ _ _ _ Hg L (proj1 Fk k b Ek)) as (R & _ & Nf & _).
          - intros [G|[]]; auto.
          - split; [auto|]. intro G. apply Nf. left. auto. }
        assert (Last : forall k b, nth_error (ks ++ [a]) k = Some b -> nth_error ks k = Some b \/ (k = j /\ b = a)).
        { intros k b Ek. destruct (Nat.lt_ge_cases k (length ks)) as [H|H].
          - rewrite nth_error_app1 in Ek by auto. auto.
          - rewrite nth_error_app2 in Ek by auto. right. destruct (k - length ks)%nat as [|u] eqn:Q; cbn in Ek; [inv Ek; split; [lia|auto]|].
            destruct u; discriminate. }
        split.
        * intros k b Ek. destruct (Last k b Ek) as [H|[-> ->]]; [apply Fr; auto|auto].
        * intros k l b c Nkl Ek El. destruct (Last k b Ek) as [H|[-> ->]], (Last l c El) as [H'|[-> ->]]; try congruence.
          -- apply (proj2 Fk k l); auto.
          -- apply (Fr k); auto.
          -- apply apart_sym, (Fr l); auto.
      + exists h', ks'. split; [exact E'|]. split; [lia|]. split; [auto|].
        eapply local_trans; [auto| |exact L'].
        eapply local_perm; [| |exact (local_frame _ _ _ _ (0%nat :: map blk ks) L)]; intro z; rewrite ?map_app; cbn [map];
          repeat (rewrite in_app_iff; cbn [In]); tauto. }
  destruct (G N 0%nat h []) as (h' & ks' & E & L & Fk & Lo); auto.
  { split; intros [|k]; intros; discriminate. }
  exists h', ks'. auto.
Qed.

Hypothesis (rate_fine : rate_ok rate (imin out) (iext out)).

(** The state of the loop over [out] *)
Definition building h (buffer : arr) (ks : list arr) : Prop :=
  heap_ok h /\ a_shape buffer = [mkD lo n 1] /\ valid bc O h buffer /\ family name h ks /\
  (forall a, In a ks -> apart a buffer) /\ (Z.to_nat (iext out) <= length ks)%nat.

Notation step buffer := (build_kernel fl nd name tmp kernel rate (f_min fl (to_float fl rate) (f1 fl)) in_ out buffer).

Lemma build_loop_ok buffer l : forall h ks, building h buffer ks -> NoDup l -> (forall x, In x l -> in_interval out x) ->
  (forall x, In x l -> usable_weights fl (w x) lo n) ->
  exists h' ks', foldM (step buffer) l (h, ks) = Ok (h', ks') /\ building h' buffer ks' /\ length ks' = length ks /\
    local h (0%nat :: blk buffer :: map blk ks) h' (0%nat :: blk buffer :: map blk ks') /\
    (forall x, In x l -> exists a, nth_error ks' (Z.to_nat (x - imin out)) = Some a /\ kernel_ok h' a (w x) lo n) /\
    (forall j b f, (forall x, In x l -> Z.to_nat (x - imin out) <> j) -> nth_error ks j = Some b -> has h b f ->
      nth_error ks' j = Some b /\ has h' b f).
Proof.
  induction l as [|x l IH]; intros h ks B Nd In_ Us; cbn [foldM].
  - exists h, ks. split; [auto|]. split; [auto|]. split; [auto|]. split; [apply local_refl, B|]. split; [intros ? []|auto].
  - destruct B as (Hh & Sh & V & Fk & Ap & Len). inv Nd.
    destruct (build_kernel_ok h ks x buffer Hh Sh V Fk Ap (In_ x (or_introl eq_refl)) Len rate_fine (Us x (or_introl eq_refl)))
      as (h1 & a & E & L & V1 & F1 & A1 & K1 & Fr). cbn zeta in *. set (k := Z.to_nat (x - imin out)) in *.
    rewrite E. cbn [bind].
    assert (Lk : (k < length ks)%nat) by (specialize (In_ x (or_introl eq_refl)); unfold in_interval in In_; subst k; lia).
    destruct (IH h1 (set_nth ks k a)) as (h2 & ks2 & E2 & B2 & Len2 & L2 & K2 & Fr2); auto.
    + split; [apply L|]. split; [auto|]. split; [auto|]. split; [auto|]. split; [auto|]. rewrite set_nth_length. auto.
    + intros; apply In_; right; auto.
    + intros; apply Us; right; auto.
    + exists h2, ks2. split; [exact E2|]. split; [auto|]. split; [rewrite Len2; apply set_nth_length|].
      split; [eapply local_trans; eauto|]. rewrite set_nth_length in Len2. split.
      * intros z [->|Hz]; [|apply K2; auto]. exists a. destruct (Fr2 k a (norm_kernel (w z) lo n)) as [N1 N2].
        -- intros y Hy G. apply H1. pose proof (In_ y (or_intror Hy)) as D1. pose proof (In_ z (or_introl eq_refl)) as D2.
           unfold in_interval in D1, D2. assert (y = z) by (subst k; lia). congruence.
        -- apply nth_set_same. auto.
        -- apply K1.
        -- split; [auto|]. split; [apply K1|auto].
      * intros j b f Nj Ej Hf. apply Fr2.
        -- intros; apply Nj; right; auto.
        -- rewrite nth_set_other; auto. intro G. apply (Nj x); [left; auto|]. subst k. auto.
        -- apply (Fr j); auto. intro G. apply (Nj x); [left; auto|]. auto.
Qed.

(** Kernel arrays: valid, apart, and with the weights of each position *)
Definition kernels_ok h (ks : list arr) : Prop :=
  family name h ks /\ length ks = Z.to_nat (iext out) /\
  forall x, in_interval out x -> exists a, nth_error ks (Z.to_nat (x - imin out)) = Some a /\ kernel_ok h a (w x) lo n.

Hypothesis out_pos : 0 <= iext out.

Lemma build_start h : heap_ok h -> exists h1 ks h2 buffer,
  default_kernels fl nd name (Z.to_nat (iext out)) h = Ok (h1, ks) /\
  ctor_shape bc O h1 0 [mkD lo n 1] = Ok (h2, buffer) /\ building h2 buffer ks /\ length ks = Z.to_nat (iext out) /\
  local h [0%nat] h2 (0%nat :: blk buffer :: map blk ks).
Proof.
  intros Hh. destruct (default_kernels_ok (Z.to_nat (iext out)) h Hh) as (h1 & ks & E1 & Len & Fk & L1).
  assert (Hh1 : heap_ok h1) by apply L1.
  destruct (ctor_shape_spec bc O h1 0 [mkD lo n 1] Hh1) as (h2 & buffer & E2 & V2 & _ & L2 & Sh & _); [apply dense_arg; [reflexivity|auto]|].
  exists h1, ks, h2, buffer. split; [auto|]. split; [auto|].
  assert (Fr : forall k b, nth_error ks k = Some b -> valid kc (name k) h2 b /\ apart b buffer).
  { intros k b Ek. destruct (frame_local _ _ _ _ _ _ _ _ Hh1 L2 (proj1 Fk k b Ek)) as (R & _ & Nf & _).
    - intros [G|[]]; auto.
    - split; [auto|]. intro G. apply Nf. left. auto. }
  split.
  - split; [apply L2|]. split; [rewrite Sh, resolve_dense; auto|]. split; [auto|]. split; [split; [intros; apply Fr; auto|apply Fk]|].
    split; [|lia]. intros a Ia. apply In_nth_error in Ia. destruct Ia as (k & Ek). apply (Fr k); auto.
  - split; [auto|]. eapply local_trans; [auto|exact L1|].
    eapply local_perm; [| |exact (local_frame _ _ _ _ (0%nat :: map blk ks) L2)]; intro z; cbn [app In];
      repeat (rewrite in_app_iff; cbn [In]); tauto.
Qed.

Lemma build_kernels_ok h : heap_ok h -> (forall x, in_interval out x -> usable_weights fl (w x) lo n) ->
  exists h' ks, build_kernels fl nd name tmp kernel rate in_ out h = Ok (h', ks) /\ kernels_ok h' ks /\
    local h [0%nat] h' (0%nat :: map blk ks).
Proof.
  intros Hh Us. destruct (build_start h Hh) as (h1 & ks & h2 & buffer & E1 & E2 & B & Len & L). unfold build_kernels.
  rewrite E1. cbn [bind]. rewrite E2. cbn [bind]. rewrite for_interval_range by auto. cbn [for_in bind].
  destruct (build_loop_ok buffer (range (imin out) (iext out)) h2 ks B) as (h3 & ks3 & E3 & B3 & Len3 & L3 & K3 & _).
  { apply range_NoDup. }
  { intros x Hx. apply range_In in Hx. exact Hx. }
  { intros x Hx. apply Us. apply range_In in Hx. exact Hx. }
  rewrite E3. cbn [bind]. destruct B3 as (Hh3 & _ & V3 & F3 & Ap3 & _).
  destruct (deallocate_spec bc O h3 buffer fair_buffer Hh3 V3) as (h4 & b4 & E4 & _ & Nm & L4 & _). rewrite E4. cbn [bind].
  rewrite (no_memory_blk _ Nm) in L4. exists h4, ks3. split; [reflexivity|].
  assert (Fr : forall k b, nth_error ks3 k = Some b -> valid kc (name k) h4 b /\ forall f, has h3 b f -> has h4 b f).
  { intros k b Ek. destruct (frame_local _ _ _ _ _ _ _ _ Hh3 L4 (proj1 F3 k b Ek)) as (R & Hf & _).
    - intros [G|[]]. apply (Ap3 b); [eapply nth_error_In; eauto|auto].
    - auto. }
  split; [split; [split|split]|].
  - intros; apply Fr; auto.
  - apply F3.
  - lia.
  - intros x Hx. destruct (K3 x) as (a & Ea & [S H]); [apply range_In; exact Hx|]. exists a. split; [auto|]. split; [auto|].
    apply (Fr _ _ Ea). auto.
  - eapply local_trans; [auto|exact L|]. eapply local_trans; [apply L|exact L3|].
    eapply local_perm; [| |exact (local_frame _ _ _ _ (0%nat :: map blk ks3) L4)]; intro z; cbn [app In];
      repeat (rewrite in_app_iff; cbn [In]); tauto.
Qed.

(** ** Without usable weights, debug builds stop *)
Lemma usable_dec x : {usable_weights fl (w x) lo n} + {~ usable_weights fl (w x) lo n}.
Proof.
  unfold usable_weights. destruct (taps fl (w x) lo n); [right; intros [G _]; congruence|].
  destruct (f_lt fl (f0 fl) (total fl (w x) lo n)); [left; split; congruence|right; intros [_ G]; congruence].
Qed.
Lemma build_kernel_fails h ks x buffer : nd = false -> f_lt fl (f0 fl) (f0 fl) = false -> building h buffer ks ->
  in_interval out x -> ~ usable_weights fl (w x) lo n -> step buffer (h, ks) x = AssertFail.
Proof.
  intros Nd Z0 (Hh & Sh & V & _) Hx Us. unfold build_kernel.
  destruct (sample_position_spec rate (imin out) (iext out) x rate_fine Hx) as (q & Eq & Qn & Qd). rewrite Eq. cbn [bind].
  destruct (window_spec h buffer _ x Hh Sh V (sampled x q Eq Qn Qd)) as (h1 & mn & mx & E1 & _).
  rewrite E1. cbn [bind wi_heap wi_min wi_max wi_sum].
  assert (T : f_lt fl (f0 fl) (total fl (w x) lo n) = false).
  { unfold usable_weights in Us. unfold total. unfold total in Us. destruct (taps fl (w x) lo n) as [|t l]; [exact Z0|].
    apply not_true_is_false. intro G. apply Us. split; [congruence|exact G]. }
  rewrite T. destruct nd; [discriminate|]. unfold assert_. destruct (0 <? mx - mn + 1); reflexivity.
Qed.
Lemma build_loop_fails buffer l : forall h ks, nd = false -> f_lt fl (f0 fl) (f0 fl) = false -> building h buffer ks ->
  NoDup l -> (forall x, In x l -> in_interval out x) -> (exists x, In x l /\ ~ usable_weights fl (w x) lo n) ->
  foldM (step buffer) l (h, ks) = AssertFail.
Proof.
  induction l as [|x l IH]; intros h ks Nd Z0 B N In_ (y & Iy & Uy); [destruct Iy|]. cbn [foldM].
  destruct (usable_dec x) as [U|U].
  - destruct (build_loop_ok buffer [x] h ks B) as (h1 & ks1 & E1 & B1 & _).
    { repeat constructor. auto. }
    { intros z [->|[]]. apply In_. left. auto. }
    { intros z [->|[]]. auto. }
    cbn [foldM] in E1. destruct (step buffer (h, ks) x) as [[h2 ks2]| |]; try discriminate. cbn [bind] in *. inv E1.
    inv N. apply IH; auto; [intros; apply In_; right; auto|]. exists y. split; [|auto]. destruct Iy as [->|]; [contradiction|auto].
  - rewrite build_kernel_fails; auto. apply In_. left. auto.
Qed.
Lemma build_kernels_fails h : nd = false -> f_lt fl (f0 fl) (f0 fl) = false -> heap_ok h ->
  (exists x, in_interval out x /\ ~ usable_weights fl (w x) lo n) ->
  build_kernels fl nd name tmp kernel rate in_ out h = AssertFail.
Proof.
  intros Nd Z0 Hh (x & Hx & Ux). destruct (build_start h Hh) as (h1 & ks & h2 & buffer & E1 & E2 & B & _). unfold build_kernels.
  rewrite E1. cbn [bind]. rewrite E2. cbn [bind]. rewrite for_interval_range by auto. cbn [for_in bind].
  rewrite build_loop_fails; auto.
  - apply range_NoDup.
  - intros z Hz. apply range_In in Hz. exact Hz.
  - exists x. split; [apply range_In; exact Hx|auto].
Qed.
End Build.
End Resample.
