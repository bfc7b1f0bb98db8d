(** Resampling agrees with the unbounded version when the images fit (C86). *)
From Coq Require Import QArith.
From Verif Require Import Tac Base Interval Shape Traverse Memory Ref Container Callback Ein Matrix Conv Rational SpecRational Resample Lanczos
  Spec SpecMem SpecEin SpecChecked SpecOverflow SpecViewChecked SpecContainer SpecContChecked SpecRatChecked SpecMatChecked SpecResample SpecResChecked
  EinUses TileFacts MatrixProd MatrixEin LoopFacts ContainerFacts ShapeFacts IntervalFacts TraverseFacts ResolveFacts RefFacts EinFacts
  Checked Overflow ViewChecked ContChecked RatChecked MatChecked ResChecked
  CheckedFacts OverflowFacts ViewCheckedFacts ContCheckedFacts RatCheckedFacts MatCheckedFacts
  MatrixFacts ResampleFacts ResampleImage ResampleStrip ResampleWhole.
Import ListNotations.
Open Scope Z_scope.

Lemma sample_position_same rate lo n x : rate_ok rate lo n -> lo <= x < lo + n -> k_sample_position rate x = sample_position rate x.
Proof.
  intros R Hx. destruct (sample_position_spec rate lo n x R Hx) as (q & -> & A & B).
  destruct R as (R1 & R2 & R3). specialize (R3 x Hx). change (2 ^ 60) with 1152921504606846976 in *.
  destruct (c67_position rate x) as (q' & -> & A' & B').
  - split; [split; unfold is_index; lia|lia].
  - lia.
  - lia.
  - lia.
  - destruct q, q'. cbn in *. congruence.
Qed.
Lemma farthest_in d m e : 1 <= e -> dmin d <= m -> m + e <= dmin d + dext d -> Z.abs m <= farthest d.
Proof. unfold farthest. lia. Qed.
Lemma part_tame d m e : is_dim d -> is_index (dmin d + dext d) -> side_fits d -> 1 <= e -> dmin d <= m -> m + e <= dmin d + dext d ->
  tame [mkD m e 1].
Proof.
  intros (D1 & D2 & D3 & D4) E (X & S) He L U. pose proof (farthest_in d m e He L U) as Fm. unfold is_index in *.
  assert (1 <= farthest d) by (unfold farthest; lia).
  assert (1 * dext d <= farthest d * dext d) by (apply Z.mul_le_mono_nonneg_r; lia).
  assert (Z.abs m * e <= farthest d * dext d) by (apply Z.mul_le_mono_nonneg; lia).
  split; [repeat constructor; unfold is_index; cbn; lia|]. split; [repeat constructor; unfold is_index; cbn; lia|].
  unfold box_size, far. cbn [map fold_right dext dmin]. rewrite Z.max_r by lia.
  split; [lia|]. split; [lia|].
  assert (LB : layout_budget [mkD m e 1] = e).
  { unfold layout_budget, widest, unknown_extents, known_dims. cbn [filter]. change (unknown_strideb (mkD m e 1)) with false.
    cbn [negb map fold_right dstr dext]. change (Z.abs 1) with 1. lia. }
  rewrite LB. cbn [length]. lia.
Qed.
Lemma known_one m e : known_strides [mkD m e 1].
Proof. constructor; [|constructor]. unfold unknown_stride. cbn. lia. Qed.
Lemma settled_one m e : settled [mkD m e 1].
Proof. apply settled_known, known_one. Qed.
Lemma tame_roomy s : tame s -> known_strides s -> roomy s.
Proof.
  intros T K. pose proof (tame_reach s T K) as R. unfold index_max in R. destruct T as (A & B & _). split; [auto|]. split; [auto|]. split; [exact K|lia].
Qed.
Lemma tame_zero : tame [mkD 0 0 1].
Proof.
  split; [repeat constructor; unfold is_index; cbn; lia|]. split; [repeat constructor; unfold is_index; cbn; lia|].
  split; [vm_compute; discriminate|]. split; [vm_compute; discriminate|vm_compute; reflexivity].
Qed.
Lemma box3 a b c : 1 <= a -> 1 <= b -> 1 <= c -> a <= a * b * c /\ b <= a * b * c /\ c <= a * b * c.
Proof.
  intros A B C. assert (a * 1 <= a * b) by (apply Z.mul_le_mono_nonneg_l; lia). assert (1 * b <= a * b) by (apply Z.mul_le_mono_nonneg_r; lia).
  assert (a * b * 1 <= a * b * c) by (apply Z.mul_le_mono_nonneg_l; lia). assert (1 * c <= a * b * c) by (apply Z.mul_le_mono_nonneg_r; lia). lia.
Qed.
Lemma temp_tame mx ex my ey mc ec : 1 <= ex -> 1 <= ey -> 1 <= ec ->
  is_index mx -> is_index my -> is_index mc -> is_index (mx + ex) -> is_index (my + ey) -> is_index (mc + ec) ->
  3 * ((1 + (Z.abs mx + Z.abs my + Z.abs mc)) * (ex * ey * ec)) <= big ->
  tame [mkD mx ex 1; mkD my ey unresolved; mkD mc ec unresolved].
Proof.
  intros X Y C I1 I2 I3 J1 J2 J3 S. destruct (box3 ex ey ec X Y C) as (Lx & Ly & Lc).
  assert (Q : 1 * (ex * ey * ec) <= (1 + (Z.abs mx + Z.abs my + Z.abs mc)) * (ex * ey * ec)) by (apply Z.mul_le_mono_nonneg_r; lia).
  assert (Q2 : (Z.abs mx + Z.abs my + Z.abs mc) * (ex * ey * ec) <= (1 + (Z.abs mx + Z.abs my + Z.abs mc)) * (ex * ey * ec)) by (apply Z.mul_le_mono_nonneg_r; lia).
  unfold is_index in *.
  split; [repeat apply Forall_cons; try apply Forall_nil; unfold is_dim, is_index; cbn [dmin dext dstr]; change unresolved with (-9223372036854775808); lia|].
  split; [unfold ends_fit; repeat apply Forall_cons; try apply Forall_nil; unfold is_index; cbn [dmin dext]; lia|].
  assert (B : box_size [mkD mx ex 1; mkD my ey unresolved; mkD mc ec unresolved] = ex * ey * ec).
  { unfold box_size. cbn [map fold_right dext]. rewrite !Z.max_r by lia. ring. }
  rewrite B. assert (Fr : far [mkD mx ex 1; mkD my ey unresolved; mkD mc ec unresolved] = Z.abs mx + Z.abs my + Z.abs mc).
  { unfold far. cbn [map fold_right dmin]. ring. }
  rewrite Fr. split; [lia|]. split; [lia|].
  assert (L : layout_budget [mkD mx ex 1; mkD my ey unresolved; mkD mc ec unresolved] = ex * ey * ec).
  { unfold layout_budget, widest, unknown_extents, known_dims. cbn [filter]. change (unknown_strideb (mkD mx ex 1)) with false.
    change (unknown_strideb (mkD my ey unresolved)) with true. change (unknown_strideb (mkD mc ec unresolved)) with true.
    cbn [negb map fold_right dstr dext]. change (Z.abs 1) with 1. rewrite !(Z.max_r 1) by lia. rewrite Z.max_l by lia. ring. }
  rewrite L. cbn [length]. lia.
Qed.

Lemma agrees_foldM {A S} (P : S -> Prop) (f g : S -> A -> outcome S) l : (forall s a, In a l -> P s -> agrees P (f s a) (g s a)) ->
  forall s, P s -> agrees P (foldM f l s) (foldM g l s).
Proof.
  induction l as [|a l IH]; intros H s Ps; cbn [foldM]; [apply agrees_ret; auto|].
  step_with P; [apply H; cbn; auto|]. intros s' Ps'. apply IH; auto. intros t b Hb. apply H. cbn. auto.
Qed.
Lemma agrees_for {A S} (P : S -> Prop) (l l' : outcome (list A)) (f g : S -> A -> outcome S) s : l = l' -> P s ->
  (forall x, l' = Ok x -> forall s a, In a x -> P s -> agrees P (f s a) (g s a)) -> agrees P (for_in l f s) (for_in l' g s).
Proof.
  intros -> Ps H. unfold for_in. destruct l' as [x| |]; cbn [bind]; [|split; [auto|discriminate]..]. apply agrees_foldM; auto. intros. eapply H; eauto.
Qed.
Lemma agrees_same {A} (P : A -> Prop) k m : agrees P k m -> k = m.
Proof. intros [H _]. exact H. Qed.
Lemma in_for_interval i l x : 0 <= iext i -> for_interval i = Ok l -> In x l -> in_interval i x.
Proof. intros H E I. rewrite for_interval_range in E by auto. injection E as <-. apply range_In in I. exact I. Qed.

Lemma kernel_at_fits od x : is_dim od -> in_dim od x -> k_kernel_at (d_interval od) x = Ok (x - dmin od).
Proof.
  intros (A & B & _ & C) Hx. unfold k_kernel_at, kernels_dim, d_interval. cbn [imin iext]. unfold is_index in A, B.
  rewrite k_flat_offset_ok.
  - unfold offset. cbn. f_equal. lia.
  - constructor; [|constructor]; unfold is_dim; cbn [dmin dext dstr]; unfold is_index; lia.
  - constructor; [exact Hx|constructor].
  - unfold reach, index_max. cbn [map fold_right dext dstr]. change (Z.abs 1) with 1. lia.
Qed.
Lemma one_roomy d m e : is_dim d -> is_index (dmin d + dext d) -> side_fits d -> 1 <= e -> dmin d <= m -> m + e <= dmin d + dext d ->
  roomy [mkD m e 1].
Proof. intros. apply tame_roomy; [apply (part_tame d); auto|apply known_one]. Qed.

Section Kernels.
Context {F : Type} (fl : floats F) (nd : bool).
Notation kc := (kernel_config fl nd).
Notation bc := (buffer_config fl nd).
Notation okay := (fine True).
Let T0 : tame (c_shape0 kc) := tame_zero.
Let H0 : True -> settled (c_shape0 kc) := fun _ => settled_one 0 0.
Variables (name : nat -> nat) (tmp : nat) (kernel : F -> F) (rate : rational) (id od : dim).
Notation in_ := (d_interval id).
Notation out := (d_interval od).
Notation w := (weight fl kernel rate).
Hypothesis (name_ne : forall k, name k <> tmp).
Hypothesis (Di : is_dim id) (De : is_index (dmin id + dext id)) (Si : side_fits id).
Hypothesis (Do : is_dim od) (Oe : is_index (dmin od + dext od)) (Oe1 : is_index (dmin od + dext od - 1)).
Hypothesis (R : rate_ok rate (dmin od) (dext od)).

Lemma in_ok : is_interval in_.
Proof. unfold d_interval, is_interval. cbn [imin iext]. destruct Di as (A & B & _ & C). destruct Si as [X _]. unfold is_index in *. lia. Qed.
Lemma out_ok : is_interval out.
Proof. unfold d_interval, is_interval. cbn [imin iext]. destruct Do as (A & B & _ & C). auto. Qed.
Lemma kernel_array_fits : k_kernel_array out = Ok tt.
Proof.
  unfold k_kernel_array, kernels_dim, d_interval. cbn [imin iext]. destruct Do as (A & B & _ & C).
  rewrite k_resolve_known by (apply known_one). cbn [bind].
  assert (D : Forall is_dim [mkD (dmin od) (dext od) 1]) by (constructor; [|constructor]; unfold is_dim; cbn [dmin dext dstr]; unfold is_index in *; lia).
  assert (Rc : reach [mkD (dmin od) (dext od) 1] < index_max).
  { unfold reach, index_max. cbn [map fold_right dext dstr]. change (Z.abs 1) with 1. unfold is_index in *. lia. }
  rewrite k_flat_extent_ok by auto. cbn [bind]. rewrite k_flat_min_ok by (auto; lia). cbn [bind]. reflexivity.
Qed.
Lemma buffer_fits_in : tame [mkD (dmin id) (dext id) 1].
Proof. destruct Si as [X _]. apply (part_tame id); auto; lia. Qed.
Lemma buffer_roomy buffer : a_shape buffer = [mkD (dmin id) (dext id) 1] -> roomy (r_shape (aref_of buffer)).
Proof. intros Sh. cbn [aref_of r_shape]. rewrite Sh. pose proof Si as [X _]. apply (one_roomy id); auto; lia. Qed.
Lemma buffer_bounds buffer rx : a_shape buffer = [mkD (dmin id) (dext id) 1] -> in_dim id rx -> in_bounds (r_shape (aref_of buffer)) [rx].
Proof. intros Sh Hx. cbn [aref_of r_shape]. rewrite Sh. constructor; [exact Hx|constructor]. Qed.

Definition in_side (v : window (F := F)) : Prop := in_dim id (wi_min v) /\ in_dim id (wi_max v).
Lemma sample_same buffer k v rx : a_shape buffer = [mkD (dmin id) (dext id) 1] -> in_dim id rx -> in_side v ->
  agrees in_side (k_sample_kernel fl buffer k v rx) (sample_kernel fl buffer k v rx).
Proof.
  intros Sh Hx [Mn Mx]. unfold k_sample_kernel, sample_kernel.
  rewrite k_ptr_at by auto using buffer_roomy, buffer_bounds. cbn [bind]. step_same. apply agrees_ret. unfold in_side, in_dim, cmin, cmax in *.
  destruct (f_ne fl (k rx) (f0 fl)); cbn [wi_min wi_max]; auto. destruct (Z.ltb_spec rx (wi_min v)), (Z.ltb_spec (wi_max v) rx); lia.
Qed.

Lemma okay_one a m e : a_shape a = [mkD m e 1] -> tame [mkD m e 1] -> okay a.
Proof. intros E T. apply fine_settled; rewrite E; [auto|apply settled_one]. Qed.
Lemma forall_set (P : arr -> Prop) (l : list arr) k a : Forall P l -> P a -> Forall P (set_nth l k a).
Proof. intros H Pa. revert k. induction H; intros [|k]; cbn [set_nth]; constructor; auto. Qed.

Notation scale := (f_min fl (to_float fl rate) (f1 fl)).
Notation usable x := (usable_weights fl (w x) (dmin id) (dext id)).
Lemma window_same buffer h q x : a_shape buffer = [mkD (dmin id) (dext id) 1] -> in_dim od x ->
  sample_position rate x = Ok q -> numerator q = Qnum (position (val rate) x) -> denominator q = QDen (position (val rate) x) ->
  nd = false \/ (usable x /\ heap_ok h /\ valid bc O h buffer) ->
  let k := fun rx => kernel (f_mul fl (f_sub fl (f_int fl rx) (to_float fl q)) scale) in
  agrees (fun v => in_side v /\ (nd = true -> wi_min v <= wi_max v))
    (for_in (k_for_interval in_) (k_sample_kernel fl buffer k) (mkWi h (imax in_) (imin in_) (f0 fl)))
    (for_in (for_interval in_) (sample_kernel fl buffer k) (mkWi h (imax in_) (imin in_) (f0 fl))).
Proof.
  intros Sh Hx Eq Qn Qd U k. destruct Si as [X SX].
  assert (Ws : agrees in_side
    (for_in (k_for_interval in_) (k_sample_kernel fl buffer k) (mkWi h (imax in_) (imin in_) (f0 fl)))
    (for_in (for_interval in_) (sample_kernel fl buffer k) (mkWi h (imax in_) (imin in_) (f0 fl)))).
  { apply agrees_for; [apply k_for_interval_ok, in_ok| |].
    - unfold in_side, in_dim, imax, d_interval. cbn [wi_min wi_max imin iext]. lia.
    - intros l El v rx Il Hv. apply sample_same; auto. apply (in_for_interval in_ l rx); auto. cbn. lia. }
  destruct Ws as [We Wp]. split; [exact We|]. intros v Ev. split; [auto|]. intros Nd. destruct U as [U|(Us & Hh & Vb)]; [congruence|].
  assert (Nn : 0 <= iext in_) by (cbn; lia).
  destruct (window_spec fl nd name tmp kernel rate in_ name_ne Nn h buffer k x Hh Sh Vb) as (h' & mn & mx & E & Bd & _).
  { intros i. apply (sampled fl kernel rate x q Eq Qn Qd). }
  rewrite E in Ev. injection Ev as <-. cbn [wi_min wi_max]. destruct Us as [Tp _].
  destruct (Bd Tp) as [-> ->]. destruct (window_bounds fl (w x) (dmin id) (dext id) Tp) as (_ & _ & B & _). cbn. lia.
Qed.

Lemma build_kernel_same buffer h ks x : a_shape buffer = [mkD (dmin id) (dext id) 1] -> Forall okay ks -> in_dim od x ->
  nd = false \/ (usable x /\ heap_ok h /\ valid bc O h buffer) ->
  agrees (fun st => Forall okay (snd st))
    (k_build_kernel fl nd name tmp kernel rate scale in_ out buffer (h, ks) x)
    (build_kernel fl nd name tmp kernel rate scale in_ out buffer (h, ks) x).
Proof.
  intros Sh Ok_ Hx U. unfold k_build_kernel, build_kernel.
  destruct (sample_position_spec rate (dmin od) (dext od) x R Hx) as (q & Eq & Qn & Qd).
  rewrite (sample_position_same rate (dmin od) (dext od)) by auto. rewrite Eq. cbn [bind].
  rewrite k_imax_ok by apply in_ok. cbn [bind].
  step_with (fun v : window (F := F) => in_side v /\ (nd = true -> wi_min v <= wi_max v)); [apply (window_same buffer h q x); auto|].
  intros v [[Mn Mx] Le]. unfold in_dim in Mn, Mx. destruct Di as (D1 & D2 & _ & D4). unfold is_index in *.
  rewrite chk_ok by (unfold is_index; lia). cbn [bind]. rewrite chk_ok by (unfold is_index; lia). cbn [bind].
  set (m := wi_min v) in *. set (e := wi_max v - m + 1).
  step_with (fun _ : unit => 1 <= e).
  { split; [reflexivity|]. intros u. unfold assert_. destruct nd; cbn [orb].
    - intros _. specialize (Le eq_refl). unfold e. lia.
    - destruct (Z.ltb_spec 0 e); [intros _; lia|discriminate]. }
  intros _ He. step_same.
  assert (T : tame [mkD m e 1]) by (apply (part_tame id); auto; unfold is_index; unfold e; lia).
  eapply agrees_bind; [apply (k_ctor_shape_ok kc True); exact T|]. intros [h1 kx] (Fk & Ek & Sk). cbn [snd] in *.
  rewrite resolve_dense in Ek. rewrite Ek. cbn [nth].
  assert (Rk : roomy [mkD m e 1]) by (apply tame_roomy; [auto|apply known_one]).
  step_with (fun _ : heap F => True).
  { apply agrees_eq. apply (for_dim_same (mkD m e 1) [mkD m e 1]); [auto|cbn; auto|]. intros g rx Hr.
    unfold in_dim in Hr. cbn [dmin dext] in Hr.
    rewrite k_at_same by (auto using buffer_roomy; apply buffer_bounds; auto; unfold in_dim; unfold e in *; lia).
    destruct (ref_at g (aref_of buffer) [rx]); cbn [bind]; auto. rewrite k_ptr_at; [reflexivity|cbn [aref_of r_shape]; rewrite Ek; auto|].
    cbn [aref_of r_shape]. rewrite Ek. constructor; [exact Hr|constructor]. }
  intros h2 _. rewrite kernel_at_fits by auto. cbn [bind]. cbn [d_interval imin].
  destruct (nth_error ks (Z.to_nat (x - dmin od))) as [a0|] eqn:En; [|split; [auto|discriminate]].
  assert (Fa : okay a0) by (rewrite Forall_forall in Ok_; apply Ok_; eapply nth_error_In; eauto).
  eapply agrees_bind; [apply (k_move_assign_op_ok kc T0 True H0); auto|]. intros [[h3 a'] kx'] [Fa' Fx']. cbn [fst snd] in *.
  eapply agrees_bind; [apply (k_deallocate_ok kc T0 True H0); exact Fx'|]. intros [h4 ?] _. apply agrees_ret. cbn [snd]. apply forall_set; auto.
Qed.

Lemma default_kernels_same N h : agrees (fun st => Forall okay (snd st)) (k_default_kernels fl nd name N h) (default_kernels fl nd name N h).
Proof.
  unfold k_default_kernels, default_kernels. apply agrees_foldM; [|constructor]. intros [g ks] k _ P. cbn [fst snd] in *.
  eapply agrees_bind; [apply (k_ctor_shape_ok kc True); exact tame_zero|]. intros [h1 a] (Fk & _). cbn [snd] in *.
  apply agrees_ret. cbn [snd]. apply Forall_app. auto.
Qed.

Hypothesis (Us : nd = false \/ forall x, in_dim od x -> usable x).
Lemma build_kernels_same h : heap_ok h ->
  agrees (fun st => Forall okay (snd st))
    (k_build_kernels fl nd name tmp kernel rate in_ out h) (build_kernels fl nd name tmp kernel rate in_ out h).
Proof.
  intros Hh. unfold k_build_kernels, build_kernels. rewrite kernel_array_fits. cbn [bind].
  assert (Nn : 0 <= iext in_) by (cbn; apply Di). assert (No : 0 <= iext out) by (cbn; apply Do).
  destruct (build_start fl nd name tmp in_ out name_ne Nn h Hh) as (h1 & ks & h2 & buffer & E1 & E2 & B & Len & L).
  destruct (default_kernels_same (Z.to_nat (iext out)) h) as [K1 P1]. rewrite K1, E1. specialize (P1 _ E1). cbn [bind snd] in *.
  assert (Tb : tame (c_shape0 bc)) by exact tame_zero. assert (Hb : True -> settled (c_shape0 bc)) by (intros _; apply settled_one).
  destruct (k_ctor_shape_ok bc True O h1 0 [mkD (imin in_) (iext in_) 1] buffer_fits_in) as [K2 P2]. rewrite K2, E2. specialize (P2 _ E2).
  cbn [bind snd] in *. destruct P2 as (Fb & Sh & _). rewrite resolve_dense in Sh.
  step_with (fun st : heap F * list arr => Forall okay (snd st) /\ (nd = true -> building fl nd name in_ out (fst st) buffer (snd st))).
  - apply agrees_for; [apply k_for_interval_ok, out_ok|cbn; auto|]. intros l El [g gs] x Ix [Pg Bg]. cbn [fst snd] in *.
    assert (Hx : in_dim od x) by (apply (in_for_interval out l x); auto).
    assert (G : agrees (fun st => Forall okay (snd st)) (k_build_kernel fl nd name tmp kernel rate scale in_ out buffer (g, gs) x)
      (build_kernel fl nd name tmp kernel rate scale in_ out buffer (g, gs) x)).
    { apply build_kernel_same; auto. destruct nd; [right|auto]. destruct Us as [Us'|Us']; [discriminate|].
      destruct (Bg eq_refl) as (G1 & _ & G2 & _). auto. }
    destruct G as [G1 G2]. split; [exact G1|]. intros st Est. split; [auto|]. intros Nd. specialize (Bg Nd).
    destruct Us as [Us'|Us']; [congruence|]. destruct Bg as (Hg & Shg & Vg & Fg & Ag & Lg).
    destruct (build_kernel_ok fl nd name tmp kernel rate in_ out name_ne Nn g gs x buffer Hg Shg Vg Fg Ag Hx Lg R (Us' x Hx)) as (h' & a' & E & L' & V' & F' & A' & _).
    rewrite E in Est. injection Est as <-. cbn [fst snd].
    split; [apply L'|]. split; [auto|]. split; [auto|]. split; [auto|]. split; [auto|]. rewrite set_nth_length. auto.
  - intros [h3 ks'] [P3 _]. cbn [fst snd] in *.
    eapply agrees_bind; [apply (k_deallocate_ok bc Tb True Hb); exact Fb|]. intros [h4 ?] _. apply agrees_ret. exact P3.
Qed.
Lemma free_kernels_same ks h : Forall okay ks -> k_free_kernels fl nd name out ks h = free_kernels fl nd name ks h.
Proof.
  intros P. unfold k_free_kernels, free_kernels. change (k_optimize_shape [kernels_dim out]) with (Ok (optimize_shape [kernels_dim out])).
  cbn [bind]. apply foldM_ext. intros g [k a] Hk. apply in_combine_r in Hk. rewrite Forall_forall in P.
  apply (agrees_same (fun _ => True)). eapply agrees_bind; [apply (k_deallocate_ok kc T0 True H0); auto|]. intros [h4 ?] _. apply agrees_refl.
Qed.
End Kernels.

(** ** Images *)
Lemma loops_fit_row a b c : loops_fit [a; b; c] -> loops_fit [a; c].
Proof.
  intros (A & B & C & D). inversion_clear A as [|? ? A1 A']. inversion_clear A' as [|? ? A2 A]. inversion_clear B as [|? ? B1 B']. inversion_clear B' as [|? ? B2 B].
  split; [constructor; auto|]. split; [constructor; auto|]. rewrite !box_size_cons, !far_cons in *. change (box_size []) with 1 in *. change (far []) with 0 in *.
  set (X := Z.max 1 (dext a)) in *. set (Y := Z.max 1 (dext b)) in *. set (W := Z.max 1 (dext c)) in *.
  assert (1 <= X) by (unfold X; lia). assert (1 <= Y) by (unfold Y; lia). assert (1 <= W) by (unfold W; lia). clearbody X Y W.
  assert (Q : X * (W * 1) <= X * (Y * (W * 1))).
  { apply Z.mul_le_mono_nonneg_l; [lia|]. assert (1 * (W * 1) <= Y * (W * 1)) by (apply Z.mul_le_mono_nonneg_r; lia). lia. }
  split; [lia|]. eapply Z.le_trans; [|exact D]. apply Z.mul_le_mono_nonneg; lia.
Qed.
Definition shaped (id od : dim) (ks : list arr) : Prop :=
  forall y, in_dim od y -> exists a m e, nth_error ks (Z.to_nat (y - dmin od)) = Some a /\ a_shape a = [mkD m e 1] /\
    1 <= e /\ dmin id <= m /\ m + e <= dmin id + dext id.

Section Images.
Context {F : Type} (fl : floats F) (nd : bool).
Implicit Types h : heap F.

Lemma resample_y_same I O ks ix iy ic ox oy oc od h : r_shape I = [ix; iy; ic] -> r_shape O = [ox; oy; oc] ->
  roomy [ix; iy; ic] -> roomy [ox; oy; oc] -> loops_fit [ox; oy; oc] ->
  1 <= dext ox -> 1 <= dext oc -> dmin ix = dmin ox -> dext ix = dext ox ->
  dmin ic <= dmin oc -> dmin oc + dext oc <= dmin ic + dext ic -> dstr oc <> 0 ->
  side_fits iy -> is_dim od -> (forall y, in_dim oy y -> in_dim od y) -> shaped iy od ks ->
  k_resample_y fl nd I O ks (d_interval od) h = resample_y fl nd I O ks (dmin od) h.
Proof.
  intros SI SO RI RO LO X1 X3 Ex1 Ex2 C1 C2 Nz Sy Dd Ho Hk. unfold k_resample_y, resample_y, dim_of. rewrite SO. cbn [nth].
  apply (for_dim_same oy [ox; oy; oc]); [auto|cbn; auto|]. intros g y Hy. pose proof (Ho y Hy) as Hd.
  rewrite kernel_at_fits by auto. cbn [bind d_interval imin].
  destruct (Hk y Hd) as (a & m & e & Ea & Sa & He & Lm & Um). rewrite Ea. destruct (y <? dmin od) eqn:Q; [reflexivity|]. clear Q.
  assert (RO' : roomy (r_shape O)) by (rewrite SO; auto). assert (RI' : roomy (r_shape I)) by (rewrite SI; auto).
  destruct (k_slice_same O [AAll; AIdx y; AAll] RO') as [K1 R1].
  { rewrite SO. repeat (constructor; [cbn; auto|]). constructor. }
  rewrite K1. cbn [bind]. pose proof (row_shape O y ox oy oc SO) as SR. set (R := ref_slice O [AAll; AIdx y; AAll]) in *.
  unfold k_fill. rewrite k_values_ok by (rewrite SR; eapply loops_fit_row; eauto). unfold fill. 
  rewrite Sa. cbn [nth]. set (kd := mkD m e 1).
  destruct (k_slice_same I [AAll; ADim kd; AAll] RI') as [K2 R2].
  { rewrite SI. constructor; [cbn; auto|]. constructor; [cbn; unfold part; cbn; lia|]. constructor; [cbn; auto|]. constructor. }
  rewrite K2. pose proof (crop_shape I kd ix iy ic SI) as SJ. set (J := ref_slice I [AAll; ADim kd; AAll]) in *.
  match goal with |- bind ?x _ = bind ?x _ => destruct x as [h1| |]; cbn [bind]; auto end.
  assert (SK : r_shape (aref_of a) = [kd]) by exact Sa. set (K := aref_of a) in *. clearbody K.
  assert (Rk : roomy [kd]).
  { destruct (roomy_in iy [ix; iy; ic] RI) as (_ & _ & Y); [cbn; auto|]. unfold kd. apply (one_roomy iy); auto.
    - destruct RI as (D & _). rewrite Forall_forall in D. apply D. cbn. auto.
    - apply Y. }
  assert (Xk : 1 <= dext kd) by exact He. clearbody kd.
  set (Bn := fun l : nat => if (l =? 0)%nat then (dmin ox, dext ox) else if (l =? 1)%nat then (dmin kd, dext kd) else
            if (l =? 2)%nat then (dmin oc, dext oc) else (0, 1)).
  set (E := EBin (f_mul fl) (EArr J [0; 1; 2]%nat) (EArr K [1]%nat)).
  destruct (loops_exist ([0; 2]%nat ++ labels E)) as [n L].
  apply (k_ein_reduce_ok nd (f_add fl) h1 R [0; 2]%nat E Bn n); auto.
  - ranks_.
  - split; [|split; [|split]].
    + intro l. unfold Bn. labels_.
    + intros l d Ad. unfold Bn, span_is. ops_; labels_; auto.
    + intros l d Ad. unfold E in Ad. cbn [operands app] in Ad.
      assert (Q : (l = 0%nat /\ d = ix) \/ (l = 1%nat /\ (d = mkD (dmin kd) (dext kd) (dstr iy) \/ d = kd)) \/ (l = 2%nat /\ d = ic)) by (ops_; auto).
      assert (Rn : forall l' D, addressed [(R, [0; 2]%nat)] l' D -> (l' = 0%nat /\ D = ox) \/ (l' = 2%nat /\ D = oc)) by (intros l' D Ad'; ops_; auto).
      assert (Cj : addressed [(R, [0; 2]%nat)] 2%nat oc) by (exists R, [0; 2]%nat; rewrite SR; cbn; auto).
      unfold span_is, span_within. destruct Q as [[-> ->]|[[-> Q]|[-> ->]]]; cbn [Bn Nat.eqb fst snd].
      * left. auto.
      * left. destruct Q as [-> | ->]; auto.
      * right. split; [lia|]. split; [eauto|]. intros D HD. destruct (Rn _ _ HD) as [[? _]|[_ ->]]; congruence.
    + intros l N. unfold Bn. labels_; exfalso.
      * apply (N ox). exists R, [0; 2]%nat. rewrite SR. cbn. auto.
      * apply (N kd). exists K, [1]%nat. rewrite SK. cbn. auto 8.
      * apply (N oc). exists R, [0; 2]%nat. rewrite SR. cbn. auto.
  - unfold E. cbn [operands app]. constructor; [exact R1|]. constructor; [exact R2|]. constructor; [|constructor]. cbn [fst]. rewrite SK.
    exact Rk.
Qed.

Lemma transpose_same Sr D sx sy sc dx dy dc h : r_shape Sr = [sx; sy; sc] -> r_shape D = [dx; dy; dc] ->
  roomy [sx; sy; sc] -> roomy [dx; dy; dc] ->
  extents_ge 1 [dx; dy; dc] -> dmin sx = dmin dy -> dext sx = dext dy -> dmin sy = dmin dx -> dext sy = dext dx ->
  dmin sc = dmin dc -> dext sc = dext dc ->
  k_transpose_image nd Sr D h = transpose_image nd Sr D h.
Proof.
  intros SS SD Rs Rd X E1 E2 E3 E4 E5 E6. unfold k_transpose_image, transpose_image.
  inversion_clear X as [|? ? X1 X']. inversion_clear X' as [|? ? X2 X]. inversion_clear X as [|? ? X3 _].
  set (Bn := fun l : nat => if (l =? 0)%nat then (dmin dx, dext dx) else if (l =? 1)%nat then (dmin dy, dext dy) else
            if (l =? 2)%nat then (dmin dc, dext dc) else (0, 1)).
  set (e := EArr Sr [1; 0; 2]%nat : expr F).
  destruct (loops_exist ([0; 1; 2]%nat ++ labels e)) as [n L].
  apply (k_ein_reduce_ok nd (fun _ v => v) h D [0; 1; 2]%nat e Bn n); auto.
  - ranks_.
  - split; [|split; [|split]].
    + intro l. unfold Bn. labels_.
    + intros l d Ad. unfold Bn, span_is. ops_; labels_; auto.
    + intros l d Ad. unfold e in Ad. cbn [operands app] in Ad. left. unfold Bn, span_is. ops_; labels_; auto.
    + intros l N. unfold Bn. labels_; exfalso.
      * apply (N dx). exists D, [0; 1; 2]%nat. rewrite SD. cbn. auto.
      * apply (N dy). exists D, [0; 1; 2]%nat. rewrite SD. cbn. auto.
      * apply (N dc). exists D, [0; 1; 2]%nat. rewrite SD. cbn. auto.
  - unfold e. cbn [operands app]. constructor; [cbn [fst]; rewrite SD; auto|]. constructor; [cbn [fst]; rewrite SS; auto|constructor].
Qed.

Notation imc := (image_config fl nd).
Definition temp_like (x y c : dim) (a : arr) : Prop :=
  fine True a /\ exists s1 s2, let s := [mkD (dmin x) (dext x) 1; mkD (dmin y) (dext y) s1; mkD (dmin c) (dext c) s2] in
    a_shape a = s /\ 1 <= s1 /\ 1 <= s2 /\ roomy s /\ loops_fit s.
Definition ends (d : dim) : Prop := 1 <= dext d /\ is_index (dmin d) /\ is_index (dmin d + dext d).
Lemma temp_same h x y c : ends x -> ends y -> ends c ->
  3 * ((1 + (Z.abs (dmin x) + Z.abs (dmin y) + Z.abs (dmin c))) * (dext x * dext y * dext c)) <= big ->
  agrees (fun p => temp_like x y c (snd p)) (k_make_temp_image fl nd h x y c) (make_temp_image fl nd h x y c).
Proof.
  intros (X1 & X2 & X3) (Y1 & Y2 & Y3) (C1 & C2 & C3) B. unfold k_make_temp_image, make_temp_image.
  assert (T : tame (temp_shape x y c)) by (apply temp_tame; auto).
  assert (Sm : dext x * dext y * dext c < index_max).
  { destruct (box3 (dext x) (dext y) (dext c) X1 Y1 C1) as (Q & _). unfold index_max.
    assert (1 * (dext x * dext y * dext c) <= (1 + (Z.abs (dmin x) + Z.abs (dmin y) + Z.abs (dmin c))) * (dext x * dext y * dext c)) by (apply Z.mul_le_mono_nonneg_r; lia). lia. }
  destruct (temp_resolved (dmin x) (dext x) (dmin y) (dext y) (dmin c) (dext c) X1 Y1 C1 Sm) as (s1 & s2 & E & S1 & S2 & _).
  change (temp_shape (mkD (dmin x) (dext x) 0) (mkD (dmin y) (dext y) 0) (mkD (dmin c) (dext c) 0)) with (temp_shape x y c) in E.
  destruct (tame_resolve _ T) as (T' & K & _). rewrite E in T', K.
  eapply agrees_weaken; [apply (k_ctor_shape_ok imc True); exact T|]. intros [h1 a] (Fa & Ea & Sa). cbn [snd] in *. split; [exact Fa|].
  exists s1, s2. cbn zeta. rewrite E in Ea. split; [exact Ea|]. split; [auto|]. split; [auto|]. split; [apply tame_roomy; auto|].
  apply tame_loops; [auto|apply settled_known, K].
Qed.
Lemma tame_image : tame (c_shape0 imc).
Proof.
  change (c_shape0 imc) with [mkD 0 0 1; mkD 0 0 unresolved; mkD 0 0 unresolved].
  split; [repeat apply Forall_cons; try apply Forall_nil; unfold is_dim, is_index; cbn [dmin dext dstr]; change unresolved with (-9223372036854775808); lia|].
  split; [unfold ends_fit; repeat apply Forall_cons; try apply Forall_nil; unfold is_index; cbn [dmin dext]; lia|].
  split; [vm_compute; discriminate|]. split; [vm_compute; discriminate|vm_compute; reflexivity].
Qed.
Lemma settled_image : True -> settled (c_shape0 imc).
Proof.
  intros _. change (c_shape0 imc) with [mkD 0 0 1; mkD 0 0 unresolved; mkD 0 0 unresolved]. unfold settled.
  repeat apply Forall_cons; try apply Forall_nil; intros; reflexivity.
Qed.

Lemma bound_strip ix oy oc yo : strip_fits ix oy oc -> Z.abs (dmin yo) <= farthest oy -> dext yo = 64 -> 1 <= dext ix -> 1 <= dext oc ->
  3 * ((1 + (Z.abs (dmin ix) + Z.abs (dmin yo) + Z.abs (dmin oc))) * (dext ix * dext yo * dext oc)) <= big /\
  3 * ((1 + (Z.abs (dmin yo) + Z.abs (dmin ix) + Z.abs (dmin oc))) * (dext yo * dext ix * dext oc)) <= big.
Proof.
  intros B A Ey X C. unfold strip_fits in B. rewrite Ey.
  replace (dext ix * 64 * dext oc) with (64 * dext ix * dext oc) by ring.
  assert (0 <= 64 * dext ix * dext oc) by (apply Z.mul_nonneg_nonneg; lia).
  assert ((1 + (Z.abs (dmin ix) + Z.abs (dmin yo) + Z.abs (dmin oc))) * (64 * dext ix * dext oc) <=
    (1 + Z.abs (dmin ix) + farthest oy + Z.abs (dmin oc)) * (64 * dext ix * dext oc)) by (apply Z.mul_le_mono_nonneg_r; lia).
  assert ((1 + (Z.abs (dmin yo) + Z.abs (dmin ix) + Z.abs (dmin oc))) * (64 * dext ix * dext oc) <=
    (1 + Z.abs (dmin ix) + farthest oy + Z.abs (dmin oc)) * (64 * dext ix * dext oc)) by (apply Z.mul_le_mono_nonneg_r; lia). lia.
Qed.

Lemma strip_same I O kx ky ix iy ic ox oy oc yo h : r_shape I = [ix; iy; ic] -> r_shape O = [ox; oy; oc] -> sizes_fit ix iy ic ox oy oc ->
  dmin ic <= dmin oc -> dmin oc + dext oc <= dmin ic + dext ic ->
  iext yo = 64 -> (forall y, in_interval yo y -> in_dim oy y) -> shaped ix ox kx -> shaped iy oy ky ->
  k_resample_strip fl nd I O kx ky h yo = resample_strip fl nd I O kx ky h yo.
Proof.
  intros SI SO Sf C1 C2 Ey Hy Kx Ky. destruct Sf as [RI RO (X1 & X2 & X3) Sx Sy _ B1 B2].
  unfold k_resample_strip, resample_strip.
  assert (Ly : in_dim oy (imin yo)) by (apply Hy; unfold in_interval; lia).
  assert (Uy : in_dim oy (imin yo + 63)) by (apply Hy; unfold in_interval; lia). unfold in_dim in Ly, Uy.
  set (R := ref_slice O [ADim (dim_of O 0); AInt yo; ADim (dim_of O 2)]).
  assert (ER : R = ref_slice O [ADim ox; AInt yo; ADim oc]) by (unfold R, dim_of; rewrite SO; reflexivity).
  set (yd := mkD (imin yo) (iext yo) (dstr oy)).
  assert (SR : r_shape R = [ox; yd; oc]) by (rewrite ER; unfold ref_slice, make_array_ref_at; cbn [r_shape]; rewrite SO; destruct ox, oc; reflexivity).
  destruct (k_slice_same O [ADim (dim_of O 0); AInt yo; ADim (dim_of O 2)]) as [K1 R1]; [rewrite SO; auto| |].
  { unfold dim_of. rewrite SO. constructor; [left; auto|]. constructor; [right; lia|]. constructor; [left; auto|]. constructor. }
  rewrite K1. cbn [bind]. fold R. fold R in R1. rewrite SR in R1.
  replace (dim_of R 0) with ox by (unfold dim_of; rewrite SR; reflexivity).
  replace (dim_of R 1) with yd by (unfold dim_of; rewrite SR; reflexivity).
  replace (dim_of R 2) with oc by (unfold dim_of; rewrite SR; reflexivity).
  replace (dim_of I 0) with ix by (unfold dim_of; rewrite SI; reflexivity).
  replace (dim_of O 0) with ox by (unfold dim_of; rewrite SO; reflexivity).
  replace (dim_of O 1) with oy by (unfold dim_of; rewrite SO; reflexivity).
  assert (Ed : forall d s, roomy s -> In d s -> is_dim d /\ is_index (dmin d) /\ is_index (dmin d + dext d)).
  { intros d s (D & En & _) Hd. unfold ends_fit in En. rewrite Forall_forall in D, En. specialize (D d Hd). specialize (En d Hd). split; [auto|]. destruct D. split; auto. apply En. }
  destruct (Ed ix _ RI) as (Dix & Eix); [cbn; auto|]. destruct (Ed iy _ RI) as (Diy & Eiy); [cbn; auto|].
  destruct (Ed ox _ RO) as (Dox & Eox); [cbn; auto|]. destruct (Ed oy _ RO) as (Doy & Eoy); [cbn; auto|].
  destruct (Ed oc _ RO) as (Doc & Eoc); [cbn; auto|]. destruct (Ed yd _ R1) as (Dyd & Eyd); [cbn; auto|].
  assert (Nx : ends ix) by (split; [apply Sx|auto]). assert (No : ends ox) by (split; auto).
  assert (Nc : ends oc) by (split; auto). assert (Ny : ends yd) by (split; [cbn; lia|auto]).
  assert (Fy : Z.abs (dmin yd) <= farthest oy) by (cbn [yd dmin]; unfold farthest; lia).
  destruct (bound_strip ix oy oc yd B1 Fy Ey) as [Q1 Q2]; [apply Sx|auto|].
  destruct (bound_strip ox oy oc yd B2 Fy Ey) as [_ Q3]; [auto|auto|].
  apply (agrees_same (fun _ => True)).
  step_with (fun p : heap F * arr => temp_like ix yd oc (snd p)); [apply temp_same; auto|]. intros [h1 a1] (F1 & s1 & s1' & S1 & P1 & P1' & R1s & L1). cbn [snd] in *.
  rewrite (resample_y_same I (aref_of a1) ky ix iy ic _ _ _ oy h1 SI S1 RI R1s L1) by (cbn [dmin dext dstr]; auto; try lia; apply Sx).
  step_same.
  step_with (fun p : heap F * arr => temp_like yd ix oc (snd p)); [apply temp_same; auto|]. intros [h3 a3] (F3 & s3 & s3' & S3 & P3 & P3' & R3 & L3). cbn [snd] in *.
  rewrite (transpose_same (aref_of a1) (aref_of a3) _ _ _ _ _ _ h3 S1 S3) by (cbn [dmin dext dstr]; auto; repeat constructor; cbn; try lia; apply Sx).
  step_same.
  step_with (fun p : heap F * arr => temp_like yd ox oc (snd p)); [apply temp_same; auto|]. intros [h5 a5] (F5 & s5 & s5' & S5 & P5 & P5' & R5 & L5). cbn [snd] in *.
  rewrite (resample_y_same (aref_of a3) (aref_of a5) kx _ _ _ _ _ _ ox h5 S3 S5 R3 R5 L5) by (cbn [dmin dext dstr yd]; auto; try lia; try apply Sx).
  step_same.
  rewrite (transpose_same (aref_of a5) R _ _ _ _ _ _ _ S5 SR) by (cbn [dmin dext dstr]; auto; repeat constructor; cbn; lia).
  step_same.
  eapply agrees_bind; [apply (k_deallocate_ok imc tame_image True settled_image); exact F5|]. intros [h8 ?] _.
  eapply agrees_bind; [apply (k_deallocate_ok imc tame_image True settled_image); exact F3|]. intros [h9 ?] _.
  eapply agrees_bind; [apply (k_deallocate_ok imc tame_image True settled_image); exact F1|]. intros [h10 ?] _.
  apply agrees_refl.
Qed.
End Images.

(** ** The whole *)
Lemma side_ok d s : roomy s -> In d s -> is_dim d /\ is_index (dmin d + dext d) /\ is_index (dmin d + dext d - 1).
Proof.
  intros (D & En & _) Hd. unfold ends_fit in En. rewrite Forall_forall in D, En. specialize (D d Hd). specialize (En d Hd). tauto.
Qed.
Section Whole.
Context {F : Type} (fl : floats F) (nd : bool).
Implicit Types h : heap F.

Lemma kernels_shaped name kernel rate id od h ks : (forall x, in_dim od x -> usable_weights fl (weight fl kernel rate x) (dmin id) (dext id)) ->
  kernels_ok fl nd name kernel rate (d_interval id) (d_interval od) h ks -> shaped id od ks.
Proof.
  intros Us (_ & _ & K) y Hy. destruct (K y Hy) as (a & Ea & Sa & _). destruct (Us y Hy) as [Tp _].
  destruct (window_bounds fl _ _ _ Tp) as (_ & _ & B1 & B2). exists a. do 2 eexists. split; [exact Ea|]. split; [exact Sa|]. cbn [d_interval imin iext]. lia.
Qed.

Lemma resample_same h I O f rx ry kernel ix iy ic ox oy oc :
  resampling fl h I O f rx ry kernel ix iy ic ox oy oc -> sizes_fit ix iy ic ox oy oc ->
  k_resample fl nd I O rx ry kernel h = resample fl nd I O rx ry kernel h.
Proof.
  intros [SI SO _ [C1 C2] [Rx Ry] Ux Uy Rows _ _ _ _ _ Hh] Sf. pose proof Sf as [RI RO _ Sx Sy Sr _ _].
  destruct (side_ok ix _ RI) as (Dix & Eix & _); [cbn; auto|]. destruct (side_ok iy _ RI) as (Diy & Eiy & _); [cbn; auto|].
  destruct (side_ok ox _ RO) as (Dox & Eox & Eox1); [cbn; auto|]. destruct (side_ok oy _ RO) as (Doy & Eoy & Eoy1); [cbn; auto|].
  unfold k_resample, resample.
  replace (dim_of I 0) with ix by (unfold dim_of; rewrite SI; reflexivity).
  replace (dim_of I 1) with iy by (unfold dim_of; rewrite SI; reflexivity).
  replace (dim_of O 0) with ox by (unfold dim_of; rewrite SO; reflexivity).
  replace (dim_of O 1) with oy by (unfold dim_of; rewrite SO; reflexivity).
  assert (Nx : forall k, name_x k <> 1%nat) by (intro; unfold name_x; lia). assert (Ny : forall k, name_y k <> 1%nat) by (intro; unfold name_y; lia).
  destruct (build_kernels_same fl nd name_x 1 kernel rx ix ox Nx Dix Eix Sx Dox Eox Eox1 Rx (or_intror Ux) h Hh) as [K1 P1].
  destruct (build_kernels_ok fl nd name_x 1 kernel rx (d_interval ix) (d_interval ox) Nx (proj2 (proj2 (proj2 Dix))) Rx (proj2 (proj2 (proj2 Dox))) h Hh Ux)
    as (h1 & kx & E1 & Kx & L1). rewrite K1, E1. specialize (P1 _ E1). cbn [bind snd] in *. assert (Hh1 : heap_ok h1) by apply L1.
  destruct (build_kernels_same fl nd name_y 1 kernel ry iy oy Ny Diy Eiy Sy Doy Eoy Eoy1 Ry (or_intror Uy) h1 Hh1) as [K2 P2].
  destruct (build_kernels_ok fl nd name_y 1 kernel ry (d_interval iy) (d_interval oy) Ny (proj2 (proj2 (proj2 Diy))) Ry (proj2 (proj2 (proj2 Doy))) h1 Hh1 Uy)
    as (h2 & ky & E2 & Ky & L2). rewrite K2, E2. specialize (P2 _ E2). cbn [bind snd] in *.
  apply (kernels_shaped name_x kernel rx ix ox h1 kx Ux) in Kx. apply (kernels_shaped name_y kernel ry iy oy h2 ky Uy) in Ky.
  assert (Iy : is_interval (d_interval oy)) by (unfold is_interval; cbn; destruct Doy as (? & ? & ? & ?); auto).
  destruct (k_static_tiles nd 64 (d_interval oy) Iy) as (r & l & Ek & Er & Ekl & El & _ & Fl & _); [cbn; lia|cbn; lia|].
  rewrite Ek, Er. cbn [bind]. rewrite Ekl, El. unfold for_in. cbn [bind].
  replace (foldM (k_resample_strip fl nd I O kx ky) l h2) with (foldM (resample_strip fl nd I O kx ky) l h2).
  2:{ apply foldM_ext. intros g v Hv. rewrite Forall_forall in Fl. destruct (Fl v Hv) as [Ev Sv]. symmetry.
      apply (strip_same fl nd I O kx ky ix iy ic ox oy oc); auto. }
  destruct (foldM (resample_strip fl nd I O kx ky) l h2) as [h3| |]; cbn [bind]; auto.
  rewrite free_kernels_same by auto. destruct (free_kernels fl nd name_y ky h3) as [h4| |]; cbn [bind]; auto.
  apply free_kernels_same. auto.
Qed.
Lemma k_resample_ok h I O f rx ry kernel ix iy ic ox oy oc :
  resampling fl h I O f rx ry kernel ix iy ic ox oy oc -> sizes_fit ix iy ic ox oy oc ->
  makes_image h (k_resample fl nd I O rx ry kernel h) O (pixel fl f rx ry kernel ix iy).
Proof. intros Rs Sf. rewrite (resample_same _ _ _ _ _ _ _ _ _ _ _ _ _ Rs Sf). eapply resample_ok; eauto. Qed.

Lemma k_resample_rejects h I O rx ry kernel ix iy ic ox oy oc :
  r_shape I = [ix; iy; ic] -> r_shape O = [ox; oy; oc] -> roomy [ix; iy; ic] -> roomy [ox; oy; oc] -> side_fits ix -> side_fits iy ->
  rate_ok rx (dmin ox) (dext ox) -> rate_ok ry (dmin oy) (dext oy) -> heap_ok h -> f_lt fl (f0 fl) (f0 fl) = false -> nd = false ->
  dext oy < 64 \/ (exists x, in_dim ox x /\ ~ usable_weights fl (weight fl kernel rx x) (dmin ix) (dext ix)) \/
    (exists y, in_dim oy y /\ ~ usable_weights fl (weight fl kernel ry y) (dmin iy) (dext iy)) ->
  k_resample fl nd I O rx ry kernel h = AssertFail.
Proof.
  intros SI SO RI RO Sx Sy Rx Ry Hh Z0 Nd Bad.
  destruct (side_ok ix _ RI) as (Dix & Eix & _); [cbn; auto|]. destruct (side_ok iy _ RI) as (Diy & Eiy & _); [cbn; auto|].
  destruct (side_ok ox _ RO) as (Dox & Eox & Eox1); [cbn; auto|]. destruct (side_ok oy _ RO) as (Doy & Eoy & Eoy1); [cbn; auto|].
  assert (Xix : 0 <= dext ix) by apply Dix. assert (Xiy : 0 <= dext iy) by apply Diy.
  assert (Xox : 0 <= dext ox) by apply Dox. assert (Xoy : 0 <= dext oy) by apply Doy.
  assert (Nx : forall k, name_x k <> 1%nat) by (intro; unfold name_x; lia). assert (Ny : forall k, name_y k <> 1%nat) by (intro; unfold name_y; lia).
  pose proof (fun g Hg => agrees_same _ _ _ (build_kernels_same fl nd name_x 1 kernel rx ix ox Nx Dix Eix Sx Dox Eox Eox1 Rx (or_introl Nd) g Hg)) as K1.
  pose proof (fun g Hg => agrees_same _ _ _ (build_kernels_same fl nd name_y 1 kernel ry iy oy Ny Diy Eiy Sy Doy Eoy Eoy1 Ry (or_introl Nd) g Hg)) as K2.
  unfold k_resample.
  replace (dim_of I 0) with ix by (unfold dim_of; rewrite SI; reflexivity).
  replace (dim_of I 1) with iy by (unfold dim_of; rewrite SI; reflexivity).
  replace (dim_of O 0) with ox by (unfold dim_of; rewrite SO; reflexivity).
  replace (dim_of O 1) with oy by (unfold dim_of; rewrite SO; reflexivity).
  rewrite K1 by auto.
  destruct (usable_all fl kernel rx (dmin ix) (dext ix) (range (dmin ox) (dext ox))) as [Ux|(x & Hx & Ux)].
  2: { rewrite (build_kernels_fails fl nd name_x 1 kernel rx (d_interval ix) (d_interval ox)); auto. exists x. split; [|exact Ux]. apply in_dim_range in Hx. exact Hx. }
  destruct (build_kernels_ok fl nd name_x 1 kernel rx (d_interval ix) (d_interval ox)) with (h := h) as (h1 & kx & E1 & _ & L1); auto.
  { intros x Hx. apply Ux. apply in_dim_range. exact Hx. }
  rewrite E1. cbn [bind]. assert (Hh1 : heap_ok h1) by apply L1. rewrite K2 by auto.
  destruct (usable_all fl kernel ry (dmin iy) (dext iy) (range (dmin oy) (dext oy))) as [Uy|(y & Hy & Uy)].
  2: { rewrite (build_kernels_fails fl nd name_y 1 kernel ry (d_interval iy) (d_interval oy)); auto. exists y. split; [|exact Uy]. apply in_dim_range in Hy. exact Hy. }
  destruct (build_kernels_ok fl nd name_y 1 kernel ry (d_interval iy) (d_interval oy)) with (h := h1) as (h2 & ky & E2 & _ & L2); auto.
  { intros y Hy. apply Uy. apply in_dim_range. exact Hy. }
  rewrite E2. cbn [bind]. destruct Bad as [B|[(x & Hx & N)|(y & Hy & N)]].
  - unfold k_split_static, assert_. rewrite Nd. cbn [iext d_interval]. destruct (dext oy >=? 64) eqn:E; [lia|]. reflexivity.
  - destruct N. apply Ux, in_dim_range, Hx.
  - destruct N. apply Uy, in_dim_range, Hy.
Qed.
Lemma k_build_means name tmp kernel rate id od h : (forall k, name k <> tmp) ->
  roomy [id] -> side_fits id -> roomy [od] -> rate_ok rate (dmin od) (dext od) -> heap_ok h ->
  (forall x, in_dim od x -> usable_weights fl (weight fl kernel rate x) (dmin id) (dext id)) ->
  exists h' ks, k_build_kernels fl nd name tmp kernel rate (d_interval id) (d_interval od) h = Ok (h', ks) /\ length ks = Z.to_nat (dext od) /\
    (forall x, in_dim od x -> exists a, nth_error ks (Z.to_nat (x - dmin od)) = Some a /\
      kernel_is fl h' (aref_of a) (weight fl kernel rate x) (dmin id) (dext id)) /\
    (forall k, (k < h_next h)%nat -> h_blk h' k = h_blk h k) /\ heap_ok h'.
Proof.
  intros Nm RI Si RO Rt Hh Us. destruct (side_ok id _ RI) as (Di & Ei & _); [cbn; auto|]. destruct (side_ok od _ RO) as (Do & Eo & Eo1); [cbn; auto|].
  destruct (build_kernels_same fl nd name tmp kernel rate id od Nm Di Ei Si Do Eo Eo1 Rt (or_intror Us) h Hh) as [K _].
  destruct (build_means fl nd name tmp kernel rate (d_interval id) (d_interval od) h Nm (proj2 (proj2 (proj2 Di))) (proj2 (proj2 (proj2 Do))) Rt Hh Us)
    as (h' & ks & E & Len & V & B & Hh'). exists h', ks. split; [congruence|]. split; [exact Len|]. split; [|auto].
  intros x Hx. destruct (V x Hx) as (a & Ea & Ka & _). exists a. auto.
Qed.
End Whole.

(** ** Sizes that fit *)
Lemma modest_dim n d : modest n d -> n <= 2 ^ 24 -> is_dim d /\ is_index (dmin d + dext d) /\ is_index (dmin d + dext d - 1) /\
  ~ unknown_stride d /\ Z.abs (dext d - 1) * Z.abs (dstr d) <= 2 ^ 61 /\ Z.abs (dstr d) * dext d <= 2 ^ 61.
Proof.
  intros (A & B & C) N. change (2 ^ 24) with 16777216 in *. change (2 ^ 37) with 137438953472 in *. change (2 ^ 61) with 2305843009213693952.
  rewrite A. unfold is_dim, is_index, unknown_stride. rewrite A.
  assert (Z.abs (dext d - 1) * Z.abs (dstr d) <= 16777216 * 137438953472) by (apply Z.mul_le_mono_nonneg; lia).
  assert (Z.abs (dstr d) * dext d <= 137438953472 * 16777216) by (apply Z.mul_le_mono_nonneg; lia). lia.
Qed.
Lemma modest_all x y c : modest (2 ^ 24) x -> modest (2 ^ 24) y -> modest 128 c -> roomy [x; y; c] /\ loops_fit [x; y; c].
Proof.
  intros Mx My Mc. destruct (modest_dim _ x Mx) as (X1 & X2 & X3 & X4 & X5 & X6); [lia|]. destruct (modest_dim _ y My) as (Y1 & Y2 & Y3 & Y4 & Y5 & Y6); [lia|].
  destruct (modest_dim _ c Mc) as (C1 & C2 & C3 & C4 & C5 & C6); [lia|].
  assert (C7 : Z.abs (dext c - 1) * Z.abs (dstr c) <= 128 * 137438953472).
  { destruct Mc as (A & B & C). change (2 ^ 37) with 137438953472 in C. apply Z.mul_le_mono_nonneg; lia. }
  change (2 ^ 61) with 2305843009213693952 in *. split.
  - split; [repeat (constructor; auto)|]. split; [repeat (constructor; auto)|]. split; [repeat (constructor; auto)|].
    unfold reach. cbn [map fold_right]. lia.
  - destruct Mx as (A1 & A2 & _), My as (B1 & B2 & _), Mc as (D1 & D2 & _). change (2 ^ 24) with 16777216 in *.
    split; [repeat (constructor; auto)|]. split; [repeat (constructor; [lia|]); constructor|]. unfold box_size, far. cbn [map fold_right].
    rewrite !Z.max_r by lia. rewrite A1, B1, D1.
    assert (dext y * (dext c * 1) <= 16777216 * 128) by (apply Z.mul_le_mono_nonneg; lia).
    assert (0 <= dext y * (dext c * 1)) by (apply Z.mul_nonneg_nonneg; lia).
    assert (dext x * (dext y * (dext c * 1)) <= 16777216 * (16777216 * 128)) by (apply Z.mul_le_mono_nonneg; lia). cbn [Z.abs Z.add]. lia.
Qed.
Lemma modest_side d : modest (2 ^ 24) d -> side_fits d.
Proof.
  intros (A & B & _). change (2 ^ 24) with 16777216 in B. split; [lia|]. unfold farthest. rewrite A.
  replace (Z.max (Z.abs 0) (Z.abs (0 + dext d))) with (dext d) by lia.
  assert (dext d * dext d <= 16777216 * 16777216) by (apply Z.mul_le_mono_nonneg; lia). lia.
Qed.
Lemma modest_strip x y c : modest (2 ^ 24) x -> modest (2 ^ 24) y -> modest 128 c -> strip_fits x y c.
Proof.
  intros (A & B & _) (A' & B' & _) (A2 & B2 & _). change (2 ^ 24) with 16777216 in *. unfold strip_fits, farthest. rewrite A, A', A2.
  replace (Z.max (Z.abs 0) (Z.abs (0 + dext y))) with (dext y) by lia. change (Z.abs 0) with 0.
  assert (dext x * dext c <= 16777216 * 128) by (apply Z.mul_le_mono_nonneg; lia).
  assert (0 <= dext x * dext c) by (apply Z.mul_nonneg_nonneg; lia).
  replace (64 * dext x * dext c) with (64 * (dext x * dext c)) by ring.
  assert ((1 + 0 + dext y + 0) * (64 * (dext x * dext c)) <= 16777217 * (64 * (16777216 * 128))) by (apply Z.mul_le_mono_nonneg; lia). lia.
Qed.
Lemma modest_fits ix iy ic ox oy oc : modest (2 ^ 24) ix -> modest (2 ^ 24) iy -> modest 128 ic ->
  modest (2 ^ 24) ox -> modest (2 ^ 24) oy -> modest 128 oc -> sizes_fit ix iy ic ox oy oc /\ loops_fit [ox; oy; oc].
Proof.
  intros M1 M2 M3 M4 M5 M6. destruct (modest_all ix iy ic M1 M2 M3) as [R1 _]. destruct (modest_all ox oy oc M4 M5 M6) as [R2 L2].
  split; [|exact L2]. constructor; auto using modest_side, modest_strip.
  - destruct M4 as (_ & ? & _), M5 as (_ & ? & _), M6 as (_ & ? & _). lia.
  - destruct M5 as (A & B & _). change (2 ^ 24) with 16777216 in B. lia.
Qed.
