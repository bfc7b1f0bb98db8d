(** Facts about resampling: the loop over strips, the kernels' lifetime, and the whole. *)
From Verif Require Import Tac Interval Shape Traverse Memory Ref Spec SpecMem Container SpecContainer Static SpecStatic Ein SpecEin
  Matrix SpecMatrix Conv Rational SpecRational Resample SpecResample
  ShapeFacts IntervalFacts ContainerFacts MatrixFacts LoopFacts EinUses RationalFacts ResampleFacts ResampleImage ResampleStrip.
Import ListNotations.
Open Scope Z_scope.

Section Whole.
Context {F : Type} (fl : floats F) (nd : bool).
Implicit Types h : heap F.
Notation kc := (kernel_config fl nd).

(** Freeing the kernels frees their memory *)
Lemma free_list name ks : forall k h, heap_ok h -> (forall j a, nth_error ks j = Some a -> valid kc (name (k + j)%nat) h a) ->
  (forall i j a b, i <> j -> nth_error ks i = Some a -> nth_error ks j = Some b -> apart a b) ->
  exists h', foldM (fun h ka => ' (h', _) <- deallocate kc (name (fst ka)) h (snd ka) ;; Ok h') (combine (seq k (length ks)) ks) h = Ok h' /\
    local h (0%nat :: map blk ks) h' [0%nat].
Proof.
  induction ks as [|a ks IH]; intros k h Hh V A.
  - exists h. split; [reflexivity|]. apply local_refl. auto.
  - cbn [length seq combine foldM fst snd map]. pose proof (V 0%nat a eq_refl) as Va. rewrite Nat.add_0_r in Va.
    destruct (deallocate_spec kc (name k) h a (fair_kernel fl nd) Hh Va) as (h1 & a' & E1 & _ & Nm & L1 & _).
    rewrite (no_memory_blk _ Nm) in L1. rewrite E1. cbn [bind].
    destruct (IH (S k) h1) as (h2 & E2 & L2).
    + apply L1.
    + intros j b Eb. replace (S k + j)%nat with (k + S j)%nat by lia.
      apply (frame_local _ _ _ _ _ _ _ _ Hh L1 (V (S j) b Eb)). intros [G|[]]. rewrite <- G. apply (A 0%nat (S j) a b); auto.
    + intros i j b c N Eb Ec. apply (A (S i) (S j)); auto.
    + exists h2. split; [exact E2|]. eapply (local_trans h _ h1 (0%nat :: map blk ks)); [auto| |exact L2].
      eapply local_perm; [| |exact (local_frame _ _ _ _ (0%nat :: map blk ks) L1)]; intro z; repeat (rewrite ?in_app_iff; cbn [In]); tauto.
Qed.
Lemma free_kernels_ok name ks h : heap_ok h -> family fl nd name h ks ->
  exists h', free_kernels fl nd name ks h = Ok h' /\ local h (0%nat :: map blk ks) h' [0%nat].
Proof. intros Hh [V A]. apply (free_list name ks 0%nat h Hh); auto. Qed.

Lemma strips_ok I O f kx ky wx wy ix iy ic ox oy oc hK :
  (forall h D yo, sinv fl O f wx wy ix iy hK h D -> iext yo = 64 -> (forall y, in_interval yo y -> in_dim oy y) ->
    exists h', resample_strip fl nd I O kx ky h yo = Ok h' /\ sinv fl O f wx wy ix iy hK h' (yo :: D)) ->
  r_shape O = [ox; oy; oc] -> r_shape I = [ix; iy; ic] ->
  forall l h D, Forall (fun v => iext v = 64 /\ forall y, in_interval v y -> in_dim oy y) l -> sinv fl O f wx wy ix iy hK h D ->
  exists h' D', foldM (resample_strip fl nd I O kx ky) l h = Ok h' /\ sinv fl O f wx wy ix iy hK h' D' /\ (forall v, In v l \/ In v D -> In v D').
Proof.
  intros Step SO SI. induction l as [|v l IH]; intros h D Fl Si.
  - exists h, D. split; [reflexivity|]. split; [auto|]. intros v [[]|Hv]; auto.
  - inversion_clear Fl as [|? ? [E Hv] Fl']. destruct (Step h D v Si E Hv) as (h1 & E1 & S1). cbn [foldM]. rewrite E1. cbn [bind].
    destruct (IH h1 (v :: D) Fl' S1) as (h' & D' & E' & S' & In').
    exists h', D'. split; [exact E'|]. split; [exact S'|]. intros u Hu. apply In'. cbn [In] in *. tauto.
Qed.

Lemma d_interval_in d x : in_interval (d_interval d) x <-> in_dim d x.
Proof. reflexivity. Qed.

Lemma resample_ok h I O f rx ry kernel ix iy ic ox oy oc :
  resampling fl h I O f rx ry kernel ix iy ic ox oy oc ->
  makes_image h (resample fl nd I O rx ry kernel h) O (pixel fl f rx ry kernel ix iy).
Proof.
  intros [SI SO [Xi Xo] Ch [Rx Ry] Ux Uy Rows Size VI Al Inj AI Us].
  inversion_clear Xi as [|? ? Xix Xi']. inversion_clear Xi' as [|? ? Xiy _].
  inversion_clear Xo as [|? ? Xox Xo']. inversion_clear Xo' as [|? ? Xoy Xo]. inversion_clear Xo as [|? ? Xoc _].
  assert (Hh : heap_ok h) by exact Us. set (wx := weight fl kernel rx). set (wy := weight fl kernel ry).
  unfold resample.
  replace (dim_of I 0) with ix by (unfold dim_of; rewrite SI; reflexivity).
  replace (dim_of I 1) with iy by (unfold dim_of; rewrite SI; reflexivity).
  replace (dim_of O 0) with ox by (unfold dim_of; rewrite SO; reflexivity).
  replace (dim_of O 1) with oy by (unfold dim_of; rewrite SO; reflexivity).
  destruct (build_kernels_ok fl nd name_x 1 kernel rx (d_interval ix) (d_interval ox)) with (h := h) as (h1 & kx & E1 & (Fx & Lx & Kx) & L1); auto.
  { intro k. unfold name_x. lia. }
  { cbn. lia. }
  rewrite E1. cbn [bind]. assert (Hh1 : heap_ok h1) by apply L1.
  destruct (build_kernels_ok fl nd name_y 1 kernel ry (d_interval iy) (d_interval oy)) with (h := h1) as (h2 & ky & E2 & (Fy & Ly & Ky) & L2); auto.
  { intro k. unfold name_y. lia. }
  { cbn. lia. }
  rewrite E2. cbn [bind]. assert (Hh2 : heap_ok h2) by apply L2.
  destruct (split_covers nd 64 oy ltac:(lia)) as (r & l & Er & El & Fl & Cv). rewrite Er. cbn [bind]. rewrite El. unfold for_in. cbn [bind].
  (* the kernels for x are still there *)
  assert (Fx2 : family fl nd name_x h2 kx).
  { eapply frame_list; [exact Hh1|exact L2|exact Fx|]. intros a _ [Q|[]]. auto. }
  assert (Hx2 : forall k a, nth_error kx k = Some a -> (forall g, has h1 a g -> has h2 a g) /\ (In (blk a) (map blk ky) -> blk a = 0%nat)).
  { intros k a Ea. destruct Fx as [Vx _].
    destruct (frame_local _ _ _ _ _ _ _ _ Hh1 L2 (Vx k a Ea)) as (_ & Q1 & Q2 & _); [intros [Q|[]]; auto|].
    split; [auto|]. intro G. apply Q2. right. auto. }
  (* where everything is *)
  set (K := 0%nat :: map blk kx ++ map blk ky).
  assert (L : local h [0%nat] h2 K).
  { eapply (local_trans h _ h1 (0%nat :: map blk kx)); [auto|exact L1|].
    eapply local_perm; [| |exact (local_frame _ _ _ _ (map blk kx) L2)]; intro z; unfold K; repeat (rewrite ?in_app_iff; cbn [In]); tauto. }
  assert (NO : fst (r_base O) <> 0%nat /\ (fst (r_base O) < h_next h)%nat).
  { apply (alive_old h (elem (r_base O) (r_shape O) [dmin ox; dmin oy; dmin oc]) Hh). apply Al. rewrite SO. apply in_bounds3'. unfold in_dim. lia. }
  assert (NK : forall k, In k K -> k = 0%nat \/ (h_next h <= k)%nat).
  { intros k Ik. destruct L as (_ & _ & _ & _ & Q). destruct (Q k Ik) as [[G|[]]|[G|G]]; auto. }
  assert (NKO : forall k, In k K -> k <> fst (r_base O)) by (intros k Ik ->; destruct (NK _ Ik); [tauto|lia]).
  assert (Kxy : forall a, In a kx \/ In a ky -> In (blk a) K).
  { intros a Ha. unfold K. right. apply in_app_iff. destruct Ha; [left|right]; apply in_map; auto. }
  assert (S2 : sinv fl O f wx wy ix iy h2 h2 []).
  { split; [auto|]. split; [lia|]. split; [auto|]. split; [|split; [|auto]].
    - intros x y c Hb. eapply keep_alive; [exact Hh|exact L|]. apply Al. exact Hb.
    - intros x y c v []. }
  assert (Tx : forall x, in_dim ox x -> taps fl (wx x) (dmin ix) (dext ix) <> []) by (intros x Hx; apply (Ux x Hx)).
  assert (Xix1 : 1 <= dext ix).
  { destruct (window_bounds fl (wx (dmin ox)) (dmin ix) (dext ix)) as (_ & _ & B1 & B2); [apply Tx; unfold in_dim; lia|lia]. }
  assert (Step : forall h D yo, sinv fl O f wx wy ix iy h2 h D -> iext yo = 64 -> (forall y, in_interval yo y -> in_dim oy y) ->
    exists h', resample_strip fl nd I O kx ky h yo = Ok h' /\ sinv fl O f wx wy ix iy h2 h' (yo :: D)).
  { intros h' D yo. apply (strip_step fl nd I O f kx ky wx wy ix iy ic ox oy oc h2 SI SO Xix1); auto.
    - intros x Hx. split; [apply Tx; auto|]. split; [apply Hx|]. destruct (Kx x Hx) as (a & Ea & Sa & Ha). exists a. split; [exact Ea|].
      split; [exact Sa|]. apply (Hx2 _ _ Ea). exact Ha.
    - intros y Hy. split; [apply (Uy y Hy)|]. split; [apply Hy|]. exact (Ky y Hy).
    - intros a i Ha Hi. assert (V : exists n, valid kc n h2 a).
      { destruct Ha as [Ha|Ha]; destruct (In_nth_error _ _ Ha) as [k Ek]; [destruct Fx2 as [Q _]|destruct Fy as [Q _]]; eauto. }
      destruct V as [n V]. split; [eapply live_alive; eauto|]. apply valid_memory in V.
      destruct V as [(_ & Q & _)|(_ & _ & _ & ->)]; [destruct (Q i Hi)|]. apply NKO, Kxy, Ha.
    - eapply keep_shows; [exact Hh|exact L|exact VI]. }
  destruct (strips_ok I O f kx ky wx wy ix iy ic ox oy oc h2 Step SO SI l h2 [] Fl S2) as (h3 & D3 & E3 & S3 & In3).
  rewrite E3. cbn [bind]. destruct S3 as (Hh3 & Nx3 & Bk3 & Al3 & Dn3 & Pk3).
  assert (Fr : forall name ks, family fl nd name h2 ks -> (forall a, In a ks -> In a kx \/ In a ky) -> family fl nd name h3 ks).
  { intros name ks [V A] Hk. split; [|exact A]. intros k a Ea. eapply repr_frame; [|exact (V k a Ea)]. apply Bk3, NKO, Kxy, Hk. eapply nth_error_In; eauto. }
  destruct (free_kernels_ok name_y ky h3 Hh3) as (h4 & E4 & L4); [apply Fr; auto|]. rewrite E4. cbn [bind]. assert (Hh4 : heap_ok h4) by apply L4.
  destruct (free_kernels_ok name_x kx h4 Hh4) as (h5 & E5 & L5).
  { eapply frame_list; [exact Hh3|exact L4|apply Fr; auto|]. intros a Ha [Q|Q]; [auto|]. destruct (In_nth_error _ _ Ha) as [k Ek]. apply (Hx2 k a Ek). exact Q. }
  rewrite E5. exists h5. split; [reflexivity|].
  assert (L35 : local h3 K h5 [0%nat]).
  { eapply (local_trans h3 _ h4 (0%nat :: map blk kx)); [auto| |exact L5].
    eapply local_perm; [| |exact (local_frame _ _ _ _ (map blk kx) L4)]; intro z; unfold K; repeat (rewrite ?in_app_iff; cbn [In]); tauto. }
  assert (BkO : h_blk h5 (fst (r_base O)) = h_blk h3 (fst (r_base O))).
  { destruct L35 as (_ & _ & Q & _). apply Q; [cbn; intuition|]. intro G. apply (NKO _ G). reflexivity. }
  assert (BkN : forall k, k <> fst (r_base O) -> h_blk h5 k = h_blk h k).
  { intros k Nk. destruct (Nat.eq_dec k 0) as [->|N0].
    - destruct L35 as ((_ & Q & _) & _). rewrite Q. destruct Hh as (_ & Q' & _). auto.
    - destruct (in_dec Nat.eq_dec k K) as [Ik|Nik].
      + destruct L35 as (_ & _ & _ & Q & _). rewrite Q; [|cbn; intuition|auto]. destruct (NK k Ik) as [|G]; [contradiction|].
        symmetry. apply Hh. exact G.
      + destruct L35 as (_ & _ & Q & _). rewrite Q; [|cbn; intuition|auto]. rewrite Bk3 by auto.
        destruct L as (_ & _ & Q' & _). apply Q'; [auto|cbn; intuition]. }
  split; [|split; [|exact BkN]].
  - intros x y c Hb. pose proof Hb as Hb'. rewrite SO, in_bounds3' in Hb'. destruct Hb' as (_ & Hy & _). destruct (Cv y Hy) as (v & Iv & Hv).
    specialize (Dn3 x y c v (In3 v (or_introl Iv)) Hv Hb). unfold holds in *. etransitivity; [|exact Dn3]. apply peek_same_block. exact BkO.
  - intros [k z] Hp. destruct (Nat.eq_dec k (fst (r_base O))) as [->|Nk]; [|apply peek_same_block; auto].
    rewrite (peek_same_block h3 h5) by exact BkO. rewrite Pk3 by auto. apply peek_same_block.
    destruct L as (_ & _ & Q' & _). apply Q'; [|cbn; intuition]. intro G. apply (NKO _ G). reflexivity.
Qed.

(** ** Rejected inputs *)
Lemma usable_all kernel rate lo n l : {forall x, In x l -> usable_weights fl (weight fl kernel rate x) lo n} +
  {exists x, In x l /\ ~ usable_weights fl (weight fl kernel rate x) lo n}.
Proof.
  induction l as [|a l [IH|IH]]; [left; intros x []| |].
  - destruct (usable_dec fl kernel rate (mkI lo n) a) as [U|U]; [left; intros x [<-|Hx]; auto|right; exists a; split; [left; auto|exact U]].
  - right. destruct IH as (x & Hx & N). exists x. split; [right; auto|auto].
Qed.
Lemma resample_rejects h I O rx ry kernel ix iy ic ox oy oc :
  r_shape I = [ix; iy; ic] -> r_shape O = [ox; oy; oc] -> extents_ge 0 [ix; iy; ox; oy] ->
  rate_ok rx (dmin ox) (dext ox) -> rate_ok ry (dmin oy) (dext oy) -> heap_ok h -> f_lt fl (f0 fl) (f0 fl) = false -> nd = false ->
  dext oy < 64 \/ (exists x, in_dim ox x /\ ~ usable_weights fl (weight fl kernel rx x) (dmin ix) (dext ix)) \/
    (exists y, in_dim oy y /\ ~ usable_weights fl (weight fl kernel ry y) (dmin iy) (dext iy)) ->
  resample fl nd I O rx ry kernel h = AssertFail.
Proof.
  intros SI SO X Rx Ry Hh Z0 Nd Bad.
  inversion_clear X as [|? ? Xix X']. inversion_clear X' as [|? ? Xiy X]. inversion_clear X as [|? ? Xox X']. inversion_clear X' as [|? ? Xoy _].
  unfold resample.
  replace (dim_of I 0) with ix by (unfold dim_of; rewrite SI; reflexivity).
  replace (dim_of I 1) with iy by (unfold dim_of; rewrite SI; reflexivity).
  replace (dim_of O 0) with ox by (unfold dim_of; rewrite SO; reflexivity).
  replace (dim_of O 1) with oy by (unfold dim_of; rewrite SO; reflexivity).
  assert (Nx : forall k, name_x k <> 1%nat) by (intro; unfold name_x; lia). assert (Ny : forall k, name_y k <> 1%nat) by (intro; unfold name_y; lia).
  destruct (usable_all kernel rx (dmin ix) (dext ix) (range (dmin ox) (dext ox))) as [Ux|(x & Hx & Ux)].
  2: { rewrite (build_kernels_fails fl nd name_x 1 kernel rx (d_interval ix) (d_interval ox)); auto. exists x. split; [|exact Ux]. apply in_dim_range in Hx. exact Hx. }
  destruct (build_kernels_ok fl nd name_x 1 kernel rx (d_interval ix) (d_interval ox)) with (h := h) as (h1 & kx & E1 & _ & L1); auto.
  { intros x Hx. apply Ux. apply in_dim_range. exact Hx. }
  rewrite E1. cbn [bind]. assert (Hh1 : heap_ok h1) by apply L1.
  destruct (usable_all kernel ry (dmin iy) (dext iy) (range (dmin oy) (dext oy))) as [Uy|(y & Hy & Uy)].
  2: { rewrite (build_kernels_fails fl nd name_y 1 kernel ry (d_interval iy) (d_interval oy)); auto. exists y. split; [|exact Uy]. apply in_dim_range in Hy. exact Hy. }
  destruct (build_kernels_ok fl nd name_y 1 kernel ry (d_interval iy) (d_interval oy)) with (h := h1) as (h2 & ky & E2 & _ & L2); auto.
  { intros y Hy. apply Uy. apply in_dim_range. exact Hy. }
  rewrite E2. cbn [bind]. destruct Bad as [B|[(x & Hx & N)|(y & Hy & N)]].
  - unfold split_static, assert_. rewrite Nd. cbn [iext d_interval]. destruct (dext oy >=? 64) eqn:E; [lia|]. reflexivity.
  - destruct N. apply Ux, in_dim_range, Hx.
  - destruct N. apply Uy, in_dim_range, Hy.
Qed.

(** Building kernels, in the words of the specification *)
Lemma kernel_means h a w lo n : taps fl w lo n <> [] -> kernel_ok fl h a w lo n -> kernel_is fl h (aref_of a) w lo n.
Proof.
  intros Nt [Sa Ha]. split; [exact Sa|]. intros i Hi. unfold tap_range in Hi. apply range_In in Hi.
  apply (Ha [i]). rewrite Sa. constructor; [|constructor]. unfold in_dim. cbn [dmin dext]. lia.
Qed.
Lemma build_means name tmp kernel rate (in_ out : interval) h : (forall k, name k <> tmp) -> 0 <= iext in_ -> 0 <= iext out ->
  rate_ok rate (imin out) (iext out) -> heap_ok h -> (forall x, in_interval out x -> usable_weights fl (weight fl kernel rate x) (imin in_) (iext in_)) ->
  exists h' ks, build_kernels fl nd name tmp kernel rate in_ out h = Ok (h', ks) /\ length ks = Z.to_nat (iext out) /\
    (forall x, in_interval out x -> exists a, nth_error ks (Z.to_nat (x - imin out)) = Some a /\
      kernel_is fl h' (aref_of a) (weight fl kernel rate x) (imin in_) (iext in_) /\
      imin in_ <= first_tap fl (weight fl kernel rate x) (imin in_) (iext in_) <= last_tap fl (weight fl kernel rate x) (imin in_) (iext in_) /\
      last_tap fl (weight fl kernel rate x) (imin in_) (iext in_) <= imax in_) /\
    (forall k, (k < h_next h)%nat -> h_blk h' k = h_blk h k) /\ heap_ok h'.
Proof.
  intros Nm Xi Xo Rt Hh Us. destruct (build_kernels_ok fl nd name tmp kernel rate in_ out Nm Xi Rt Xo h Hh Us) as (h' & ks & E & (_ & Len & K) & L).
  exists h', ks. split; [exact E|]. split; [exact Len|]. split; [|split; [|apply L]].
  - intros x Hx. destruct (K x Hx) as (a & Ea & Ka). exists a. destruct (Us x Hx) as [Nt _]. destruct (window_bounds fl _ _ _ Nt) as (_ & _ & B1 & B2).
    split; [exact Ea|]. split; [apply kernel_means; auto|]. unfold imax. lia.
  - intros k Hk. destruct (Nat.eq_dec k 0) as [->|N0].
    + destruct L as ((_ & Q & _) & _). rewrite Q. destruct Hh as (_ & Q' & _). auto.
    + destruct L as (_ & _ & Q & _ & Q'). apply Q; [|cbn; intuition]. intro G. destruct (Q' k G) as [[G'|[]]|[G'|G']]; [congruence|lia|congruence].
Qed.
End Whole.
