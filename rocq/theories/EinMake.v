(** Facts about [make_ein_sum], and reductions in place. *)
From Verif Require Import Tac Interval Shape Traverse Memory Ref Spec SpecMem SpecContainer Static SpecStatic Container Ein SpecEin
  ShapeFacts IntervalFacts ResolveFacts ShapeProps TraverseFacts MemFacts RefFacts ContainerFacts StaticFacts EinFacts EinSum.
Import ListNotations.
Open Scope Z_scope.

(** ** The layout that make_compact gives the result *)

Definition pvolume (s : list dim) : Z := fold_right Z.mul 1 (map (fun d => Z.max 1 (dext d)) s).
Lemma pvolume_ge1 s : 1 <= pvolume s.
Proof. unfold pvolume. induction s as [|d s IH]; simpl; [lia|]. nia. Qed.
Lemma pvolume_cons d s : pvolume (d :: s) = Z.max 1 (dext d) * pvolume s.
Proof. reflexivity. Qed.
Lemma unknown_extents_le_pvolume s : unknown_extents s <= pvolume s.
Proof.
  induction s as [|d s IH]; [reflexivity|]. rewrite unknown_extents_cons, pvolume_cons.
  pose proof (unknown_extents_ge1 s). pose proof (pvolume_ge1 s). destruct (unknown_strideb d); nia.
Qed.
Lemma volume_pvolume s : extents_ge 1 s -> volume s = pvolume s.
Proof.
  induction 1 as [|d s H _ IH]; [reflexivity|]. rewrite pvolume_cons. unfold volume in *. simpl. rewrite IH. f_equal. lia.
Qed.

(** One dimension of the result: without a stride, or the dummy of ein_reduce.h:253 *)
Definition sum_dim (td : dimT * dim) : Prop :=
  (tstr (fst td) = -9 /\ dim_fits (fst td) (snd td) /\ 0 <= dext (snd td)) \/
  (fst td = mkDT 0 1 0 /\ snd td = mkD 0 1 0).

Lemma sum_dim_typed l : Forall sum_dim l -> well_typed l.
Proof.
  intro H. eapply Forall_impl; [|exact H]. intros [t d] [(_ & F & _)|[E1 E2]]; cbn [fst snd] in *; auto.
  subst. repeat split; right; reflexivity.
Qed.

Lemma from_budget nd l : Forall (fun td => tstr (fst td) = -9 /\ dim_fits (fst td) (snd td) /\ 0 <= dext (snd td)) l ->
  forall cur r, make_compact_from nd cur l = Ok r -> (cur = -9 \/ 0 <= cur) ->
  max_known_span (map snd r) * unknown_extents (map snd r) <= Z.max 1 cur * pvolume (map snd l) /\
  Forall (fun d => unknown_stride d \/ 0 <= dstr d) (map snd r).
Proof.
  intro H. induction H as [|[t d] l (D & W & X) H IH]; intros cur r E C; simpl in E.
  - inv E. split; [|constructor]. cbn [map]. unfold max_known_span, unknown_extents, pvolume. cbn. lia.
  - cbn [fst snd] in *. destruct W as (F1 & F2 & F3). revert E. set (t' := mkDT _ _ _).
    assert (Et : tstr t' = cur).
    { subst t'. cbn [tstr]. rewrite if_static. destruct (Z.eq_dec (tstr t) (-9)); [auto|contradiction]. }
    rewrite make_dim_ok.
    2:{ repeat split; cbn [dmin dext dstr]; auto. apply fits_default. }
    simpl. destruct (make_compact_from nd (static_mul cur (text t)) l) as [r'| |] eqn:E'; try discriminate.
    simpl. clearbody t'. intro E. inv E. cbn [map snd].
    destruct (IH _ _ E') as [B G].
    { stat. destruct (Z.eqb_spec (tstr t') (-9)); simpl; auto. destruct (Z.eqb_spec (text t) (-9)); auto. right. nia. }
    unfold default_stride. rewrite if_static.
    rewrite max_known_span_cons, unknown_extents_cons, pvolume_cons. unfold unknown_strideb. cbn [dstr].
    pose proof (unknown_extents_ge1 (map snd r')) as U1. pose proof (unknown_extents_le_pvolume (map snd r')) as U2.
    pose proof (max_known_span_ge1 (map snd r')) as M1.
    assert (PV : pvolume (map snd r') = pvolume (map snd l)).
    { destruct (make_compact_from_bounds nd (static_mul (tstr t') (text t)) l) as (r2 & E2 & R2).
      { eapply Forall_impl; [|exact H]. intros ? (_ & Q & _). exact Q. }
      assert (r2 = r') by congruence. subst r2. clear -R2. unfold pvolume. f_equal.
      induction R2 as [|? ? ? ? ((_ & Q) & _)]; simpl; auto. rewrite Q. f_equal; auto. }
    rewrite PV in U2. pose proof (pvolume_ge1 (map snd l)) as P1.
    destruct (Z.eq_dec (tstr t') (-9)) as [E9|E9].
    + rewrite E9 in *. change (unresolved =? -9223372036854775808) with true. cbv iota. cbn [dext].
      destruct (static_ops_contagious (text t)) as (_ & _ & _ & _ & _ & Sm & _). rewrite Sm in B.
      split; [|constructor; [left; reflexivity|exact G]]. rewrite Z.max_l in B by lia. rewrite (Z.max_l 1 (-9)) by lia. nia.
    + destruct C as [C|C]; [contradiction|]. destruct (Z.eqb_spec (tstr t') (-9223372036854775808)); [lia|].
      split; [|constructor; [right; cbn; lia|exact G]].
      unfold span. cbn [dstr dext]. rewrite Z.abs_eq by lia.
      assert (S1 : tstr t' * dext d * unknown_extents (map snd r') <= Z.max 1 (tstr t') * (Z.max 1 (dext d) * pvolume (map snd l))).
      { rewrite Z.mul_assoc. apply Z.mul_le_mono_nonneg; [nia|apply Z.mul_le_mono_nonneg; lia|lia|lia]. }
      assert (S2 : Z.max 1 (static_mul (tstr t') (text t)) <= Z.max 1 (tstr t') * Z.max 1 (dext d)).
      { stat. destruct (Z.eqb_spec (tstr t') (-9)); [contradiction|]. destruct (Z.eqb_spec (text t) (-9)); cbn [orb]; [nia|].
        destruct F2 as [F2|F2]; [contradiction|]. rewrite <- F2. nia. }
      destruct (Z.max_spec (tstr t' * dext d) (max_known_span (map snd r'))) as [[_ ->]|[_ ->]]; [|exact S1].
      etransitivity; [exact B|]. rewrite Z.mul_assoc. apply Z.mul_le_mono_nonneg_r; lia.
Qed.

(** With no known stride to start from, all strides are left to resolve. *)
Lemma from_dynamic nd l : Forall sum_dim l -> forall r, make_compact_from nd (-9) l = Ok r ->
  Forall2 (fun td d => same_bounds (snd td) d /\ (tstr (fst td) = -9 -> unknown_stride d) /\
                       (tstr (fst td) <> -9 -> dstr d = 0 /\ dext d = 1)) l (map snd r).
Proof.
  induction 1 as [|[t d] l W H IH]; intros r E; cbn [make_compact_from] in E; [inv E; constructor|].
  rewrite (proj1 (proj2 (proj2 (proj2 (proj2 (proj2 (static_ops_contagious (text t)))))))) in E.
  cbn [fst snd] in *.
  revert E. set (t' := mkDT _ _ _). intro E.
  assert (Et : tstr t' = if Z.eq_dec (tstr t) (-9) then -9 else tstr t).
  { subst t'. cbn [tstr]. rewrite if_static. destruct (Z.eq_dec (tstr t) (-9)); auto. }
  rewrite make_dim_ok in E.
  2:{ assert (F : dim_fits t d) by (apply (sum_dim_typed [(t, d)]); [constructor; auto|left; auto] || idtac;
        destruct W as [(_ & F & _)|[E1 E2]]; cbn [fst snd] in *; [exact F|subst; repeat split; right; reflexivity]).
      destruct F as (F1 & F2 & F3). repeat split; cbn [dmin dext dstr]; auto. apply fits_default. }
  cbn [bind] in E. destruct (make_compact_from nd (-9) l) as [r'| |] eqn:E'; try discriminate E. cbn [bind] in E.
  clearbody t'. inv E. cbn [map snd]. constructor; [|apply IH; auto].
  cbn [fst snd]. split; [split; reflexivity|]. unfold default_stride. rewrite if_static, Et. cbn [dstr dext].
  unfold unknown_stride. cbn [dstr]. split.
  - intro D. destruct (Z.eq_dec (tstr t) (-9)); [|contradiction]. reflexivity.
  - intro D. destruct (Z.eq_dec (tstr t) (-9)); [contradiction|].
    destruct W as [(W & _)|[E1 E2]]; [contradiction|]. cbn [fst snd] in *. subst. auto.
Qed.

Lemma compact_next_dummy l : Forall sum_dim l -> ~ dyn_strides l -> compact_next (map fst l) = -9.
Proof.
  intros H N. unfold compact_next.
  assert (A : vany (map (fun t => tstr t >? 1) (map fst l)) = false).
  { unfold vany. apply negb_false_iff, Z.eqb_eq. clear N. induction H as [|[t d] l W H IH]; [reflexivity|].
    cbn [map fst]. rewrite vsum_cons, IH. destruct W as [(W & _)|[W _]]; cbn [fst] in W; [rewrite W|rewrite W]; reflexivity. }
  rewrite A. assert (B : vall (map (fun t => is_dynamic (tstr t)) (map fst l)) = false).
  { apply not_true_iff_false. intro B. apply N. apply vall_map in B. unfold dyn_strides. rewrite Forall_forall in *.
    intros td Htd. specialize (B (fst td) (in_map fst _ _ Htd)). unfold is_dynamic, dynamic in B. lia. }
  rewrite B. clear A B. assert (l <> []) by (intro; subst; apply N; constructor).
  assert (G : Forall (fun x => x = -9) (map (fun t => if tstr t =? 1 then static_abs (text t) else dynamic) (map fst l))).
  { clear -H. induction H as [|[t d] l W H IH]; cbn [map fst]; constructor; auto.
    destruct W as [(W & _)|[W _]]; cbn [fst] in W; rewrite W; reflexivity. }
  destruct l as [|td l]; [congruence|]. cbn [map] in *. revert G. generalize (map (fun t => if tstr t =? 1 then static_abs (text t) else dynamic) (map fst l)).
  generalize (if tstr (fst td) =? 1 then static_abs (text (fst td)) else dynamic). intros x xs G. inv G. cbn [variadic_max].
  clear -H4. induction H4 as [|y ys E F IH]; [reflexivity|]. subst y. cbn [variadic_max]. unfold cmax in *. ifs; lia.
Qed.

Lemma no_index_ext0 s : extents_ge 0 s -> ~ extents_ge 1 s -> no_index s.
Proof. intros _ N i Hi. apply N. eapply in_bounds_ge1; eauto. Qed.
Lemma ge1_dec s : {extents_ge 1 s} + {~ extents_ge 1 s}.
Proof. unfold extents_ge. apply Forall_dec. intro d. destruct (Z_le_dec 1 (dext d)); auto. Qed.
Lemma nonneg_flat_min s : Forall (fun d => 0 <= dstr d) s -> flat_min s = 0.
Proof. apply flat_min_nonneg. Qed.

Lemma make_compact_sum nd l : Forall sum_dim l -> pvolume (map snd l) < 9223372036854775807 ->
  exists r, make_compact nd l = Ok r /\ Forall2 same_bounds (map snd l) (map snd r) /\ proper_layout (map snd r) /\
    (extents_ge 1 (map snd l) -> Forall2 (fun td d => tstr (fst td) = -9 -> dstr d <> 0) l (map snd r)).
Proof.
  intros H P. pose proof (sum_dim_typed l H) as W.
  destruct (make_compact_bounds nd l W) as (r & E & B & _).
  assert (X0 : extents_ge 0 (map snd l)).
  { clear -H. induction H as [|[t d] l G]; simpl; constructor; auto. destruct G as [(_ & _ & G)|[_ G]]; cbn [snd] in G; [auto|subst d; cbn; lia]. }
  assert (Xr : forall n, extents_ge n (map snd l) -> extents_ge n (map snd r)).
  { intros n X. apply (extents_ge_map n (map snd l)); auto. apply same_bounds_ext, B. }
  exists r. split; [exact E|]. split; [exact B|].
  destruct (Forall_dec (fun td : dimT * dim => tstr (fst td) = -9) (fun td => Z.eq_dec (tstr (fst td)) (-9)) l) as [D|D].
  - assert (H' : Forall (fun td => tstr (fst td) = -9 /\ dim_fits (fst td) (snd td) /\ 0 <= dext (snd td)) l).
    { rewrite Forall_forall in *. intros td Htd. split; [apply D; auto|]. destruct (H td Htd) as [(_ & ?)|[Q _]]; auto.
      exfalso. specialize (D td Htd). rewrite Q in D. discriminate D. }
    destruct (ge1_dec (map snd l)) as [X1|X1].
    + destruct (make_compact_gapless nd l W D X1) as (r2 & E2 & _ & G & S & _); [rewrite volume_pvolume; auto|].
      assert (r2 = r) by congruence. subst r2. split.
      * split; [apply Xr; auto|]. split; [|split; [apply G|]].
        -- eapply Forall_impl; [|exact S]. unfold unknown_stride. intros; lia.
        -- right. apply nonneg_flat_min. eapply Forall_impl; [|exact S]. cbv beta. intros; lia.
      * intros _. clear -S B. revert S B. generalize (map snd r). induction l as [|td l IH]; intros s S B; inv B; constructor; inv S; auto.
        intros _. lia.
    + split; [|intro; contradiction].
      destruct (make_compact_from_bounds nd 1 l W) as (r2 & E2 & R2).
      rewrite <- (compact_next_dynamic l D) in E2.
      destruct (make_compact_unfold nd l r2 E2) as (r3 & E3 & Es & _). assert (r3 = r) by congruence. subst r3.
      rewrite (compact_next_dynamic l D) in E2.
      destruct (from_budget nd l H' 1 r2 E2) as [Bu S]; [lia|].
      assert (Bud : stride_budget (map snd r2) < index_max) by (unfold stride_budget, index_max; lia).
      pose proof (resolve_spec _ Bud) as Sp. rewrite <- Es in Sp.
      assert (K : Forall (fun d => 0 <= dstr d) (map snd r)).
      { clear -Sp S. induction Sp as [|d d' s s' (_ & _ & K & U) Sp IH]; constructor; inv S; auto.
        destruct H1 as [H1|H1]; [apply U in H1; lia|]. rewrite K; auto. unfold unknown_stride. lia. }
      split; [auto|]. split; [|split].
      * eapply Forall_impl; [|exact K]. unfold unknown_stride. intros; lia.
      * intros i j Hi. exfalso. apply (no_index_ext0 (map snd r)) in Hi; auto. intro X. apply X1.
        apply (extents_ge_map 1 (map snd r)); auto. symmetry. apply same_bounds_ext, B.
      * right. apply nonneg_flat_min, K.
  - destruct (make_compact_from_bounds nd (-9) l W) as (r2 & E2 & R2).
    pose proof (from_dynamic nd l H r2 E2) as Dy.
    rewrite <- (compact_next_dummy l H D) in E2.
    destruct (make_compact_unfold nd l r2 E2) as (r3 & E3 & Es & _). assert (r3 = r) by congruence. subst r3.
    assert (Kn : Forall (fun d => unknown_stride d \/ (dstr d = 0 /\ dext d = 1)) (map snd r2)).
    { clear -Dy. induction Dy as [|td d l s (_ & A & B) _ IH]; constructor; auto. destruct (Z.eq_dec (tstr (fst td)) (-9)); auto. }
    assert (M : max_known_span (map snd r2) = 1).
    { clear -Kn. induction Kn as [|d s G _ IH]; [reflexivity|]. rewrite max_known_span_cons, IH.
      destruct (unknown_strideb d) eqn:U; [reflexivity|]. destruct G as [G|[G1 G2]].
      - apply unknown_strideb_iff in G. congruence.
      - unfold span. rewrite G1, G2. reflexivity. }
    assert (PV : pvolume (map snd r2) = pvolume (map snd l)).
    { clear -Dy. unfold pvolume. f_equal. induction Dy as [|td d l s ((_ & Q) & _) _ IH]; cbn [map]; [reflexivity|]. rewrite Q. f_equal; auto. }
    assert (Bud : stride_budget (map snd r2) < index_max).
    { unfold stride_budget, index_max. rewrite M. pose proof (unknown_extents_le_pvolume (map snd r2)). lia. }
    assert (Ne : nested (known_dims (map snd r2))).
    { assert (N1 : forall d, In d (known_dims (map snd r2)) -> dext d = 1).
      { intros d Hd. apply known_dims_In in Hd. destruct Hd as [Hd U]. rewrite Forall_forall in Kn. destruct (Kn d Hd) as [?|[_ ?]]; [contradiction|auto]. }
      split.
      - apply Forall_forall. intros d Hd. specialize (N1 d Hd). lia.
      - revert N1. generalize (known_dims (map snd r2)). clear. induction l as [|d l IH]; intro N; constructor.
        + apply Forall_forall. intros x Hx. specialize (N d (or_introl eq_refl)). lia.
        + apply IH. intros; apply N; right; auto. }
    pose proof (resolve_spec _ Bud) as Sp. pose proof (resolve_injective _ Bud Ne) as Inj. rewrite <- Es in Sp, Inj.
    assert (K : Forall (fun d => 0 <= dstr d) (map snd r)).
    { clear -Sp Kn. induction Sp as [|d d' s s' (_ & _ & K & U) Sp IH]; constructor; inv Kn; auto.
      destruct H1 as [H1|[H1 _]]; [apply U in H1; lia|]. rewrite K; auto; [lia|]. unfold unknown_stride. lia. }
    split.
    + split; [auto|]. split; [|split; [exact Inj|right; apply nonneg_flat_min, K]].
      eapply Forall_impl; [|exact K]. unfold unknown_stride. intros; lia.
    + intros _. clear -Sp Dy. revert Sp. generalize (map snd r). induction Dy as [|td d l s (_ & A & _) _ IH]; intros s' Sp; inv Sp; constructor; auto.
      intro Q. destruct H1 as (_ & _ & _ & U). specialize (U (A Q)). lia.
Qed.

Section Ein.
Context {V : Type}.
Implicit Types (h : heap V) (e : expr V).

(** ** The bounds inferred for the result *)

Lemma find_app {A} (f : A -> bool) l1 l2 : find f (l1 ++ l2) = match find f l1 with Some x => Some x | None => find f l2 end.
Proof. induction l1 as [|a l1 IH]; cbn [find app]; auto. destruct (f a); auto. Qed.
Lemma first_of_op k is_ : forall (s : list dim), length is_ = length s ->
  get_or_empty (index_of k is_) s =
  match find (fun kd => (fst kd =? k)%nat) (combine is_ s) with Some kd => [snd kd] | None => [] end.
Proof.
  induction is_ as [|i is_ IH]; intros [|d s] L; try discriminate L; [reflexivity|].
  cbn [index_of combine find fst]. rewrite (Nat.eqb_sym i k). destruct (k =? i)%nat; [reflexivity|].
  rewrite <- IH by (simpl in L; lia). reflexivity.
Qed.
Lemma gather_first k kd e : ranks_match (operands e) ->
  match first_addressed (operands e) k with
  | Some d => exists ds, gather_dims k kd e = kind_stride kd d :: ds
  | None => gather_dims k kd e = []
  end.
Proof.
  unfold first_addressed. induction e as [r is_|f is_|f e IH|f a IHa b IHb]; cbn [operands gather_dims]; intro R.
  - inv R. cbn [fst snd] in *. cbn [flat_map fst snd]. rewrite app_nil_r, (first_of_op k is_) by auto.
    destruct (find _ _) as [[k' d]|]; cbn [option_map snd map]; eauto.
  - reflexivity.
  - exact (IH R).
  - unfold ranks_match in R. apply Forall_app in R. destruct R as [Ra Rb]. rewrite flat_map_app, find_app.
    specialize (IHa Ra). specialize (IHb Rb). destruct (find _ (flat_map _ (operands a))) as [kd'|]; cbn [option_map] in *.
    + destruct IHa as [ds ->]. eexists. reflexivity.
    + rewrite IHa. cbn [app]. exact IHb.
Qed.
Lemma first_addressed_in ops k d : first_addressed ops k = Some d -> addressed ops k d.
Proof.
  unfold first_addressed. destruct (find _ _) as [[k' d']|] eqn:E; [|discriminate]. cbn. intro H. inv H.
  apply find_some in E. destruct E as [E1 E2]. cbn in E2. apply Nat.eqb_eq in E2. subst k'.
  apply in_flat_map in E1. destruct E1 as ([r is_] & H1 & H2). exists r, is_. auto.
Qed.
Lemma first_addressed_none ops k : first_addressed ops k = None -> forall d, ~ addressed ops k d.
Proof.
  unfold first_addressed. destruct (find _ _) eqn:E; [discriminate|]. intros _ d (r & is_ & H1 & H2).
  assert (X : In (k, d) (flat_map (fun o => combine (snd o) (r_shape (fst o))) ops)) by (apply in_flat_map; exists (r, is_); auto).
  apply (find_none _ _ E) in X. cbn in X. rewrite Nat.eqb_refl in X. discriminate.
Qed.

Lemma infer_dim nd B out e k : ranks_match (operands e) -> sum_ranges out (operands e) B ->
  exists d, reconcile_dim nd (gather_dims k is_inferred_shape e) = Ok d /\
    (span_is (B k) d /\ match first_addressed (operands e) k with Some _ => dstr d = unresolved | None => d = mkD 0 1 0 end).
Proof.
  intros R (G0 & G1 & G2). specialize (G1 k). pose proof (gather_first k is_inferred_shape e R) as F.
  destruct (first_addressed (operands e) k) as [d0|] eqn:E0.
  - destruct F as [ds F]. rewrite F. exists (kind_stride is_inferred_shape d0). destruct G1 as [S1 S2].
    split; [|split; [split; cbn; auto|reflexivity]].
    unfold reconcile_dim. cbn [kind_stride dstr]. change (negb (unresolved =? 0)) with true. cbv iota.
    rewrite assert_ok; [reflexivity|]. apply vall_map, Forall_forall. intros d Hd.
    destruct (gather_sound k is_inferred_shape e d R) as (d' & A & ->); [rewrite F; right; auto|].
    assert (S : span_within (B k) d').
    { destruct (G2 k d' A) as [[T1 T2]|(_ & S & _)]; [split; lia|exact S]. }
    destruct S as [T1 T2]. unfold i_in_range_interval, imax, d_interval; cbn. lia.
  - rewrite F. exists (mkD 0 1 0). split; [reflexivity|]. rewrite G1. split; [split; reflexivity|reflexivity].
Qed.

Lemma inferred_shape nd B out e : ranks_match (operands e) -> sum_ranges out (operands e) B ->
  exists s, reconcile_all nd out (fun D => gather_dims D is_inferred_shape e) = Ok s /\
    Forall2 (fun k d => span_is (B k) d /\
      match first_addressed (operands e) k with Some _ => dstr d = unresolved | None => d = mkD 0 1 0 end) out s.
Proof. intros R G. apply reconcile_all_ok. intros k _. apply (infer_dim nd B out); auto. Qed.

Lemma result_dims B ops out ts s : (forall k, 0 <= snd (B k)) -> Forall2 (result_type ops B) out ts ->
  Forall2 (fun k d => span_is (B k) d /\
      match first_addressed ops k with Some _ => dstr d = unresolved | None => d = mkD 0 1 0 end) out s ->
  Forall sum_dim (combine ts s) /\ map snd (combine ts s) = s /\ pvolume s = padded_volume out B.
Proof.
  intros B0 T. revert s. induction T as [|k t out ts Tk T IH]; intros s F; inv F.
  - split; [constructor|]. split; reflexivity.
  - destruct (IH _ H3) as (S1 & S2 & S3). destruct H1 as [[Q1 Q2] Q3]. cbn [combine map snd].
    split; [|split].
    + constructor; [|exact S1]. unfold result_type in Tk. destruct (first_addressed ops k).
      * left. cbn [fst snd]. destruct Tk as (T1 & T2 & T3). split; [auto|]. rewrite Q2. split; [|apply B0].
        unfold dim_fits. rewrite Q1, Q2, T1. repeat split; auto. left. auto.
      * right. auto.
    + f_equal. exact S2.
    + rewrite pvolume_cons, S3, Q2. reflexivity.
Qed.

(** ** The sum *)

Lemma reduces_transfer h1 h2 f e (P : list Z -> Prop) old w :
  (forall env v, P env -> computes h1 env e v -> computes h2 env e v) ->
  reduces h1 f e P old w -> reduces h2 f e P old w.
Proof.
  intros T (envs & vs & En & So & Fo & E). exists envs, vs. split; [exact En|]. split; [exact So|]. split; [|exact E].
  assert (I : forall env, In env envs -> P env) by (intros; apply En; auto). clear En So E.
  induction Fo; constructor; [apply T; auto; apply I; left; auto|]. apply IHFo. intros; apply I; right; auto.
Qed.
Lemma reduces_weaken h f e (P Q : list Z -> Prop) old w : (forall env, P env <-> Q env) ->
  reduces h f e P old w -> reduces h f e Q old w.
Proof.
  intros T (envs & vs & [N En] & So & Fo & E). exists envs, vs. split; [|auto]. split; auto. intro x. rewrite En. apply T.
Qed.

Lemma typed_dim (P : nat -> dimT -> Prop) (Q : nat -> dim -> Prop) out ts s :
  Forall2 P out ts -> Forall2 Q out s ->
  forall t, Forall2 (fun (td : dimT * dim) (d : dim) => tstr (fst td) = -9 -> dstr d <> 0) (combine ts s) t ->
  forall k D, In (k, D) (combine out t) -> exists tk, P k tk /\ (tstr tk = -9 -> dstr D <> 0).
Proof.
  intros T. revert s. induction T as [|k0 t0 out ts Tk T IH]; intros s Fs t Nz k D AD; inv Fs; [destruct AD|].
  cbn [combine] in Nz. inv Nz. cbn [combine In] in AD. destruct AD as [E|AD]; [|eapply IH; eauto].
  inv E. exists t0. auto.
Qed.
Lemma F2_combine {A C} (R : A -> C -> Prop) (ks : list A) (l : list C) :
  Forall2 R ks l -> forall k x, In (k, x) (combine ks l) -> R k x.
Proof. induction 1; cbn [combine In]; [tauto|]. intros k z [E|H1]; [inv E; auto|auto]. Qed.

Lemma make_ein_sum_steps (c : config V) add x h al out e ts init B n :
  shape_arg c (c_shape0 c) -> length (c_shape0 c) = length out -> usable_heap h ->
  ranks_match (operands e) -> loops n (out ++ labels e) -> sum_ranges out (operands e) B ->
  Forall2 (result_type (operands e) B) out ts -> padded_volume out B < 9223372036854775807 ->
  operands_alive h (operands e) ->
  exists s h1 a h', ein_result_shape (c_ndebug c) out e ts = Ok s /\ ctor_value c x h al s init = Ok (h1, a) /\
    ein_reduce (c_ndebug c) add h1 (aref_of a) out e = Ok h' /\
    (ranks_match ((aref_of a, out) :: operands e) /\ ranges (aref_of a) out (operands e) B /\
     (forall i, in_bounds (a_shape a) i -> holds h1 (elem (a_base a) (a_shape a) i) init) /\
     (forall p, alive h p -> peek h1 p = peek h p)) /\
    Forall2 (fun k d => span_is (B k) d) out (a_shape a) /\ proper_layout (a_shape a) /\
    (forall o, in_bounds (a_shape a) o -> exists w, holds h' (elem (a_base a) (a_shape a) o) w /\
       reduces h add e (fun env => loop_index B n env /\ values_of out env = o) init w) /\
    (forall p, alive h p -> peek h' p = peek h p /\ ~ is_elem (a_base a) (a_shape a) p) /\
    (forall p, alive h' p <-> alive h p \/ is_elem (a_base a) (a_shape a) p) /\ usable_heap h'.
Proof.
  intros Hc Lc Hh R L G T P Al. pose proof G as (G0 & G1 & G2).
  destruct (inferred_shape (c_ndebug c) B out e R G) as (s & Es & Fs).
  destruct (result_dims B (operands e) out ts s G0 T Fs) as (Sd & Sm & Pv).
  destruct (make_compact_sum (c_ndebug c) (combine ts s) Sd) as (r & Er & Br & Pr & Nz); [rewrite Sm, Pv; exact P|].
  rewrite Sm in *.
  remember (map snd r) as t eqn:Et.
  assert (Ft : Forall2 (fun k d => span_is (B k) d) out t).
  { clear -Fs Br. revert t Br. induction Fs as [|k d out s [[Q1 Q2] _] Fs IH]; intros t Br; inv Br; constructor; auto.
    destruct H1 as [E1 E2]. split; congruence. }
  assert (Kt : resolve t = t) by (apply proper_resolve, Pr).
  assert (At : shape_arg c t).
  { split; [|rewrite Kt; exact Pr]. rewrite Lc. symmetry. eapply Forall2_len; eauto. }
  destruct (ctor_value_spec c x h al t init Hc Hh At) as (h1 & a & Ec & Va & Ha & Lo & Ea & _).
  rewrite Kt in Ea.
  assert (Lk : forall p, alive h p -> peek h1 p = peek h p /\ fst p <> blk a).
  { intros [k z] [v Hv]. unfold holds in Hv. destruct Lo as (O1 & N1 & A1 & B1 & C1). cbn [fst].
    assert (Hk : h_blk h k <> None /\ k <> 0%nat).
    { unfold peek in Hv. cbn [fst snd] in Hv. destruct k; [discriminate|]. destruct (h_blk h (S k)); [|discriminate]. split; congruence. }
    destruct Hk as [Hk1 Hk2].
    assert (Nk : k <> blk a).
    { intro E. destruct (C1 (blk a)) as [[?|[]]|[C|C]]; [left; auto|congruence| |congruence].
      destruct Hh as (_ & _ & Hh). apply Hk1, Hh. congruence. }
    split; [|exact Nk]. apply peek_same_block. apply A1; intros [?|[]]; congruence. }
  assert (Ap : forall p, alive h p -> ~ is_elem (a_base a) (a_shape a) p).
  { intros p Hp (i & Hi & ->). destruct (Lk _ Hp) as [_ N]. apply N.
    destruct (repr_elem c _ _ _ _ _ Va Hi) as (b & _ & _ & _ & _ & E & _). rewrite E. reflexivity. }
  set (ra := aref_of a).
  assert (Ra : ranks_match ((ra, out) :: operands e)).
  { constructor; [|exact R]. cbn. rewrite Ea. eapply Forall2_len; eauto. }
  assert (Ga : ranges ra out (operands e) B).
  { split; [exact G0|]. split; [|split].
    - intros k d A. apply addressed_one in A. cbn in A. rewrite Ea in A. apply (F2_combine _ _ _ Ft _ _ A).
    - intros k d A. destruct (G2 k d A) as [S|(Hk & S & Ne)]; [auto|]. right. split; [exact S|].
      assert (X1 : extents_ge 1 s).
      { clear -Fs Ne. induction Fs as [|k d out s [[_ Q] _] _ IH]; constructor; [rewrite Q; apply Ne; left; auto|apply IH; intros; apply Ne; right; auto]. }
      specialize (Nz X1). split.
      + clear -Hk Ft Ea. setoid_rewrite addressed_one. cbn. rewrite Ea. clear Ea. revert Hk. induction Ft as [|k' d' out t _ _ IH]; intros [].
        * subst. exists d'. left. auto.
        * destruct (IH H) as [D HD]. exists D. right. auto.
      + intros D AD. apply addressed_one in AD. cbn in AD. rewrite Ea in AD.
        assert (Fk : first_addressed (operands e) k <> None).
        { intro N. eapply first_addressed_none; eauto. }
        destruct (typed_dim _ _ _ _ _ T Fs _ Nz _ _ AD) as (tk & Tk & N). apply N.
        unfold result_type in Tk. destruct (first_addressed (operands e) k); [apply Tk|congruence].
    - intros k N. specialize (G1 k). destruct (first_addressed (operands e) k) as [d|] eqn:E; [|exact G1].
      exfalso. apply (N d). apply addressed_cons. right. apply first_addressed_in. exact E. }
  assert (Ala : operands_alive h1 ((ra, out) :: operands e)).
  { intros r' is_ i [E|H] Hi.
    - inv E. apply (live_alive c x); auto.
    - destruct (Al r' is_ i H Hi) as [v Hv]. exists v. unfold holds. rewrite (proj1 (Lk _ (Al r' is_ i H Hi))). exact Hv. }
  assert (Apa : operands_apart ra (operands e)).
  { intros r' is_ i H Hi. apply Ap. apply (Al r' is_); auto. }
  destruct (ein_reduce_spec (c_ndebug c) add h1 ra out e B n Ra L Ga Ala Apa) as (h2 & E2 & C2 & F2).
  exists t, h1, a, h2. split; [|split; [|split; [|split; [|split; [|split; [|split; [|split; [|split]]]]]]]].
  - unfold ein_result_shape. rewrite Es. cbn [bind]. rewrite Er. cbn [bind]. rewrite <- Et. reflexivity.
  - exact Ec.
  - exact E2.
  - split; [exact Ra|]. split; [exact Ga|]. split; [exact Ha|]. intros p Hp. apply Lk. exact Hp.
  - rewrite Ea. exact Ft.
  - rewrite Ea. exact Pr.
  - intros o Ho. destruct (F2 (elem (a_base a) (a_shape a) o) init) as (w & Hw & Rw).
    + exists o. split; auto.
    + apply Ha. exact Ho.
    + exists w. split; [exact Hw|].
      apply (reduces_weaken h add e (fun env => loop_index B n env /\ elem (r_base ra) (r_shape ra) (values_of out env) = elem (a_base a) (a_shape a) o)).
      * intro env. split; intros [I E]; (split; [exact I|]).
        -- assert (Pi : injective_layout (a_shape a)) by (rewrite Ea; apply Pr). apply Pi; auto.
           ++ apply (operand_in_bounds B n ra out e ra out env Ra Ga L I). left. auto.
           ++ eapply elem_inj. exact E.
        -- rewrite E. reflexivity.
      * eapply reduces_transfer; [|exact Rw]. intros env v [I _] Hv. eapply computes_transfer; [|exact Hv].
        intros r' is_ H. symmetry. apply Lk. apply (Al r' is_); auto.
        apply (operand_in_bounds B n ra out e r' is_ env Ra Ga L I). right. auto.
  - intros p Hp. split; [|auto]. destruct C2 as (C2 & _). rewrite C2 by (apply Ap; auto). apply Lk. auto.
  - intro p. split.
    + intros [v Hv]. destruct C2 as (C2 & _ & C3).
      destruct (Nat.eq_dec (fst p) (blk a)) as [Eb|Nb].
      * right. destruct (Nat.eq_dec (blk a) 0) as [Z0|Z0]; [exfalso; unfold holds, peek in Hv; rewrite Eb, Z0 in Hv; discriminate|].
        destruct (in_dec ptr_dec p (map (elem (a_base a) (a_shape a)) (box (a_shape a)))) as [H|H]; [apply in_map_iff in H; destruct H as (i & Ei & Hi); exists i; split; [apply box_In; exact Hi|auto]|]; assert (H' : ~ is_elem (a_base a) (a_shape a) p) by (intros (i & Hi & Ei); apply H, in_map_iff; exists i; split; [auto|apply box_In; exact Hi]); clear H; rename H' into H. exfalso.
        unfold holds in Hv. change (~ is_elem (r_base ra) (r_shape ra) p) in H. rewrite C2 in Hv by exact H.
        destruct Va as [_ [[[Bu _] _]|[_ (k & b & Hb & In_ & Lc')]]].
        -- apply Z0. unfold blk. rewrite Bu. reflexivity.
        -- destruct In_ as (Hk & Eb' & Eba & Esz & Efe & Hpos & _). assert (blk a = k) by (unfold blk; rewrite Eb'; reflexivity).
           destruct p as [pk pz]. cbn [fst] in Eb. subst pk. rewrite H0 in *.
           unfold peek in Hv. cbn [fst snd] in Hv. destruct k; [congruence|]. rewrite Hb in Hv.
           destruct ((0 <=? pz) && (pz <? b_size b)) eqn:Ez; [|discriminate].
           assert (Hz : 0 <= pz < b_size b) by lia. specialize (Lc' pz Hz). destruct Lc' as [Lc' _].
           destruct Lc' as (i & Hi & Ei); [exists v; congruence|]. apply H. exists i. split; [exact Hi|].
           unfold ra. cbn [aref_of r_base r_shape]. unfold elem. rewrite Eba. cbn [fst snd]. f_equal. lia.
      * left. exists v. unfold holds in *. rewrite C2 in Hv.
        -- destruct Lo as (_ & _ & A1 & B1 & _). destruct p as [k z]. cbn [fst] in Nb.
           destruct (Nat.eq_dec k 0) as [->|K0]; [discriminate|].
           rewrite (peek_same_block h h1 k z) in Hv; [exact Hv|]. apply A1; intros [?|[]]; congruence.
        -- intros (i & Hi & ->). apply Nb. cbn in Hi. destruct (repr_elem c _ _ _ _ _ Va Hi) as (b & _ & _ & _ & _ & E & _).
           change (elem (r_base ra) (r_shape ra) i) with (elem (a_base a) (a_shape a) i). rewrite E. reflexivity.
    + intros [H|(i & Hi & ->)].
      * destruct H as [v Hv]. exists v. unfold holds. destruct C2 as (C2 & _). rewrite C2 by (apply Ap; eexists; eauto).
        rewrite (proj1 (Lk p (ex_intro _ v Hv))). exact Hv.
      * destruct (F2 (elem (a_base a) (a_shape a) i) init) as (w & Hw & _); [exists i; auto|apply Ha; auto|]. exists w. exact Hw.
  - destruct C2 as (_ & Cn & Cb). destruct Lo as ((O1 & O2 & O3) & _). split; [|split].
    + rewrite Cn. exact O1.
    + specialize (Cb 0%nat). rewrite O2 in Cb. destruct (h_blk h2 0); [discriminate|auto].
    + intros k Hk. rewrite Cn in Hk. specialize (O3 k Hk). specialize (Cb k). rewrite O3 in Cb. destruct (h_blk h2 k); [discriminate|auto].
Qed.
Lemma make_ein_sum_spec (c : config V) add x h al out e ts init B n :
  shape_arg c (c_shape0 c) -> length (c_shape0 c) = length out -> usable_heap h ->
  ranks_match (operands e) -> loops n (out ++ labels e) -> sum_ranges out (operands e) B ->
  Forall2 (result_type (operands e) B) out ts -> padded_volume out B < 9223372036854775807 ->
  operands_alive h (operands e) ->
  exists h' a, make_ein_sum c add x h al out e ts init = Ok (h', a) /\
    Forall2 (fun k d => span_is (B k) d) out (a_shape a) /\ proper_layout (a_shape a) /\
    (forall o, in_bounds (a_shape a) o -> exists w, holds h' (elem (a_base a) (a_shape a) o) w /\
       reduces h add e (fun env => loop_index B n env /\ values_of out env = o) init w) /\
    (forall p, alive h p -> peek h' p = peek h p /\ ~ is_elem (a_base a) (a_shape a) p) /\
    (forall p, alive h' p <-> alive h p \/ is_elem (a_base a) (a_shape a) p) /\ usable_heap h'.
Proof.
  intros Hc Lc Hh R L G T P Al.
  destruct (make_ein_sum_steps c add x h al out e ts init B n Hc Lc Hh R L G T P Al) as (s & h1 & a & h' & Es & Ec & Er & _ & F).
  exists h', a. split; [|exact F]. unfold make_ein_sum. rewrite Es. cbn [bind]. rewrite Ec. cbn [bind]. rewrite Er. reflexivity.
Qed.

End Ein.
