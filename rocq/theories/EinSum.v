(** Facts about Einstein reductions: what the assertions check, aliasing, and [make_ein_sum]. *)
From Verif Require Import Tac Interval Shape Traverse Memory Ref Spec SpecMem SpecContainer Static SpecStatic Container Ein SpecEin
  ShapeFacts IntervalFacts ResolveFacts TraverseFacts MemFacts RefFacts ContainerFacts StaticFacts EinFacts.
Import ListNotations.
Open Scope Z_scope.

Section Ein.
Context {V : Type}.
Implicit Types (h : heap V) (e : expr V).

(** ** The assertions of a debug build *)

Lemma assert_inv b : assert_ false b = Ok tt -> b = true.
Proof. unfold assert_. destruct b; [auto|discriminate]. Qed.
Lemma assert_not_ub nd b : assert_ nd b <> UB.
Proof. unfold assert_. destruct b, nd; discriminate. Qed.
Lemma assert_cases b : assert_ false b = Ok tt \/ assert_ false b = AssertFail.
Proof. unfold assert_. destruct b; auto. Qed.

Lemma reconcile_inv ds d : reconcile_dim false ds = Ok d ->
  (ds = [] /\ d = mkD 0 1 0) \/
  (exists ds', ds = d :: ds' /\
     ((dstr d <> 0 /\ forall d', In d' ds' -> dmin d' <= dmin d /\ dmin d + dext d <= dmin d' + dext d') \/
      (dstr d = 0 /\ forall d', In d' ds' -> dmin d' = dmin d /\ dext d' = dext d))).
Proof.
  destruct ds as [|d0 ds]; cbn [reconcile_dim]; [intro H; inv H; auto|].
  destruct (Z.eqb_spec (dstr d0) 0) as [E0|E0]; cbn [negb].
  - destruct (assert_cases (vall (map (fun d => dmin d0 =? dmin d) ds))) as [E1|E1]; rewrite E1; [|discriminate]. cbn [bind].
    destruct (assert_cases (vall (map (fun d => dext d0 =? dext d) ds))) as [E2|E2]; rewrite E2; [|discriminate]. cbn [bind].
    intro H. inv H. right. exists ds. split; auto. right. split; auto. intros d' Hd.
    apply assert_inv, vall_map in E1. apply assert_inv, vall_map in E2. rewrite Forall_forall in E1, E2.
    specialize (E1 _ Hd). specialize (E2 _ Hd). cbv beta in E1, E2. lia.
  - destruct (assert_cases (vall (map (fun d => i_in_range_interval (d_interval d) (d_interval d0)) ds))) as [E1|E1]; rewrite E1; [|discriminate].
    cbn [bind]. intro H. inv H. right. exists ds. split; auto. left. split; auto. intros d' Hd.
    apply assert_inv, vall_map in E1. rewrite Forall_forall in E1. specialize (E1 _ Hd). cbv beta in E1.
    unfold i_in_range_interval, imax, d_interval in E1. cbn in E1. lia.
Qed.
Lemma reconcile_not_ub ds : reconcile_dim false ds <> UB.
Proof.
  destruct ds as [|d0 ds]; cbn [reconcile_dim]; [discriminate|]. destruct (negb _).
  - destruct (assert_cases (vall (map (fun d => i_in_range_interval (d_interval d) (d_interval d0)) ds))) as [E|E]; rewrite E; discriminate.
  - destruct (assert_cases (vall (map (fun d => dmin d0 =? dmin d) ds))) as [E|E]; rewrite E; cbn [bind]; [|discriminate].
    destruct (assert_cases (vall (map (fun d => dext d0 =? dext d) ds))) as [E'|E']; rewrite E'; discriminate.
Qed.
Lemma reconcile_all_inv ks (dims_for : nat -> list dim) s : reconcile_all false ks dims_for = Ok s ->
  Forall2 (fun k d => reconcile_dim false (dims_for k) = Ok d) ks s.
Proof.
  unfold reconcile_all. revert s. induction ks as [|k ks IH]; cbn [flat_mapM]; intros s H; [inv H; constructor|].
  destruct (reconcile_dim false (dims_for k)) as [d| |] eqn:E; try discriminate H. cbn [bind] in H.
  destruct (flat_mapM _ ks) as [s'| |] eqn:E'; try discriminate H. cbn [bind app] in H. inv H. constructor; auto.
Qed.
Lemma reconcile_all_not_ub ks (dims_for : nat -> list dim) : reconcile_all false ks dims_for <> UB.
Proof.
  unfold reconcile_all. induction ks as [|k ks IH]; cbn [flat_mapM]; [discriminate|].
  pose proof (reconcile_not_ub (dims_for k)). destruct (reconcile_dim false (dims_for k)); cbn [bind]; try congruence.
  destruct (flat_mapM _ ks); cbn [bind]; congruence.
Qed.

Lemma addressed_ext ops k d : dims_ok ops -> addressed ops k d -> 0 <= dext d.
Proof.
  intros D (r & is_ & H & A). unfold dims_ok in D. rewrite Forall_forall in D. specialize (D _ H). cbn [fst] in D.
  unfold extents_ge in D. rewrite Forall_forall in D. apply D. eapply in_combine_r; eauto.
Qed.
Lemma addressed_label e k d : addressed (operands e) k d -> In k (labels e).
Proof.
  intros (r & is_ & H & A). apply in_combine_l in A. revert H. induction e as [r0 is0|f is0|f e IH|f a IHa b IHb]; cbn [operands labels]; intro H; auto.
  - destruct H as [H|[]]. inv H. auto.
  - contradiction.
  - apply in_app_or in H. apply in_or_app. tauto.
Qed.
Lemma addressed_one r out k d : addressed [(r, out)] k d <-> In (k, d) (combine out (r_shape r)).
Proof.
  split.
  - intros (r' & is' & [X|[]] & A). inv X. auto.
  - intro A. exists r, out. split; [left; auto|auto].
Qed.

(** In a debug build, the loops have a shape only if the operands agree on the bounds. *)
Lemma ranges_of_shape n r out e s : ranks_match ((r, out) :: operands e) -> dims_ok ((r, out) :: operands e) ->
  distinct ((r, out) :: operands e) -> loops n (out ++ labels e) ->
  ein_loop_shape false r out e = Ok s -> exists B, ranges r out (operands e) B.
Proof.
  intros R X D L E. unfold ein_loop_shape in E. rewrite (rank_of n) in E by auto.
  apply reconcile_all_inv in E. apply Forall2_seq in E. destruct E as [Ls E].
  assert (Ro : length out = length (r_shape r)) by (inv R; auto).
  assert (R' : ranks_match (operands e)) by (inv R; auto).
  assert (D' : distinct (operands e)) by (inv D; auto).
  assert (Do : NoDup out) by (inv D; auto).
  exists (fun k => match nth_error s k with Some d => (dmin d, dext d) | None => (0, 1) end).
  assert (K : forall k d, addressed ((r, out) :: operands e) k d -> exists d0, nth_error s k = Some d0 /\
     reconcile_dim false (gather_dims k is_result_shape (EArr (V:=V) r out) ++ gather_dims k is_operand_shape e) = Ok d0).
  { intros k d A. assert (Hk : (k < n)%nat).
    { destruct L as [L _]. rewrite Forall_forall in L. apply L, in_or_app. apply addressed_cons in A.
      destruct A as [A|A]; [left|right; eapply addressed_label; eauto].
      apply addressed_one in A. eapply in_combine_l; eauto. }
    destruct (nth_error s k) as [d0|] eqn:Ed; [|apply nth_error_None in Ed; lia]. exists d0. split; auto. apply (E k d0 Ed). }
  split; [|split; [|split]].
  - intro k. destruct (nth_error s k) as [d|] eqn:Ed; cbn [snd]; [|lia].
    pose proof (E k d Ed) as Er. cbn [Nat.add] in Er. apply reconcile_inv in Er.
    destruct Er as [[_ ->]|(ds' & Eg & _)]; [cbn; lia|].
    assert (Hd : In d (gather_dims k is_result_shape (EArr (V:=V) r out) ++ gather_dims k is_operand_shape e)) by (rewrite Eg; left; auto).
    apply in_app_or in Hd. destruct Hd as [Hd|Hd]; apply gather_sound in Hd; auto.
    + destruct Hd as (d' & A & ->). eapply addressed_ext; [exact X|]. apply addressed_cons. left. exact A.
    + inv R. constructor; auto.
    + destruct Hd as (d' & A & ->). cbn. eapply (addressed_ext _ k); [exact X|]. apply addressed_cons. right. exact A.
  - intros k d A. pose proof A as A1. apply addressed_one in A1.
    destruct (K k d) as (d0 & Ed & Er); [apply addressed_cons; auto|]. rewrite Ed.
    cbn [gather_dims] in Er. rewrite (first_dim_in k d) in Er by auto. cbn [map kind_stride app] in Er.
    apply reconcile_inv in Er. destruct Er as [[H _]|(ds' & H & _)]; [discriminate|]. inv H. split; auto.
  - intros k d A. destruct (K k d) as (d0 & Ed & Er); [apply addressed_cons; auto|]. rewrite Ed.
    pose proof (gather_all k is_operand_shape e d R' D' A) as G.
    cbn [gather_dims] in Er. destruct (first_dim k out (r_shape r) Ro) as [[Ef M]|[d1 [Ef M]]]; rewrite Ef in Er; cbn [map kind_stride app] in Er.
    + apply reconcile_inv in Er. destruct Er as [[H _]|(ds' & H & C)].
      * rewrite H in G. contradiction.
      * assert (St : dstr d0 = 0).
        { assert (I : In d0 (gather_dims k is_operand_shape e)) by (rewrite H; left; auto).
          apply gather_sound in I; auto. destruct I as (? & _ & ->). reflexivity. }
        destruct C as [[C _]|[_ C]]; [congruence|]. left. rewrite H in G. destruct G as [G|G].
        -- subst d0. split; reflexivity.
        -- destruct (C _ G) as [C1 C2]. cbn in C1, C2. split; cbn; auto.
    + apply reconcile_inv in Er. destruct Er as [[H _]|(ds' & H & C)]; [discriminate|]. inv H.
      destruct C as [[C1 C2]|[C1 C2]]; destruct (C2 _ G) as [C3 C4]; cbn in C3, C4.
      * right. split; [split; cbn; auto|]. split; [exists d0; apply addressed_one; auto|].
        intros D0 A0. apply addressed_one in A0. apply (first_dim_in k D0) in A0; auto. rewrite Ef in A0. inv A0. auto.
      * left. split; cbn; auto.
  - intros k N. destruct (nth_error s k) as [d|] eqn:Ed; [|reflexivity].
    pose proof (E k d Ed) as Er. cbn [Nat.add gather_dims] in Er.
    destruct (first_dim k out (r_shape r) Ro) as [[Ef M]|[d1 [Ef M]]].
    2:{ exfalso. apply (N d1). apply addressed_cons. left. apply addressed_one. auto. }
    rewrite Ef in Er. cbn [map app] in Er.
    destruct (gather_dims k is_operand_shape e) as [|d1 ds] eqn:Eg.
    + cbn in Er. inv Er. reflexivity.
    + exfalso. destruct (gather_sound k is_operand_shape e d1 R') as (d2 & A & _); [rewrite Eg; left; auto|].
      apply (N d2). apply addressed_cons. auto.
Qed.

(** ** No undefined behaviour, with any aliasing *)

Lemma ein_fold_safe f r out e l : forall h,
  (forall env, In env l -> alive h (elem (r_base r) (r_shape r) (values_of out env))) ->
  (forall env r' is_, In env l -> In (r', is_) (operands e) -> alive h (elem (r_base r') (r_shape r') (values_of is_ env))) ->
  exists h', foldM (ein_assign f r out e) l h = Ok h'.
Proof.
  induction l as [|env l IH]; intros h A O; cbn [foldM]; [eauto|].
  destruct (computes_exists h e env) as [v Hv]; [intros; apply O; [left|]; auto|].
  destruct (A env (or_introl eq_refl)) as [old Ho].
  assert (St : ein_assign f r out e h env = Ok (upd h (elem (r_base r) (r_shape r) (values_of out env)) (Live (f old v)))).
  { unfold ein_assign. rewrite (eval_computes _ _ _ _ Hv). cbn [bind]. unfold ref_at. rewrite elem_ref.
    change (get_all out env) with (values_of out env).
    rewrite (proj2 (load_holds _ _ _) Ho). cbn [bind]. apply store_ok. eexists; eauto. }
  rewrite St. cbn [bind].
  assert (P : forall p, alive h p -> alive (upd h (elem (r_base r) (r_shape r) (values_of out env)) (Live (f old v))) p).
  { intros p [w Hw]. destruct (ptr_dec (elem (r_base r) (r_shape r) (values_of out env)) p) as [<-|N].
    - exists (f old v). apply peek_upd_same. unfold holds in Hw. congruence.
    - exists w. unfold holds. rewrite peek_upd_other; auto. }
  apply IH.
  - intros env' H. apply P, A. right. auto.
  - intros env' r' is_ H1 H2. apply P, (O env'); auto. right. auto.
Qed.

Lemma ein_reduce_safe nd f h r out e B n :
  ranks_match ((r, out) :: operands e) -> loops n (out ++ labels e) -> ranges r out (operands e) B ->
  operands_alive h ((r, out) :: operands e) -> exists h', ein_reduce nd f h r out e = Ok h'.
Proof.
  intros R L G Al.
  destruct (loop_shape_ok nd B n r out e R G L) as (s & Es & Xs & Is).
  assert (IB : forall env r' is_, In env (box s) -> In (r', is_) ((r, out) :: operands e) ->
               in_bounds (r_shape r') (values_of is_ env)).
  { intros env r' is_ He Hr. eapply operand_in_bounds; eauto. apply Is, box_In. exact He. }
  destruct (ein_fold_safe f r out e (box s) h) as [h' E].
  - intros env He. apply (Al r out); [left; auto|]. apply (IB env r out He). left. auto.
  - intros env r' is_ He Hr. apply (Al r' is_); [right; auto|]. apply (IB env r' is_ He). right. auto.
  - exists h'. unfold ein_reduce. rewrite Es. cbn [bind]. rewrite (fei_box s Xs). exact E.
Qed.

Lemma ein_debug n f h r out e : ranks_match ((r, out) :: operands e) -> dims_ok ((r, out) :: operands e) ->
  distinct ((r, out) :: operands e) -> loops n (out ++ labels e) -> operands_alive h ((r, out) :: operands e) ->
  ((exists B, ranges r out (operands e) B) /\ exists h', ein_reduce false f h r out e = Ok h') \/
  (~ (exists B, ranges r out (operands e) B) /\ ein_reduce false f h r out e = AssertFail).
Proof.
  intros R X D L Al. destruct (ein_loop_shape false r out e) as [s| |] eqn:E.
  - left. destruct (ranges_of_shape n r out e s R X D L E) as [B G]. split; [eauto|].
    eapply ein_reduce_safe; eauto.
  - right. split.
    + intros [B G]. destruct (loop_shape_ok false B n r out e R G L) as (s & E' & _). congruence.
    + unfold ein_reduce. rewrite E. reflexivity.
  - exfalso. unfold ein_loop_shape in E. revert E. apply reconcile_all_not_ub.
Qed.

Lemma ein_accesses n r out e s env r' is_ : ranks_match ((r, out) :: operands e) -> dims_ok ((r, out) :: operands e) ->
  distinct ((r, out) :: operands e) -> loops n (out ++ labels e) ->
  ein_loop_shape false r out e = Ok s -> in_bounds s env -> In (r', is_) ((r, out) :: operands e) ->
  in_bounds (r_shape r') (values_of is_ env).
Proof.
  intros R X D L E I H. destruct (ranges_of_shape n r out e s R X D L E) as [B G].
  destruct (loop_shape_ok false B n r out e R G L) as (s' & E' & _ & Is). assert (s' = s) by congruence. subst s'.
  eapply operand_in_bounds; eauto. apply Is. exact I.
Qed.

End Ein.
