(** Facts about Einstein reductions. *)
From Verif Require Import Tac Interval Shape Traverse Memory Ref Spec SpecMem Static Container Ein SpecEin
  ShapeFacts IntervalFacts TraverseFacts MemFacts RefFacts.
Import ListNotations.
Open Scope Z_scope.

(** ** Labels and dims *)

Lemma index_of_missing D is_ : ~ In D is_ -> (length is_ <= index_of D is_)%nat.
Proof.
  induction is_ as [|i is_ IH]; cbn [index_of length In]; intro H; [lia|].
  destruct (Nat.eqb_spec D i) as [->|N]; [tauto|]. specialize (IH ltac:(tauto)). lia.
Qed.
Lemma first_dim D is_ (s : list dim) : length is_ = length s ->
  (get_or_empty (index_of D is_) s = [] /\ ~ In D is_) \/
  (exists d, get_or_empty (index_of D is_) s = [d] /\ In (D, d) (combine is_ s)).
Proof.
  revert s. induction is_ as [|i is_ IH]; intros [|d s] L; try discriminate L.
  - left. split; auto.
  - cbn [index_of combine In]. destruct (Nat.eqb_spec D i) as [->|N].
    + right. exists d. split; auto.
    + destruct (IH s) as [[E M]|[d' [E M]]]; [simpl in L; lia| |].
      * left. split; [exact E|]. intros [?|?]; congruence || tauto.
      * right. exists d'. split; [exact E|]. auto.
Qed.
Lemma first_dim_in D d is_ (s : list dim) : NoDup is_ -> length is_ = length s -> In (D, d) (combine is_ s) ->
  get_or_empty (index_of D is_) s = [d].
Proof.
  intros N L H. destruct (first_dim D is_ s L) as [[_ M]|[d' [E M]]].
  - exfalso. apply M. eapply in_combine_l; eauto.
  - rewrite E. f_equal. clear E. revert s L H M. induction N as [|i is_ Hi N IH]; intros [|d0 s] L H M; try contradiction.
    cbn [combine In] in *. destruct H as [H|H], M as [M|M].
    + congruence.
    + inv H. exfalso. apply Hi. eapply in_combine_l; eauto.
    + inv M. exfalso. apply Hi. eapply in_combine_l; eauto.
    + apply (IH s); auto.
Qed.

Section Ein.
Context {V : Type}.
Implicit Types (h : heap V) (e : expr V).

Lemma addressed_cons o ops k d : addressed (o :: ops) k d <-> addressed [o] k d \/ addressed ops k d.
Proof.
  unfold addressed. cbn [In]. split.
  - intros (r & is_ & [E|H] & G); [left|right]; eauto 6.
  - intros [(r & is_ & [E|[]] & G)|(r & is_ & H & G)]; eauto 6.
Qed.
Lemma addressed_app a b k d : addressed (a ++ b) k d <-> addressed a k d \/ addressed b k d.
Proof.
  unfold addressed. setoid_rewrite in_app_iff. split.
  - intros (r & is_ & [E|H] & G); [left|right]; eauto 6.
  - intros [(r & is_ & E & G)|(r & is_ & H & G)]; eauto 6.
Qed.
Lemma addressed_nil k d : ~ addressed [] k d.
Proof. intros (r & is_ & [] & _). Qed.

Lemma gather_sound D k e d' : ranks_match (operands e) -> In d' (gather_dims D k e) ->
  exists d, addressed (operands e) D d /\ d' = kind_stride k d.
Proof.
  induction e as [r is_|f is_|f e IH|f a IHa b IHb]; cbn [gather_dims operands]; intros R H; auto.
  - inv R. cbn [fst snd] in *. destruct (first_dim D is_ (r_shape r)) as [[E _]|[d [E M]]]; auto; rewrite E in H; [contradiction|].
    destruct H as [<-|[]]. exists d. split; auto. exists r, is_. split; [left|]; auto.
  - contradiction.
  - unfold ranks_match in R. apply Forall_app in R. destruct R as [Ra Rb].
    apply in_app_or in H. destruct H as [H|H]; [destruct (IHa Ra H) as (d & A & E)|destruct (IHb Rb H) as (d & A & E)];
      exists d; (split; [apply addressed_app; auto|auto]).
Qed.
Lemma gather_none D k e : ranks_match (operands e) -> gather_dims D k e = [] -> forall d, ~ addressed (operands e) D d.
Proof.
  induction e as [r is_|f is_|f e IH|f a IHa b IHb]; cbn [gather_dims operands]; intros R H d; auto.
  - inv R. cbn [fst snd] in *. destruct (first_dim D is_ (r_shape r)) as [[E M]|[d0 [E M]]]; auto; rewrite E in H; [|discriminate].
    intros (r' & is' & [X|[]] & G). inv X. apply M. eapply in_combine_l; eauto.
  - apply addressed_nil.
  - unfold ranks_match in R. apply Forall_app in R. destruct R as [Ra Rb]. apply app_eq_nil in H. destruct H as [Ha Hb].
    rewrite addressed_app. intros [A|A]; [eapply IHa|eapply IHb]; eauto.
Qed.
Lemma gather_all D k e d : ranks_match (operands e) -> Forall (fun o => NoDup (snd o)) (operands e) ->
  addressed (operands e) D d -> In (kind_stride k d) (gather_dims D k e).
Proof.
  induction e as [r is_|f is_|f e IH|f a IHa b IHb]; cbn [gather_dims operands]; intros R N H; auto.
  - inv R. inv N. cbn [fst snd] in *. destruct H as (r' & is' & [X|[]] & G). inv X.
    rewrite (first_dim_in D d is' (r_shape r')) by auto. left. auto.
  - destruct (addressed_nil _ _ H).
  - unfold ranks_match in R. apply Forall_app in R. destruct R as [Ra Rb]. apply Forall_app in N. destruct N as [Na Nb].
    apply addressed_app in H. apply in_or_app. destruct H; [left|right]; auto.
Qed.

(** ** The number of loops *)

Lemma list_max_bound k l : In k l -> (k <= list_max l)%nat.
Proof. induction l; simpl; [tauto|]. intros [->|H]; [lia|]. specialize (IHl H). lia. Qed.
Lemma list_max_In l : l <> [] -> In (list_max l) l.
Proof.
  induction l as [|a l IH]; [congruence|]. intros _. simpl. destruct l as [|b l].
  - simpl. left. lia.
  - destruct (Nat.max_spec a (list_max (b :: l))) as [[_ E]|[_ E]]; fold list_max; rewrite E; [right; apply IH; discriminate|auto].
Qed.
Lemma op_rank_loops is_ : loops (op_rank is_) is_.
Proof.
  destruct is_ as [|i is_]; cbn [op_rank].
  - split; [constructor|congruence].
  - split; [|intros _; apply list_max_In; discriminate].
    apply Forall_forall. intros k Hk. apply list_max_bound in Hk. lia.
Qed.
Lemma loops_app n m a b : loops n a -> loops m b -> loops (Nat.max n m) (a ++ b).
Proof.
  intros [A1 A2] [B1 B2]. split.
  - apply Forall_app. split; [eapply Forall_impl; [|exact A1]|eapply Forall_impl; [|exact B1]]; simpl; intros; lia.
  - intro N. apply in_or_app. destruct (Nat.max_spec n m) as [[H E]|[H E]]; rewrite E in *; auto.
Qed.
Lemma loop_rank_loops e : loops (loop_rank e) (labels e).
Proof. induction e; cbn [loop_rank labels]; auto using op_rank_loops, loops_app. Qed.
Lemma loops_unique n m l : loops n l -> loops m l -> n = m.
Proof.
  intros [A1 A2] [B1 B2]. rewrite Forall_forall in A1, B1.
  destruct (Nat.eq_dec n 0) as [->|N], (Nat.eq_dec m 0) as [->|M]; auto.
  - specialize (A1 _ (B2 M)). lia.
  - specialize (B1 _ (A2 N)). lia.
  - specialize (A1 _ (B2 M)). specialize (B1 _ (A2 N)). lia.
Qed.
Lemma rank_of n out e : loops n (out ++ labels e) -> Nat.max (op_rank out) (loop_rank e) = n.
Proof. intro H. eapply loops_unique; [|exact H]. apply loops_app; [apply op_rank_loops|apply loop_rank_loops]. Qed.

(** ** The loop shape *)

Lemma assert_ok nd b : b = true -> assert_ nd b = Ok tt.
Proof. intros ->. reflexivity. Qed.

Lemma reconcile_ok nd B r out e k : ranks_match ((r, out) :: operands e) -> ranges r out (operands e) B ->
  exists d, reconcile_dim nd (gather_dims k is_result_shape (EArr (V:=V) r out) ++ gather_dims k is_operand_shape e) = Ok d /\
    span_is (B k) d.
Proof.
  intros R (G0 & G1 & G2 & G3). inv R. rename H1 into L. rename H2 into R. cbn [fst snd] in L.
  cbn [gather_dims]. destruct (first_dim k out (r_shape r) L) as [[E M]|[d0 [E M]]]; rewrite E; cbn [map kind_stride app].
  - assert (N : forall d, ~ addressed [(r, out)] k d).
    { intros d (r' & is' & [X|[]] & A). inv X. apply M. eapply in_combine_l; eauto. }
    destruct (gather_dims k is_operand_shape e) as [|d1 ds] eqn:Eg.
    + exists (mkD 0 1 0). split; [reflexivity|]. rewrite G3; [split; reflexivity|].
      intros d A. apply addressed_cons in A. destruct A as [A|A]; [eapply N; eauto|].
      eapply gather_none; eauto.
    + assert (A : forall d, In d (d1 :: ds) -> span_is (B k) d /\ dstr d = 0).
      { intros d Hd. rewrite <- Eg in Hd. destruct (gather_sound _ _ _ _ R Hd) as (d' & A & ->). split; [|reflexivity].
        destruct (G2 k d' A) as [S|(_ & (D & A') & _)]; [|destruct (N _ A')]. destruct S. split; cbn; auto. }
      exists d1. destruct (A d1 (or_introl eq_refl)) as [S E0]. split; [|exact S]. destruct S as [S1 S2].
      unfold reconcile_dim. rewrite E0. cbn [Z.eqb negb].
      rewrite assert_ok; [cbn [bind]; rewrite assert_ok; [reflexivity|]|];
        apply vall_map, Forall_forall; intros d Hd; destruct (A d (or_intror Hd)) as [[T1 T2] _]; lia.
  - assert (A0 : addressed [(r, out)] k d0) by (exists r, out; split; [left|]; auto).
    exists d0. pose proof (G1 _ _ A0) as S. split; [|exact S]. destruct S as [S1 S2].
    unfold reconcile_dim. destruct (Z.eqb_spec (dstr d0) 0) as [E0|E0]; cbn [negb].
    + assert (A : forall d, In d (gather_dims k is_operand_shape e) -> span_is (B k) d).
      { intros d Hd. destruct (gather_sound _ _ _ _ R Hd) as (d' & A & ->).
        destruct (G2 k d' A) as [S|(_ & _ & S)]; [destruct S; split; cbn; auto|]. exfalso. eapply S; eauto. }
      rewrite assert_ok; [cbn [bind]; rewrite assert_ok; [reflexivity|]|];
        apply vall_map, Forall_forall; intros d Hd; destruct (A d Hd) as [T1 T2]; lia.
    + rewrite assert_ok; [reflexivity|]. apply vall_map, Forall_forall. intros d Hd.
      destruct (gather_sound _ _ _ _ R Hd) as (d' & A & ->).
      assert (S : span_within (B k) d').
      { destruct (G2 k d' A) as [[S T]|[S _]]; [split; lia|exact S]. }
      destruct S as [T1 T2]. unfold i_in_range_interval, imax, d_interval; cbn. lia.
Qed.

Lemma reconcile_all_ok nd ks (dims_for : nat -> list dim) (P : nat -> dim -> Prop) :
  (forall k, In k ks -> exists d, reconcile_dim nd (dims_for k) = Ok d /\ P k d) ->
  exists s, reconcile_all nd ks dims_for = Ok s /\ Forall2 P ks s.
Proof.
  unfold reconcile_all. induction ks as [|k ks IH]; intro H; cbn [flat_mapM]; [eauto|].
  destruct (H k (or_introl eq_refl)) as (d & -> & Pd). cbn [bind].
  destruct IH as (s & -> & Ps); [intros; apply H; right; auto|]. cbn [bind app]. eauto.
Qed.

Lemma Forall2_seq {A} (P : nat -> A -> Prop) s n a : Forall2 P (seq a n) s <->
  (length s = n /\ forall k x, nth_error s k = Some x -> P (a + k)%nat x).
Proof.
  revert a s. induction n as [|n IH]; intros a s; cbn [seq].
  - split.
    + intro H. inv H. split; auto. intros [|k] x; discriminate.
    + intros [L _]. destruct s; [constructor|discriminate].
  - split.
    + intro H. inv H. apply IH in H4. destruct H4 as [L G]. split; [simpl; lia|].
      intros [|k] x E; cbn in E; [inv E; rewrite Nat.add_0_r; auto|]. rewrite <- Nat.add_succ_comm. auto.
    + intros [L G]. destruct s as [|x s]; [discriminate|]. constructor.
      * specialize (G 0%nat x eq_refl). rewrite Nat.add_0_r in G. auto.
      * apply IH. split; [simpl in L; lia|]. intros k y E. rewrite Nat.add_succ_comm. apply G. auto.
Qed.

Lemma loop_bounds B n s env : Forall2 (fun k d => span_is (B k) d) (seq 0 n) s ->
  (in_bounds s env <-> loop_index B n env).
Proof.
  intro H. apply Forall2_seq in H. destruct H as [L H]. rewrite in_bounds_nth. unfold loop_index. rewrite L.
  split; intros [E G]; (split; [exact E|]).
  - intros k Hk. destruct (nth_error s k) as [d|] eqn:Ed; [|apply nth_error_None in Ed; lia].
    destruct (H k d Ed) as [S1 S2]. cbn in S1, S2. specialize (G k d Ed). unfold in_dim in G. lia.
  - intros k d Ed. destruct (H k d Ed) as [S1 S2]. cbn in S1, S2.
    assert (Hk : (k < n)%nat) by (rewrite <- L; apply nth_error_Some; congruence).
    specialize (G k Hk). unfold in_dim. lia.
Qed.

Lemma loop_shape_ok nd B n r out e : ranks_match ((r, out) :: operands e) -> ranges r out (operands e) B ->
  loops n (out ++ labels e) ->
  exists s, ein_loop_shape nd r out e = Ok s /\ extents_ge 0 s /\ (forall env, in_bounds s env <-> loop_index B n env).
Proof.
  intros R G L. unfold ein_loop_shape. rewrite (rank_of n) by auto.
  destruct (reconcile_all_ok nd (seq 0 n)
    (fun D => gather_dims D is_result_shape (EArr (V:=V) r out) ++ gather_dims D is_operand_shape e) (fun k d => span_is (B k) d))
    as (s & E & S).
  { intros k _. apply reconcile_ok; auto. }
  exists s. split; [exact E|]. split.
  - destruct G as (G0 & _). apply Forall_forall. intros d Hd. apply In_nth_error in Hd. destruct Hd as [k Hk].
    apply Forall2_seq in S. destruct S as [_ S]. destruct (S k d Hk) as [_ S2]. cbn in S2. rewrite S2. apply G0.
  - intro env. apply loop_bounds. exact S.
Qed.

(** ** Accesses are in bounds *)

Lemma access_in_bounds B n r is_ env : length is_ = length (r_shape r) -> Forall (fun k => (k < n)%nat) is_ ->
  (forall k d, In (k, d) (combine is_ (r_shape r)) -> span_within (B k) d) -> loop_index B n env ->
  in_bounds (r_shape r) (values_of is_ env).
Proof.
  intros L N W [_ I]. revert L W. generalize (r_shape r) as s. induction N as [|k is_ Hk N IH]; intros [|d s] L W; try discriminate L.
  - constructor.
  - constructor.
    + specialize (I k Hk). destruct (W k d) as [W1 W2]; [left; auto|]. unfold in_dim. lia.
    + apply IH; [simpl in L; lia|]. intros k' d' H. apply W. right. auto.
Qed.

Lemma operand_in_bounds B n r out e r' is_ env : ranks_match ((r, out) :: operands e) -> ranges r out (operands e) B ->
  loops n (out ++ labels e) -> loop_index B n env -> In (r', is_) ((r, out) :: operands e) ->
  in_bounds (r_shape r') (values_of is_ env).
Proof.
  intros R (_ & G1 & G2 & _) [L _] I H.
  unfold ranks_match in R. rewrite Forall_forall in R. specialize (R _ H) as Len. cbn [fst snd] in Len.
  apply (access_in_bounds B n); auto.
  - apply Forall_app in L. destruct L as [L1 L2]. destruct H as [H|H]; [inv H; exact L1|].
    clear -L2 H. induction e as [r0 is0|f is0|f e IH|f a IHa b IHb]; cbn [labels operands] in *.
    + destruct H as [H|[]]. inv H. auto.
    + contradiction.
    + auto.
    + apply Forall_app in L2. destruct L2. apply in_app_or in H. destruct H; auto.
  - intros k d A. destruct H as [H|H].
    + inv H. destruct (G1 k d) as [S1 S2]; [exists r', is_; split; [left|]; auto|]. split; lia.
    + destruct (G2 k d) as [[S1 S2]|[S _]]; [exists r', is_; split; auto|split; lia|exact S].
Qed.

(** ** Evaluation *)

Lemma eval_computes h e env v : computes h env e v -> eval h e env = Ok v.
Proof.
  induction 1; cbn [eval].
  - unfold ref_at. rewrite elem_ref. apply load_holds. auto.
  - reflexivity.
  - rewrite IHcomputes. reflexivity.
  - rewrite IHcomputes1. cbn [bind]. rewrite IHcomputes2. reflexivity.
Qed.
Lemma computes_transfer h h' e env v :
  (forall r is_, In (r, is_) (operands e) -> peek h' (elem (r_base r) (r_shape r) (values_of is_ env)) =
                                            peek h (elem (r_base r) (r_shape r) (values_of is_ env))) ->
  computes h env e v -> computes h' env e v.
Proof.
  intros A H. induction H; cbn [operands] in A; constructor; auto.
  - unfold holds. rewrite A by (left; auto). auto.
  - apply IHcomputes1. intros. apply A, in_or_app. auto.
  - apply IHcomputes2. intros. apply A, in_or_app. auto.
Qed.
Lemma computes_exists h e env :
  (forall r is_, In (r, is_) (operands e) -> alive h (elem (r_base r) (r_shape r) (values_of is_ env))) ->
  exists v, computes h env e v.
Proof.
  induction e as [r is_|f is_|f e IH|f a IHa b IHb]; cbn [operands]; intro A.
  - destruct (A r is_ (or_introl eq_refl)) as [v Hv]. exists v. constructor. auto.
  - eexists. constructor.
  - destruct (IH A) as [v Hv]. eexists. constructor. eauto.
  - destruct IHa as [v Hv]; [intros; apply A, in_or_app; auto|]. destruct IHb as [w Hw]; [intros; apply A, in_or_app; auto|].
    eexists. constructor; eauto.
Qed.
Lemma computes_fun h e env v w : computes h env e v -> computes h env e w -> v = w.
Proof. intros A B. apply eval_computes in A, B. congruence. Qed.

(** ** The loop *)

Lemma only_changes_trans (P : ptr -> Prop) h1 h2 h3 : only_changes P h1 h2 -> only_changes P h2 h3 -> only_changes P h1 h3.
Proof. intros (A1 & A2 & A3) (B1 & B2 & B3). split; [|split]; [intros; rewrite B1, A1; auto|congruence|intro; rewrite B3; auto]. Qed.
Lemma only_changes_upd (P : ptr -> Prop) h p c : P p -> only_changes P h (upd h p c).
Proof. intro H. apply (upds_only_changes h [(p, c)]). intros q [<-|[]]. auto. Qed.

Lemma ein_fold f r out e h0 l : forall h,
  only_changes (is_elem (r_base r) (r_shape r)) h0 h ->
  (forall env, In env l -> is_elem (r_base r) (r_shape r) (elem (r_base r) (r_shape r) (values_of out env))) ->
  (forall p, is_elem (r_base r) (r_shape r) p -> alive h p) ->
  (forall env, In env l -> exists v, computes h0 env e v) ->
  (forall env r' is_, In env l -> In (r', is_) (operands e) ->
     ~ is_elem (r_base r) (r_shape r) (elem (r_base r') (r_shape r') (values_of is_ env))) ->
  exists h', foldM (ein_assign f r out e) l h = Ok h' /\ only_changes (is_elem (r_base r) (r_shape r)) h h' /\
    forall p old, is_elem (r_base r) (r_shape r) p -> holds h p old ->
      exists vs, Forall2 (fun env v => computes h0 env e v)
                   (filter (fun env => ptr_eqb (elem (r_base r) (r_shape r) (values_of out env)) p) l) vs /\
        holds h' p (fold_left f vs old).
Proof.
  set (el := is_elem (r_base r) (r_shape r)). set (addr := fun env => elem (r_base r) (r_shape r) (values_of out env)).
  induction l as [|env l IH]; intros h C A L Ex Ap; cbn [foldM].
  - exists h. split; [reflexivity|]. split; [apply only_changes_refl|]. intros p old Hp Ho. exists []. split; [constructor|]. exact Ho.
  - destruct (Ex env (or_introl eq_refl)) as [v Hv].
    assert (Hv1 : computes h env e v).
    { eapply computes_transfer; [|exact Hv]. intros r' is_ Hr. apply C. apply (Ap env r' is_ (or_introl eq_refl) Hr). }
    destruct (L (addr env) (A env (or_introl eq_refl))) as [old Ho].
    assert (St : ein_assign f r out e h env = Ok (upd h (addr env) (Live (f old v)))).
    { unfold ein_assign. rewrite (eval_computes _ _ _ _ Hv1). cbn [bind]. unfold ref_at. rewrite elem_ref.
      change (get_all out env) with (values_of out env). fold (addr env).
      rewrite (proj2 (load_holds _ _ _) Ho). cbn [bind]. apply store_ok. eexists; eauto. }
    rewrite St. cbn [bind].
    set (h1 := upd h (addr env) (Live (f old v))).
    assert (C1 : only_changes el h h1) by (apply only_changes_upd, A; left; auto).
    assert (P1 : holds h1 (addr env) (f old v)) by (apply peek_upd_same; unfold holds in Ho; congruence).
    destruct (IH h1) as (h' & E & C' & F).
    + eapply only_changes_trans; eauto.
    + intros; apply A; right; auto.
    + intros p Hp. destruct (ptr_dec (addr env) p) as [<-|N]; [eexists; eauto|].
      destruct (L p Hp) as [w Hw]. exists w. unfold holds, h1. rewrite peek_upd_other; auto.
    + intros; apply Ex; right; auto.
    + intros env' r' is_ H. apply Ap. right. auto.
    + exists h'. split; [exact E|]. split; [eapply only_changes_trans; eauto|].
      intros p old' Hp Ho'. cbn [filter]. fold (addr env). destruct (ptr_eqb (addr env) p) eqn:Eq.
      * apply ptr_eqb_eq in Eq. subst p. assert (old' = old) by (unfold holds in *; congruence). subst old'.
        destruct (F (addr env) (f old v) Hp P1) as (vs & Fv & Hf). exists (v :: vs). split; [constructor; auto|exact Hf].
      * assert (N : addr env <> p) by (intro; subst; rewrite ptr_eqb_refl in Eq; discriminate).
        apply (F p old' Hp). unfold holds, h1. rewrite peek_upd_other; auto.
Qed.

Lemma filter_sorted {A} (R : A -> A -> Prop) g l : StronglySorted R l -> StronglySorted R (filter g l).
Proof.
  induction 1 as [|a l S IH F]; cbn [filter]; [constructor|]. destruct (g a); auto. constructor; auto.
  rewrite Forall_forall in *. intros x Hx. apply filter_In in Hx. apply F, Hx.
Qed.
Lemma filter_enumerates {A} (P Q : A -> Prop) g l : (forall x, g x = true <-> Q x) -> enumerates P l ->
  enumerates (fun x => P x /\ Q x) (filter g l).
Proof. intros G [N H]. split; [apply NoDup_filter; auto|]. intro x. rewrite filter_In, H, G. tauto. Qed.

Lemma ein_reduce_spec nd f h r out e B n :
  ranks_match ((r, out) :: operands e) -> loops n (out ++ labels e) -> ranges r out (operands e) B ->
  operands_alive h ((r, out) :: operands e) -> operands_apart r (operands e) ->
  exists h', ein_reduce nd f h r out e = Ok h' /\ only_changes (is_elem (r_base r) (r_shape r)) h h' /\
    forall p old, is_elem (r_base r) (r_shape r) p -> holds h p old ->
      exists w, holds h' p w /\
        reduces h f e (fun env => loop_index B n env /\ elem (r_base r) (r_shape r) (values_of out env) = p) old w.
Proof.
  intros R L G Al Ap.
  destruct (loop_shape_ok nd B n r out e R G L) as (s & Es & Xs & Is).
  assert (IB : forall env r' is_, In env (box s) -> In (r', is_) ((r, out) :: operands e) ->
               in_bounds (r_shape r') (values_of is_ env)).
  { intros env r' is_ He Hr. eapply operand_in_bounds; eauto. apply Is, box_In. exact He. }
  destruct (ein_fold f r out e h (box s) h) as (h' & E & C & F).
  - apply only_changes_refl.
  - intros env He. exists (values_of out env). split; auto. apply (IB env r out He). left. auto.
  - intros p (i & Hi & ->). apply (Al r out i); [left; auto|exact Hi].
  - intros env He. apply computes_exists. intros r' is_ Hr. apply (Al r' is_); [right; exact Hr|].
    apply (IB env r' is_ He). right. exact Hr.
  - intros env r' is_ He Hr. apply (Ap r' is_); auto. apply (IB env r' is_ He). right. exact Hr.
  - exists h'. split; [unfold ein_reduce; rewrite Es; cbn [bind]; rewrite (fei_box s Xs); cbn [bind]; exact E|].
    split; [exact C|]. intros p old Hp Ho. destruct (F p old Hp Ho) as (vs & Fv & Hw). exists (fold_left f vs old). split; [exact Hw|].
    eexists _, vs. split; [|split; [|split; [exact Fv|reflexivity]]].
    + assert (Q : enumerates (loop_index B n) (box s)).
      { split; [apply box_NoDup|]. intro x. rewrite box_In. apply Is. }
      eapply filter_enumerates in Q; [exact Q|]. intro env. apply ptr_eqb_eq.
    + apply filter_sorted, box_sorted.
Qed.

End Ein.
