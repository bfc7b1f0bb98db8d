(** Facts about particular reductions: in place, in any order, and the usual products. *)
From Coq Require Import Sorted Permutation.
From Verif Require Import Tac Interval Shape Traverse Memory Ref Spec SpecMem SpecContainer Static SpecStatic Container Ein SpecEin
  ShapeFacts IntervalFacts ResolveFacts ShapeProps TraverseFacts MemFacts RefFacts ContainerFacts StaticFacts EinFacts EinSum EinMake.
Import ListNotations.
Open Scope Z_scope.

(** ** Sorted enumerations are unique *)

Lemma colex_irrefl : forall a, ~ colex_lt a a.
Proof. induction a as [|x a IH]; cbn [colex_lt]; [auto|]. intros [H|[_ H]]; [auto|lia]. Qed.
Lemma colex_asym : forall a b, colex_lt a b -> colex_lt b a -> False.
Proof.
  induction a as [|x a IH]; intros [|y b]; cbn [colex_lt]; try tauto.
  intros [H|[<- H]] [H1|[E H1]]; subst; eauto using colex_irrefl; try (eapply colex_irrefl; eassumption). lia.
Qed.
Lemma sorted_unique (l1 : list (list Z)) : forall l2, StronglySorted colex_lt l1 -> StronglySorted colex_lt l2 ->
  (forall x, In x l1 <-> In x l2) -> l1 = l2.
Proof.
  induction l1 as [|a l1 IH]; intros [|b l2] S1 S2 H; [reflexivity| | |].
  - exfalso. apply (H b). left. auto.
  - exfalso. apply (H a). left. auto.
  - inv S1. inv S2. rewrite Forall_forall in *.
    assert (a = b).
    { assert (A : In a (b :: l2)) by (apply H; left; auto). assert (A' : In b (a :: l1)) by (apply H; left; auto).
      destruct A as [A|A]; [auto|]. destruct A' as [A'|A']; [auto|]. exfalso. eapply colex_asym; eauto. }
    subst b. f_equal. apply IH; auto. intro x. split; intro I.
    + assert (J : In x (a :: l2)) by (apply H; right; auto). destruct J as [<-|J]; auto. exfalso. eapply colex_irrefl; eauto.
    + assert (J : In x (a :: l1)) by (apply H; right; auto). destruct J as [<-|J]; auto. exfalso. eapply colex_irrefl; eauto.
Qed.

Lemma range_In lo n z : In z (range lo n) <-> lo <= z < lo + n.
Proof.
  unfold range. rewrite in_map_iff. split.
  - intros (k & <- & H). apply in_seq in H. lia.
  - intro H. exists (Z.to_nat (z - lo)). split; [lia|]. apply in_seq. lia.
Qed.
Lemma range_sorted lo n : StronglySorted Z.lt (range lo n).
Proof.
  unfold range. generalize 0%nat. induction (Z.to_nat n) as [|m IH]; intro k; cbn [seq map]; constructor; auto.
  apply Forall_forall. intros z H. apply in_map_iff in H. destruct H as (j & <- & H). apply in_seq in H. lia.
Qed.

Section Ein.
Context {V : Type}.
Implicit Types (h : heap V) (e : expr V).

Lemma computes_all_fun h e envs vs ws : Forall2 (fun env v => computes h env e v) envs vs ->
  Forall2 (fun env v => computes h env e v) envs ws -> vs = ws.
Proof.
  intro H. revert ws. induction H; intros ws H1; inv H1; [reflexivity|]. f_equal; [eapply computes_fun; eauto|auto].
Qed.

Lemma reduces_sorted h f e P old w envs vs : reduces h f e P old w -> (forall x, In x envs <-> P x) ->
  StronglySorted colex_lt envs -> Forall2 (fun env v => computes h env e v) envs vs -> w = fold_left f vs old.
Proof.
  intros (envs' & vs' & [_ En] & So & Fo & ->) In_ So' Fo'.
  assert (envs' = envs) by (apply sorted_unique; auto; intro x; rewrite En, In_; tauto). subst envs'.
  f_equal. eapply computes_all_fun; eauto.
Qed.

(** ** Any order *)
Lemma fold_perm (f : V -> V -> V) : (forall a b c, f (f a b) c = f (f a c) b) ->
  forall l l', Permutation l l' -> forall a, fold_left f l a = fold_left f l' a.
Proof. intros C l l' H. induction H; intro a; cbn [fold_left]; auto. - rewrite C. auto. - rewrite IHPermutation1. auto. Qed.
Lemma Forall2_perm {A B} (R : A -> B -> Prop) l l' : Permutation l l' -> forall m, Forall2 R l m ->
  exists m', Permutation m m' /\ Forall2 R l' m'.
Proof.
  induction 1; intros m F.
  - inv F. exists []. split; constructor.
  - inv F. destruct (IHPermutation _ H4) as (m' & P & F). exists (y :: m'). split; constructor; auto.
  - inv F. inv H3. eexists. split; [apply perm_swap|]. repeat constructor; auto.
  - destruct (IHPermutation1 _ F) as (m1 & P1 & F1). destruct (IHPermutation2 _ F1) as (m2 & P2 & F2).
    exists m2. split; [eapply Permutation_trans; eauto|auto].
Qed.
Lemma reduces_any_order h f e P old w envs vs : (forall a b c, f (f a b) c = f (f a c) b) ->
  reduces h f e P old w -> enumerates P envs -> Forall2 (fun env v => computes h env e v) envs vs ->
  w = fold_left f vs old.
Proof.
  intros C (envs' & vs' & En & _ & Fo & ->) En' Fo'.
  assert (Pm : Permutation envs' envs).
  { destruct En as [N I], En' as [N' I']. apply NoDup_Permutation; auto. intro x. rewrite I, I'. tauto. }
  destruct (Forall2_perm _ _ _ Pm _ Fo) as (ws & Pw & Fw). rewrite (fold_perm f C _ _ Pw). f_equal.
  eapply computes_all_fun; eauto.
Qed.

(** ** By index, if the layout is one-to-one *)
Lemma ein_reduce_index nd f h r out e B n :
  ranks_match ((r, out) :: operands e) -> loops n (out ++ labels e) -> ranges r out (operands e) B ->
  operands_alive h ((r, out) :: operands e) -> operands_apart r (operands e) -> injective_layout (r_shape r) ->
  exists h', ein_reduce nd f h r out e = Ok h' /\ only_changes (is_elem (r_base r) (r_shape r)) h h' /\
    forall o old, in_bounds (r_shape r) o -> holds h (elem (r_base r) (r_shape r) o) old ->
      exists w, holds h' (elem (r_base r) (r_shape r) o) w /\
        reduces h f e (fun env => loop_index B n env /\ values_of out env = o) old w.
Proof.
  intros R L G Al Ap Inj. destruct (ein_reduce_spec nd f h r out e B n R L G Al Ap) as (h' & E & C & F).
  exists h'. split; [exact E|]. split; [exact C|]. intros o old Ho H.
  destruct (F _ old (ex_intro _ o (conj Ho eq_refl)) H) as (w & Hw & Rw). exists w. split; [exact Hw|].
  eapply reduces_weaken; [|exact Rw]. intro env. split; intros [I E1]; (split; [exact I|]).
  - apply Inj; auto; [|eapply elem_inj; exact E1]. eapply (operand_in_bounds B n r out e r out); eauto. left. auto.
  - rewrite E1. reflexivity.
Qed.
Lemma ein_reduce_any_order nd f h r out e B n : (forall a b c, f (f a b) c = f (f a c) b) ->
  ranks_match ((r, out) :: operands e) -> loops n (out ++ labels e) -> ranges r out (operands e) B ->
  operands_alive h ((r, out) :: operands e) -> operands_apart r (operands e) -> injective_layout (r_shape r) ->
  exists h', ein_reduce nd f h r out e = Ok h' /\
    forall o old envs vs, in_bounds (r_shape r) o -> holds h (elem (r_base r) (r_shape r) o) old ->
      enumerates (fun env => loop_index B n env /\ values_of out env = o) envs ->
      Forall2 (fun env v => computes h env e v) envs vs ->
      holds h' (elem (r_base r) (r_shape r) o) (fold_left f vs old).
Proof.
  intros C R L G Al Ap Inj. destruct (ein_reduce_index nd f h r out e B n R L G Al Ap Inj) as (h' & E & _ & F).
  exists h'. split; [exact E|]. intros o old envs vs Ho H En Fv. destruct (F o old Ho H) as (w & Hw & Rw).
  rewrite <- (reduces_any_order h f e _ old w envs vs C Rw En Fv). exact Hw.
Qed.

(** ** In place *)
Lemma ein_fold_in_place f r out e h0 : forall l h,
  NoDup (map (fun env => elem (r_base r) (r_shape r) (values_of out env)) l) ->
  (forall env r' is_, In env l -> In (r', is_) (operands e) -> alive h0 (elem (r_base r') (r_shape r') (values_of is_ env))) ->
  (forall env, In env l -> alive h0 (elem (r_base r) (r_shape r) (values_of out env))) ->
  (** the elements still to be assigned have not changed, nor what is read for them *)
  (forall env, In env l -> peek h (elem (r_base r) (r_shape r) (values_of out env)) = peek h0 (elem (r_base r) (r_shape r) (values_of out env))) ->
  (forall env r' is_, In env l -> In (r', is_) (operands e) ->
     peek h (elem (r_base r') (r_shape r') (values_of is_ env)) = peek h0 (elem (r_base r') (r_shape r') (values_of is_ env))) ->
  (forall env r' is_, In env l -> In (r', is_) (operands e) -> forall env', In env' l ->
     elem (r_base r') (r_shape r') (values_of is_ env) = elem (r_base r) (r_shape r) (values_of out env') -> env = env') ->
  exists h', foldM (ein_assign f r out e) l h = Ok h' /\
    (forall p, ~ In p (map (fun env => elem (r_base r) (r_shape r) (values_of out env)) l) -> peek h' p = peek h p) /\
    only_changes (fun p => In p (map (fun env => elem (r_base r) (r_shape r) (values_of out env)) l)) h h' /\
    forall env old v, In env l -> holds h0 (elem (r_base r) (r_shape r) (values_of out env)) old -> computes h0 env e v ->
      holds h' (elem (r_base r) (r_shape r) (values_of out env)) (f old v).
Proof.
  set (addr := fun env => elem (r_base r) (r_shape r) (values_of out env)).
  induction l as [|env l IH]; intros h N Ra Oa Ou Ru Ap; cbn [foldM].
  - exists h. split; [reflexivity|]. split; [auto|]. split; [apply only_changes_refl|]. intros env old v [].
  - destruct (computes_exists h0 e env) as [v Hv]; [intros; apply Ra; [left|]; auto|].
    destruct (Oa env (or_introl eq_refl)) as [old Ho].
    assert (Ho1 : holds h (addr env) old) by (unfold holds; etransitivity; [apply (Ou env (or_introl eq_refl))|exact Ho]).
    assert (Hv1 : computes h env e v).
    { eapply computes_transfer; [|exact Hv]. intros r' is_ Hr. apply Ru; [left; auto|exact Hr]. }
    assert (St : ein_assign f r out e h env = Ok (upd h (addr env) (Live (f old v)))).
    { unfold ein_assign. rewrite (eval_computes _ _ _ _ Hv1). cbn [bind]. unfold ref_at. rewrite elem_ref.
      change (get_all out env) with (values_of out env). fold (addr env).
      rewrite (proj2 (load_holds _ _ _) Ho1). cbn [bind]. apply store_ok. eexists; eauto. }
    rewrite St. cbn [bind]. set (h1 := upd h (addr env) (Live (f old v))).
    cbn [map] in N. apply NoDup_cons_iff in N. destruct N as [Ni N].
    assert (Nx : forall env', In env' l -> addr env' <> addr env).
    { intros env' I E. apply Ni. apply in_map_iff. exists env'. auto. }
    assert (O1 : forall q, q <> addr env -> peek h1 q = peek h q) by (intros; apply peek_upd_other; auto).
    destruct (IH h1 N) as (h' & E & K & C & F).
    + intros; apply Ra; [right|]; auto.
    + intros; apply Oa; right; auto.
    + intros env' I. fold (addr env'). rewrite O1 by (apply Nx; auto). apply Ou. right. auto.
    + intros env' r' is_ I Hr. rewrite O1; [apply Ru; [right|]; auto|]. intro Eq.
      assert (env' = env) by (apply (Ap env' r' is_); auto; [right|left]; auto). subst env'.
      apply (Nx env I). reflexivity.
    + intros env1 r' is_ I1 Hr env2 I2. apply (Ap env1 r' is_); auto; right; auto.
    + exists h'. split; [exact E|]. split; [|split].
      * intros p Np. cbn [map In] in Np. rewrite K by tauto. apply O1. intro; subst; tauto.
      * eapply only_changes_trans.
        -- apply (only_changes_upd (fun p => In p (map addr (env :: l))) h (addr env)). left. auto.
        -- destruct C as (C1 & C2 & C3). split; [|exact (conj C2 C3)]. intros p Np. apply C1. intro. apply Np. right. auto.
      * intros env' old' v' [<-|I] Ho' Hv'.
        -- assert (old' = old) by (unfold holds in *; congruence). assert (v' = v) by (eapply computes_fun; eauto). subst.
           unfold holds. rewrite K by exact Ni. apply peek_upd_same. unfold holds, addr in Ho1. congruence.
        -- apply F; auto.
Qed.

Lemma ein_in_place nd f h r out e B n :
  ranks_match ((r, out) :: operands e) -> loops n (out ++ labels e) -> ranges r out (operands e) B ->
  operands_alive h ((r, out) :: operands e) -> injective_layout (r_shape r) ->
  (forall k, (k < n)%nat -> In k out \/ snd (B k) <= 1) ->
  (forall env env' r' is_, loop_index B n env -> loop_index B n env' -> In (r', is_) (operands e) ->
     elem (r_base r') (r_shape r') (values_of is_ env) = elem (r_base r) (r_shape r) (values_of out env') -> env = env') ->
  exists h', ein_reduce nd f h r out e = Ok h' /\
    only_changes (fun p => exists env, loop_index B n env /\ p = elem (r_base r) (r_shape r) (values_of out env)) h h' /\
    forall env old v, loop_index B n env -> holds h (elem (r_base r) (r_shape r) (values_of out env)) old ->
      computes h env e v -> holds h' (elem (r_base r) (r_shape r) (values_of out env)) (f old v).
Proof.
  intros R L G Al Inj Nr Ap.
  destruct (loop_shape_ok nd B n r out e R G L) as (s & Es & Xs & Is).
  assert (Ib : forall env, In env (box s) <-> loop_index B n env) by (intro; rewrite box_In; apply Is).
  assert (IB : forall env r' is_, In env (box s) -> In (r', is_) ((r, out) :: operands e) ->
               in_bounds (r_shape r') (values_of is_ env)).
  { intros env r' is_ He Hr. eapply operand_in_bounds; eauto. apply Ib. exact He. }
  destruct (ein_fold_in_place f r out e h (box s) h) as (h' & E & _ & C & F).
  - apply NoDup_map_inj; [|apply box_NoDup]. intros x y Hx Hy Exy.
    assert (Ev : values_of out x = values_of out y).
    { apply Inj; [apply (IB x r out Hx); left; auto|apply (IB y r out Hy); left; auto|eapply elem_inj; exact Exy]. }
    apply Ib in Hx. apply Ib in Hy. destruct Hx as [Lx Hx], Hy as [Ly Hy].
    apply (nth_ext x y 0 0); [congruence|]. intros k Hk. rewrite Lx in Hk. specialize (Hx k Hk). specialize (Hy k Hk).
    destruct (Nr k Hk) as [I|I]; [|lia].
    clear -Ev I. unfold values_of in Ev. induction out as [|j out IH]; [destruct I|]. cbn [map] in Ev. inv Ev. destruct I as [->|I]; auto.
  - intros env r' is_ He Hr. apply (Al r' is_); [right; exact Hr|]. apply (IB env r' is_ He). right. exact Hr.
  - intros env He. apply (Al r out); [left; auto|]. apply (IB env r out He). left. auto.
  - reflexivity.
  - reflexivity.
  - intros env r' is_ He Hr env' He'. apply (Ap env env' r' is_); auto; apply Ib; auto.
  - exists h'. split; [unfold ein_reduce; rewrite Es; cbn [bind]; rewrite (fei_box s Xs); cbn [bind]; exact E|]. split.
    + destruct C as (C1 & C2 & C3). split; [|auto]. intros p Np. apply C1. intro I. apply Np. apply in_map_iff in I.
      destruct I as (env & <- & I). exists env. split; [apply Ib; exact I|auto].
    + intros env old v I. apply F, Ib, I.
Qed.

(** ** The usual products *)

Definition env_of (n : nat) (a : nat -> Z) : list Z := map a (seq 0 n).
Lemma env_of_length n a : length (env_of n a) = n.
Proof. unfold env_of. rewrite map_length, seq_length. auto. Qed.
Lemma env_of_nth n a k : (k < n)%nat -> nth k (env_of n a) 0 = a k.
Proof.
  intro H. unfold env_of. rewrite (nth_indep _ 0 (a 0%nat)) by (rewrite map_length, seq_length; auto).
  rewrite map_nth, seq_nth; auto.
Qed.
Lemma env_of_values n a ls : Forall (fun k => (k < n)%nat) ls -> values_of ls (env_of n a) = map a ls.
Proof. intro H. apply map_ext_in. intros k Hk. rewrite Forall_forall in H. apply env_of_nth. auto. Qed.
Lemma env_of_eq n a env : length env = n -> (forall k, (k < n)%nat -> nth k env 0 = a k) -> env = env_of n a.
Proof.
  intros L H. apply (nth_ext _ _ 0 0); [rewrite env_of_length; auto|]. intros k Hk. rewrite env_of_nth by lia. apply H. lia.
Qed.
Lemma env_of_ext n a b : (forall k, (k < n)%nat -> a k = b k) -> env_of n a = env_of n b.
Proof. intro H. apply map_ext_in. intros k Hk. apply in_seq in Hk. apply H. lia. Qed.
Definition set_at (a : nat -> Z) (k : nat) (z : Z) : nat -> Z := fun j => if (j =? k)%nat then z else a j.
Lemma env_of_lt n a k z z' : (k < n)%nat -> z < z' -> colex_lt (env_of n (set_at a k z)) (env_of n (set_at a k z')).
Proof.
  unfold env_of. replace k with (0 + k)%nat at 1 by lia. intros H Hz.
  assert (G : forall m s, (s <= k < s + m)%nat -> colex_lt (map (set_at a k z) (seq s m)) (map (set_at a k z') (seq s m))).
  { induction m as [|m IH]; intros s Hk; [lia|]. cbn [seq map colex_lt]. destruct (Nat.eq_dec s k) as [->|N].
    - right. split; [|unfold set_at; rewrite Nat.eqb_refl; auto]. apply map_ext_in. intros j Hj. apply in_seq in Hj.
      unfold set_at. destruct (Nat.eqb_spec j k); auto. lia.
    - left. apply IH. lia. }
  apply G. lia.
Qed.

(** No reduction index: one term *)
Lemma env_point B n out o a : (forall k, In k out -> (k < n)%nat) ->
  (forall k, (k < n)%nat -> In k out \/ (snd (B k) = 1 /\ a k = fst (B k))) ->
  (forall k, In k out -> fst (B k) <= a k < fst (B k) + snd (B k)) -> map a out = o ->
  forall env, (loop_index B n env /\ values_of out env = o) <-> env = env_of n a.
Proof.
  intros On D I <- env. split.
  - intros [[L H] E]. apply env_of_eq; auto. intros k Hk. destruct (D k Hk) as [D1|[D1 ->]].
    + clear -E D1. unfold values_of in E. induction out as [|j out IH]; [destruct D1|]. cbn [map] in E. inv E. destruct D1 as [->|D1]; auto.
    + specialize (H k Hk). lia.
  - intros ->. split; [split; [apply env_of_length|]|].
    + intros k Hk. rewrite env_of_nth by auto. destruct (D k Hk) as [D1|[D1 ->]]; [auto|lia].
    + apply env_of_values, Forall_forall. auto.
Qed.
Lemma reduces_point h f e P old w env v : reduces h f e P old w -> (forall x, P x <-> x = env) -> computes h env e v ->
  w = f old v.
Proof.
  intros R H C. apply (reduces_sorted h f e P old w [env] [v] R).
  - intro x. rewrite H. simpl. intuition.
  - repeat constructor.
  - repeat constructor; auto.
Qed.
(** One reduction index *)
Lemma env_line B n out o a k : (forall j, In j out -> (j < n)%nat) -> (k < n)%nat -> ~ In k out ->
  (forall j, (j < n)%nat -> j <> k -> In j out \/ (snd (B j) = 1 /\ a j = fst (B j))) ->
  (forall j, In j out -> fst (B j) <= a j < fst (B j) + snd (B j)) -> map a out = o ->
  forall env, (loop_index B n env /\ values_of out env = o) <->
    exists z, fst (B k) <= z < fst (B k) + snd (B k) /\ env = env_of n (set_at a k z).
Proof.
  intros On Kn Ko D I <- env.
  assert (Sa : forall z, map (set_at a k z) out = map a out).
  { intro z. apply map_ext_in. intros j Hj. unfold set_at. destruct (Nat.eqb_spec j k); [congruence|auto]. }
  split.
  - intros [[L H] E]. exists (nth k env 0). split; [auto|]. apply env_of_eq; auto. intros j Hj. unfold set_at.
    destruct (Nat.eqb_spec j k) as [->|N]; [auto|]. destruct (D j Hj N) as [D1|[D1 ->]].
    + clear -E D1. unfold values_of in E. induction out as [|i out IH]; [destruct D1|]. cbn [map] in E. inv E. destruct D1 as [->|D1]; auto.
    + specialize (H j Hj). lia.
  - intros (z & Hz & ->). split; [split; [apply env_of_length|]|].
    + intros j Hj. rewrite env_of_nth by auto. unfold set_at. destruct (Nat.eqb_spec j k) as [->|N]; [auto|].
      destruct (D j Hj N) as [D1|[D1 ->]]; [auto|lia].
    + rewrite env_of_values; [apply Sa|]. apply Forall_forall. auto.
Qed.
Lemma reduces_line h f e P old w n a k lo m g : reduces h f e P old w -> (k < n)%nat ->
  (forall x, P x <-> exists z, lo <= z < lo + m /\ x = env_of n (set_at a k z)) ->
  (forall z, lo <= z < lo + m -> computes h (env_of n (set_at a k z)) e (g z)) ->
  w = fold_left f (map g (range lo m)) old.
Proof.
  intros R Hk H C. apply (reduces_sorted h f e P old w (map (fun z => env_of n (set_at a k z)) (range lo m)) _ R).
  - intro x. rewrite H, in_map_iff. split.
    + intros (z & <- & I). apply range_In in I. eauto.
    + intros (z & I & ->). exists z. split; auto. apply range_In. auto.
  - assert (S := range_sorted lo m). induction S; cbn [map]; constructor; auto.
    apply Forall_forall. intros x I. apply in_map_iff in I. destruct I as (z & <- & I). rewrite Forall_forall in H0.
    apply env_of_lt; auto.
  - assert (I : forall z, In z (range lo m) -> lo <= z < lo + m) by (intro; apply range_In).
    induction (range lo m); cbn [map]; constructor; [apply C, I; left; auto|]. apply IHl. intros; apply I; right; auto.
Qed.

Lemma loops_exist ls : exists n, loops n ls.
Proof.
  induction ls as [|k ls [n [F L]]]; [exists 0%nat; split; [constructor|lia]|].
  destruct (le_lt_dec n k) as [H|H].
  - exists (S k). split; [|intros _; left; auto]. constructor; [lia|]. eapply Forall_impl; [|exact F]. cbn. intros. lia.
  - exists n. split; [constructor; auto|]. intro N. right. auto.
Qed.

Lemma make_ein_sum_new (c : config V) add x h al out e ts init B ds (g : list Z -> V) :
  array_type c (length out) -> usable_heap h -> ranks_match (operands e) -> sum_ranges out (operands e) B ->
  Forall2 (result_type (operands e) B) out ts -> padded_volume out B < 9223372036854775807 ->
  operands_alive h (operands e) -> Forall2 (fun k d => span_is (B k) d) out ds ->
  (forall n o w, loops n (out ++ labels e) -> in_bounds ds o ->
     reduces h add e (fun env => loop_index B n env /\ values_of out env = o) init w -> w = g o) ->
  exists h' a, make_ein_sum c add x h al out e ts init = Ok (h', a) /\ new_array h h' a ds g.
Proof.
  intros [Lc Pc] Hh R G T P Al Bd U. destruct (loops_exist (out ++ labels e)) as [n L].
  assert (Hc : shape_arg c (c_shape0 c)) by (split; auto).
  destruct (make_ein_sum_spec c add x h al out e ts init B n Hc Lc Hh R L G T P Al) as (h' & a & E & Sp & Pr & W & K & A & _).
  assert (SB : Forall2 same_bounds ds (a_shape a)).
  { clear -Bd Sp. revert ds Bd. generalize dependent (a_shape a). induction out as [|k out IH]; intros s Sp ds Bd; inv Bd; inv Sp; constructor; eauto.
    destruct H1, H2. split; congruence. }
  exists h', a. split; [exact E|]. split; [exact SB|].
  split; [apply Pr|]. split; [|split; [|split]].
  - intros o Ho. destruct (W o Ho) as (w & Hw & Rw). rewrite <- (U n o w L); auto.
    clear -SB Ho. revert o Ho. induction SB as [|d d' ds s [E1 E2] _ IH]; intros o Ho; inv Ho; constructor; [|apply IH; auto].
    unfold in_dim in *. lia.
  - intros p Hp. apply K. auto.
  - exact A.
  - intros p Hp. apply K. auto.
Qed.

Ltac labels_ := repeat (match goal with |- context [Nat.eqb ?a ?b] => destruct (Nat.eqb_spec a b); subst end;
  cbn [fst snd option_map dmin dext] in *); try congruence; try lia.
Ltac ops_ := repeat match goal with
  | H : addressed _ _ _ |- _ => destruct H as (? & ? & ? & ?); cbn [In] in *
  | H : _ \/ _ |- _ => destruct H
  | H : False |- _ => destruct H
  | H : (_, _) = (_, _) |- _ => inv H
  | E : r_shape ?r = _, H : In _ (combine _ (r_shape ?r)) |- _ => rewrite E in H; cbn [combine In] in H
  end.

Lemma in_bounds_2 d1 d2 o : in_bounds [d1; d2] o -> exists u v, o = [u; v] /\ in_dim d1 u /\ in_dim d2 v.
Proof. intro H. inv H. inv H4. inv H5. eauto. Qed.
Lemma in_bounds_1 d1 o : in_bounds [d1] o -> exists u, o = [u] /\ in_dim d1 u.
Proof. intro H. inv H. inv H4. eauto. Qed.
Lemma in_bounds_0 o : in_bounds [] o -> o = [].
Proof. intro H. inv H. auto. Qed.
Lemma loops_in n ls k : loops n ls -> In k ls -> (k < n)%nat.
Proof. intros [F _] H. rewrite Forall_forall in F. auto. Qed.

Ltac pick_ := cbn [In]; repeat first [left; reflexivity | right].
(** The side conditions of make_ein_sum_new *)
Ltac ranks_ := repeat constructor; cbn [fst snd length];
  repeat match goal with E : r_shape ?r = _ |- context [r_shape ?r] => rewrite E end; reflexivity.
Ltac first_ B := unfold first_addressed, B; cbn [operands app flat_map fst snd];
  repeat match goal with E : r_shape ?r = _ |- context [r_shape ?r] => rewrite E end; cbn [combine app find fst snd].
Ltac ranges_ B := split; [|split];
  [ intro; unfold B; labels_
  | intro; first_ B; unfold span_is; labels_; auto
  | let A := fresh in intros ? ? A; left; unfold B, span_is; cbn [operands app] in A; ops_; labels_; auto ].
Ltac types_ B := repeat constructor; unfold result_type; first_ B; labels_; auto.
Ltac alive_ := let I := fresh in intros ? ? ? I ?; cbn [operands app In] in I;
  repeat (destruct I as [I|I]); try contradiction; inv I; eexists;
  match goal with V : shows _ ?r _ |- holds _ (elem (r_base ?r) _ _) _ => apply V; assumption end.
Ltac bounds_ B := repeat constructor; unfold B; labels_.
Ltac lt_ := match goal with L : loops ?n _ |- (?k < ?n)%nat => apply (loops_in _ _ _ L); pick_ end.
Ltac out_ := let l := fresh in let I := fresh in intros l I; cbn [In] in I; repeat (destruct I as [I|I]); try contradiction; subst l.
Ltac values_ := match goal with
  | V : shows _ ?r _ |- holds _ (elem (r_base ?r) _ (values_of _ (env_of ?n ?a))) _ =>
      rewrite env_of_values by (repeat constructor; lt_); cbn [map]; unfold set_at
  end.

Lemma matrix_product (c : config V) add mul x h al A C d1 d2 d3 d4 fA fC i j k t1 t2 init :
  i <> j -> i <> k -> j <> k -> array_type c 2 -> usable_heap h ->
  r_shape A = [d1; d2] -> r_shape C = [d3; d4] -> extents_ge 0 [d1; d2; d3; d4] -> same_bounds d2 d3 ->
  shows h A fA -> shows h C fC -> bounds_type t1 d1 -> bounds_type t2 d4 ->
  Z.max 1 (dext d1) * Z.max 1 (dext d4) < 9223372036854775807 ->
  exists h' a, make_ein_sum c add x h al [i; j] (EBin mul (EArr A [i; k]) (EArr C [k; j])) [t1; t2] init = Ok (h', a) /\
    new_array h h' a [d1; d4] (fun o =>
      fold_left add (map (fun z => mul (fA [nth 0 o 0; z]) (fC [z; nth 1 o 0])) (range (dmin d2) (dext d2))) init).
Proof.
  intros Nij Nik Njk Hc Hh SA SC X [S1 S2] VA VC T1 T2 P.
  inv X. inv H2. inv H4. inv H5. clear H6.
  set (B := fun l : nat => if (l =? i)%nat then (dmin d1, dext d1) else if (l =? k)%nat then (dmin d2, dext d2) else
            if (l =? j)%nat then (dmin d4, dext d4) else (0, 1)).
  apply (make_ein_sum_new c add x h al _ _ _ init B); auto.
  - ranks_.
  - ranges_ B.
  - types_ B.
  - unfold padded_volume, B. cbn [map fold_right]. labels_.
  - alive_.
  - bounds_ B.
  - intros n o w L Ho Rw. apply in_bounds_2 in Ho. destruct Ho as (u & v & -> & Iu & Iv). cbn [nth].
    assert (Lk : (k < n)%nat) by lt_.
    set (a := fun l : nat => if (l =? i)%nat then u else if (l =? j)%nat then v else 0).
    assert (Bk : B k = (dmin d2, dext d2)) by (unfold B; labels_).
    apply (reduces_line h add _ _ init w n a k (dmin d2) (dext d2) (fun z => mul (fA [u; z]) (fC [z; v])) Rw Lk).
    + pose proof (env_line B n [i; j] [u; v] a k) as EL. rewrite Bk in EL. apply EL; auto.
      * out_; lt_.
      * intros [?|[?|[]]]; congruence.
      * intros l _ N. unfold B, a. cbn [In]. labels_; auto.
      * unfold in_dim in *. out_; unfold B, a; labels_.
      * unfold a. cbn [map]. labels_.
    + intros z Hz. constructor; constructor; values_.
      * replace [_; _] with [u; z] by (unfold a; labels_). apply VA. rewrite SA. repeat constructor; unfold in_dim in *; lia.
      * replace [_; _] with [z; v] by (unfold a; labels_). apply VC. rewrite SC. repeat constructor; unfold in_dim in *; lia.
Qed.

Lemma matrix_vector (c : config V) add mul x h al A C d1 d2 d3 fA fC i k t1 init :
  i <> k -> array_type c 1 -> usable_heap h ->
  r_shape A = [d1; d2] -> r_shape C = [d3] -> extents_ge 0 [d1; d2; d3] -> same_bounds d2 d3 ->
  shows h A fA -> shows h C fC -> bounds_type t1 d1 -> Z.max 1 (dext d1) < 9223372036854775807 ->
  exists h' a, make_ein_sum c add x h al [i] (EBin mul (EArr A [i; k]) (EArr C [k])) [t1] init = Ok (h', a) /\
    new_array h h' a [d1] (fun o =>
      fold_left add (map (fun z => mul (fA [nth 0 o 0; z]) (fC [z])) (range (dmin d2) (dext d2))) init).
Proof.
  intros Nik Hc Hh SA SC X [S1 S2] VA VC T1 P.
  inv X. inv H2. inv H4. clear H5.
  set (B := fun l : nat => if (l =? i)%nat then (dmin d1, dext d1) else if (l =? k)%nat then (dmin d2, dext d2) else (0, 1)).
  apply (make_ein_sum_new c add x h al _ _ _ init B); auto.
  - ranks_.
  - ranges_ B.
  - types_ B.
  - unfold padded_volume, B. cbn [map fold_right]. labels_.
  - alive_.
  - bounds_ B.
  - intros n o w L Ho Rw. apply in_bounds_1 in Ho. destruct Ho as (u & -> & Iu). cbn [nth].
    assert (Lk : (k < n)%nat) by lt_.
    set (a := fun l : nat => if (l =? i)%nat then u else 0).
    assert (Bk : B k = (dmin d2, dext d2)) by (unfold B; labels_).
    apply (reduces_line h add _ _ init w n a k (dmin d2) (dext d2) (fun z => mul (fA [u; z]) (fC [z])) Rw Lk).
    + pose proof (env_line B n [i] [u] a k) as EL. rewrite Bk in EL. apply EL; auto.
      * out_; lt_.
      * intros [?|[]]; congruence.
      * intros l _ N. unfold B, a. cbn [In]. labels_; auto.
      * unfold in_dim in *. out_; unfold B, a; labels_.
      * unfold a. cbn [map]. labels_.
    + intros z Hz. constructor; constructor; values_.
      * replace [_; _] with [u; z] by (unfold a; labels_). apply VA. rewrite SA. repeat constructor; unfold in_dim in *; lia.
      * replace [_] with [z] by (unfold a; labels_). apply VC. rewrite SC. repeat constructor; unfold in_dim in *; lia.
Qed.

Lemma dot_product (c : config V) add mul x h al A C d1 d2 fA fC k init :
  array_type c 0 -> usable_heap h ->
  r_shape A = [d1] -> r_shape C = [d2] -> extents_ge 0 [d1; d2] -> same_bounds d1 d2 ->
  shows h A fA -> shows h C fC ->
  exists h' a, make_ein_sum c add x h al [] (EBin mul (EArr A [k]) (EArr C [k])) [] init = Ok (h', a) /\
    new_array h h' a [] (fun _ =>
      fold_left add (map (fun z => mul (fA [z]) (fC [z])) (range (dmin d1) (dext d1))) init).
Proof.
  intros Hc Hh SA SC X [S1 S2] VA VC.
  inv X. inv H2. clear H4.
  set (B := fun l : nat => if (l =? k)%nat then (dmin d1, dext d1) else (0, 1)).
  apply (make_ein_sum_new c add x h al _ _ _ init B); auto.
  - ranks_.
  - ranges_ B.
  - reflexivity.
  - alive_.
  - intros n o w L Ho Rw. apply in_bounds_0 in Ho. subst o.
    assert (Lk : (k < n)%nat) by lt_.
    set (a := fun l : nat => 0).
    assert (Bk : B k = (dmin d1, dext d1)) by (unfold B; labels_).
    apply (reduces_line h add _ _ init w n a k (dmin d1) (dext d1) (fun z => mul (fA [z]) (fC [z])) Rw Lk).
    + pose proof (env_line B n [] [] a k) as EL. rewrite Bk in EL. apply EL; auto.
      * out_.
      * intros l _ N. unfold B, a. cbn [In]. labels_; auto.
      * out_.
    + intros z Hz. constructor; constructor; values_.
      * replace [_] with [z] by (unfold a; labels_). apply VA. rewrite SA. repeat constructor; unfold in_dim in *; lia.
      * replace [_] with [z] by (unfold a; labels_). apply VC. rewrite SC. repeat constructor; unfold in_dim in *; lia.
Qed.

Lemma trace_sum (c : config V) add x h al A d1 d2 fA k init :
  array_type c 0 -> usable_heap h -> r_shape A = [d1; d2] -> extents_ge 0 [d1; d2] -> same_bounds d1 d2 -> shows h A fA ->
  exists h' a, make_ein_sum c add x h al [] (EArr A [k; k]) [] init = Ok (h', a) /\
    new_array h h' a [] (fun _ => fold_left add (map (fun z => fA [z; z]) (range (dmin d1) (dext d1))) init).
Proof.
  intros Hc Hh SA X [S1 S2] VA.
  inv X. inv H2. clear H4.
  set (B := fun l : nat => if (l =? k)%nat then (dmin d1, dext d1) else (0, 1)).
  apply (make_ein_sum_new c add x h al _ _ _ init B); auto.
  - ranks_.
  - ranges_ B.
  - reflexivity.
  - alive_.
  - intros n o w L Ho Rw. apply in_bounds_0 in Ho. subst o.
    assert (Lk : (k < n)%nat) by lt_.
    set (a := fun l : nat => 0).
    assert (Bk : B k = (dmin d1, dext d1)) by (unfold B; labels_).
    apply (reduces_line h add _ _ init w n a k (dmin d1) (dext d1) (fun z => fA [z; z]) Rw Lk).
    + pose proof (env_line B n [] [] a k) as EL. rewrite Bk in EL. apply EL; auto.
      * out_.
      * intros l _ N. unfold B, a. cbn [In]. labels_; auto.
      * out_.
    + intros z Hz. constructor; values_.
      replace [_; _] with [z; z] by (unfold a; labels_). apply VA. rewrite SA. repeat constructor; unfold in_dim in *; lia.
Qed.

Lemma outer_product (c : config V) add mul x h al A C d1 d2 fA fC i j t1 t2 init :
  i <> j -> array_type c 2 -> usable_heap h ->
  r_shape A = [d1] -> r_shape C = [d2] -> extents_ge 0 [d1; d2] ->
  shows h A fA -> shows h C fC -> bounds_type t1 d1 -> bounds_type t2 d2 ->
  Z.max 1 (dext d1) * Z.max 1 (dext d2) < 9223372036854775807 ->
  exists h' a, make_ein_sum c add x h al [i; j] (EBin mul (EArr A [i]) (EArr C [j])) [t1; t2] init = Ok (h', a) /\
    new_array h h' a [d1; d2] (fun o => add init (mul (fA [nth 0 o 0]) (fC [nth 1 o 0]))).
Proof.
  intros Nij Hc Hh SA SC X VA VC T1 T2 P.
  inv X. inv H2. clear H4.
  set (B := fun l : nat => if (l =? i)%nat then (dmin d1, dext d1) else if (l =? j)%nat then (dmin d2, dext d2) else (0, 1)).
  apply (make_ein_sum_new c add x h al _ _ _ init B); auto.
  - ranks_.
  - ranges_ B.
  - types_ B.
  - unfold padded_volume, B. cbn [map fold_right]. labels_.
  - alive_.
  - bounds_ B.
  - intros n o w L Ho Rw. apply in_bounds_2 in Ho. destruct Ho as (u & v & -> & Iu & Iv). cbn [nth].
    set (a := fun l : nat => if (l =? i)%nat then u else if (l =? j)%nat then v else 0).
    apply (reduces_point h add _ _ init w (env_of n a) (mul (fA [u]) (fC [v])) Rw).
    + apply env_point.
      * out_; lt_.
      * intros l _. unfold B, a. cbn [In]. labels_; auto.
      * unfold in_dim in *. out_; unfold B, a; labels_.
      * unfold a. cbn [map]. labels_.
    + constructor; constructor; values_.
      * replace [_] with [u] by (unfold a; labels_). apply VA. rewrite SA. repeat constructor; unfold in_dim in *; lia.
      * replace [_] with [v] by (unfold a; labels_). apply VC. rewrite SC. repeat constructor; unfold in_dim in *; lia.
Qed.

Lemma transpose_sum (c : config V) add x h al A d1 d2 fA i j t1 t2 init :
  i <> j -> array_type c 2 -> usable_heap h -> r_shape A = [d1; d2] -> extents_ge 0 [d1; d2] ->
  shows h A fA -> bounds_type t1 d2 -> bounds_type t2 d1 ->
  Z.max 1 (dext d2) * Z.max 1 (dext d1) < 9223372036854775807 ->
  exists h' a, make_ein_sum c add x h al [j; i] (EArr A [i; j]) [t1; t2] init = Ok (h', a) /\
    new_array h h' a [d2; d1] (fun o => add init (fA [nth 1 o 0; nth 0 o 0])).
Proof.
  intros Nij Hc Hh SA X VA T1 T2 P.
  inv X. inv H2. clear H4.
  set (B := fun l : nat => if (l =? i)%nat then (dmin d1, dext d1) else if (l =? j)%nat then (dmin d2, dext d2) else (0, 1)).
  apply (make_ein_sum_new c add x h al _ _ _ init B); auto.
  - ranks_.
  - ranges_ B.
  - types_ B.
  - unfold padded_volume, B. cbn [map fold_right]. labels_.
  - alive_.
  - bounds_ B.
  - intros n o w L Ho Rw. apply in_bounds_2 in Ho. destruct Ho as (u & v & -> & Iu & Iv). cbn [nth].
    set (a := fun l : nat => if (l =? i)%nat then v else if (l =? j)%nat then u else 0).
    apply (reduces_point h add _ _ init w (env_of n a) (fA [v; u]) Rw).
    + apply env_point.
      * out_; lt_.
      * intros l _. unfold B, a. cbn [In]. labels_; auto.
      * unfold in_dim in *. out_; unfold B, a; labels_.
      * unfold a. cbn [map]. labels_.
    + constructor; values_.
      replace [_; _] with [v; u] by (unfold a; labels_). apply VA. rewrite SA. repeat constructor; unfold in_dim in *; lia.
Qed.

End Ein.
