(** Facts about reductions that read their result, and about operands that are not arrays. *)
From Coq Require Import Sorted Permutation.
From Verif Require Import Tac Interval Shape Traverse Memory Ref Spec SpecMem SpecContainer Static SpecStatic Container Ein SpecEin
  EinOps SpecEinOps ShapeFacts IntervalFacts ResolveFacts ShapeProps TraverseFacts MemFacts RefFacts ContainerFacts StaticFacts
  EinFacts EinSum EinMake EinUses.
Import ListNotations.
Open Scope Z_scope.

Ltac labels_ := repeat (match goal with |- context [Nat.eqb ?a ?b] => destruct (Nat.eqb_spec a b); subst end;
  cbn [fst snd option_map dmin dext] in *); try congruence; try lia.
Ltac ops_ := repeat match goal with
  | H : addressed _ _ _ |- _ => destruct H as (? & ? & ? & ?); cbn [In] in *
  | H : _ \/ _ |- _ => destruct H
  | H : False |- _ => destruct H
  | H : (_, _) = (_, _) |- _ => inv H
  | E : r_shape ?r = _, H : In _ (combine _ (r_shape ?r)) |- _ => rewrite E in H; cbn [combine In] in H
  end.

Ltac pick_ := cbn [In]; repeat first [left; reflexivity | right].
Ltac ranks_ := repeat constructor; cbn [fst snd length];
  repeat match goal with E : r_shape ?r = _ |- context [r_shape ?r] => rewrite E end; reflexivity.
Ltac lt_ := match goal with L : loops ?n _ |- (?k < ?n)%nat => apply (loops_in _ _ _ L); cbn [labels app]; pick_ end.
Ltac out_ := let l := fresh in let I := fresh in intros l I; cbn [In] in I; repeat (destruct I as [I|I]); try contradiction; subst l.
Ltac values_ := match goal with
  | V : shows _ ?r _ |- holds _ (elem (r_base ?r) _ (values_of _ (env_of ?n ?a))) _ =>
      rewrite env_of_values by (repeat constructor; lt_); cbn [map]; unfold set_at
  end.

(** ** r = g(r, e) is r g= e *)

Lemma in_range_refl d s : i_in_range_interval (d_interval (mkD (dmin d) (dext d) s)) (d_interval d) = true.
Proof. unfold i_in_range_interval, imax, d_interval. cbn. lia. Qed.
Lemma reconcile_self nd d ds : reconcile_dim nd (d :: mkD (dmin d) (dext d) 0 :: ds) = reconcile_dim nd (d :: ds).
Proof.
  cbn [reconcile_dim map]. destruct (negb (dstr d =? 0)).
  - rewrite vall_cons, in_range_refl. reflexivity.
  - cbn [dmin dext]. rewrite !vall_cons, !Z.eqb_refl. reflexivity.
Qed.

Section Ein.
Context {V : Type}.
Implicit Types (h : heap V) (e : expr V).

Lemma flat_mapM_ext {A B} (f g : A -> outcome (list B)) l : (forall x, f x = g x) -> flat_mapM f l = flat_mapM g l.
Proof. intro H. induction l as [|x l IH]; cbn [flat_mapM]; [auto|]. rewrite H, IH. auto. Qed.
Lemma foldM_ext {A S} (f g : S -> A -> outcome S) l : (forall s x, f s x = g s x) -> forall s, foldM f l s = foldM g l s.
Proof. intro H. induction l as [|x l IH]; intro s; cbn [foldM]; [auto|]. rewrite H. destruct (g s x); cbn [bind]; auto. Qed.
Lemma eval_not_assert h e env : eval h e env <> AssertFail.
Proof.
  induction e; cbn [eval]; try discriminate.
  - unfold ref_at, load. destruct (peek _ _) as [[]|]; discriminate.
  - destruct (eval h e env); cbn [bind]; congruence.
  - destruct (eval h e1 env); cbn [bind]; try congruence. destruct (eval h e2 env); cbn [bind]; congruence.
Qed.
Lemma shape_self nd r out g e :
  ein_loop_shape nd r out (EBin g (EArr r out) e) = ein_loop_shape nd r out e.
Proof.
  unfold ein_loop_shape, reconcile_all. cbn [loop_rank].
  rewrite (Nat.max_assoc (op_rank out) (op_rank out)), Nat.max_id. apply flat_mapM_ext. intro D. f_equal.
  cbn [gather_dims].
  destruct (get_or_empty (index_of D out) (r_shape r)) as [|d l] eqn:E; [reflexivity|].
  assert (l = []) as ->.
  { unfold get_or_empty in E. destruct (nth_error (r_shape r) (index_of D out)); inv E. reflexivity. }
  cbn [map app kind_stride]. apply reconcile_self.
Qed.
Lemma ein_update nd g h r out e :
  ein_reduce nd (fun _ v => v) h r out (EBin g (EArr r out) e) = ein_reduce nd g h r out e.
Proof.
  unfold ein_reduce. rewrite shape_self. destruct (ein_loop_shape nd r out e) as [s| |]; cbn [bind]; auto.
  destruct (for_each_index_in_order s) as [l| |]; cbn [bind]; auto. apply foldM_ext. clear h. intros h env.
  unfold ein_assign. cbn [eval]. change (ref_at h r (get_all out env)) with (eval h (EArr r out) env).
  pose proof (eval_not_assert h (EArr r out) env). pose proof (eval_not_assert h e env).
  destruct (eval h (EArr r out) env), (eval h e env); cbn [bind]; congruence.
Qed.

(** ** Any expression of the result *)

Lemma operand_eq_dec (a b : aref * list nat) : {a = b} + {a <> b}.
Proof. repeat decide equality. Qed.
Lemma eval_computes_with h h0 r out e env old v :
  computes_with h0 r out env old e v -> holds h (elem (r_base r) (r_shape r) (values_of out env)) old ->
  (forall r' is_, In (r', is_) (operands e) -> (r', is_) <> (r, out) ->
     peek h (elem (r_base r') (r_shape r') (values_of is_ env)) = peek h0 (elem (r_base r') (r_shape r') (values_of is_ env))) ->
  eval h e env = Ok v.
Proof.
  intros H Ho. induction H; cbn [operands eval]; intro A.
  - unfold ref_at. rewrite elem_ref. apply load_holds. auto.
  - unfold ref_at. rewrite elem_ref. apply load_holds. unfold holds. change (get_all is_ env) with (values_of is_ env).
    rewrite A; auto. left. auto.
  - reflexivity.
  - rewrite IHcomputes_with; auto.
  - rewrite IHcomputes_with1 by (intros; apply A; auto; apply in_or_app; auto). cbn [bind].
    rewrite IHcomputes_with2 by (intros; apply A; auto; apply in_or_app; auto). reflexivity.
Qed.
Lemma computes_with_exists h r out e env old :
  (forall r' is_, In (r', is_) (operands e) -> alive h (elem (r_base r') (r_shape r') (values_of is_ env))) ->
  exists v, computes_with h r out env old e v.
Proof.
  induction e as [r' is_|f is_|f e IH|f a IHa b IHb]; cbn [operands]; intro A.
  - destruct (operand_eq_dec (r', is_) (r, out)) as [E|N]; [inv E; eexists; constructor|].
    destruct (A r' is_ (or_introl eq_refl)) as [v Hv]. exists v. constructor; auto.
  - eexists. constructor.
  - destruct (IH A) as [v Hv]. eexists. constructor. eauto.
  - destruct IHa as [v Hv]; [intros; apply A, in_or_app; auto|]. destruct IHb as [w Hw]; [intros; apply A, in_or_app; auto|].
    eexists. constructor; eauto.
Qed.

Lemma ein_fold_self f r out e h0 l : forall h,
  only_changes (is_elem (r_base r) (r_shape r)) h0 h ->
  (forall env, In env l -> is_elem (r_base r) (r_shape r) (elem (r_base r) (r_shape r) (values_of out env))) ->
  (forall p, is_elem (r_base r) (r_shape r) p -> alive h p) ->
  (forall env old, In env l -> exists v, computes_with h0 r out env old e v) ->
  (forall env r' is_, In env l -> In (r', is_) (operands e) -> (r', is_) <> (r, out) ->
     ~ is_elem (r_base r) (r_shape r) (elem (r_base r') (r_shape r') (values_of is_ env))) ->
  exists h', foldM (ein_assign f r out e) l h = Ok h' /\ only_changes (is_elem (r_base r) (r_shape r)) h h' /\
    forall p old, is_elem (r_base r) (r_shape r) p -> holds h p old ->
      exists w, holds h' p w /\
        updates h0 f r out e (filter (fun env => ptr_eqb (elem (r_base r) (r_shape r) (values_of out env)) p) l) old w.
Proof.
  set (el := is_elem (r_base r) (r_shape r)). set (addr := fun env => elem (r_base r) (r_shape r) (values_of out env)).
  induction l as [|env l IH]; intros h C A L Ex Ap; cbn [foldM].
  - exists h. split; [reflexivity|]. split; [apply only_changes_refl|]. intros p old Hp Ho. exists old. split; [exact Ho|constructor].
  - destruct (L (addr env) (A env (or_introl eq_refl))) as [old Ho].
    destruct (Ex env old (or_introl eq_refl)) as [v Hv].
    assert (St : ein_assign f r out e h env = Ok (upd h (addr env) (Live (f old v)))).
    { unfold ein_assign. rewrite (eval_computes_with h h0 r out e env old v Hv Ho).
      2:{ intros r' is_ Hr N. apply C. apply (Ap env r' is_ (or_introl eq_refl) Hr N). }
      cbn [bind]. unfold ref_at. rewrite elem_ref.
      change (get_all out env) with (values_of out env). fold (addr env).
      rewrite (proj2 (load_holds _ _ _) Ho). cbn [bind]. apply store_ok. eexists; eauto. }
    rewrite St. cbn [bind].
    set (h1 := upd h (addr env) (Live (f old v))).
    assert (C1 : only_changes el h h1) by (apply only_changes_upd, A; left; auto).
    assert (P1 : holds h1 (addr env) (f old v)) by (apply peek_upd_same; unfold holds in Ho; congruence).
    destruct (IH h1) as (h' & E & C' & F).
    + eapply only_changes_trans; eauto.
    + intros; apply A; right; auto.
    + intros p Hp. destruct (ptr_dec (addr env) p) as [<-|N]; [eexists; eauto|].
      destruct (L p Hp) as [w Hw]. exists w. unfold holds, h1. rewrite peek_upd_other; auto.
    + intros; apply Ex; right; auto.
    + intros env' r' is_ H. apply Ap. right. auto.
    + exists h'. split; [exact E|]. split; [eapply only_changes_trans; eauto|].
      intros p old' Hp Ho'. cbn [filter]. fold (addr env). destruct (ptr_eqb (addr env) p) eqn:Eq.
      * apply ptr_eqb_eq in Eq. subst p. assert (old' = old) by (unfold holds in *; congruence). subst old'.
        destruct (F (addr env) (f old v) Hp P1) as (w & Hf & Fv). exists w. split; [exact Hf|econstructor; eauto].
      * assert (N : addr env <> p) by (intro; subst; rewrite ptr_eqb_refl in Eq; discriminate).
        apply (F p old' Hp). unfold holds, h1. rewrite peek_upd_other; auto.
Qed.
Lemma accumulates_weaken h f r out e (P Q : list Z -> Prop) old w : (forall env, P env <-> Q env) ->
  accumulates h f r out e P old w -> accumulates h f r out e Q old w.
Proof.
  intros H (envs & [N E] & S & U). exists envs. split; [split; auto|auto]. intro x. rewrite E. apply H.
Qed.
Lemma ein_reduce_self nd f h r out e B n :
  ranks_match ((r, out) :: operands e) -> loops n (out ++ labels e) -> ranges r out (operands e) B ->
  operands_alive h ((r, out) :: operands e) -> self_or_apart r out (operands e) -> injective_layout (r_shape r) ->
  exists h', ein_reduce nd f h r out e = Ok h' /\ only_changes (is_elem (r_base r) (r_shape r)) h h' /\
    forall o old, in_bounds (r_shape r) o -> holds h (elem (r_base r) (r_shape r) o) old ->
      exists w, holds h' (elem (r_base r) (r_shape r) o) w /\
        accumulates h f r out e (fun env => loop_index B n env /\ values_of out env = o) old w.
Proof.
  intros R L G Al Ap Inj.
  destruct (loop_shape_ok nd B n r out e R G L) as (s & Es & Xs & Is).
  assert (IB : forall env r' is_, In env (box s) -> In (r', is_) ((r, out) :: operands e) ->
               in_bounds (r_shape r') (values_of is_ env)).
  { intros env r' is_ He Hr. eapply operand_in_bounds; eauto. apply Is, box_In. exact He. }
  destruct (ein_fold_self f r out e h (box s) h) as (h' & E & C & F).
  - apply only_changes_refl.
  - intros env He. exists (values_of out env). split; auto. apply (IB env r out He). left. auto.
  - intros p (i & Hi & ->). apply (Al r out i); [left; auto|exact Hi].
  - intros env old He. apply computes_with_exists. intros r' is_ Hr. apply (Al r' is_); [right; exact Hr|].
    apply (IB env r' is_ He). right. exact Hr.
  - intros env r' is_ He Hr N. destruct (Ap r' is_ Hr) as [X|X]; [contradiction|]. apply X. apply (IB env r' is_ He). right. exact Hr.
  - exists h'. split; [unfold ein_reduce; rewrite Es; cbn [bind]; rewrite (fei_box s Xs); cbn [bind]; exact E|].
    split; [exact C|]. intros o old Hp Ho. destruct (F _ old (ex_intro _ o (conj Hp eq_refl)) Ho) as (w & Hw & Fv).
    exists w. split; [exact Hw|]. eapply (accumulates_weaken h f r out e
      (fun env => loop_index B n env /\ elem (r_base r) (r_shape r) (values_of out env) = elem (r_base r) (r_shape r) o)).
    { intro env. split; intros [I E1]; (split; [exact I|]).
      - apply Inj; auto; [|eapply elem_inj; exact E1]. eapply (operand_in_bounds B n r out e r out); eauto. left. auto.
      - rewrite E1. reflexivity. }
    eexists. split; [|split; [|exact Fv]].
    + assert (Q : enumerates (loop_index B n) (box s)).
      { split; [apply box_NoDup|]. intro x. rewrite box_In. apply Is. }
      eapply filter_enumerates in Q; [exact Q|]. intro env. apply ptr_eqb_eq.
    + apply filter_sorted, box_sorted.
Qed.

(** ** Maximum *)

Lemma fold_max lt vs : weak_order (V:=V) lt -> forall old w, w = fold_left (max_of lt) vs old ->
  lt w old = false /\ (forall v, In v vs -> lt w v = false) /\ (w = old \/ In w vs).
Proof.
  intros [As Tr].
  assert (Rf : forall a, lt a a = false) by (intro a; destruct (lt a a) eqn:E; auto; pose proof (As a a E); congruence).
  induction vs as [|v vs IH]; cbn [fold_left]; intros old w ->; [split; [auto|split; [intros ? []|auto]]|].
  destruct (IH (max_of lt old v) _ eq_refl) as (A & Bv & C). set (w := fold_left (max_of lt) vs (max_of lt old v)) in *.
  assert (M : lt (max_of lt old v) old = false /\ lt (max_of lt old v) v = false).
  { unfold max_of. destruct (lt old v) eqn:E; split; auto. }
  destruct M as [M1 M2]. split; [eauto|]. split.
  - intros x [<-|H]; eauto.
  - destruct C as [->|C]; [|right; right; auto]. unfold max_of. destruct (lt old v); [right; left|left]; auto.
Qed.

Lemma F2_in_l {A B} (R : A -> B -> Prop) l m : Forall2 R l m -> forall y, In y m -> exists x, In x l /\ R x y.
Proof. induction 1; intros z []; [subst; eauto|]. - exists x; split; [left|]; auto. - destruct (IHForall2 z H1) as (u & I & Q). exists u. split; [right|]; auto. Qed.
Lemma F2_in_r {A B} (R : A -> B -> Prop) l m : Forall2 R l m -> forall x, In x l -> exists y, In y m /\ R x y.
Proof. induction 1; intros z []; [subst; eauto|]. - exists y; split; [left|]; auto. - destruct (IHForall2 z H1) as (u & I & Q). exists u. split; [right|]; auto. Qed.

Lemma ein_max nd lt h r out e B n : weak_order lt ->
  ranks_match ((r, out) :: operands e) -> loops n (out ++ labels e) -> ranges r out (operands e) B ->
  operands_alive h ((r, out) :: operands e) -> operands_apart r (operands e) -> injective_layout (r_shape r) ->
  exists h', ein_reduce nd (fun _ v => v) h r out (EBin (max_of lt) (EArr r out) e) = Ok h' /\
    only_changes (is_elem (r_base r) (r_shape r)) h h' /\
    forall o old, in_bounds (r_shape r) o -> holds h (elem (r_base r) (r_shape r) o) old ->
      exists w, holds h' (elem (r_base r) (r_shape r) o) w /\ lt w old = false /\
        (forall env v, loop_index B n env -> values_of out env = o -> computes h env e v -> lt w v = false) /\
        (w = old \/ exists env, loop_index B n env /\ values_of out env = o /\ computes h env e w).
Proof.
  intros W R L G Al Ap Inj. rewrite ein_update.
  destruct (ein_reduce_index nd (max_of lt) h r out e B n R L G Al Ap Inj) as (h' & E & C & F).
  exists h'. split; [exact E|]. split; [exact C|]. intros o old Ho H. destruct (F o old Ho H) as (w & Hw & envs & vs & [_ En] & _ & Fv & Ew).
  exists w. split; [exact Hw|]. destruct (fold_max lt vs W old w Ew) as (M1 & M2 & M3). split; [exact M1|]. split.
  - intros env v I Ev Cv. destruct (F2_in_r _ _ _ Fv env) as (v' & Iv & Cv'); [apply En; auto|].
    rewrite (computes_fun h e env v v' Cv Cv'). apply M2. exact Iv.
  - destruct M3 as [M3|M3]; [left; exact M3|right]. destruct (F2_in_l _ _ _ Fv w M3) as (env & Ie & Ce).
    apply En in Ie. exists env. intuition.
Qed.

(** ** Scalars and pointers *)

Lemma elem_nil p i : elem p [] i = p.
Proof. destruct p as [b o]. unfold elem. cbn [fst snd]. f_equal. assert (E : offset [] i = 0) by (destruct i; reflexivity). rewrite E. lia. Qed.
Lemma scalar_elem p q : is_elem p [] q <-> q = p.
Proof.
  split.
  - intros (i & _ & ->). apply elem_nil.
  - intros ->. exists []. split; [constructor|]. rewrite elem_nil. auto.
Qed.
Lemma in_bounds_one d z : in_bounds [d] [z] <-> dmin d <= z < dmin d + dext d.
Proof. split; [intro H; inv H; auto|intro H; constructor; [auto|constructor]]. Qed.
Lemma dot_scalar nd (add mul : V -> V -> V) h p A C d1 d2 fA fC k old :
  r_shape A = [d1] -> r_shape C = [d2] -> extents_ge 0 [d1; d2] -> same_bounds d1 d2 ->
  shows h A fA -> shows h C fC -> holds h p old ->
  ~ is_elem (r_base A) (r_shape A) p -> ~ is_elem (r_base C) (r_shape C) p ->
  exists h', ein_reduce nd add h (fst (ein_scalar p)) (snd (ein_scalar p)) (EBin mul (EArr A [k]) (EArr C [k])) = Ok h' /\
    holds h' p (fold_left add (map (fun z => mul (fA [z]) (fC [z])) (range (dmin d1) (dext d1))) old) /\
    forall q, q <> p -> peek h' q = peek h q.
Proof.
  intros SA SC X [S1 S2] VA VC Ho NA NC. inv X. inv H2. clear H4. cbn [ein_scalar fst snd].
  change (make_ref p []) with (mkR p []).
  set (B := fun l : nat => if (l =? k)%nat then (dmin d1, dext d1) else (0, 1)).
  set (e := EBin mul (EArr A [k]) (EArr C [k])).
  assert (R : ranks_match ((mkR p [], []) :: operands e)) by ranks_.
  destruct (loops_exist ([] ++ labels e)) as [n L].
  assert (G : ranges (mkR p []) [] (operands e) B).
  { split; [intro l; unfold B; labels_|]. split; [|split].
    - intros l d Q. ops_. destruct H0.
    - intros l d Q. left. unfold B, span_is. cbn [e operands app] in Q. ops_; labels_; auto.
    - intros l Q. unfold B. destruct (Nat.eqb_spec l k) as [->|N]; auto. exfalso. apply (Q d1). exists A, [k].
      split; [right; left; auto|]. rewrite SA. left. auto. }
  assert (Al : operands_alive h ((mkR p [], []) :: operands e)).
  { intros r' is_ i I Hi. cbn [e operands app In] in I. destruct I as [I|[I|[I|[]]]]; inv I; cbn [r_base r_shape] in *.
    - rewrite elem_nil. exists old. auto.
    - eexists. apply VA. auto.
    - eexists. apply VC. auto. }
  assert (Ap : operands_apart (mkR p []) (operands e)).
  { intros r' is_ i I Hi Q. cbn [r_base r_shape] in Q. apply scalar_elem in Q. cbn [e operands app In] in I.
    destruct I as [I|[I|[]]]; inv I; [apply NA|apply NC]; eexists; eauto. }
  destruct (ein_reduce_index nd add h (mkR p []) [] e B n R L G Al Ap) as (h' & E & Ch & F).
  { intros i j Hi Hj _. cbn [r_shape] in Hi, Hj. apply in_bounds_0 in Hi, Hj. congruence. }
  exists h'. split; [exact E|]. cbn [r_base r_shape] in Ch, F. split.
  - destruct (F [] old) as (w & Hw & Rw); [constructor|rewrite elem_nil; auto|]. rewrite elem_nil in Hw.
    match goal with |- holds _ _ ?t => enough (Ew : w = t) by (rewrite <- Ew; exact Hw) end. clear Hw.
    assert (Lk : (k < n)%nat) by (unfold e in L; lt_).
    set (a := fun l : nat => 0).
    assert (Bk : B k = (dmin d1, dext d1)) by (unfold B; labels_).
    apply (reduces_line h add e _ old w n a k (dmin d1) (dext d1) (fun z => mul (fA [z]) (fC [z])) Rw Lk).
    + pose proof (env_line B n [] [] a k) as EL. rewrite Bk in EL. apply EL; auto.
      * out_.
      * intros l _ N. unfold B, a. cbn [In]. labels_; auto.
      * out_.
    + intros z Hz. constructor; constructor; values_.
      * replace [_] with [z] by (unfold a; labels_). apply VA. rewrite SA. repeat constructor; unfold in_dim in *; lia.
      * replace [_] with [z] by (unfold a; labels_). apply VC. rewrite SC. repeat constructor; unfold in_dim in *; lia.
  - intros q N. apply Ch. rewrite scalar_elem. auto.
Qed.

(** [N] objects at [x], as a pointer and a size or as a C array *)
Definition is_operand (I0 : nat) (x : ptr) (N : Z) (o : aref * list nat) : Prop :=
  0 <= N < 2 ^ 63 /\ (o = ein_pointer I0 x N \/ o = ein_carray I0 x N).
Lemma raw_operand k x N o : is_operand k x N o -> o = (mkR x [mkD 0 N 1], [k]).
Proof.
  intros [H [->| ->]]; unfold ein_pointer, ein_carray, make_ref, to_index.
  - destruct (Z.ltb_spec N (2 ^ 63)); [reflexivity|lia].
  - reflexivity.
Qed.
Lemma raw_elem x N z : elem x [mkD 0 N 1] [z] = after x z.
Proof. unfold elem, after. f_equal. cbn. lia. Qed.
Lemma objects_shows h x N f : objects h x N f -> shows h (mkR x [mkD 0 N 1]) (fun i => f (nth 0 i 0)).
Proof.
  intros H i Hi. cbn [r_base r_shape] in *. apply in_bounds_1 in Hi. destruct Hi as (z & -> & Hz). rewrite raw_elem. cbn [nth].
  apply H. unfold in_dim in Hz. cbn [dmin dext] in Hz. lia.
Qed.
Lemma dot_raw nd (add mul : V -> V -> V) h p x y N ox oy vx vy k old : is_operand k x N ox -> is_operand k y N oy ->
  objects h x N vx -> objects h y N vy -> holds h p old ->
  (forall i, 0 <= i < N -> after x i <> p /\ after y i <> p) ->
  exists h', ein_reduce nd add h (fst (ein_scalar p)) (snd (ein_scalar p)) (EBin mul (operand ox) (operand oy)) = Ok h' /\
    holds h' p (fold_left add (map (fun z => mul (vx z) (vy z)) (range 0 N)) old) /\
    forall q, q <> p -> peek h' q = peek h q.
Proof.
  intros Hx Hy Ox Oy Ho Np. assert (H : 0 <= N < 2 ^ 63) by apply Hx. apply raw_operand in Hx, Hy. subst ox oy. unfold operand. cbn [fst snd ein_scalar].
  apply (dot_scalar nd add mul h p (mkR x [mkD 0 N 1]) (mkR y [mkD 0 N 1]) (mkD 0 N 1) (mkD 0 N 1)
           (fun i => vx (nth 0 i 0)) (fun i => vy (nth 0 i 0)) k old); auto.
  - constructor; [cbn; lia|]. constructor; [cbn; lia|constructor].
  - split; auto.
  - apply objects_shows; auto.
  - apply objects_shows; auto.
  - intros (i & Hi & E). cbn [r_base r_shape] in *. apply in_bounds_1 in Hi. destruct Hi as (z & -> & Hz). rewrite raw_elem in E.
    unfold in_dim in Hz. cbn [dmin dext] in Hz. destruct (Np z) as [N1 N2]; [lia|congruence].
  - intros (i & Hi & E). cbn [r_base r_shape] in *. apply in_bounds_1 in Hi. destruct Hi as (z & -> & Hz). rewrite raw_elem in E.
    unfold in_dim in Hz. cbn [dmin dext] in Hz. destruct (Np z) as [N1 N2]; [lia|congruence].
Qed.
Lemma dot_raw_rejects (add mul : V -> V -> V) h p x y N M ox oy k : is_operand k x N ox -> is_operand k y M oy -> N <> M ->
  ein_reduce false add h (fst (ein_scalar p)) (snd (ein_scalar p)) (EBin mul (operand ox) (operand oy)) = AssertFail.
Proof.
  intros Hx Hy D. apply raw_operand in Hx, Hy. subst ox oy. unfold operand, ein_reduce. cbn [fst snd ein_scalar].
  assert (E : ein_loop_shape false (make_ref p []) [] (EBin mul (EArr (mkR x [mkD 0 N 1]) [k]) (EArr (mkR y [mkD 0 M 1]) [k]))
              = AssertFail); [|rewrite E; reflexivity].
  unfold ein_loop_shape. cbn [ein_scalar fst snd op_rank loop_rank list_max fold_right]. rewrite !Nat.max_0_r, Nat.max_id. cbn [Nat.max].
  rewrite seq_S. cbn [Nat.add]. 
  unfold reconcile_all.
  assert (Q : forall l m, (forall D, In D l -> D <> k) ->
    flat_mapM (fun D => d <- reconcile_dim false (gather_dims D is_result_shape (EArr (V:=V) (make_ref p []) []) ++
       gather_dims D is_operand_shape (EBin mul (EArr (mkR x [mkD 0 N 1]) [k]) (EArr (mkR y [mkD 0 M 1]) [k]))) ;; Ok [d]) (l ++ m) =
    (a <- flat_mapM (fun D => d <- reconcile_dim false (gather_dims D is_result_shape (EArr (V:=V) (make_ref p []) []) ++
       gather_dims D is_operand_shape (EBin mul (EArr (mkR x [mkD 0 N 1]) [k]) (EArr (mkR y [mkD 0 M 1]) [k]))) ;; Ok [d]) m ;;
     Ok (map (fun _ => mkD 0 1 0) l ++ a))).
  { intros l m. induction l as [|j l IH]; intro H.
    - cbn [app map]. destruct (flat_mapM _ m); reflexivity.
    - cbn [app flat_mapM map]. rewrite IH by (intros; apply H; right; auto).
      assert (j <> k) by (apply H; left; auto).
      cbn [gather_dims index_of r_shape get_or_empty nth_error map app make_ref].
      destruct (Nat.eqb_spec j k); [contradiction|]. cbn [get_or_empty nth_error map app reconcile_dim bind].
      destruct (flat_mapM _ m); reflexivity. }
  rewrite Q by (intros D' HD; apply in_seq in HD; lia).
  cbn [flat_mapM gather_dims index_of r_shape make_ref]. rewrite Nat.eqb_refl. cbn.
  replace (N =? M) with false by lia. reflexivity.
Qed.
(** Sizes that do not fit become negative extents, over which no loop is defined. *)
Lemma raw_huge nd (f : V -> V -> V) h p x N k : 2 ^ 63 <= N < 2 ^ 64 ->
  ein_reduce nd f h (fst (ein_scalar p)) (snd (ein_scalar p)) (operand (ein_pointer k x N)) = UB.
Proof.
  intros H. assert (Eo : ein_pointer k x N = (mkR x [mkD 0 (N - 2 ^ 64) 1], [k])).
  { unfold ein_pointer, to_index, make_ref. destruct (Z.ltb_spec N (2 ^ 63)); [lia|]. reflexivity. }
  rewrite Eo. clear Eo. set (M := N - 2 ^ 64). assert (HM : M < 0) by (unfold M; lia). clearbody M. unfold operand, ein_reduce. cbn [fst snd ein_scalar].
  assert (E : ein_loop_shape nd (make_ref p []) [] (EArr (V:=V) (mkR x [mkD 0 M 1]) [k]) = Ok (map (fun _ => mkD 0 1 0) (seq 0 k) ++ [mkD 0 M 0])).
  { unfold ein_loop_shape. cbn [ein_scalar fst snd op_rank loop_rank list_max fold_right]. rewrite ?Nat.max_0_r. cbn [Nat.max].
    rewrite seq_S. cbn [Nat.add]. unfold reconcile_all.
    assert (Q : forall l m, (forall D, In D l -> D <> k) ->
      flat_mapM (fun D => d <- reconcile_dim nd (gather_dims D is_result_shape (EArr (V:=V) (make_ref p []) []) ++
         gather_dims D is_operand_shape (EArr (V:=V) (mkR x [mkD 0 M 1]) [k])) ;; Ok [d]) (l ++ m) =
      (a <- flat_mapM (fun D => d <- reconcile_dim nd (gather_dims D is_result_shape (EArr (V:=V) (make_ref p []) []) ++
         gather_dims D is_operand_shape (EArr (V:=V) (mkR x [mkD 0 M 1]) [k])) ;; Ok [d]) m ;;
       Ok (map (fun _ => mkD 0 1 0) l ++ a))).
    { intros l m. induction l as [|j l IH]; intro Hl.
      - cbn [app map]. destruct (flat_mapM _ m); reflexivity.
      - cbn [app flat_mapM map]. rewrite IH by (intros; apply Hl; right; auto). cbn [gather_dims index_of r_shape make_ref].
        destruct (Nat.eqb_spec k j) as [->|Nj]; [exfalso; apply (Hl j); [left|]; reflexivity|]. 
        destruct (Nat.eqb_spec j k) as [->|Nj']; [exfalso; apply (Hl k); [left|]; reflexivity|]. cbn.
        destruct (flat_mapM _ m); reflexivity. }
    rewrite Q by (intros D' HD; apply in_seq in HD; lia).
    cbn [flat_mapM gather_dims index_of r_shape make_ref]. rewrite Nat.eqb_refl. cbn. destruct nd; reflexivity. }
  rewrite E. cbn [bind]. unfold for_each_index_in_order. rewrite rev_app_distr. cbn [rev app]. assert (U : for_dim (mkD 0 M 0) = UB) by (unfold for_dim, for_interval, range_list, d_interval, imin, imax; cbn [dmin dext]; replace (Z.to_nat _) with 0%nat by (cbn; lia); cbn [range_loop imin iext]; destruct (Z.eqb_spec 0 (0 + M - 1 + 1)); [lia|reflexivity]).
  destruct (rev (map _ (seq 0 k))) as [|d l]; cbn [fei_impl]; rewrite U; reflexivity.
Qed.
End Ein.

(** ** Cross products *)

Lemma cross_product nd h r xs ys d0 d1 d2 e0 e1 e2 fr fx fy i j k l :
  i <> j -> i <> k -> i <> l -> j <> k -> j <> l -> k <> l ->
  r_shape r = [d0; e0] -> r_shape xs = [d1; e1] -> r_shape ys = [d2; e2] ->
  Forall (fun d => dmin d = 0 /\ dext d = 3) [d0; d1; d2] -> 0 <= dext e0 -> same_bounds e0 e1 -> same_bounds e0 e2 ->
  shows h r fr -> shows h xs fx -> shows h ys fy -> operands_apart r [(xs, [j; l]); (ys, [k; l])] -> injective_layout (r_shape r) ->
  exists h', ein_reduce nd Z.add h r [i; l]
      (EBin Z.mul (EBin Z.mul (EFn epsilon3 [i; j; k]) (EArr xs [j; l])) (EArr ys [k; l])) = Ok h' /\
    only_changes (is_elem (r_base r) (r_shape r)) h h' /\
    forall u v, 0 <= u < 3 -> dmin e0 <= v < dmin e0 + dext e0 ->
      holds h' (elem (r_base r) (r_shape r) [u; v])
        (fr [u; v] + (fx [(u + 1) mod 3; v] * fy [(u + 2) mod 3; v] - fx [(u + 2) mod 3; v] * fy [(u + 1) mod 3; v])).
Proof.
  intros Nij Nik Nil Njk Njl Nkl Sr Sx Sy D3 Xe [S1 S2] [S3 S4] Vr Vx Vy Ap Inj.
  inv D3. inv H2. inv H4. clear H5. destruct H1 as [M0 X0], H3 as [M1 X1], H2 as [M2 X2].
  set (B := fun m : nat => if (m =? i)%nat then (0, 3) else if (m =? j)%nat then (0, 3) else if (m =? k)%nat then (0, 3) else
            if (m =? l)%nat then (dmin e0, dext e0) else (0, 1)).
  set (e := EBin Z.mul (EBin Z.mul (EFn epsilon3 [i; j; k]) (EArr xs [j; l])) (EArr ys [k; l])).
  assert (R : ranks_match ((r, [i; l]) :: operands e)) by ranks_.
  destruct (loops_exist ([i; l] ++ labels e)) as [n L].
  assert (G : ranges r [i; l] (operands e) B).
  { split; [intro m; unfold B; labels_|]. split; [|split].
    - intros m d Q. unfold B, span_is. ops_; labels_; auto.
    - intros m d Q. left. unfold B, span_is. cbn [e operands app] in Q. ops_; labels_; auto.
    - intros m Q. unfold B. destruct (Nat.eqb_spec m i) as [->|N1].
      { exfalso. apply (Q d0). exists r, [i; l]. split; [left; auto|]. rewrite Sr. left. auto. }
      destruct (Nat.eqb_spec m j) as [->|N2].
      { exfalso. apply (Q d1). exists xs, [j; l]. split; [right; left; auto|]. rewrite Sx. left. auto. }
      destruct (Nat.eqb_spec m k) as [->|N3].
      { exfalso. apply (Q d2). exists ys, [k; l]. split; [right; right; left; auto|]. rewrite Sy. left. auto. }
      destruct (Nat.eqb_spec m l) as [->|N4]; auto.
      exfalso. apply (Q e0). exists r, [i; l]. split; [left; auto|]. rewrite Sr. right. left. auto. }
  assert (Al : operands_alive h ((r, [i; l]) :: operands e)).
  { intros r' is_ o I Ho. cbn [e operands app In] in I. destruct I as [I|[I|[I|[]]]]; inv I; eexists; [apply Vr|apply Vx|apply Vy]; auto. }
  destruct (ein_reduce_any_order nd Z.add h r [i; l] e B n ltac:(intros; lia) R L G Al Ap Inj) as (h' & E & F).
  destruct (ein_reduce_index nd Z.add h r [i; l] e B n R L G Al Ap Inj) as (h2 & E2 & Ch & _).
  assert (h2 = h') by congruence. subst h2.
  exists h'. split; [exact E|]. split; [exact Ch|]. intros u v Hu Hv.
  set (a := fun p => fun m : nat => if (m =? i)%nat then u else if (m =? l)%nat then v else if (m =? j)%nat then fst p else if (m =? k)%nat then snd p else 0).
  set (nine := [(0, 0); (0, 1); (0, 2); (1, 0); (1, 1); (1, 2); (2, 0); (2, 1); (2, 2)] : list (Z * Z)).
  unfold e in L. assert (Li : (i < n)%nat) by lt_. assert (Lj : (j < n)%nat) by lt_. assert (Lk : (k < n)%nat) by lt_. assert (Ll : (l < n)%nat) by lt_.
  assert (Nine : forall p : Z * Z, In p nine <-> 0 <= fst p < 3 /\ 0 <= snd p < 3).
  { intros [x y]. cbn [fst snd]. split.
    - intro I. cbn [nine In] in I. repeat (destruct I as [I|I]; [inv I; lia|]). destruct I.
    - intros [Hx Hy]. assert (Qx : x = 0 \/ x = 1 \/ x = 2) by lia. assert (Qy : y = 0 \/ y = 1 \/ y = 2) by lia.
      destruct Qx as [->|[->| ->]], Qy as [->|[->| ->]]; cbn [nine In]; tauto. }
  pose proof (F [u; v] (fr [u; v]) (map (fun p => env_of n (a p)) nine)
    (map (fun p => epsilon3 [u; fst p; snd p] * fx [fst p; v] * fy [snd p; v]) nine)) as K.
  assert (Q : holds h' (elem (r_base r) (r_shape r) [u; v])
    (fold_left Z.add (map (fun p => epsilon3 [u; fst p; snd p] * fx [fst p; v] * fy [snd p; v]) nine) (fr [u; v]))).
  { assert (Iuv : in_bounds (r_shape r) [u; v]) by (rewrite Sr; constructor; [|constructor; [|constructor]]; unfold in_dim; lia).
    apply K; auto.
    - split.
      + apply FinFun.Injective_map_NoDup.
        * intros p q Epq. assert (E1 : nth j (env_of n (a p)) 0 = nth j (env_of n (a q)) 0) by (rewrite Epq; auto).
          assert (E3 : nth k (env_of n (a p)) 0 = nth k (env_of n (a q)) 0) by (rewrite Epq; auto).
          rewrite !env_of_nth in E1, E3 by auto. unfold a in E1, E3.
          destruct (Nat.eqb_spec j i); [congruence|]. destruct (Nat.eqb_spec j l); [congruence|]. rewrite Nat.eqb_refl in E1.
          destruct (Nat.eqb_spec k i); [congruence|]. destruct (Nat.eqb_spec k l); [congruence|]. destruct (Nat.eqb_spec k j); [congruence|].
          rewrite Nat.eqb_refl in E3. destruct p, q. cbn [fst snd] in *. congruence.
        * unfold nine. repeat constructor; cbn [In]; intuition discriminate.
      + intro env. rewrite in_map_iff. split.
        * intros (p & <- & Ip). apply Nine in Ip. split; [split; [apply env_of_length|]|].
          -- intros m Hm. rewrite env_of_nth by auto. unfold B, a. labels_.
          -- rewrite env_of_values by (repeat constructor; auto). unfold a. cbn [map]. labels_.
        * intros [[Le He] Ev]. exists (nth j env 0, nth k env 0). split.
          -- symmetry. apply env_of_eq; auto. intros m Hm. specialize (He m Hm). unfold values_of in Ev. cbn [map] in Ev. inv Ev.
             revert He. unfold a, B. cbn [fst snd]. labels_.
          -- apply Nine. cbn [fst snd]. pose proof (He j Lj) as Hj. pose proof (He k Lk) as Hk. revert Hj Hk. unfold B. labels_.
    - assert (Ip : forall p, In p nine -> 0 <= fst p < 3 /\ 0 <= snd p < 3) by (intro p; apply Nine).
      clear K Nine. clearbody nine. induction nine as [|p ps IH]; cbn [map]; constructor; [|apply IH; intros; apply Ip; right; auto].
      assert (Hp := Ip p (or_introl eq_refl)). constructor; [constructor|].
        * replace [u; fst p; snd p] with (values_of [i; j; k] (env_of n (a p))); [constructor|].
          rewrite env_of_values by (repeat constructor; auto). unfold a. cbn [map]. labels_.
        * constructor. values_. replace [_; _] with [fst p; v] by (unfold a; labels_). apply Vx. rewrite Sx. repeat constructor; unfold in_dim; lia.
        * constructor. values_. replace [_; _] with [snd p; v] by (unfold a; labels_). apply Vy. rewrite Sy. repeat constructor; unfold in_dim; lia.
    }
  match type of Q with holds _ _ ?s => match goal with |- holds _ _ ?t => enough (Ew : s = t) by (rewrite <- Ew; exact Q) end end.
  clear -Hu. unfold nine. cbn [map fold_left fst snd].
  assert (Qu : u = 0 \/ u = 1 \/ u = 2) by lia. destruct Qu as [->|[->| ->]];
  repeat match goal with |- context [epsilon3 ?l] => let v := eval vm_compute in (epsilon3 l) in change (epsilon3 l) with v end;
  repeat match goal with |- context [?m mod 3] => let v := eval vm_compute in (m mod 3) in change (m mod 3) with v end; ring.
Qed.
