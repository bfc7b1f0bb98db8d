(** Facts about Einstein reductions on arrays of different types: they do what the reductions of Ein.v do on objects of any type. *)
From Coq Require Import Eqdep_dec Sorted.
From Verif Require Import Tac Interval Shape Traverse Memory Ref Spec SpecMem SpecContainer Static SpecStatic Container Ein SpecEin
  ShapeFacts IntervalFacts TraverseFacts MemFacts RefFacts StaticFacts EinFacts EinSum EinMake EinUses EinTyped SpecEinTyped.
Import ListNotations.
Open Scope Z_scope.

Section Typed.
Variable L : language.
Notation ty := (ty L).
Notation val := (val L).

Lemma as_type_same t (x : val t) : as_type L t (existT _ t x) = Some x.
Proof.
  unfold as_type. cbn [projT1 projT2]. destruct (ty_dec L t t) as [e|n]; [|congruence].
  rewrite (UIP_dec (ty_dec L) e eq_refl). reflexivity.
Qed.
Lemma lift1_same t t' (f : val t -> val t') x : lift1 L t t' f (existT _ t x) = existT _ t' (f x).
Proof. unfold lift1. rewrite as_type_same. reflexivity. Qed.
Lemma lift2_same t1 t2 t' (f : val t1 -> val t2 -> val t') x y :
  lift2 L t1 t2 t' f (existT _ t1 x) (existT _ t2 y) = existT _ t' (f x y).
Proof. unfold lift2. rewrite !as_type_same. reflexivity. Qed.

(** ** Operands and labels *)

Lemma erase_operands t (e : texpr L t) : operands (erase L e) = untyped (typed_operands e).
Proof.
  unfold untyped. induction e; cbn [erase operands typed_operands map o_ref o_is]; auto; rewrite map_app; congruence.
Qed.
Lemma erase_labels t (e : texpr L t) : labels (erase L e) = typed_labels e.
Proof. induction e; cbn [erase labels typed_labels]; auto; congruence. Qed.

(** ** Evaluation *)

(** The operands have their types at [env] *)
Definition ready (h : heap (tval L)) (ops : list (operand L)) (env : list Z) : Prop :=
  Forall (fun o => object h (elem (r_base (o_ref o)) (r_shape (o_ref o)) (values_of (o_is o) env)) (o_type o)) ops.

Lemma eval_sim h env t (e : texpr L t) : ready h (typed_operands e) env ->
  exists x, t_computes h env e x /\ t_eval L h e env = Ok x /\ computes h env (erase L e) (existT _ t x).
Proof.
  unfold ready. induction e; cbn [typed_operands t_computes t_eval erase]; intro R.
  - inv R. destruct H1 as [x Hx]. cbn [o_ref o_is o_type] in Hx. exists x. split; [exact Hx|]. split; [|constructor; exact Hx].
    unfold ref_at. rewrite elem_ref. change (get_all is_ env) with (values_of is_ env).
    rewrite (proj2 (load_holds _ _ _) Hx). cbn [bind]. rewrite as_type_same. reflexivity.
  - eexists. split; [reflexivity|]. split; [reflexivity|].
    exact (c_fn h env (fun i => existT _ t (f i)) is_).
  - destruct (IHe R) as (y & C & E & S). exists (neg L t y). split; [eauto|]. split; [rewrite E; reflexivity|].
    rewrite <- (lift1_same t _ (neg L t) y). constructor. exact S.
  - destruct (IHe R) as (y & C & E & S). exists (conv L t t' y). split; [eauto|]. split; [rewrite E; reflexivity|].
    rewrite <- (lift1_same t _ (conv L t t') y). constructor. exact S.
  - apply Forall_app in R. destruct R as [Ra Rb]. destruct (IHe1 Ra) as (y & C1 & E1 & S1). destruct (IHe2 Rb) as (z & C2 & E2 & S2).
    exists (bin L o t t' y z). split; [exists y, z; auto|]. split; [rewrite E1; cbn [bind]; rewrite E2; reflexivity|].
    rewrite <- (lift2_same t t' _ (bin L o t t') y z). constructor; auto.
  - apply Forall_app in R. destruct R as [Ra Rb]. destruct (IHe1 Ra) as (y & C1 & E1 & S1). destruct (IHe2 Rb) as (z & C2 & E2 & S2).
    exists (v_min L t y z). split; [|split; [rewrite E1; cbn [bind]; rewrite E2; reflexivity|]].
    + exists y, z. split; [auto|]. split; [auto|]. unfold v_min. split; intros ->; reflexivity.
    + rewrite <- (lift2_same t t _ (v_min L t) y z). constructor; auto.
  - apply Forall_app in R. destruct R as [Ra Rb]. destruct (IHe1 Ra) as (y & C1 & E1 & S1). destruct (IHe2 Rb) as (z & C2 & E2 & S2).
    exists (v_max L t y z). split; [|split; [rewrite E1; cbn [bind]; rewrite E2; reflexivity|]].
    + exists y, z. split; [auto|]. split; [auto|]. unfold v_max. split; intros ->; reflexivity.
    + rewrite <- (lift2_same t t _ (v_max L t) y z). constructor; auto.
Qed.

(** ** Assignment *)

Lemma store_keeps h p t (x : val t) q t0 : object h p t -> object h q t0 -> object (upd h p (Live (existT _ t x))) q t0.
Proof.
  intros [y Hy] [z Hz]. destruct (ptr_dec p q) as [->|N].
  - unfold holds in *. assert (Et : t = t0) by (rewrite Hy in Hz; apply (f_equal (fun c => match c with Some (Live v) => projT1 v | _ => t end)) in Hz; exact Hz).
    subst t0. exists x. unfold holds. apply peek_upd_same. congruence.
  - exists z. unfold holds. rewrite peek_upd_other by exact N. exact Hz.
Qed.

Definition f_assign (a : asg_op) (t t' : ty) : tval L -> tval L -> tval L := lift2 L t t' t (t_stored L a t t').

Lemma assign_sim a h t r out t' (e : texpr L t') env :
  object h (elem (r_base r) (r_shape r) (values_of out env)) t -> ready h (typed_operands e) env ->
  exists h', t_ein_assign L a t r out e h env = Ok h' /\ ein_assign (f_assign a t t') r out (erase L e) h env = Ok h' /\
    forall q t0, object h q t0 -> object h' q t0.
Proof.
  intros [old Ho] R. destruct (eval_sim h env t' e R) as (x & _ & E & S). apply eval_computes in S.
  exists (upd h (elem (r_base r) (r_shape r) (values_of out env)) (Live (existT _ t (t_stored L a t t' old x)))).
  unfold t_ein_assign, ein_assign. rewrite E, S. cbn [bind]. unfold ref_at. rewrite elem_ref.
  change (get_all out env) with (values_of out env). rewrite (proj2 (load_holds _ _ _) Ho). cbn [bind].
  rewrite as_type_same. unfold f_assign. rewrite lift2_same.
  assert (Al : alive h (elem (r_base r) (r_shape r) (values_of out env))) by (eexists; exact Ho).
  rewrite !store_ok by exact Al. split; [reflexivity|]. split; [reflexivity|].
  intros q t0 Q. apply store_keeps; [eexists; exact Ho|exact Q].
Qed.

Lemma fold_sim a t r out t' (e : texpr L t') l : forall h,
  (forall env, In env l -> object h (elem (r_base r) (r_shape r) (values_of out env)) t) ->
  (forall env, In env l -> ready h (typed_operands e) env) ->
  exists h', foldM (t_ein_assign L a t r out e) l h = Ok h' /\ foldM (ein_assign (f_assign a t t') r out (erase L e)) l h = Ok h' /\
    forall q t0, object h q t0 -> object h' q t0.
Proof.
  induction l as [|env l IH]; intros h A R; cbn [foldM]; [eauto|].
  destruct (assign_sim a h t r out t' e env (A env (or_introl eq_refl)) (R env (or_introl eq_refl))) as (h1 & E1 & E1' & K1).
  rewrite E1, E1'. cbn [bind]. destruct (IH h1) as (h2 & E2 & E2' & K2).
  - intros env' H. apply K1, A. right. exact H.
  - intros env' H. specialize (R env' (or_intror H)). unfold ready in *. eapply Forall_impl; [|exact R]. intros o Ho. apply K1, Ho.
  - exists h2. split; [exact E2|]. split; [exact E2'|]. auto.
Qed.

Lemma operands_ready h B n r out t (e : texpr L t) env : ranks_match ((r, out) :: untyped (typed_operands e)) ->
  loops n (out ++ typed_labels e) -> ranges r out (untyped (typed_operands e)) B -> operands_typed h (typed_operands e) ->
  loop_index B n env -> ready h (typed_operands e) env.
Proof.
  intros R Lo G T I. unfold ready, operands_typed in *. rewrite Forall_forall in *. intros o Ho. apply (T o Ho).
  rewrite <- erase_operands in *. rewrite <- erase_labels in Lo.
  apply (operand_in_bounds B n r out (erase L e) (o_ref o) (o_is o) env R G Lo I). right.
  rewrite erase_operands. apply (in_map (fun o => (o_ref o, o_is o)) _ _ Ho).
Qed.

Lemma typed_alive h t r out (ops : list (operand L)) : array_of h t r -> operands_typed h ops ->
  operands_alive h ((r, out) :: untyped ops).
Proof.
  intros A T r' is_ i [E|H] Hi.
  - inv E. destruct (A i Hi) as [x Hx]. eexists. exact Hx.
  - apply in_map_iff in H. destruct H as (o & E & Ho). inv E. unfold operands_typed in T. rewrite Forall_forall in T.
    destruct (T o Ho i Hi) as [x Hx]. eexists. exact Hx.
Qed.

Lemma reduce_sim nd a h t r out t' (e : texpr L t') B n : ranks_match ((r, out) :: untyped (typed_operands e)) ->
  loops n (out ++ typed_labels e) -> ranges r out (untyped (typed_operands e)) B ->
  array_of h t r -> operands_typed h (typed_operands e) ->
  exists h', t_ein_reduce L nd a h t r out e = Ok h' /\ ein_reduce nd (f_assign a t t') h r out (erase L e) = Ok h' /\
    forall q t0, object h q t0 -> object h' q t0.
Proof.
  intros R Lo G A T. pose proof R as R'. pose proof Lo as Lo'. pose proof G as G'.
  rewrite <- erase_operands in R', G'. rewrite <- erase_labels in Lo'.
  destruct (loop_shape_ok nd B n r out (erase L e) R' G' Lo') as (s & Es & Xs & Is).
  destruct (fold_sim a t r out t' e (box s) h) as (h' & E & E' & K).
  - intros env He. apply A. apply (operand_in_bounds B n r out (erase L e) r out env); auto; [apply Is, box_In, He|left; auto].
  - intros env He. apply (operands_ready h B n r out t' e env R Lo G T). apply Is, box_In, He.
  - exists h'. unfold t_ein_reduce, ein_reduce. rewrite Es. cbn [bind]. rewrite (fei_box s Xs). cbn [bind]. auto.
Qed.

(** Whatever aliases what, every object keeps its type. *)
Lemma types_kept nd a h t r out t' (e : texpr L t') B n : ranks_match ((r, out) :: untyped (typed_operands e)) ->
  loops n (out ++ typed_labels e) -> ranges r out (untyped (typed_operands e)) B ->
  array_of h t r -> operands_typed h (typed_operands e) ->
  exists h', t_ein_reduce L nd a h t r out e = Ok h' /\ forall p t0, object h p t0 -> object h' p t0.
Proof. intros R Lo G A T. destruct (reduce_sim nd a h t r out t' e B n R Lo G A T) as (h' & E & _ & K). eauto. Qed.

(** ** What is computed *)

Lemma fold_assigns a t t' (xs : list (val t')) : forall (old : val t),
  exists w, assigns_all a t t' old xs w /\ fold_left (f_assign a t t') (map (fun x => existT _ t' x : tval L) xs) (existT _ t old : tval L) = existT _ t w.
Proof.
  induction xs as [|x xs IH]; intro old; cbn [assigns_all map fold_left]; [eauto|].
  unfold f_assign at 2. rewrite lift2_same. destruct (IH (t_stored L a t t' old x)) as (w & A & E).
  exists w. split; [|exact E]. eexists. split; [|exact A]. destruct a; reflexivity.
Qed.

Lemma reduces_typed h a t t' (e : texpr L t') (P : list Z -> Prop) old w :
  (forall env, P env -> ready h (typed_operands e) env) ->
  reduces h (f_assign a t t') (erase L e) P (existT _ t old) w ->
  exists y, w = existT _ t y /\ t_reduces h a t e P old y.
Proof.
  intros R (envs & vs & En & So & F & ->).
  assert (X : exists xs, vs = map (fun x => existT _ t' x : tval L) xs /\ Forall2 (fun env x => t_computes h env e x) envs xs).
  { assert (I : forall env, In env envs -> P env) by (intros env H; apply En; exact H). clear En So.
    induction F as [|env v envs vs C F IH]; [exists []; split; auto|].
    destruct IH as (xs & -> & Fx); [intros; apply I; right; auto|].
    destruct (eval_sim h env t' e (R env (I env (or_introl eq_refl)))) as (x & Cx & _ & Sx).
    rewrite (computes_fun _ _ _ _ _ C Sx). exists (x :: xs). split; [reflexivity|]. constructor; auto. }
  destruct X as (xs & -> & Fx). destruct (fold_assigns a t t' xs old) as (y & A & E).
  exists y. split; [exact E|]. exists envs, xs. auto.
Qed.

Lemma typed_reduction nd a h t r out t' (e : texpr L t') B n : ranks_match ((r, out) :: untyped (typed_operands e)) ->
  loops n (out ++ typed_labels e) -> ranges r out (untyped (typed_operands e)) B ->
  array_of h t r -> operands_typed h (typed_operands e) -> operands_apart r (untyped (typed_operands e)) ->
  injective_layout (r_shape r) ->
  exists h', t_ein_reduce L nd a h t r out e = Ok h' /\ only_changes (is_elem (r_base r) (r_shape r)) h h' /\
    forall o (old : val t), in_bounds (r_shape r) o -> holds h (elem (r_base r) (r_shape r) o) (existT _ t old) ->
      exists w : val t, holds h' (elem (r_base r) (r_shape r) o) (existT _ t w) /\
        t_reduces h a t e (fun env => loop_index B n env /\ values_of out env = o) old w.
Proof.
  intros R Lo G A T Ap Inj. destruct (reduce_sim nd a h t r out t' e B n R Lo G A T) as (h' & E & E' & _).
  pose proof (typed_alive h t r out _ A T) as Al. pose proof R as R'. pose proof Lo as Lo'. pose proof G as G'.
  rewrite <- erase_operands in R', G', Ap, Al. rewrite <- erase_labels in Lo'.
  destruct (ein_reduce_index nd (f_assign a t t') h r out (erase L e) B n R' Lo' G' Al Ap Inj) as (h2 & E2 & C & F).
  assert (h2 = h') by congruence. subst h2. exists h'. split; [exact E|]. split; [exact C|].
  intros o old Ho H. destruct (F o _ Ho H) as (w & Hw & Rw). apply reduces_typed in Rw.
  - destruct Rw as (y & -> & Ry). eauto.
  - intros env [I _]. apply (operands_ready h B n r out t' e env R Lo G T I).
Qed.

(** ** Compile time *)

Lemma gather_fit k kd t (e : texpr L t) : operands_fit (typed_operands e) -> typed_ranks (typed_operands e) ->
  Forall2 bounds_fit (gather_types L k e) (gather_dims k kd (erase L e)).
Proof.
  unfold operands_fit, typed_ranks.
  induction e; cbn [typed_operands gather_types erase gather_dims]; intros F R; auto;
    try (apply Forall_app in F; destruct F as [Fa Fb]; apply Forall_app in R; destruct R as [Ra Rb]; apply Forall2_app; auto).
  inv F. clear H2. inv R. clear H3. cbn [o_dims o_ref o_is] in *. revert H2 H1. generalize (r_shape r) as s. revert ts.
  induction is_ as [|i is_ IH]; intros ts s Len F; destruct ts as [|t0 ts]; try discriminate Len; inv F; [constructor|].
  cbn [index_of]. destruct (Nat.eqb_spec k i).
  - cbn. constructor; [|constructor]. destruct kd; exact H1.
  - cbn in Len |- *. apply IH; auto.
Qed.
Lemma first_dim_fit k (out : list nat) ts s : length out = length ts -> Forall2 bounds_fit ts s ->
  Forall2 bounds_fit (get_or_empty (index_of k out) ts) (get_or_empty (index_of k out) s).
Proof.
  revert ts s. induction out as [|i is_ IH]; intros ts s Len F; destruct ts as [|t0 ts]; try discriminate Len; inv F; [constructor|].
  cbn [index_of]. destruct (Nat.eqb_spec k i).
  - cbn. constructor; [|constructor]. auto.
  - cbn in Len |- *. apply IH; auto.
Qed.
Lemma ranks_compile_iff t (e : texpr L t) : ranks_compile L e = true <-> typed_ranks (typed_operands e).
Proof.
  unfold typed_ranks. induction e; cbn [ranks_compile typed_operands]; auto;
    try (rewrite andb_true_iff, Forall_app; tauto).
  - rewrite Nat.eqb_eq. split; [repeat constructor; auto|intro H; inv H; auto].
  - split; auto.
Qed.
Lemma bounds_known_fit t d : bounds_fit t d -> bounds_known t -> dmin d = tmin t /\ dext d = text t.
Proof. unfold bounds_fit, bounds_known, fits. intros [[?|?] [?|?]] [? ?]; split; congruence. Qed.
Lemma not_equal_false a b v : fits a v -> fits b v -> not_equal a b = false.
Proof. intros A B. apply not_true_iff_false. rewrite not_equal_iff. intro N. apply N. eauto. Qed.
Lemma reconciles_same (b : span) ts ds : Forall2 bounds_fit ts ds -> Forall (span_is b) ds -> reconciles ts = true.
Proof.
  intros F S. destruct F as [|t0 d0 ts ds F0 F]; [reflexivity|]. inv S. cbn [reconciles].
  induction F as [|t d ts ds Ft F IH]; [reflexivity|]. inv H2. cbn [forallb]. rewrite IH by auto.
  destruct F0 as [A1 A2], Ft as [B1 B2], H1 as [C1 C2], H3 as [D1 D2].
  rewrite (not_equal_false _ _ (dmin d0)) by (auto; congruence). rewrite (not_equal_false _ _ (dext d0)) by (auto; congruence). reflexivity.
Qed.
Lemma same_types_iff ss : forall ts, same_types ss ts = true <-> ss = ts.
Proof.
  induction ss as [|[a b c] ss IH]; intros [|[a' b' c'] ts]; cbn [same_types]; try (split; [discriminate|discriminate]); [tauto|].
  unfold same_dimT. cbn [tmin text tstr]. rewrite !andb_true_iff, !Z.eqb_eq, IH. split; [intros [[[-> ->] ->] ->]; auto|intro H; inv H; auto].
Qed.
Lemma copies_operand_iff a t ts out t' (e : texpr L t') :
  copies_operand L a t ts out e = true <-> a = op_assign /\ is_operand_like t ts out e.
Proof.
  unfold copies_operand, is_operand_like. destruct a; destruct e; try (split; [discriminate|intros [? ?]; try discriminate; contradiction]).
  destruct cst; [split; [discriminate|intros (_ & _ & ? & _); discriminate]|].
  rewrite !andb_true_iff, same_types_iff. destruct (ty_dec L t t0), (list_eq_dec Nat.eq_dec out is_).
  - split; [intros [[_ ->] _]; subst; auto|]. intros (_ & ? & _ & ? & ?). subst. auto.
  - split; [intros [_ ?]; discriminate|]. intros (_ & ? & _ & ? & ?). congruence.
  - split; [intros [[? _] _]; discriminate|]. intros (_ & ? & _ & ? & ?). congruence.
  - split; [intros [_ ?]; discriminate|]. intros (_ & ? & _ & ? & ?). congruence.
Qed.

(** Whatever agrees on all bounds compiles, but for an assignment that copies its operand. *)
Lemma same_bounds_compile a t ts r out t' (e : texpr L t') : typed_ranks (mkOp t ts r out :: typed_operands e) ->
  operands_fit (mkOp t ts r out :: typed_operands e) -> same_spans (untyped (mkOp t ts r out :: typed_operands e)) ->
  ~ (a = op_assign /\ is_operand_like t ts out e) -> ein_compiles L a t ts out e = true.
Proof.
  intros R F [B S] C. apply Forall_cons_iff in R. destruct R as [H1 H2]. apply Forall_cons_iff in F. destruct F as [H4 H5]. cbn [o_is o_dims o_ref] in *. unfold ein_compiles.
  rewrite (proj2 (ranks_compile_iff t' e)) by assumption. rewrite (proj2 (Nat.eqb_eq _ _)) by assumption. cbn [andb].
  destruct (copies_operand L a t ts out e) eqn:Ec; [apply copies_operand_iff in Ec; contradiction|]. cbn [negb andb].
  apply forallb_forall. intros k _.
  assert (Re : ranks_match (operands (erase L e))).
  { rewrite erase_operands. unfold ranks_match, untyped. apply Forall_map. rewrite Forall_forall in *. intros o Ho. cbn [fst snd].
    rewrite (H2 o Ho). apply (Forall2_len _ _ _ (H5 o Ho)). }
  apply (reconciles_same (B k) _ (get_or_empty (index_of k out) (r_shape r) ++ gather_dims k is_operand_shape (erase L e))).
  - apply Forall2_app; [apply first_dim_fit; auto|apply gather_fit; auto].
  - apply Forall_app. split; apply Forall_forall; intros d Hd.
    + apply S. exists r, out. split; [left; reflexivity|].
      assert (Len : length out = length (r_shape r)) by (rewrite H1; eapply Forall2_len; eauto).
      destruct (first_dim k out (r_shape r) Len) as [[E _]|[d' [E M]]]; rewrite E in Hd; [contradiction|]. destruct Hd as [->|[]]. exact M.
    + apply gather_sound in Hd; [|exact Re]. destruct Hd as (d' & A & ->). rewrite erase_operands in A.
      change (span_is (B k) d'). apply S. destruct A as (r' & is_ & I & M). exists r', is_. split; [right; exact I|exact M].
Qed.

Lemma gather_types_all k t (e : texpr L t) dt : typed_ranks (typed_operands e) -> distinct (untyped (typed_operands e)) ->
  type_addressed (typed_operands e) k dt -> In dt (gather_types L k e).
Proof.
  unfold typed_ranks, distinct, untyped.
  induction e; cbn [typed_operands gather_types map]; intros R D (o' & I & A);
    try (rewrite ?map_app in D; apply Forall_app in R; destruct R as [Ra Rb]; apply Forall_app in D; destruct D as [Da Db];
         apply in_or_app; apply in_app_or in I; destruct I as [I|I]; [left; apply IHe1|right; apply IHe2]; auto; exists o'; auto).
  - destruct I as [<-|[]]. cbn [o_is o_dims] in *. inv R. inv D. cbn [o_is o_dims o_ref snd] in *. clear H2 H4.
    revert ts H1 A. induction is_ as [|i is_ IH]; intros [|t0 ts] Len A; try contradiction. inv H3. cbn [combine In index_of] in *.
    destruct (Nat.eqb_spec k i) as [->|N].
    + destruct A as [A|A]; [inv A; left; auto|]. apply in_combine_l in A. contradiction.
    + destruct A as [A|A]; [congruence|]. cbn in Len. apply IH; auto.
  - contradiction.
  - apply IHe; auto. exists o'. auto.
  - apply IHe; auto. exists o'. auto.
Qed.
Lemma first_dimT k out (ts : list dimT) dt : NoDup out -> In (k, dt) (combine out ts) -> get_or_empty (index_of k out) ts = [dt].
Proof.
  intro N. revert ts. induction N as [|i out Hi N IH]; intros [|t0 ts] A; try contradiction. cbn [combine In index_of] in *.
  destruct (Nat.eqb_spec k i) as [->|Nk].
  - destruct A as [A|A]; [inv A; reflexivity|]. apply in_combine_l in A. contradiction.
  - destruct A as [A|A]; [congruence|]. cbn. apply IH. auto.
Qed.
Lemma label_rank t (e : texpr L t) k dt : type_addressed (typed_operands e) k dt -> (k < loop_rank (erase L e))%nat.
Proof.
  intros (o' & I & A). pose proof (loop_rank_loops (erase L e)) as [Lo _]. rewrite Forall_forall in Lo. apply Lo.
  apply in_combine_l in A. rewrite erase_labels. clear Lo. revert I. induction e; cbn [typed_operands typed_labels]; intro I; auto;
    try (apply in_app_or in I; apply in_or_app; tauto); [destruct I as [<-|[]]; exact A|contradiction].
Qed.

(** An operand that cannot have the bounds of the result's dimension is rejected. *)
Lemma clash_rejected a t ts r out t' (e : texpr L t') k s0 s1 : typed_ranks (mkOp t ts r out :: typed_operands e) ->
  distinct (untyped (mkOp t ts r out :: typed_operands e)) ->
  In (k, s0) (combine out ts) -> type_addressed (typed_operands e) k s1 -> clash s0 s1 ->
  ein_compiles L a t ts out e = false.
Proof.
  intros R D A0 A1 C. apply not_true_iff_false. intro E. unfold ein_compiles in E. rewrite !andb_true_iff, forallb_forall in E.
  destruct E as (_ & E). apply Forall_cons_iff in R. destruct R as [H1 H2]. apply Forall_cons_iff in D. destruct D as [H3 H4]. cbn [o_is o_dims o_ref snd] in *.
  specialize (E k). rewrite (first_dimT k out ts s0) in E by assumption. cbn [app reconciles] in E.
  assert (I : In k (seq 0 (Nat.max (op_rank out) (loop_rank (erase L e))))) by (apply in_seq; pose proof (label_rank _ _ _ _ A1); lia).
  specialize (E I). rewrite forallb_forall in E. specialize (E s1 (gather_types_all k _ e s1 H2 H4 A1)).
  rewrite andb_true_iff, !negb_true_iff, <- !not_true_iff_false, !not_equal_iff in E. destruct E as [E1 E2].
  apply E1. intros [lo [B0 B1]]. apply E2. intros [n [B2 B3]]. apply C. exists (mkD lo n 0). repeat split; auto.
Qed.

Lemma get_or_empty_Forall {A} (P : A -> Prop) n l : Forall P l -> Forall P (get_or_empty n l).
Proof.
  intro H. unfold get_or_empty. destruct (nth_error l n) as [a|] eqn:E; constructor; [|constructor].
  rewrite Forall_forall in H. apply H. eapply nth_error_In; eauto.
Qed.
(** If all bounds are known at compile time, what compiles runs. *)
Lemma known_ranges a t ts r out t' (e : texpr L t') n : ein_compiles L a t ts out e = true ->
  operands_fit (mkOp t ts r out :: typed_operands e) -> all_known (mkOp t ts r out :: typed_operands e) ->
  dims_ok (untyped (mkOp t ts r out :: typed_operands e)) -> distinct (untyped (mkOp t ts r out :: typed_operands e)) ->
  loops n (out ++ typed_labels e) ->
  ranks_match ((r, out) :: untyped (typed_operands e)) /\ exists B, ranges r out (untyped (typed_operands e)) B.
Proof.
  intros E F K X D Lo. unfold ein_compiles in E. rewrite !andb_true_iff, forallb_forall in E. destruct E as [[[E1 E2] _] E3].
  apply Nat.eqb_eq in E1. apply ranks_compile_iff in E2. rewrite <- erase_labels in Lo.
  unfold untyped in X, D. cbn [map o_ref o_is] in X, D. change (map _ (typed_operands e)) with (untyped (typed_operands e)) in X, D.
  rewrite <- erase_operands in *. apply Forall_cons_iff in F. destruct F as [H1 Fe]. apply Forall_cons_iff in K. destruct K as [H3 Ke]. cbn [o_is o_dims o_ref] in *.
  assert (R : ranks_match ((r, out) :: operands (erase L e))).
  { rewrite erase_operands. constructor; [cbn [fst snd]; rewrite E1; eapply Forall2_len; eauto|].
    unfold untyped. apply Forall_map. unfold typed_ranks, operands_fit in *. rewrite Forall_forall in *. intros o Ho. cbn [fst snd].
    rewrite (E2 o Ho). apply (Forall2_len _ _ _ (Fe o Ho)). }
  split; [exact R|].
  destruct (reconcile_all_ok false (seq 0 n)
    (fun D => gather_dims D is_result_shape (EArr (V:=tval L) r out) ++ gather_dims D is_operand_shape (erase L e)) (fun _ _ => True))
    as (s & Es & _).
  - intros k Hk. rewrite <- (rank_of n out (erase L e) Lo) in Hk. specialize (E3 k Hk).
    assert (FF : Forall2 bounds_fit (get_or_empty (index_of k out) ts ++ gather_types L k e)
              (gather_dims k is_result_shape (EArr (V:=tval L) r out) ++ gather_dims k is_operand_shape (erase L e))).
    { apply Forall2_app; [|apply gather_fit; auto]. cbn [gather_dims]. rewrite map_id. apply first_dim_fit; auto. }
    assert (KK : Forall bounds_known (get_or_empty (index_of k out) ts ++ gather_types L k e)).
    { apply Forall_app. split.
      - apply get_or_empty_Forall. exact H3.
      - clear -Ke. unfold all_known in Ke. induction e; cbn [gather_types typed_operands] in *; auto;
          try (apply Forall_app in Ke; destruct Ke; apply Forall_app; auto).
        inv Ke. apply get_or_empty_Forall. assumption. }
    revert FF KK E3. generalize (get_or_empty (index_of k out) ts ++ gather_types L k e) as us.
    generalize (gather_dims k is_result_shape (EArr (V:=tval L) r out) ++ gather_dims k is_operand_shape (erase L e)) as ds.
    clear. intros ds us F K E. destruct F as [|t0 d0 us ds F0 F]; [cbn; eauto|]. inv K. rename H1 into K0. rename H2 into K.
    assert (S : Forall (fun d => dmin d = dmin d0 /\ dext d = dext d0) ds).
    { cbn [reconciles] in E. rewrite forallb_forall in E. induction F as [|t d us ds Ft F IH]; constructor.
      - inv K. specialize (E t (or_introl eq_refl)). rewrite andb_true_iff, !negb_true_iff in E. destruct E as [N1 N2].
        destruct (bounds_known_fit _ _ F0 K0) as [-> ->]. destruct (bounds_known_fit _ _ Ft H1) as [-> ->].
        destruct K0 as [P1 P2], H1 as [Q1 Q2]. unfold not_equal, is_static, dynamic in *. lia.
      - inv K. apply IH; auto. intros x Hx. apply E. right. exact Hx. }
    exists d0. split; [|exact I]. cbn [reconcile_dim]. destruct (negb (dstr d0 =? 0)).
    + rewrite assert_ok; [reflexivity|]. apply vall_map. eapply Forall_impl; [|exact S]. intros d [A1 A2].
      unfold i_in_range_interval, imax, d_interval. cbn. lia.
    + rewrite assert_ok; [cbn [bind]; rewrite assert_ok; [reflexivity|]|]; apply vall_map; (eapply Forall_impl; [|exact S]; intros d [A1 A2]; apply Z.eqb_eq; congruence).
  - apply (ranges_of_shape n r out (erase L e) s R X D Lo). unfold ein_loop_shape. rewrite (rank_of n) by exact Lo. exact Es.
Qed.
Lemma known_runs nd a t ts r out t' (e : texpr L t') n h : ein_compiles L a t ts out e = true ->
  operands_fit (mkOp t ts r out :: typed_operands e) -> all_known (mkOp t ts r out :: typed_operands e) ->
  dims_ok (untyped (mkOp t ts r out :: typed_operands e)) -> distinct (untyped (mkOp t ts r out :: typed_operands e)) ->
  loops n (out ++ typed_labels e) -> operands_typed h (mkOp t ts r out :: typed_operands e) ->
  exists h', t_ein_reduce L nd a h t r out e = Ok h' /\ forall p t0, object h p t0 -> object h' p t0.
Proof.
  intros E F K X D Lo T. destruct (known_ranges a t ts r out t' e n E F K X D Lo) as [R [B G]]. inv T.
  apply (types_kept nd a h t r out t' e B n R Lo G); auto.
Qed.

(** ** Sums *)

Lemma result_types B out t (e : texpr L t) : operands_fit (typed_operands e) -> typed_ranks (typed_operands e) ->
  sum_ranges out (untyped (typed_operands e)) B ->
  Forall2 (result_type (untyped (typed_operands e)) B) out (map (result_dimT L e) out).
Proof.
  intros F R (_ & G1 & _).
  assert (Re : ranks_match (operands (erase L e))).
  { rewrite erase_operands. unfold ranks_match, untyped. apply Forall_map. unfold typed_ranks, operands_fit in *. rewrite Forall_forall in *.
    intros o Ho. cbn [fst snd]. rewrite (R o Ho). apply (Forall2_len _ _ _ (F o Ho)). }
  induction out as [|k out IH]; cbn [map]; constructor; auto. specialize (G1 k).
  pose proof (gather_first k is_inferred_shape (erase L e) Re) as Gf. pose proof (gather_fit k is_inferred_shape t e F R) as Fk.
  rewrite erase_operands in Gf. unfold result_type, result_dimT. destruct (first_addressed (untyped (typed_operands e)) k) as [d|].
  - destruct Gf as [ds Gf]. rewrite Gf in Fk. inv Fk. cbn [tmin text tstr]. split; [reflexivity|].
    destruct G1 as [S1 S2]. destruct H2 as [T1 T2]. cbn [kind_stride dmin dext] in *. rewrite <- S1, <- S2. auto.
  - rewrite Gf in Fk. inv Fk. reflexivity.
Qed.

Lemma typed_sum (c : config (tval L)) x h al t out t' (e : texpr L t') (init : val t) B n :
  shape_arg c (c_shape0 c) -> length (c_shape0 c) = length out -> usable_heap h ->
  typed_ranks (typed_operands e) -> operands_fit (typed_operands e) -> loops n (out ++ typed_labels e) ->
  sum_ranges out (untyped (typed_operands e)) B -> padded_volume out B < 9223372036854775807 ->
  operands_typed h (typed_operands e) ->
  exists h' a, t_make_ein_sum L c x h al t out e init = Ok (h', a) /\
    Forall2 (fun k d => span_is (B k) d) out (a_shape a) /\ proper_layout (a_shape a) /\
    (forall o, in_bounds (a_shape a) o -> exists w : val t, holds h' (elem (a_base a) (a_shape a) o) (existT _ t w) /\
       t_reduces h op_add_assign t e (fun env => loop_index B n env /\ values_of out env = o) init w) /\
    (forall p, alive h p -> peek h' p = peek h p /\ ~ is_elem (a_base a) (a_shape a) p) /\
    (forall p, alive h' p <-> alive h p \/ is_elem (a_base a) (a_shape a) p).
Proof.
  intros Hc Lc Hh R F Lo G P T. pose proof (result_types B out t' e F R G) as Rt.
  assert (Re : ranks_match (operands (erase L e))).
  { rewrite erase_operands. unfold ranks_match, untyped. apply Forall_map. unfold typed_ranks, operands_fit in *. rewrite Forall_forall in *.
    intros o Ho. cbn [fst snd]. rewrite (R o Ho). apply (Forall2_len _ _ _ (F o Ho)). }
  assert (Al : operands_alive h (operands (erase L e))).
  { rewrite erase_operands. intros r' is_ i H Hi. apply in_map_iff in H. destruct H as (o & E & Ho). inv E.
    unfold operands_typed in T. rewrite Forall_forall in T. destruct (T o Ho i Hi) as [y Hy]. eexists. exact Hy. }
  pose proof Lo as Lo'. pose proof G as G'. rewrite <- erase_operands in G', Rt. rewrite <- erase_labels in Lo'.
  destruct (make_ein_sum_steps c (f_assign op_add_assign t t') x h al out (erase L e) (map (result_dimT L e) out) (existT _ t init) B n
    Hc Lc Hh Re Lo' G' Rt P Al) as (s & h1 & a & h' & Es & Ec & Er & (Ra & Ga & Hi & Lk) & Sp & Pr & Fo & K1 & K2 & _).
  rewrite erase_operands in Ra, Ga.
  destruct (reduce_sim (c_ndebug c) op_add_assign h1 t (aref_of a) out t' e B n Ra Lo Ga) as (h2 & E2 & E2' & _).
  - intros i Hb. exists init. apply Hi. exact Hb.
  - unfold operands_typed in *. rewrite Forall_forall in *. intros o Ho i Hb. destruct (T o Ho i Hb) as [y Hy]. exists y.
    unfold holds. rewrite Lk; [exact Hy|]. eexists. exact Hy.
  - assert (h2 = h') by congruence. subst h2. exists h', a.
    split; [unfold t_make_ein_sum; rewrite Es; cbn [bind]; rewrite Ec; cbn [bind]; rewrite E2; reflexivity|].
    split; [exact Sp|]. split; [exact Pr|]. split; [|split; [exact K1|exact K2]].
    intros o Ho. destruct (Fo o Ho) as (w & Hw & Rw). apply reduces_typed in Rw.
    + destruct Rw as (y & -> & Ry). eauto.
    + intros env [I _]. apply (operands_ready h B n (aref_of a) out t' e env Ra Lo Ga T I).
Qed.
End Typed.
