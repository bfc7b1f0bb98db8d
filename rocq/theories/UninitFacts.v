(** Consequences of ParamFacts.v, and facts about uninitialized_allocator. *)
From Coq Require Import ZArith List Bool Lia Arith.
From Verif Require Import Base Interval Shape Traverse Memory Ref Container Program Uninit Spec SpecMem SpecContainer
  SpecProgram SpecParam Tac ShapeFacts ResolveFacts TraverseFacts MemFacts RefFacts SliceFacts ContainerFacts ContainerWorld ContainerProps
  ProgramFacts ThrowElems ParamFacts.
Import ListNotations.
Open Scope Z_scope.

Lemma rel_holds {V W} (R : V -> W -> Prop) h h' p v : rel_heap R h h' -> holds h p v -> exists v', holds h' p v' /\ R v v'.
Proof.
  intros H Hp. apply (rel_peek R _ _ p) in H. unfold holds in *. rewrite Hp in H.
  destruct (peek h' p) as [[|v']|]; simpl in H; try tauto. eauto.
Qed.
Lemma rel_denotes {V W} (R : V -> W -> Prop) w w' x s g g' : rel_world R w w' ->
  denotes w x s g -> denotes w' x s g' -> forall i, in_bounds s i -> R (g i) (g' i).
Proof.
  intros [H [Ha _]] [a [Ea [Es Hg]]] [b [Eb [_ Hg']]] i Hi. rewrite Ha, Eb in Ea. inv Ea.
  destruct (rel_holds R _ _ _ _ H (Hg i Hi)) as [v [Hv Hr]]. specialize (Hg' i Hi). unfold holds in *. congruence.
Qed.

Section Values.
Context {V : Type}.
Lemma param_programs {W} (R : V -> W -> Prop) c c' ops ops' w w' : rel_config R c c' -> Forall2 (rel_act R) ops ops' ->
  rel_world R w w' -> rel_out (rel_world R) (arun c ops w) (arun c' ops' w').
Proof. intros. apply rel_arun; auto. Qed.
Lemma param_elements {W} (R : V -> W -> Prop) c c' ops ops' w w' x s g g' : rel_config R c c' -> Forall2 (rel_act R) ops ops' ->
  arun c ops empty_world = Ok w -> arun c' ops' empty_world = Ok w' -> denotes w x s g -> denotes w' x s g' ->
  forall i, in_bounds s i -> R (g i) (g' i).
Proof.
  intros Hc Ho E E'. pose proof (rel_arun R c c' Hc ops ops' Ho _ _ (rel_empty R)) as H. rewrite E, E' in H.
  apply rel_denotes. exact H.
Qed.
Lemma param_values (P : V -> Prop) c ops w x s g : P (c_dv c) -> (forall v, P v -> P (c_mv c v)) -> Forall (values_in P) ops ->
  arun c ops empty_world = Ok w -> denotes w x s g -> forall i, in_bounds s i -> P (g i).
Proof.
  intros Hd Hm Ho E D i Hi.
  refine (param_elements (fun v _ => P v) c c ops ops w w x s g g _ _ E E D D i Hi).
  - repeat split; auto.
  - clear - Ho. induction Ho as [|o r Ho _ IH]; constructor; [exact Ho|exact IH].
Qed.
End Values.

Section Uninit.
Context {V : Type}.
Variable c : config V.
Hypothesis Hsel : forall a, c_select c a = a.
Hypothesis Hmv : forall v, c_mv c v = v.
Notation u := (uninitialized c).

Lemma uninit_config : rel_config agrees u c.
Proof.
  repeat split; auto.
  - left. reflexivity.
  - intros v v' H. cbn. rewrite Hmv. exact H.
Qed.
Lemma lift_rel (o : act V) : rel_act agrees (lift_act o) o.
Proof. assert (Hs : forall v : V, agrees (Some v) v) by (right; reflexivity). destruct o; simpl; auto 6. destruct o; simpl; auto 6. Qed.
Lemma lift_rels (ops : list (act V)) : Forall2 (rel_act agrees) (map lift_act ops) ops.
Proof. induction ops; simpl; constructor; auto using lift_rel. Qed.
Lemma uninit_programs ops : rel_out (rel_world agrees) (arun u (map lift_act ops) empty_world) (arun c ops empty_world).
Proof. apply rel_arun; [apply uninit_config|apply lift_rels|apply rel_empty]. Qed.

Lemma lift_exists w w' x : rel_world agrees w w' -> exists_arr w' x -> exists_arr (V := option V) w x.
Proof. intros [_ [H _]] [a E]. exists a. rewrite H. auto. Qed.
Lemma lift_may w w' x : rel_world agrees w w' -> may_copy c w' x -> may_copy u w x.
Proof. intros [_ [H _]] [a [E Ha]]. exists a. rewrite H. split; auto. Qed.
Lemma lift_legal w w' o : rel_world agrees w w' -> legal_act c w' o -> legal_act u w (lift_act o).
Proof.
  intros Hw. pose proof (lift_exists w w') as L1. pose proof (lift_may w w') as L2.
  assert (Ha : forall x, w_arr w x = w_arr w' x) by apply Hw.
  assert (HS : forall s, shape_arg c s -> shape_arg u s) by auto.
  destruct o as [o| | | | | | | |]; [destruct o|..]; cbn [lift_act lift_op legal_act legal_op]; rewrite ?Ha;
    intuition eauto using L1, L2, HS;
    repeat match goal with G : exists _, _ |- _ => destruct G end; intuition eauto 10.
Qed.
Lemma lift_alegal ops : forall w w', rel_world agrees w w' -> alegal c w' ops -> alegal u w (map lift_act ops).
Proof.
  induction ops as [|o r IH]; intros w w' Hw H; cbn [map alegal] in *; auto.
  destruct H as [H1 H2]. split; [eapply lift_legal; eauto|]. intros w1 E.
  pose proof (rel_astep agrees u c uninit_config w w' (lift_act o) o Hw (lift_rel o)) as G. rewrite E in G.
  destruct (astep c w' o) as [w1'| |]; simpl in G; try tauto. eapply IH; eauto.
Qed.
Lemma uninit_fair : fair c -> fair u.
Proof. intros H. exact H. Qed.
Lemma uninit_reachable ops : fair c -> alegal c empty_world ops ->
  exists w w', arun u (map lift_act ops) empty_world = Ok w /\ arun c ops empty_world = Ok w' /\
    areachable u w /\ rel_world agrees w w'.
Proof.
  intros Hf H. destruct (aprograms c Hf ops H) as [w' E']. pose proof (uninit_programs ops) as G. rewrite E' in G.
  destruct (arun u (map lift_act ops) empty_world) as [w| |] eqn:E; simpl in G; try tauto.
  exists w, w'. split; auto. split; auto. split; auto. exists (map lift_act ops). split; auto.
  eapply lift_alegal; eauto using rel_empty.
Qed.
Lemma uninit_elements ops w w' x s g g' : arun u (map lift_act ops) empty_world = Ok w -> arun c ops empty_world = Ok w' ->
  denotes w x s g -> denotes w' x s g' -> forall i v, in_bounds s i -> g i = Some v -> g' i = v.
Proof.
  intros E E' D D' i v Hi Hv. destruct (param_elements agrees u c _ _ w w' x s g g' uninit_config (lift_rels ops) E E' D D' i Hi) as [G|G]; congruence.
Qed.
End Uninit.

(** ** Elements that need their constructor *)
Section Skip.
Context {V : Type}.
Variable c : config V.
Hypothesis Hf : fair c.
Lemma skip_world w s al : reachable c w -> shape_arg c s -> (exists i, in_bounds s i) ->
  exists w', do_new_skip c w s al = Ok w' /\ step c w' (Delete (w_next w)) = UB /\
    forall i v, in_bounds s i -> step c w' (Write (w_next w) i v) = UB.
Proof.
  intros Hw Hs [i0 Hi0]. apply (reachable_inv c Hf) in Hw.
  destruct (allocate_spec c (w_next w) (w_heap w) (blank al s) (proj1 Hw) eq_refl eq_refl Hs) as [h1 [a [E [Hr [Hl [Es Ea]]]]]].
  destruct (values_spec (c_ndebug c) (a_shape a) (a_base a) (repr_extents _ _ _ _ _ Hr) (repr_base _ _ _ _ _ Hr)) as [l [Hl1 Ev]].
  assert (F : forall l' : list ptr, foldM (fun (h : heap V) (_ : ptr) => Ok h) l' h1 = Ok h1) by (induction l'; simpl; auto).
  assert (Hb : forall i, in_bounds s i <-> in_bounds (a_shape a) i) by (intros i; rewrite Es; symmetry; apply resolve_in_bounds).
  assert (Hraw : forall i, in_bounds s i -> peek h1 (elem (a_base a) (a_shape a) i) = Some Raw).
  { intros i Hi. apply Hb in Hi. eapply raw_peek; eauto. }
  exists (mkW h1 (put (w_arr w) (w_next w) (Some a)) (S (w_next w))).
  unfold do_new_skip, add, ctor_shape_skip. rewrite E. cbn [bind].
  rewrite (repr_assert _ _ _ _ _ Hr). cbn [bind]. rewrite Ev. cbn [bind]. rewrite F. cbn [bind]. split; auto.
  assert (Hd : deallocate c (w_next w) h1 a = UB).
  { unfold deallocate. destruct (is_null (a_base a)) eqn:Q.
    - exfalso. destruct (repr_base _ _ _ _ _ Hr) as [C|C]; [congruence|]. apply (C i0), Hb, Hi0.
    - unfold destroy. rewrite (repr_assert _ _ _ _ _ Hr). cbn [bind]. rewrite Ev. cbn [bind].
      rewrite (destroy_raw_ub _ _ (elem (a_base a) (a_shape a) i0)); auto.
      + apply NoDup_map_elem; auto. eapply repr_injective; eauto.
      + apply in_map. apply Hl1, Hb, Hi0. }
  split.
  - cbn [step]. unfold do_delete, get. cbn [w_arr w_heap]. rewrite put_same. cbn [bind]. rewrite Hd. reflexivity.
  - intros i v Hi. cbn [step]. unfold get. cbn [w_arr w_heap]. rewrite put_same. cbn [bind].
    unfold store. rewrite elem_ref. cbn [aref_of r_base r_shape]. rewrite Hraw by auto. reflexivity.
Qed.
End Skip.

(** ** What is indeterminate *)
Section Which.
Context {V : Type}.
Variable c : config V.
Hypothesis Hf : fair c.
Notation u := (uninitialized c).
Lemma uninit_new w s al : areachable u w -> shape_arg c s ->
  exists w' s', step u w (New s al) = Ok w' /\ same_shape s' s /\ denotes w' (w_next w) s' (fun _ => None) /\
    unchanged w w' [w_next w].
Proof.
  intros R Hs. destruct (construct_shape u (areachable u) (areachable_inv u (uninit_fair c Hf)) w s al R Hs) as [w' [s' [E [S1 [D [_ U]]]]]].
  exists w', s'. auto.
Qed.
Lemma uninit_make_copy w y t al s (f : list Z -> V) : areachable u w -> shape_arg c t ->
  denotes w y s (fun i => Some (f i)) -> within t s ->
  exists w' t', step u w (MakeCopy y t al) = Ok w' /\ same_shape t' t /\ denotes w' (w_next w) t' (fun i => Some (f i)) /\
    unchanged w w' [w_next w].
Proof.
  intros R Hs D Hw. destruct (make_copy_prop u (areachable u) (areachable_inv u (uninit_fair c Hf)) w y t al s _ R Hs D Hw) as [w' [s' [E [S1 [D' [_ [_ U]]]]]]].
  exists w', s'. auto.
Qed.
Lemma uninit_reshape w x t s (f : list Z -> option V) : areachable u w -> shape_arg c t -> denotes w x s f -> Forall2 meets t s ->
  exists w' t' g, step u w (Reshape x t) = Ok w' /\ same_shape t' t /\ denotes w' x t' g /\
    (forall i, in_bounds s i -> in_bounds t i -> g i = f i) /\
    (forall i, ~ in_bounds s i -> in_bounds t i -> g i = None) /\ unchanged w w' [x].
Proof. exact (reshape_prop u (uninit_fair c Hf) (areachable u) (areachable_inv u (uninit_fair c Hf)) w x t s f). Qed.
Lemma uninit_fill w x v s f : areachable u w -> denotes w x s f ->
  exists w', astep u w (lift_act (Fill x v)) = Ok w' /\ denotes w' x s (fun _ => Some v) /\ unchanged w w' [x].
Proof.
  intros R D. destruct (fill_prop u (uninit_fair c Hf) w x (Some v) s f R D) as [w' [E [D' [_ U]]]]. exists w'. auto.
Qed.
Lemma uninit_transform w x fn s f : areachable u w -> denotes w x s f ->
  exists w', astep u w (lift_act (Transform x fn)) = Ok w' /\ denotes w' x s (fun i => Some (fn i)) /\ unchanged w w' [x].
Proof.
  intros R D. destruct (transform_prop u (uninit_fair c Hf) w x (fun i => Some (fn i)) s f R D) as [w' [E [D' [_ U]]]]. exists w'. auto.
Qed.
End Which.
