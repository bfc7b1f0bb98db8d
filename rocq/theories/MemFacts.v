(** Facts about memory updates. *)
From Verif Require Import Tac Memory Interval Shape Spec SpecMem ShapeFacts.
Import ListNotations.
Open Scope Z_scope.

Lemma ptr_eqb_eq p q : ptr_eqb p q = true <-> p = q.
Proof.
  destruct p as [a b], q as [c d]. unfold ptr_eqb; simpl. rewrite andb_true_iff, Nat.eqb_eq, Z.eqb_eq.
  split; intros H; [destruct H; subst; auto | inv H; auto].
Qed.
Lemma ptr_eqb_refl p : ptr_eqb p p = true.
Proof. apply ptr_eqb_eq; auto. Qed.
Lemma is_null_block p : fst p <> O -> is_null p = false.
Proof. intros H. destruct (is_null p) eqn:E; auto. apply ptr_eqb_eq in E. subst. destruct H; auto. Qed.

Lemma ptr_dec (p q : ptr) : {p = q} + {p <> q}.
Proof. decide equality; [apply Z.eq_dec | apply Nat.eq_dec]. Qed.

Section Mem.
Context {V : Type}.
Implicit Types h : heap V.

Lemma peek_block h p c : peek h p = Some c -> fst p <> O.
Proof. unfold peek. destruct (fst p); congruence. Qed.

Lemma peek_upd_same h p c : peek h p <> None -> peek (upd h p c) p = Some c.
Proof.
  unfold peek, upd; simpl. destruct p as [k x]; simpl. destruct k as [|k]; [congruence|].
  rewrite Nat.eqb_refl. destruct (h_blk h (S k)) as [b|]; [|congruence]. simpl.
  destruct ((0 <=? x) && (x <? b_size b)); [|congruence]. rewrite Z.eqb_refl. auto.
Qed.
Lemma peek_upd_other h p q c : p <> q -> peek (upd h p c) q = peek h q.
Proof.
  intros H. unfold peek, upd; simpl. destruct p as [k x], q as [k' y]; simpl. destruct k' as [|k']; auto.
  destruct (Nat.eqb (S k') k) eqn:E; auto. apply Nat.eqb_eq in E. subst k.
  destruct (h_blk h (S k')) as [b|]; auto. simpl. destruct ((0 <=? y) && (y <? b_size b)); auto.
  destruct (y =? x) eqn:E; auto. apply Z.eqb_eq in E. subst. congruence.
Qed.
Lemma peek_upd_none h p q c : peek (upd h p c) q = None <-> peek h q = None.
Proof.
  destruct (ptr_eqb p q) eqn:E.
  - apply ptr_eqb_eq in E. subst q. destruct (peek h p) eqn:Hp.
    + split; [|congruence]. rewrite peek_upd_same; congruence.
    + split; auto. intros _. revert Hp. unfold peek, upd; simpl. destruct (fst p); auto.
      rewrite Nat.eqb_refl. destruct (h_blk h (S n)); auto. simpl. destruct (_ && _); congruence.
  - rewrite peek_upd_other; [reflexivity|]. intros ->. rewrite ptr_eqb_refl in E. discriminate.
Qed.

(** A list of writes *)
Fixpoint upds h (ws : list (ptr * cell V)) : heap V :=
  match ws with [] => h | (p, c) :: r => upds (upd h p c) r end.

Lemma upds_app ws ws' : forall h, upds h (ws ++ ws') = upds (upds h ws) ws'.
Proof. induction ws as [|[p c] r IH]; intros; simpl; auto. Qed.
Lemma peek_upds_out ws : forall h q, ~ In q (map fst ws) -> peek (upds h ws) q = peek h q.
Proof.
  induction ws as [|[p c] r IH]; intros h q H; simpl in *; auto.
  rewrite IH by tauto. apply peek_upd_other. intros ->; tauto.
Qed.
Lemma peek_upds_none ws : forall h q, peek (upds h ws) q = None <-> peek h q = None.
Proof.
  induction ws as [|[p c] r IH]; intros h q; simpl; [reflexivity|].
  rewrite IH. apply peek_upd_none.
Qed.
Lemma peek_upds_in ws : forall h q c, NoDup (map fst ws) -> In (q, c) ws -> peek h q <> None ->
  peek (upds h ws) q = Some c.
Proof.
  induction ws as [|[p c'] r IH]; intros h q c Hnd Hin Hq; simpl in *; [tauto|]. inv Hnd.
  destruct Hin as [E|Hin].
  - inv E. rewrite peek_upds_out by auto. apply peek_upd_same; auto.
  - apply IH; auto. rewrite peek_upd_none. auto.
Qed.
Lemma peek_upds_const ws c : forall h q, (forall p c', In (p, c') ws -> c' = c) ->
  In q (map fst ws) -> peek h q <> None -> peek (upds h ws) q = Some c.
Proof.
  induction ws as [|[p c'] r IH]; intros h q Hc Hin Hq; simpl in *; [tauto|].
  destruct (in_dec ptr_dec q (map fst r)) as [Hr|Hr].
  - apply IH; auto; [intros; apply (Hc p0); auto|]. rewrite peek_upd_none; auto.
  - destruct Hin as [->|Hin]; [|tauto]. rewrite peek_upds_out by auto.
    rewrite peek_upd_same by auto. rewrite (Hc q c'); auto.
Qed.
Lemma upds_next ws : forall h, h_next (upds h ws) = h_next h.
Proof. induction ws as [|[p c] r IH]; intros; simpl; auto. rewrite IH. reflexivity. Qed.
Definition meta (b : block V) : owner * Z := (b_owner b, b_size b).
Lemma upds_meta ws : forall h k, option_map meta (h_blk (upds h ws) k) = option_map meta (h_blk h k).
Proof.
  induction ws as [|[p c] r IH]; intros; simpl; auto. rewrite IH. unfold upd; simpl.
  destruct (Nat.eqb k (fst p)); auto. destruct (h_blk h k); auto.
Qed.

(** Folding a step that performs known writes *)
Lemma foldM_upds {A} (step : heap V -> A -> outcome (heap V)) (ws : A -> list (ptr * cell V)) l : forall h,
  NoDup (map fst (flat_map ws l)) ->
  (forall h' x, In x l ->
     (forall q, ~ In q (map fst (flat_map ws l)) -> peek h' q = peek h q) ->
     (forall q, In q (map fst (ws x)) -> peek h' q = peek h q) ->
     (forall q, peek h' q = None <-> peek h q = None) ->
     step h' x = Ok (upds h' (ws x))) ->
  foldM step l h = Ok (upds h (flat_map ws l)).
Proof.
  induction l as [|a r IH]; intros h Hnd Hs; simpl; auto.
  rewrite (Hs h a); simpl; auto; try reflexivity. rewrite upds_app.
  cbn [flat_map] in Hnd. rewrite map_app in Hnd.
  assert (Hnd2 : NoDup (map fst (flat_map ws r))).
  { clear - Hnd. induction (map fst (ws a)); simpl in *; auto. inv Hnd. auto. }
  assert (Hdis : forall q, In q (map fst (ws a)) -> ~ In q (map fst (flat_map ws r))).
  { clear - Hnd. induction (map fst (ws a)); simpl in *; [tauto|]. inv Hnd. intros q [->|Hq]; auto.
    intros Hr. apply H1. apply in_or_app; auto. }
  apply IH; auto. intros h' x Hx H1 H2 H3. apply Hs; [right; auto| | |].
  - intros q Hq. cbn [flat_map] in Hq. rewrite map_app in Hq. rewrite H1.
    + apply peek_upds_out. intros C; apply Hq, in_or_app; auto.
    + intros C; apply Hq, in_or_app; auto.
  - intros q Hq. rewrite H2 by auto. apply peek_upds_out. intros C. apply (Hdis q C).
    apply in_map_iff in Hq. destruct Hq as [w [E Hw]]. apply in_map_iff. exists w. split; auto.
    apply in_flat_map. exists x; auto.
  - intros q. rewrite H3. apply peek_upds_none.
Qed.
Lemma upds_only_changes h ws (P : ptr -> Prop) : (forall p, In p (map fst ws) -> P p) -> only_changes P h (upds h ws).
Proof.
  intros H. split; [|split].
  - intros p Hp. apply peek_upds_out. intros C; auto.
  - apply upds_next.
  - intros k. apply upds_meta.
Qed.
Lemma only_changes_refl P h : only_changes P h h.
Proof. split; auto. Qed.

Lemma load_holds h p v : load h p = Ok v <-> holds h p v.
Proof. unfold load, holds. destruct (peek h p) as [[|v']|]; split; intros H; inv H; auto. Qed.
Lemma store_ok h p v : alive h p -> store h p v = Ok (upd h p (Live v)).
Proof. intros [w H]. unfold store. rewrite H. auto. Qed.
Lemma alive_block h p : alive h p -> fst p <> O.
Proof. intros [v H]. eapply peek_block; eauto. Qed.
End Mem.
