(** Lemmas for PropControl.v. *)
From Coq Require Import ZArith List Bool Lia.
From Verif Require Import Base Interval Shape Memory Ref Container Program Views Control Spec SpecMem SpecContainer SpecProgram SpecViews SpecInterp SpecRelate
  SpecInterpViews SpecControl Tac ContainerFacts ContainerWorld ProgramFacts ViewsFacts ViewsWorld InterpFacts RelateFacts InterpViewsFacts.
Import ListNotations.
Open Scope Z_scope.

Section Control.
Context {V K : Type}.
Variable c : config V.
Hypothesis Hf : fair c.
Variable turn : K -> sight V -> option (vact V * K).

(** ** A program sees the same in memory and in the interpreter *)

Lemma null_data x h a : valid c x h a -> is_null (pointer_add (a_base a) (flat_min (a_shape a))) = is_null (a_buf a).
Proof.
  intros [_ [[(Eb & Ea & _) _]|[_ (k & b & _ & (Hk & Eb & Ea & _) & _)]]].
  - rewrite Eb, Ea. reflexivity.
  - rewrite Eb, Ea. unfold pointer_add, is_null, ptr_off. cbn [fst snd]. destruct k; [congruence|reflexivity].
Qed.
Lemma sees_same st own is : vinv c st own -> rel c st own is -> sees st = isees is.
Proof.
  intros [(_ & Hv & _) _] ([En S] & _ & Es & Eo). unfold sees, isees. rewrite Eo, Es, En. f_equal. apply map_ext. intros x. specialize (S x).
  destruct (w_arr (vs_world st) x) as [a|] eqn:Ea, (vs_arr (is_vals is) x) as [v|]; try contradiction; auto. cbn [option_map]. f_equal.
  destruct S as (E1 & E2 & _ & E3 & _). unfold look_at. rewrite (null_data x (w_heap (vs_world st)) a) by (apply Hv; auto). rewrite <- E1, <- E2, <- E3, negb_involutive. reflexivity.
Qed.

(** ** Runs *)

Notation run1 := (vinterp c visits orders).
Lemma allowed_play_iff n : forall k st own is, vinv c st own -> rel c st own is ->
  allowed_play c turn visits orders n k is <-> legal_play c turn n k st own.
Proof.
  induction n as [|n IH]; intros k st own is I R; cbn [allowed_play legal_play]; [tauto|]. rewrite (sees_same st own is I R).
  destruct (turn k (isees is)) as [[o k']|]; [|tauto]. rewrite (vallowed_iff c st own is o I R). split; intros [L H]; split; auto.
  - intros st' E. destruct (step_view c Hf st own is o I R (proj2 (vallowed_iff c st own is o I R) L)) as (s1 & E1 & I1 & R1). rewrite E in E1. injection E1 as <-.
    apply (IH k' st' _ (run1 is o)); auto.
  - destruct (step_view c Hf st own is o I R (proj2 (vallowed_iff c st own is o I R) L)) as (s1 & E1 & I1 & R1). apply (IH k' s1 (track c st own o)); auto.
Qed.
Lemma play_same n : forall k st own is, vinv c st own -> rel c st own is -> allowed_play c turn visits orders n k is ->
  exists st' own' is' k', play c turn n k st = Ok (k', st') /\ iplay c turn visits orders n k is = (k', is') /\ vinv c st' own' /\ rel c st' own' is' /\
    exists ops, vlegal c st own ops /\ vrun c ops st = Ok st' /\ own' = tracks c st own ops.
Proof.
  induction n as [|n IH]; intros k st own is I R L; cbn [play iplay allowed_play] in *.
  - exists st, own, is, k. split; auto. split; auto. split; auto. split; auto. exists []. cbn. auto.
  - rewrite (sees_same st own is I R). destruct (turn k (isees is)) as [[o k']|].
    + destruct L as [L1 L2]. destruct (step_view c Hf st own is o I R L1) as (s1 & E1 & I1 & R1). rewrite E1. cbn [bind].
      destruct (IH k' s1 (track c st own o) (run1 is o) I1 R1 L2) as (st' & own' & is' & k2 & Ep & Ei & I2 & R2 & ops & Lo & Ro & To).
      exists st', own', is', k2. split; auto. split; auto. split; auto. split; auto. exists (o :: ops). cbn [vlegal tracks]. unfold vrun. cbn [foldM]. rewrite E1. cbn [bind].
      split; [|auto]. split. { apply (vallowed_iff c st own is o I R); auto. } intros st2 E. injection E as <-. auto.
    + exists st, own, is, k. split; auto. split; auto. split; auto. split; auto. exists []. cbn. auto.
Qed.

(** Longer runs of an ended program are the same *)
Lemma play_end n : forall k st k' st', play c turn n k st = Ok (k', st') -> turn k' (sees st') = None -> forall m, (n <= m)%nat -> play c turn m k st = Ok (k', st').
Proof.
  induction n as [|n IH]; intros k st k' st' E T m Hm; cbn [play] in E.
  - injection E as <- <-. destruct m; cbn [play]; auto. rewrite T. auto.
  - destruct m as [|m]; [lia|]. cbn [play]. destruct (turn k (sees st)) as [[o k2]|] eqn:Et; auto.
    destruct (vstep c st o) as [s1| |]; cbn [bind] in *; try discriminate. apply (IH k2 s1); auto. lia.
Qed.
End Control.

(** ** For PropControl.v *)

Lemma control_interpreter : exists visit order, numbering visit /\ copy_sequence order /\
  forall V K (c : config V) (turn : K -> sight V -> option (vact V * K)) n k, fair c ->
    (legal_play c turn n k vempty [] <-> allowed_play c turn visit order n k nothing) /\
    (legal_play c turn n k vempty [] -> exists k' st is,
      play c turn n k vempty = Ok (k', st) /\ iplay c turn visit order n k nothing = (k', is) /\ shows_state c st is /\ sees st = isees is).
Proof.
  exists visits, orders. split. { exact visits_numbering. } split. { exact orders_sequence. } intros V K c turn n k Hf.
  pose proof (allowed_play_iff c Hf turn n k vempty [] nothing (vinv_empty c) (rel_empty c)) as A. split. { symmetry. exact A. }
  intros L. destruct (play_same c Hf turn n k vempty [] nothing (vinv_empty c) (rel_empty c) (proj2 A L)) as (st & own & is & k' & E & Ei & I & R & _).
  exists k', st, is. split; auto. split; auto. split; [apply (rel_shows c st _ _ I R)|apply (sees_same c _ own); auto].
Qed.
Lemma control_reachable V K (c : config V) (turn : K -> sight V -> option (vact V * K)) n k : fair c -> legal_play c turn n k vempty [] ->
  exists k' st own, play c turn n k vempty = Ok (k', st) /\ vreachable c st own.
Proof.
  intros Hf L. apply (allowed_play_iff c Hf turn n k vempty [] nothing (vinv_empty c) (rel_empty c)) in L.
  destruct (play_same c Hf turn n k vempty [] nothing (vinv_empty c) (rel_empty c) L) as (st & own & is & k' & E & _ & _ & _ & ops & A & B & C).
  exists k', st, own. split; auto. exists ops. auto.
Qed.

Section Builds.
Context {V K : Type}.
Variable c : config V.
Hypothesis Hf : fair c.
Variable turn : K -> sight V -> option (vact V * K).
Lemma release_allowed_play n : forall k is, allowed_play c turn visits orders n k is -> allowed_play (release c) turn visits orders n k is.
Proof.
  induction n as [|n IH]; intros k is; cbn [allowed_play]; auto. destruct (turn k (isees is)) as [[o k']|]; auto. intros [L1 L2].
  split; [apply release_vallowed; auto|]. rewrite release_vinterp. auto.
Qed.
Lemma release_iplay n : forall k is, iplay (release c) turn visits orders n k is = iplay c turn visits orders n k is.
Proof. induction n as [|n IH]; intros k is; cbn [iplay]; [reflexivity|]. destruct (turn k (isees is)) as [[o k']|]; [|reflexivity]. rewrite release_vinterp. apply IH. Qed.
Lemma control_builds n k : legal_play c turn n k vempty [] ->
  legal_play (release c) turn n k vempty [] /\
  exists k' st st', play c turn n k vempty = Ok (k', st) /\ play (release c) turn n k vempty = Ok (k', st') /\ sees st = sees st' /\
    forall x, same_array (vs_world st) (vs_world st') x.
Proof.
  intros L. apply (allowed_play_iff c Hf turn n k vempty [] nothing (vinv_empty c) (rel_empty c)) in L.
  pose proof (release_allowed_play n k nothing L) as L'. pose proof (release_fair c Hf) as Hf'.
  destruct (play_same c Hf turn n k vempty [] nothing (vinv_empty c) (rel_empty c) L) as (st & own & is & k1 & E & Ei & I & R & _).
  destruct (play_same (release c) Hf' turn n k vempty [] nothing (vinv_empty (release c)) (rel_empty (release c)) L') as (st' & own' & is' & k2 & E' & Ei' & I' & R' & _).
  split. { apply (allowed_play_iff (release c) Hf' turn n k vempty [] nothing (vinv_empty (release c)) (rel_empty (release c))); auto. }
  rewrite release_iplay, Ei in Ei'. injection Ei' as <- <-. exists k1, st, st'. split; auto. split; auto.
  split. { rewrite (sees_same c st own is I R), (sees_same (release c) st' own' is I' R'). reflexivity. }
  intros x. destruct R as [S _], R' as [S' _]. apply (shows_same c (release c) _ _ _ _ x eq_refl S S'). reflexivity.
Qed.
End Builds.
