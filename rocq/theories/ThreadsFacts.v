(** Threads that do not get in each other's way.  Proofs about Threads.v. *)
From Verif Require Import Tac Interval Shape Memory Ref Ein Spec SpecMem SpecEin MemFacts AliasFacts Threads SpecThreads.
Import ListNotations.
Open Scope Z_scope.

Section Lists.
Context {A B : Type}.
Lemma set_nth_length k (x : A) l : length (set_nth k x l) = length l.
Proof. revert k. induction l; intros [|k]; simpl; auto. Qed.
Lemma set_nth_same k (x : A) l : (k < length l)%nat -> nth_error (set_nth k x l) k = Some x.
Proof. revert k. induction l; intros [|k] H; simpl in *; try lia; auto. apply IHl. lia. Qed.
Lemma set_nth_other k j (x : A) l : j <> k -> nth_error (set_nth k x l) j = nth_error l j.
Proof. revert k j. induction l; intros [|k] [|j] H; simpl; auto; congruence. Qed.
Lemma set_nth_map k (f : A -> B) x l : map f (set_nth k x l) = set_nth k (f x) (map f l).
Proof. revert k. induction l; intros [|k]; simpl; auto. now rewrite IHl. Qed.
Lemma set_nth_self k (x : A) l : nth_error l k = Some x -> set_nth k x l = l.
Proof. revert k. induction l; intros [|k]; simpl; try discriminate; [now intros [= ->]|]. intros H. now rewrite IHl. Qed.
Lemma set_nth_twice k (x y : A) l : set_nth k y (set_nth k x l) = set_nth k y l.
Proof. revert k. induction l; intros [|k]; simpl; auto. now rewrite IHl. Qed.
Lemma In_set_nth k (x y : A) l : In y (set_nth k x l) -> y = x \/ In y l.
Proof.
  revert k. induction l; intros [|k]; simpl; auto.
  - intros [H|H]; auto.
  - intros [H|H]; auto. destruct (IHl _ H); auto.
Qed.
End Lists.
Lemma set_nth_sum k a b l : nth_error l k = Some a -> (list_sum (set_nth k b l) + a = list_sum l + b)%nat.
Proof.
  revert k. induction l; intros [|k]; simpl; try discriminate.
  - intros [= ->]. lia.
  - intros H. specialize (IHl _ H). lia.
Qed.

Section Facts.
Context {V A : Type}.
Implicit Types (h g : heap V) (m : prog V A) (ms : list (prog V A)).

Lemma only_changes_sym (P : ptr -> Prop) (h h' : heap V) : only_changes P h h' -> only_changes P h' h.
Proof. intros (a & b & c). split; [intros; symmetry; auto|]. split; auto. Qed.
Lemma upd_only h p (c : cell V) : only_changes (fun q => q = p) h (upd h p c).
Proof.
  split; [intros q Hq; apply peek_upd_other; congruence|]. split; [reflexivity|].
  intros k. unfold upd. simpl. destruct (_ =? _)%nat; auto. now destruct (h_blk h k).
Qed.
Lemma store_inv h p v h' : store h p v = Ok h' -> h' = upd h p (Live v) /\ exists w, peek h p = Some (Live w).
Proof. unfold store. destruct (peek h p) as [[|w]|]; intros [= <-]. eauto. Qed.
Lemma store_peek h g p v h' : store g p v = Ok h' -> peek h p = peek g p -> store h p v = Ok (upd h p (Live v)).
Proof. unfold store. intros H ->. now destruct (peek g p) as [[|w]|]. Qed.
Lemma load_peek h g p : peek h p = peek g p -> load h p = load g p.
Proof. unfold load. now intros ->. Qed.

(** A thread's view: its program at the start, what is left of it, and the memory it would have if it ran alone *)
Record view := mkT { t_all : prog V A; t_left : prog V A; t_own : heap V }.
Definition keeps_up h hs (t : view) : Prop :=
  run (t_all t) h = run (t_left t) (t_own t) /\ (exists r, run (t_all t) h = Ok r) /\
  (exists before, accesses (t_all t) h = before ++ accesses (t_left t) (t_own t)) /\
  (forall p b, In (p, b) (accesses (t_all t) h) -> peek hs p = peek (t_own t) p) /\
  only_changes (writes_elem (t_all t) h) h (t_own t).
Definition left_work (L : list view) : nat := list_sum (map (fun t => length (accesses (t_left t) (t_own t))) L).
Definition Inv h ms n (s : heap V * list (prog V A)) : Prop :=
  exists L, map t_all L = ms /\ map t_left L = snd s /\ Forall (keeps_up h (fst s)) L /\
    only_changes (fun p => exists m, In m ms /\ writes_elem m h p) h (fst s) /\
    (n + left_work L = work h ms)%nat.

Lemma Inv_start h ms : each_returns h ms -> Inv h ms 0 (h, ms).
Proof.
  intros He. exists (map (fun m => mkT m m h) ms). rewrite !map_map. simpl.
  assert (E : forall (f : prog V A -> prog V A), (forall x, f x = x) -> map f ms = ms)
    by (intros f Hf; rewrite (map_ext _ _ Hf); apply map_id).
  split; [now apply E|]. split; [now apply E|]. split; [|split].
  - apply Forall_map. eapply Forall_impl; [|exact He]. intros m [r Hr]. split; [reflexivity|]. split; [now exists r|].
    split; [now exists []|]. split; auto. apply only_changes_refl.
  - apply only_changes_refl.
  - unfold left_work, work. now rewrite map_map.
Qed.

Lemma Inv_step h ms n s s' : independent h ms -> Inv h ms n s -> step s s' -> Inv h ms (S n) s'.
Proof.
  intros Hi (L & Em & El & HL & Ho & Hn) Hs. destruct Hs as [hs pool k m h' m' Hk Ha]. simpl in *.
  assert (exists t, nth_error L k = Some t /\ t_left t = m) as (t & Ht & Et).
  { rewrite <- El in Hk. rewrite nth_error_map in Hk. destruct (nth_error L k) as [t|]; inv Hk. eauto. }
  pose proof (proj1 (Forall_forall _ _) HL t (nth_error_In _ _ Ht)) as (Er & Hok & (bef & Eb) & Hp & Hg).
  assert (Hlen : (k < length L)%nat) by (apply nth_error_Some; congruence).
  assert (Hmk : nth_error ms k = Some (t_all t)) by (rewrite <- Em, nth_error_map, Ht; reflexivity).
  rewrite Et in *. destruct m as [a|p kk|p v kk| |]; simpl in Ha; try discriminate.
  - (* read *)
    assert (Hpp : peek hs p = peek (t_own t) p)
      by (apply (Hp p false); rewrite Eb; apply in_or_app; right; left; reflexivity).
    rewrite (load_peek _ _ _ Hpp) in Ha. destruct (load (t_own t) p) as [v| |] eqn:El'; simpl in Ha; try discriminate. injection Ha as <- <-.
    exists (set_nth k (mkT (t_all t) (kk v) (t_own t)) L). rewrite !set_nth_map. simpl.
    split; [rewrite set_nth_self; auto; now rewrite nth_error_map, Ht|].
    split; [now rewrite El|]. split; [|split]; auto.
    + apply Forall_forall. intros x Hx. apply In_set_nth in Hx. destruct Hx as [->|Hx].
      * split; [simpl in Er; rewrite El' in Er; exact Er|]. split; auto. split.
        { exists (bef ++ [(p, false)]). simpl in *. rewrite El' in Eb. rewrite Eb. now rewrite <- app_assoc. }
        split; auto.
      * exact (proj1 (Forall_forall _ _) HL x Hx).
    + unfold left_work in *. rewrite set_nth_map. simpl.
      pose proof (set_nth_sum k _ (length (accesses (kk v) (t_own t))) _
        (eq_trans (nth_error_map _ _ _) (f_equal (option_map (fun t => length (accesses (t_left t) (t_own t)))) Ht))) as E.
      rewrite Et in E. simpl in E. rewrite El' in E. lia.
  - (* write *)
    assert (Hpa : In (p, true) (accesses (t_all t) h)) by (rewrite Eb; apply in_or_app; right; left; reflexivity).
    assert (Hpp : peek hs p = peek (t_own t) p) by now apply (Hp p true).
    destruct Hok as [r Hr]. rewrite Hr in Er. simpl in Er.
    destruct (store (t_own t) p v) as [g'| |] eqn:Es; simpl in Er; try discriminate.
    rewrite (store_peek _ _ _ _ _ Es Hpp) in Ha. simpl in Ha. injection Ha as <- <-.
    pose proof (store_inv _ _ _ _ Es) as [-> (w & Hw)].
    set (g' := upd (t_own t) p (Live v)) in *.
    exists (set_nth k (mkT (t_all t) kk g') L). rewrite !set_nth_map. simpl.
    split; [rewrite set_nth_self; auto; now rewrite nth_error_map, Ht|].
    split; [now rewrite El|]. split; [|split].
    + apply Forall_forall. intros x Hx. apply In_nth_error in Hx. destruct Hx as [j Hj].
      destruct (Nat.eq_dec j k) as [->|Hne].
      * rewrite set_nth_same in Hj by auto. inv Hj. split; [simpl; congruence|]. simpl. split; [eauto|]. split.
        { exists (bef ++ [(p, true)]). simpl in *. rewrite Es in Eb. rewrite Eb. now rewrite <- app_assoc. }
        split.
        { intros q b Hq. destruct (ptr_dec p q) as [<-|Hpq].
          - unfold g'. rewrite !peek_upd_same by congruence. reflexivity.
          - unfold g'. rewrite !peek_upd_other by auto. eapply Hp; eauto. }
        eapply only_changes_then; [exact Hg|]. eapply only_changes_more; [|apply upd_only]. intros q ->. exact Hpa.
      * rewrite set_nth_other in Hj by auto.
        pose proof (proj1 (Forall_forall _ _) HL x (nth_error_In _ _ Hj)) as (Er' & Hok' & Hb' & Hp' & Hg').
        split; auto. split; auto. split; auto. split; auto. intros q b Hq. rewrite peek_upd_other; [eauto|].
        intros <-. assert (Hmj : nth_error ms j = Some (t_all x)) by (rewrite <- Em, nth_error_map, Hj; reflexivity).
        destruct (Hi k j _ _ p (not_eq_sym Hne) Hmk Hmj Hpa) as [N1 N2]. destruct b; [now apply N2|now apply N1].
    + eapply only_changes_then; [exact Ho|]. eapply only_changes_more; [|apply upd_only].
      intros q ->. exists (t_all t). split; auto. eapply nth_error_In; eauto.
    + unfold left_work in *. rewrite set_nth_map. simpl.
      pose proof (set_nth_sum k _ (length (accesses kk g')) _
        (eq_trans (nth_error_map _ _ _) (f_equal (option_map (fun t => length (accesses (t_left t) (t_own t)))) Ht))) as E.
      rewrite Et in E. simpl in E. rewrite Es in E. fold g' in E. lia.
Qed.

Lemma Inv_steps h ms n s : each_returns h ms -> independent h ms -> steps n (h, ms) s -> Inv h ms n s.
Proof.
  intros He Hi Hs. remember (h, ms) as s0. induction Hs; subst; [now apply Inv_start|].
  eapply Inv_step; eauto.
Qed.

Lemma Inv_safe h ms n s : independent h ms -> Inv h ms n s -> ~ race s /\ ~ fails s.
Proof.
  intros Hi (L & Em & El & HL & Ho & Hn). split.
  - intros (j & k & mj & mk & p & wj & wk & Hjk & Hj & Hk & Nj & Nk & Hw).
    rewrite <- El in Hj, Hk. rewrite nth_error_map in Hj, Hk.
    destruct (nth_error L j) as [tj|] eqn:Tj; [|discriminate]. destruct (nth_error L k) as [tk|] eqn:Tk; [|discriminate].
    injection Hj as <-. injection Hk as <-.
    assert (G : forall i t w, nth_error L i = Some t -> next_access (t_left t) = Some (p, w) ->
              nth_error ms i = Some (t_all t) /\ In (p, w) (accesses (t_all t) h)).
    { intros i t w Ti Nt. split; [rewrite <- Em, nth_error_map, Ti; reflexivity|].
      pose proof (proj1 (Forall_forall _ _) HL t (nth_error_In _ _ Ti)) as (_ & _ & (bef & ->) & _).
      apply in_or_app. right. destruct (t_left t); simpl in Nt; try discriminate; injection Nt as <- <-; left; reflexivity. }
    destruct (G _ _ _ Tj Nj) as [Mj Aj]. destruct (G _ _ _ Tk Nk) as [Mk Ak].
    destruct Hw as [-> | ->].
    + destruct (Hi j k _ _ p Hjk Mj Mk Aj) as [N1 N2]. destruct wk; [now apply N2|now apply N1].
    + destruct (Hi k j _ _ p (not_eq_sym Hjk) Mk Mj Ak) as [N1 N2]. destruct wj; [now apply N2|now apply N1].
  - intros (m & Hm & Hf). rewrite <- El in Hm. apply in_map_iff in Hm. destruct Hm as (t & Et & Ht).
    pose proof (proj1 (Forall_forall _ _) HL t Ht) as (Er & (r & Hr) & (bef & Eb) & Hp & Hg).
    rewrite Hr in Er. rewrite Et in *. destruct m as [a|p kk|p v kk| |]; simpl in *; try (destruct Hf; discriminate).
    + assert (Hpp : peek (fst s) p = peek (t_own t) p)
        by (apply (Hp p false); rewrite Eb; apply in_or_app; right; left; reflexivity).
      rewrite (load_peek _ _ _ Hpp) in Hf. destruct (load (t_own t) p); simpl in *; try discriminate.
      destruct Hf; discriminate.
    + assert (Hpp : peek (fst s) p = peek (t_own t) p)
        by (apply (Hp p true); rewrite Eb; apply in_or_app; right; left; reflexivity).
      destruct (store (t_own t) p v) eqn:Es; simpl in *; try discriminate.
      rewrite (store_peek _ _ _ _ _ Es Hpp) in Hf. simpl in Hf. destruct Hf; discriminate.
Qed.

Lemma finished_work L : Forall (fun t => exists a, t_left t = Ret a) L -> left_work L = 0%nat.
Proof.
  unfold left_work. induction 1 as [|t L [a Ea] HL IH]; simpl; auto. rewrite Ea. simpl. exact IH.
Qed.
Lemma no_accesses m h : (exists r, run m h = Ok r) -> accesses m h = [] -> exists a, m = Ret a.
Proof. intros [r Hr] H. destruct m; simpl in *; try discriminate. eauto. Qed.
Lemma work_finished h hs L : Forall (keeps_up h hs) L -> left_work L = 0%nat -> Forall (fun t => exists a, t_left t = Ret a) L.
Proof.
  unfold left_work. induction 1 as [|t L Ht HL IH]; simpl; intros E; constructor.
  - destruct Ht as (Er & Hok & _). rewrite Er in Hok. apply (no_accesses _ (t_own t)); auto.
    destruct (accesses (t_left t) (t_own t)); simpl in *; auto. lia.
  - apply IH. lia.
Qed.
Lemma Inv_finished h ms n s : Inv h ms n s -> (n <= work h ms)%nat /\ (finished s <-> n = work h ms).
Proof.
  intros (L & Em & El & HL & Ho & Hn). split; [lia|]. unfold finished. rewrite <- El, Forall_map. split; intros H.
  - rewrite (finished_work _ H) in Hn. lia.
  - apply (work_finished _ _ _ HL). lia.
Qed.
Lemma Inv_together h ms n s : Inv h ms n s -> finished s -> together h ms s.
Proof.
  intros (L & Em & El & HL & Ho & Hn) Hf. split; [now rewrite <- El, <- Em, !map_length|]. split; [|exact Ho].
  intros k m a hk Hk Hr. rewrite <- Em, nth_error_map in Hk. destruct (nth_error L k) as [t|] eqn:Ht; [|discriminate]. injection Hk as <-.
  pose proof (proj1 (Forall_forall _ _) HL t (nth_error_In _ _ Ht)) as (Er & _ & _ & Hp & _).
  rewrite Hr in Er. unfold finished in Hf. rewrite <- El, Forall_map in Hf.
  destruct (proj1 (Forall_forall _ _) Hf t (nth_error_In _ _ Ht)) as [a' Ea]. rewrite Ea in Er. simpl in Er. inv Er.
  split; [rewrite <- El, nth_error_map, Ht; simpl; congruence|]. intros p Hw. eapply Hp. exact Hw.
Qed.
Lemma progress (s : heap V * list (prog V A)) : ~ fails s -> ~ finished s -> exists s', step s s'.
Proof.
  destruct s as [h ms]. intros Hf Hn.
  assert (exists k m, nth_error ms k = Some m /\ forall a, m <> Ret a) as (k & m & Hk & Hm).
  { unfold finished in Hn. simpl in Hn. clear Hf. induction ms as [|m ms IH]; [exfalso; apply Hn; constructor|].
    assert ({exists a, m = Ret a} + {forall a, m <> Ret a}) as [[a Ea]|Hm] by (destruct m; [left; eauto| right; discriminate..]).
    - destruct IH as (k & m' & Hk & Hm'); [intros H; apply Hn; constructor; eauto|]. exists (S k), m'. auto.
    - exists 0%nat, m. auto. }
  destruct (advance h m) as [[[h' m']|]| |] eqn:Ea.
  - eexists. econstructor; eauto.
  - destruct m; simpl in Ea; try discriminate; [edestruct Hm; eauto| |];
      [destruct (load h p)|destruct (store h p v)]; discriminate.
  - exfalso. apply Hf. exists m. split; [eapply nth_error_In; eauto|auto].
  - exfalso. apply Hf. exists m. split; [eapply nth_error_In; eauto|auto].
Qed.
Lemma complete_from h ms : each_returns h ms -> independent h ms -> forall d n s, (work h ms - n = d)%nat ->
  steps n (h, ms) s -> exists s', steps (work h ms) (h, ms) s'.
Proof.
  intros He Hi. induction d as [|d IH]; intros n s Hd Hs.
  - pose proof (Inv_finished _ _ _ _ (Inv_steps _ _ _ _ He Hi Hs)) as [Hle Hf]. replace (work h ms) with n by lia. eauto.
  - pose proof (Inv_steps _ _ _ _ He Hi Hs) as HI. pose proof (Inv_finished _ _ _ _ HI) as [Hle Hf].
    destruct (progress s) as [s' Hs']; [apply (Inv_safe _ _ _ _ Hi HI)|rewrite Hf; lia|].
    apply (IH (S n) s'); [lia|]. econstructor; eauto.
Qed.

(** ** One thread on its own *)
Lemma steps_trans n1 n2 (s1 s2 s3 : heap V * list (prog V A)) : steps n1 s1 s2 -> steps n2 s2 s3 -> steps (n2 + n1) s1 s3.
Proof. intros H1 H2. induction H2; simpl; auto. econstructor; eauto. Qed.
(** [n] steps of a program that runs alone *)
Inductive alone : nat -> heap V * prog V A -> heap V * prog V A -> Prop :=
| al_0 s : alone 0 s s
| al_S n h m h' m' s : advance h m = Ok (Some (h', m')) -> alone n (h', m') s -> alone (S n) (h, m) s.
Lemma alone_steps n h m h' m' ms k : alone n (h, m) (h', m') -> nth_error ms k = Some m ->
  steps n (h, ms) (h', set_nth k m' ms).
Proof.
  intros H. remember (h, m) as s. remember (h', m') as s'. revert h m ms Heqs Heqs'.
  induction H as [s|n h1 m1 h2 m2 s Ha Hal IH]; intros h0 m0 ms E E' Hk.
  - subst s. injection E' as -> ->. rewrite set_nth_self by auto. constructor.
  - injection E as -> ->. subst s.
    assert (Hlen : (k < length ms)%nat) by (apply nth_error_Some; congruence).
    specialize (IH h2 m2 (set_nth k m2 ms) eq_refl eq_refl (set_nth_same _ _ _ Hlen)). rewrite set_nth_twice in IH.
    replace (S n) with (n + 1)%nat by lia. eapply steps_trans; [|exact IH].
    econstructor; [constructor|]. econstructor; eauto.
Qed.
Lemma run_alone m : forall h a h', run m h = Ok (a, h') -> alone (length (accesses m h)) (h, m) (h', Ret a).
Proof.
  induction m as [a0|p k IH|p v k IH| |]; simpl; intros h a h' H; try discriminate.
  - injection H as -> ->. constructor.
  - destruct (load h p) as [v| |] eqn:E; simpl in H; try discriminate. simpl. econstructor; [|now apply IH].
    simpl. rewrite E. reflexivity.
  - destruct (store h p v) as [h1| |] eqn:E; simpl in H; try discriminate. simpl. econstructor; [|now apply IH].
    simpl. rewrite E. reflexivity.
Qed.
(** A program does the same in another memory with the same elements *)
Lemma run_agree m : forall h g a h', run m h = Ok (a, h') ->
  (forall p b, In (p, b) (accesses m h) -> peek g p = peek h p) ->
  exists g', run m g = Ok (a, g') /\ accesses m g = accesses m h /\
    (forall p, peek g p = peek h p -> peek g' p = peek h' p).
Proof.
  induction m as [a0|p k IH|p v k IH| |]; simpl; intros h g a h' H Hp; try discriminate.
  - injection H as -> ->. eauto.
  - rewrite (load_peek g h p) in * by (eapply Hp; left; reflexivity).
    destruct (load h p) as [v| |] eqn:E; simpl in *; try discriminate.
    destruct (IH v h g a h' H) as (g' & R & Ac & Hg); [intros; eapply Hp; right; eauto|].
    exists g'. rewrite Ac. auto.
  - assert (Epp : peek g p = peek h p) by (eapply Hp; left; reflexivity).
    destruct (store h p v) as [h1| |] eqn:E; simpl in *; try discriminate.
    rewrite (store_peek _ _ _ _ _ E Epp). simpl. pose proof (store_inv _ _ _ _ E) as [-> (w & Hw)].
    assert (U : forall q, peek g q = peek h q -> peek (upd g p (Live v)) q = peek (upd h p (Live v)) q).
    { intros q Hq. destruct (ptr_dec p q) as [<-|Hpq]; [rewrite !peek_upd_same by congruence; reflexivity|].
      now rewrite !peek_upd_other by auto. }
    destruct (IH (upd h p (Live v)) (upd g p (Live v)) a h' H) as (g' & R & Ac & Hg).
    { intros q b Hq. apply U. eapply Hp. right. eauto. }
    exists g'. rewrite Ac. split; auto.
Qed.

(** ** Conflicts make races *)
(** Run until the first write to an element of [T] *)
Lemma until_write (T : list ptr) m : forall h q, In (q, true) (accesses m h) -> In q T ->
  exists n h' q' v k, alone n (h, m) (h', St q' v k) /\ In q' T /\ forall x, In x T -> peek h' x = peek h x.
Proof.
  induction m as [a0|p k IH|p v k IH| |]; simpl; intros h q Hq HT; try contradiction.
  - destruct Hq as [Hq|Hq]; [discriminate|]. destruct (load h p) as [v| |] eqn:E; try contradiction.
    destruct (IH v h q Hq HT) as (n & h' & q' & v' & k' & Hal & Hin & Hp).
    exists (S n), h', q', v', k'. split; auto. econstructor; [|exact Hal]. simpl. rewrite E. reflexivity.
  - destruct (in_dec ptr_dec p T) as [Hin|Hout].
    { exists 0%nat, h, p, v, k. split; [constructor|auto]. }
    destruct Hq as [Hq|Hq]; [injection Hq as ->; contradiction|].
    destruct (store h p v) as [h1| |] eqn:E; try contradiction.
    destruct (IH h1 q Hq HT) as (n & h' & q' & v' & k' & Hal & Hin & Hp).
    exists (S n), h', q', v', k'. split; [econstructor; [|exact Hal]; simpl; rewrite E; reflexivity|]. split; auto.
    pose proof (store_inv _ _ _ _ E) as [-> _]. intros x Hx. rewrite Hp by auto. apply peek_upd_other. intros ->. contradiction.
Qed.
(** Run until an access, in a memory that has the same elements *)
Lemma until_access m : forall h g q b, In (q, b) (accesses m h) ->
  (forall p c, In (p, c) (accesses m h) -> peek g p = peek h p) ->
  exists n g' m', alone n (g, m) (g', m') /\ next_access m' = Some (q, b).
Proof.
  induction m as [a0|p k IH|p v k IH| |]; simpl; intros h g q b Hq Hp; try contradiction.
  - destruct Hq as [Hq|Hq].
    { injection Hq as <- <-. exists 0%nat, g, (Ld p k). split; [constructor|reflexivity]. }
    destruct (load h p) as [v| |] eqn:E; try contradiction.
    destruct (IH v h g q b Hq) as (n & g' & m' & Hal & Hn); [intros; eapply Hp; right; eauto|].
    exists (S n), g', m'. split; auto. econstructor; [|exact Hal]. simpl.
    rewrite (load_peek g h p) by (eapply Hp; left; reflexivity). rewrite E. reflexivity.
  - destruct Hq as [Hq|Hq].
    { injection Hq as <- <-. exists 0%nat, g, (St p v k). split; [constructor|reflexivity]. }
    destruct (store h p v) as [h1| |] eqn:E; try contradiction. pose proof (store_inv _ _ _ _ E) as [-> (w & Hw)].
    assert (Epp : peek g p = peek h p) by (eapply Hp; left; reflexivity).
    destruct (IH (upd h p (Live v)) (upd g p (Live v)) q b Hq) as (n & g' & m' & Hal & Hn).
    { intros x c Hx. assert (Ex : peek g x = peek h x) by (eapply Hp; right; eauto).
      destruct (ptr_dec p x) as [<-|Hpx]; [rewrite !peek_upd_same by congruence; reflexivity|].
      now rewrite !peek_upd_other by auto. }
    exists (S n), g', m'. split; auto. econstructor; [|exact Hal]. simpl. rewrite (store_peek _ _ _ _ _ E Epp). reflexivity.
Qed.
Lemma conflict_races h (ms : list (prog V A)) j k mj mk p b : j <> k -> nth_error ms j = Some mj -> nth_error ms k = Some mk ->
  writes_elem mj h p -> In (p, b) (accesses mk h) -> exists n s, steps n (h, ms) s /\ race s.
Proof.
  intros Hjk Hj Hk Hw Ha.
  destruct (until_write (map fst (accesses mk h)) mj h p Hw) as (n1 & h1 & q & v & kk & Hal & Hin & Hp).
  { apply in_map_iff. now exists (p, b). }
  apply in_map_iff in Hin. destruct Hin as ([q' c] & E & Hin). simpl in E. subst q'.
  destruct (until_access mk h h1 q c Hin) as (n2 & h2 & m2 & Hal2 & Hn2).
  { intros x d Hx. apply Hp. apply in_map_iff. now exists (x, d). }
  exists (n2 + n1)%nat, (h2, set_nth k m2 (set_nth j (St q v kk) ms)). split.
  - eapply steps_trans; [eapply alone_steps; eauto|]. eapply alone_steps; [exact Hal2|]. rewrite set_nth_other by auto. exact Hk.
  - exists j, k, (St q v kk), m2, q, true, c. split; auto. simpl. split.
    { rewrite set_nth_other by auto. apply set_nth_same. apply nth_error_Some. congruence. }
    split; [|split; auto]. apply set_nth_same. rewrite set_nth_length. apply nth_error_Some. congruence.
Qed.

(** ** One after the other *)
Lemma together_unique h (ms ms' : list (prog V A)) s s' : each_returns h ms -> Permutation ms ms' ->
  together h ms s -> together h ms' s' -> same_memory (fst s) (fst s').
Proof.
  intros He HP (_ & Hk & Ho) (_ & Hk' & Ho').
  assert (Hin : forall m, In m ms <-> In m ms') by (intros m; split; apply Permutation_in; auto; now apply Permutation_sym).
  split; [|split].
  - intros p _.
    assert (D : {m | In m ms /\ writes_elem m h p} + {forall m, In m ms -> ~ writes_elem m h p}).
    { clear - ms. induction ms as [|m l [(x & Hx & Hw)|IH]]; [right; intros ? []|left; exists x; split; [right|]; auto|].
      destruct (in_dec (fun a b : ptr * bool => ltac:(decide equality; [apply bool_dec|apply ptr_dec])) (p, true) (accesses m h)) as [Hi|Hi].
      - left. exists m. split; [left; auto|exact Hi].
      - right. intros x [<-|Hx]; [exact Hi|now apply IH]. }
    destruct D as [(m & Hm & Hw)|Hno].
    + destruct (proj1 (Forall_forall _ _) He m Hm) as [[a hk] Hr].
      destruct (In_nth_error _ _ Hm) as [i Hi]. destruct (In_nth_error _ _ (proj1 (Hin m) Hm)) as [i' Hi'].
      rewrite (proj2 (Hk' _ _ _ _ Hi' Hr) p Hw). symmetry. now apply (proj2 (Hk _ _ _ _ Hi Hr)).
    + rewrite (proj1 Ho'), (proj1 Ho); auto; intros (m & Hm & Hw); [now apply (Hno m)|apply (Hno m); auto; now apply Hin].
  - destruct Ho as (_ & E & _), Ho' as (_ & E' & _). congruence.
  - intros k. destruct Ho as (_ & _ & E), Ho' as (_ & _ & E'). now rewrite E, E'.
Qed.

Definition apart h (m m' : prog V A) : Prop :=
  (forall p, writes_elem m h p -> ~ reads_elem m' h p /\ ~ writes_elem m' h p) /\
  (forall p, writes_elem m' h p -> ~ reads_elem m h p /\ ~ writes_elem m h p).
Lemma apart_sym h m m' : apart h m m' -> apart h m' m.
Proof. intros []; split; auto. Qed.
Lemma pairs_perm {X} (R : X -> X -> Prop) : (forall a b, R a b -> R b a) -> forall l l', Permutation l l' ->
  ForallOrdPairs R l -> ForallOrdPairs R l'.
Proof.
  intros Hs. induction 1; intros H1; auto.
  - inv H1. constructor; auto. eapply Permutation_Forall; eauto.
  - inv H1. inv H3. inv H2. constructor; [constructor; auto|constructor; auto].
Qed.
Lemma pairs_nth {X} (R : X -> X -> Prop) : (forall a b, R a b -> R b a) -> forall l,
  ForallOrdPairs R l <-> forall j k x y, j <> k -> nth_error l j = Some x -> nth_error l k = Some y -> R x y.
Proof.
  intros Hs l. split.
  - induction 1 as [|a l Ha Hl IH]; intros j k x y Hjk Hj Hk; [destruct j; discriminate|].
    destruct j as [|j], k as [|k]; simpl in *; try lia.
    + injection Hj as <-. exact (proj1 (Forall_forall _ _) Ha y (nth_error_In _ _ Hk)).
    + injection Hk as <-. apply Hs. exact (proj1 (Forall_forall _ _) Ha x (nth_error_In _ _ Hj)).
    + eapply (IH j k); eauto.
  - induction l as [|a l IH]; intros H; constructor.
    + apply Forall_forall. intros y Hy. destruct (In_nth_error _ _ Hy) as [k Hk]. apply (H 0%nat (S k)); auto.
    + apply IH. intros j k x y Hjk Hj Hk. apply (H (S j) (S k)); auto.
Qed.
Lemma independent_pairs h ms : independent h ms <-> ForallOrdPairs (apart h) ms.
Proof.
  rewrite (pairs_nth _ (apart_sym h)). split.
  - intros Hi j k x y Hjk Hj Hk. split; intros p Hw; [apply (Hi j k x y p)|apply (Hi k j y x p)]; auto.
  - intros H j k x y p Hjk Hj Hk Hw. now apply (H j k x y Hjk Hj Hk).
Qed.
Lemma independent_perm h ms ms' : Permutation ms ms' -> independent h ms -> independent h ms'.
Proof. rewrite !independent_pairs. apply pairs_perm. apply apart_sym. Qed.
Lemma each_returns_perm h (ms ms' : list (prog V A)) : Permutation ms ms' -> each_returns h ms -> each_returns h ms'.
Proof. intros HP. apply Permutation_Forall. exact HP. Qed.

Lemma one_by_one_steps h ms : each_returns h ms -> independent h ms ->
  forall todo pre don n hs, ms = pre ++ todo -> length don = length pre -> Forall (fun m => exists a, m = Ret a) don ->
  steps n (h, ms) (hs, don ++ todo) ->
  exists h' n' fin, one_by_one todo hs = Ok h' /\ steps n' (h, ms) (h', fin) /\ finished (h', fin).
Proof.
  intros He Hi. induction todo as [|m todo IH]; intros pre don n hs Ems Hlen Hdon Hs.
  - exists hs, n, don. rewrite app_nil_r in Hs. split; [reflexivity|]. split; auto.
  - destruct (Inv_steps _ _ _ _ He Hi Hs) as (L & Em & El & HL & Ho & Hn). simpl in El, HL.
    assert (Hmk : nth_error ms (length pre) = Some m) by (rewrite Ems, nth_error_app2, Nat.sub_diag; auto).
    assert (Hmk' : nth_error (don ++ m :: todo) (length pre) = Some m)
      by (rewrite nth_error_app2 by lia; rewrite Hlen, Nat.sub_diag; auto).
    rewrite <- Em, nth_error_map in Hmk. rewrite <- El, nth_error_map in Hmk'.
    destruct (nth_error L (length pre)) as [t|] eqn:Ht; [|discriminate]. injection Hmk as Ea. injection Hmk' as Eb.
    pose proof (proj1 (Forall_forall _ _) HL t (nth_error_In _ _ Ht)) as (Er & ([a hk] & Hr) & (bef & Ebe) & Hp & _).
    rewrite Ea in *. rewrite Eb in *. rewrite Hr in Er. symmetry in Er.
    destruct (run_agree m (t_own t) hs a hk Er) as (hs' & Hrun & Hacc & _).
    { intros p b Hpb. apply (Hp p b). rewrite Ebe. apply in_or_app. auto. }
    pose proof (alone_steps _ _ _ _ _ (don ++ m :: todo) (length pre) (run_alone _ _ _ _ Hrun)) as Hst.
    rewrite (nth_error_app2 don) in Hst by lia. rewrite Hlen, Nat.sub_diag in Hst. specialize (Hst eq_refl).
    assert (E : set_nth (length pre) (Ret a) (don ++ m :: todo) = (don ++ [Ret a]) ++ todo).
    { rewrite <- app_assoc. rewrite <- Hlen. clear. induction don; simpl; auto. now rewrite IHdon. }
    rewrite E in Hst. pose proof (steps_trans _ _ _ _ _ Hs Hst) as Hs'.
    destruct (fun E1 E2 E3 => IH (pre ++ [m]) (don ++ [Ret a]) _ hs' E1 E2 E3 Hs') as (h' & n' & fin & Ho' & Hf); auto.
    + subst ms. now rewrite <- app_assoc.
    + rewrite !app_length. simpl. lia.
    + apply Forall_app. split; auto. constructor; eauto.
    + exists h', n', fin. split; auto. simpl. rewrite Hrun. exact Ho'.
Qed.

(** ** Summary *)
Lemma threads_safe h ms n s : each_returns h ms -> independent h ms -> steps n (h, ms) s ->
  ~ race s /\ ~ fails s /\ (n <= work h ms)%nat /\ (finished s <-> n = work h ms) /\ (finished s -> together h ms s).
Proof.
  intros He Hi Hs. pose proof (Inv_steps _ _ _ _ He Hi Hs) as HI. destruct (Inv_safe _ _ _ _ Hi HI) as [H1 H2].
  destruct (Inv_finished _ _ _ _ HI) as [H3 H4]. split; [|split; [|split; [|split]]]; auto. intros Hf. exact (Inv_together _ _ _ _ HI Hf).
Qed.
Lemma threads_finish h ms n s : each_returns h ms -> independent h ms -> steps n (h, ms) s -> finished s \/ exists s', step s s'.
Proof.
  intros He Hi Hs. destruct (threads_safe _ _ _ _ He Hi Hs) as (_ & Hf & Hn & Hfin & _).
  destruct (Nat.eq_dec n (work h ms)) as [E|E]; [left; now apply Hfin|]. right. apply progress; auto. rewrite Hfin. exact E.
Qed.
Lemma threads_any_order h ms ms' : each_returns h ms -> independent h ms -> Permutation ms ms' ->
  exists h', one_by_one ms' h = Ok h' /\ forall n s, steps n (h, ms) s -> finished s -> same_memory h' (fst s).
Proof.
  intros He Hi HP.
  destruct (one_by_one_steps h ms' (each_returns_perm _ _ _ HP He) (independent_perm _ _ _ HP Hi) ms' [] [] 0 h)
    as (h' & n' & fin & Ho & Hs & Hf); auto; try constructor.
  exists h'. split; auto. intros n s Hs' Hf'.
  destruct (threads_safe _ _ _ _ (each_returns_perm _ _ _ HP He) (independent_perm _ _ _ HP Hi) Hs) as (_ & _ & _ & _ & Ht).
  destruct (threads_safe _ _ _ _ He Hi Hs') as (_ & _ & _ & _ & Ht').
  apply (together_unique h ms' ms (h', fin) s); auto. { now apply (each_returns_perm _ _ _ HP). } now apply Permutation_sym.
Qed.
Lemma threads_race h (ms : list (prog V A)) : each_returns h ms ->
  (independent h ms <-> forall n s, steps n (h, ms) s -> ~ race s).
Proof.
  intros He. split.
  - intros Hi n s Hs. apply (threads_safe _ _ _ _ He Hi Hs).
  - intros Hr j k mj mk p Hjk Hj Hk Hw. split; intros Ha.
    + destruct (conflict_races h ms j k mj mk p false Hjk Hj Hk Hw Ha) as (n & s & Hs & HR). exact (Hr n s Hs HR).
    + destruct (conflict_races h ms j k mj mk p true Hjk Hj Hk Hw Ha) as (n & s & Hs & HR). exact (Hr n s Hs HR).
Qed.
End Facts.
