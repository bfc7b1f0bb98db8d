(** Proofs about programs whose statements an exception may stop (C66). *)
From Coq Require Import Sorted Permutation.
From Verif Require Import Tac Interval Shape Traverse Memory Ref Container Program Ein Abort Spec SpecMem SpecContainer SpecProgram
  SpecAlias SpecEin SpecAbort ShapeFacts ResolveFacts TraverseFacts MemFacts RefFacts SliceFacts AliasFacts EinFacts
  ContainerFacts ContainerWorld ContainerProps ProgramFacts AbortFacts.
Import ListNotations.
Open Scope Z_scope.

Definition st_of {S : Type} (r : ended S) : S := match r with Returned s | Raised s => s end.

Lemma each_keeps {S A : Type} (K : S -> Prop) (one last : S -> A -> outcome S) l :
  (forall s a, In a l -> K s -> exists s', one s a = Ok s' /\ K s') ->
  (forall s a, In a l -> K s -> exists s', last s a = Ok s' /\ K s') ->
  forall k s, K s -> exists r, each_t one last l k s = Ok r /\ K (st_of r).
Proof.
  induction l as [|a l IH]; intros H1 H2 k s Hs.
  - exists (Returned s). destruct k; auto.
  - destruct k as [|k]; cbn [each_t].
    + destruct (H2 s a) as [s' [E K']]; [left; auto|auto|]. rewrite E. cbn [bind]. exists (Raised s'). auto.
    + destruct (H1 s a) as [s' [E K']]; [left; auto|auto|]. rewrite E. cbn [bind]. apply IH; auto; intros; [apply H1|apply H2]; auto; right; auto.
Qed.
Lemma each_returned {S A : Type} (one last : S -> A -> outcome S) l : forall k s s',
  each_t one last l k s = Ok (Returned s') -> foldM one l s = Ok s'.
Proof.
  induction l as [|a l IH]; intros k s s' E.
  - destruct k; cbn [each_t] in E; injection E as <-; auto.
  - destruct k as [|k]; cbn [each_t] in E.
    + destruct (last s a); cbn [bind] in E; discriminate.
    + cbn [foldM]. destruct (one s a) as [s1| |]; cbn [bind] in *; try discriminate. eapply IH; eauto.
Qed.

Section Facts.
Context {V : Type}.
Variable c : config V.
Hypothesis Hf : fair c.
Variable tear : V -> V -> V.
Variable spoil : V -> V.
Implicit Types (w : world V) (h : heap V) (P : ptr -> Prop).
Notation Inv := (Inv c).

(** Only cells of [P] get other values *)
Definition vals (P : ptr -> Prop) h h1 : Prop := only_changes P h h1 /\ forall p, alive h p -> alive h1 p.
Lemma vals_refl P h : vals P h h.
Proof. split; auto. apply only_changes_refl. Qed.
Lemma store_vals P h h1 p v : P p -> alive h p -> vals P h h1 -> exists h2, store h1 p v = Ok h2 /\ vals P h h2.
Proof.
  intros Hp Ha [O L]. pose proof (L p Ha) as [old Ho]. destruct (store_gives h1 p old v Ho) as [h2 [E [H2 O2]]].
  exists h2. split; auto. split.
  - apply (only_changes_trans _ _ h1); auto. eapply only_changes_more; [|exact O2]. intros q ->. auto.
  - intros q Hq. destruct (ptr_dec p q) as [<-|N]; [eexists; eauto|]. destruct (L q Hq) as [u U]. exists u. unfold holds. rewrite (proj1 O2); auto.
Qed.
Lemma load_vals P h h1 p : alive h p -> vals P h h1 -> exists v, load h1 p = Ok v.
Proof. intros Ha [_ L]. destruct (L p Ha) as [v Hv]. exists v. apply load_holds. auto. Qed.
Lemma torn_vals P h h1 p v : P p -> alive h p -> vals P h h1 -> exists h2, torn_store tear h1 p v = Ok h2 /\ vals P h h2.
Proof.
  intros Hp Ha Hv. unfold torn_store. destruct (load_vals P h h1 p Ha Hv) as [old ->]. cbn [bind]. apply store_vals; auto.
Qed.
Lemma assign_vals P f h h1 p v : P p -> alive h p -> vals P h h1 -> exists h2, assign_t tear f h1 p v = Ok h2 /\ vals P h h2.
Proof. intros Hp Ha Hv. destruct f; cbn [assign_t]; [eauto|]. apply torn_vals; auto. Qed.
Lemma copy_vals P h (l : list (ptr * ptr)) k : (forall ab, In ab l -> alive h (fst ab) /\ alive h (snd ab) /\ P (snd ab)) ->
  exists r, each_t copy_assign (copy_assign_t tear) l k h = Ok r /\ vals P h (st_of r).
Proof.
  intros Hl. apply (each_keeps (vals P h)); [| |apply vals_refl]; intros h1 ab I Hv; destruct (Hl ab I) as [A [B Hp]].
  - unfold copy_assign. destruct (load_vals P h h1 _ A Hv) as [v ->]. cbn [bind]. apply store_vals; auto.
  - unfold copy_assign_t. destruct (load_vals P h h1 _ A Hv) as [v ->]. cbn [bind]. apply torn_vals; auto.
Qed.
Lemma move_vals P h (l : list (ptr * ptr)) k :
  (forall ab, In ab l -> alive h (fst ab) /\ alive h (snd ab) /\ P (fst ab) /\ P (snd ab)) ->
  exists r, each_t (move_assign (c_mv c)) (move_assign_t tear spoil) l k h = Ok r /\ vals P h (st_of r).
Proof.
  intros Hl. apply (each_keeps (vals P h)); [| |apply vals_refl]; intros h1 ab I Hv; destruct (Hl ab I) as [A [B [Hp Hq]]].
  - unfold move_assign. destruct (load_vals P h h1 _ A Hv) as [v ->]. cbn [bind].
    destruct (store_vals P h h1 _ v Hq B Hv) as [h2 [-> H2]]. cbn [bind]. apply store_vals; auto.
  - unfold move_assign_t. destruct (load_vals P h h1 _ A Hv) as [v ->]. cbn [bind].
    destruct (torn_vals P h h1 _ v Hq B Hv) as [h2 [-> H2]]. cbn [bind]. apply store_vals; auto.
Qed.

(** ** The algorithms in a program *)

Definition els (a : arr) : ptr -> Prop := is_elem (a_base a) (a_shape a).

Lemma fill_vals w x a k v : Inv w -> w_arr w x = Some a ->
  exists r, fill_t tear (c_ndebug c) k (w_heap w) (aref_of a) v = Ok r /\ vals (els a) (w_heap w) (st_of r).
Proof.
  intros Hw Ea. unfold fill_t. cbn [aref_of r_shape r_base].
  destruct (values_spec (c_ndebug c) (a_shape a) (a_base a) (inv_extents c w x a Hw Ea)) as [l [Hl ->]].
  { apply (repr_base c live_cells x (w_heap w) a (inv_valid c w x a Hw Ea)). }
  cbn [bind].
  assert (A : forall p, In p (map (elem (a_base a) (a_shape a)) l) -> els a p /\ alive (w_heap w) p).
  { intros p I. apply in_map_iff in I. destruct I as [i [<- Hi]]. apply Hl in Hi. split; [exists i; auto|]. eapply inv_alive; eauto. }
  apply (each_keeps (vals (els a) (w_heap w))); [| |apply vals_refl]; intros h1 p I Hv; destruct (A p I); [apply store_vals|apply torn_vals]; auto.
Qed.
Lemma generate_vals w x a f k g : Inv w -> w_arr w x = Some a ->
  exists r, generate_t tear (c_ndebug c) f k (w_heap w) (aref_of a) g = Ok r /\ vals (els a) (w_heap w) (fst (st_of r)).
Proof.
  intros Hw Ea. unfold generate_t. cbn [aref_of r_shape r_base].
  destruct (values_spec (c_ndebug c) (a_shape a) (a_base a) (inv_extents c w x a Hw Ea)) as [l [Hl ->]].
  { apply (repr_base c live_cells x (w_heap w) a (inv_valid c w x a Hw Ea)). }
  cbn [bind].
  assert (A : forall p, In p (map (elem (a_base a) (a_shape a)) l) -> els a p /\ alive (w_heap w) p).
  { intros p I. apply in_map_iff in I. destruct I as [i [<- Hi]]. apply Hl in Hi. split; [exists i; auto|]. eapply inv_alive; eauto. }
  apply (each_keeps (fun st : heap V * nat => vals (els a) (w_heap w) (fst st))); [| |apply vals_refl]; intros [h1 n] p I Hv; destruct (A p I); cbn [fst snd] in *.
  - destruct (store_vals (els a) (w_heap w) h1 p (g n)) as [h2 [-> H2]]; auto. cbn [bind]. eauto.
  - destruct (assign_vals (els a) f (w_heap w) h1 p (g n)) as [h2 [-> H2]]; auto. cbn [bind]. eexists. split; [reflexivity|auto].
Qed.
Lemma transform_vals w x a f k fn : Inv w -> w_arr w x = Some a ->
  exists r, transform_index_t tear f k (w_heap w) (aref_of a) fn = Ok r /\ vals (els a) (w_heap w) (st_of r).
Proof.
  intros Hw Ea. unfold transform_index_t. cbn [aref_of r_shape r_base].
  destruct (for_each_index_visits (a_shape a) (inv_extents c w x a Hw Ea)) as [l [-> [Hl _]]]. cbn [bind].
  assert (A : forall i, In i l -> els a (ref_ptr (aref_of a) i) /\ alive (w_heap w) (ref_ptr (aref_of a) i)).
  { intros i Hi. apply Hl in Hi. rewrite elem_ref. cbn [aref_of r_shape r_base]. split; [exists i; auto|]. eapply inv_alive; eauto. }
  apply (each_keeps (vals (els a) (w_heap w))); [| |apply vals_refl]; intros h1 i I Hv; destruct (A i I); [apply store_vals|apply assign_vals]; auto.
Qed.
Lemma copy_list w x a y b : Inv w -> w_arr w x = Some a -> w_arr w y = Some b -> within (a_shape a) (a_shape b) ->
  length (a_shape b) = length (a_shape a) /\
  exists l, values_copy (c_ndebug c) (a_shape b) (a_base b) (a_shape a) (a_base a) = Ok l /\
    forall ab, In ab l -> (els b (fst ab) /\ alive (w_heap w) (fst ab)) /\ els a (snd ab) /\ alive (w_heap w) (snd ab).
Proof.
  intros Hw Ea Eb Hi. pose proof (inv_valid c w x a Hw Ea) as Va. pose proof (inv_valid c w y b Hw Eb) as Vb.
  assert (Hl : length (a_shape b) = length (a_shape a)) by (destruct Va as [[H1 _] _], Vb as [[H2 _] _]; congruence).
  split; auto.
  destruct (values_copy_spec (c_ndebug c) (a_shape b) (a_base b) (a_shape a) (a_base a) Hl (inv_extents c w x a Hw Ea)) as [l [Hen ->]].
  { destruct (repr_base c live_cells y _ _ Vb) as [H1|H1]; [|right; intros i J; apply (H1 i); auto].
    destruct (repr_base c live_cells x _ _ Va) as [H2|H2]; [|right; auto]. left; auto. }
  eexists. split; [reflexivity|]. intros ab I. apply in_map_iff in I. destruct I as [i [<- J]]. apply Hen in J. cbn [fst snd].
  split; split; try (exists i; split; auto); try (eapply inv_alive; eauto).
Qed.
Lemma in_range w x a y b : Inv w -> w_arr w x = Some a -> w_arr w y = Some b -> within (a_shape a) (a_shape b) ->
  empty (a_shape a) = false -> index_in_range (a_shape b) (mins (a_shape a)) && index_in_range (a_shape b) (maxs (a_shape a)) = true.
Proof.
  intros Hw Ea Eb Hi E. pose proof (inv_valid c w x a Hw Ea) as Va. pose proof (inv_valid c w y b Hw Eb) as Vb.
  apply in_range_corners; auto; [destruct Va as [[H1 _] _], Vb as [[H2 _] _]; congruence|].
  apply not_empty_ge1; auto. eapply inv_extents; eauto.
Qed.
Lemma copy_to_vals w x a y b k : Inv w -> w_arr w x = Some a -> w_arr w y = Some b -> within (a_shape a) (a_shape b) ->
  exists r, copy_t tear (c_ndebug c) k (w_heap w) (aref_of b) (aref_of a) = Ok r /\ vals (els a) (w_heap w) (st_of r).
Proof.
  intros Hw Ea Eb Hi. unfold copy_t. cbn [aref_of r_shape r_base]. destruct (empty (a_shape a)) eqn:E.
  - exists (Returned (w_heap w)). split; auto. apply vals_refl.
  - rewrite (in_range w x a y b) by auto. cbn [assert_ bind].
    destruct (copy_list w x a y b) as [_ [l [-> Hl]]]; auto. cbn [bind]. apply copy_vals. intros ab I. destruct (Hl ab I) as [[H1 H2] [H3 H4]]. auto.
Qed.
Lemma move_to_vals w x a y b k : Inv w -> w_arr w x = Some a -> w_arr w y = Some b -> within (a_shape a) (a_shape b) ->
  exists r, move_t tear spoil (c_ndebug c) (c_mv c) k (w_heap w) (aref_of b) (aref_of a) = Ok r /\
    vals (fun p => els a p \/ els b p) (w_heap w) (st_of r).
Proof.
  intros Hw Ea Eb Hi. unfold move_t. cbn [aref_of r_shape r_base]. destruct (empty (a_shape a)) eqn:E.
  - exists (Returned (w_heap w)). split; auto. apply vals_refl.
  - rewrite (in_range w x a y b) by auto. cbn [assert_ bind].
    destruct (copy_list w x a y b) as [_ [l [-> Hl]]]; auto. cbn [bind]. apply move_vals. intros ab I. destruct (Hl ab I) as [[H1 H2] [H3 H4]]. auto.
Qed.

(** ** States *)

Lemma vals_inv w x a h' : Inv w -> w_arr w x = Some a -> vals (els a) (w_heap w) h' ->
  Inv (set_heap w h') /\ unchanged w (set_heap w h') [x].
Proof.
  intros Hw Ea [O L]. apply (one_array c w x a h'); auto. intros i Hi. apply L. eapply inv_alive; eauto.
Qed.
Lemma vals_inv2 w x a y b h' : Inv w -> w_arr w x = Some a -> w_arr w y = Some b -> vals (fun p => els a p \/ els b p) (w_heap w) h' ->
  Inv (set_heap w h') /\ unchanged w (set_heap w h') [x; y].
Proof.
  intros Hw Ea Eb [O L]. apply (inv_values c w h' (fun p => els a p \/ els b p)); auto.
  - split; auto. split.
    + intros p Hp. assert (A : alive (w_heap w) p) by (destruct Hp as [[i [Hi ->]]|[i [Hi ->]]]; eapply inv_alive; eauto). split; auto.
    + intros p. destruct (is_elem_dec (a_base a) (a_shape a) p); [left; left; auto|].
      destruct (is_elem_dec (a_base b) (a_shape b) p); [left; right; auto|]. right. unfold els. tauto.
  - intros p [Hp|Hp]; [exists x|exists y]; (split; [simpl; auto|]); eexists; eauto.
Qed.
(** After an exception: the same arrays, and other elements only in [X] *)
Definition after w (e : ended (world V)) (X : list nat) : Prop :=
  Inv (st_of e) /\ match e with Returned _ => True | Raised w' => (forall z, w_arr w' z = w_arr w z) /\ unchanged w w' X end.

Lemma unwind_ok w w1 h2 a X : Inv w -> w_arr w1 (w_next w) = Some a -> unchanged w w1 [w_next w] ->
  Inv (set_heap w1 h2) -> unchanged w1 (set_heap w1 h2) (w_next w :: X) ->
  exists e, unwind c w1 (w_next w) h2 = Ok e /\ after w e X.
Proof.
  intros Hw Ea U1 I2 U2. unfold unwind.
  destruct (delete_world c Hf (set_heap w1 h2) (w_next w) a) as [w' [E [I [U [_ N]]]]]; auto.
  rewrite E. cbn [bind]. eexists. split; [reflexivity|]. split; auto. split.
  - intros z. destruct (Nat.eq_dec z (w_next w)) as [->|Nz].
    + rewrite N. symmetry. apply (fresh c w Hw).
    + destruct (U z) as [-> _]; [simpl; intuition|]. cbn [set_heap w_arr]. apply U1. simpl. intuition.
  - apply (unchanged_temp c w); auto.
    eapply unchanged_trans; [apply (unchanged_weaken _ _ [w_next w]); [simpl; tauto|exact U1]|].
    eapply unchanged_trans; [exact U2|]. apply (unchanged_weaken _ _ [w_next w]); [simpl; tauto|exact U].
Qed.
Lemma on_heap_ok w (r : outcome (ended (heap V))) e X : r = Ok e -> Inv (set_heap w (st_of e)) -> unchanged w (set_heap w (st_of e)) X ->
  exists e', tbind r (fun h' => Ok (Returned (set_heap w h'))) (fun h' => Ok (Raised (set_heap w h'))) = Ok e' /\ after w e' X.
Proof.
  intros -> I U. unfold tbind. cbn [bind]. destruct e as [h'|h']; cbn [st_of] in *; eexists; (split; [reflexivity|]); split; auto.
Qed.

Lemma reshape_list w x a b n s : Inv w -> w_arr w x = Some a -> w_arr w n = Some b -> Forall2 meets s (a_shape a) -> a_shape b = resolve s ->
  exists l, values_copy (c_ndebug c) (a_shape a) (a_base a) (clamp_dims (a_shape b) (a_shape a))
      (pointer_add (a_base b) (flat_offset (a_shape b) (mins (clamp_dims (a_shape b) (a_shape a))))) =
      Ok (map (fun i => (elem (a_base a) (a_shape a) i, elem (a_base b) (a_shape b) i)) l) /\
    enumerates (fun i => in_bounds (a_shape a) i /\ in_bounds (a_shape b) i) l.
Proof.
  intros Hw Ea Eb Hm Es. pose proof (inv_valid c w x a Hw Ea) as Ha. pose proof (inv_valid c w n b Hw Eb) as Hb.
  assert (Hlen : length (a_shape b) = length (a_shape a)).
  { destruct Ha as [[H1 _] _], Hb as [[H2 _] _]. congruence. }
  assert (Hm' : Forall2 meets (a_shape b) (a_shape a)) by (rewrite Es; apply meets_resolve; auto).
  set (I := clamp_dims (a_shape b) (a_shape a)). set (ib := pointer_add (a_base b) (flat_offset (a_shape b) (mins I))).
  assert (HI : forall i, in_bounds I i <-> in_bounds (a_shape b) i /\ in_bounds (a_shape a) i)
    by (intros i; apply clamp_in_bounds; auto).
  assert (He : extents_ge 0 I) by (apply clamp_extents; auto).
  assert (HlI : length I = length (a_shape b)) by (apply map2_length; auto).
  assert (Hel : forall i, in_bounds I i -> elem ib I i = elem (a_base b) (a_shape b) i).
  { intros i Hi. pose proof (proj1 (HI i) Hi) as [Hib _].
    destruct (repr_base c _ _ _ _ Hb) as [Hn|Hn]; [|destruct (Hn i Hib)].
    unfold ib, pointer_add, elem. rewrite Hn. cbn [ptr_off fst snd]. f_equal. rewrite flat_offset_spec.
    unfold I. rewrite <- (clamp_offset (a_shape b) (a_shape a) i Hlen).
    - lia.
    - symmetry. apply (Forall2_len _ _ _ Hib). }
  destruct (values_copy_spec (c_ndebug c) (a_shape a) (a_base a) I ib) as [l [Hl ->]]; [congruence|auto| |].
  { destruct (repr_base c _ _ _ _ Ha) as [H1|H1]; [|right; intros i Hi; apply HI in Hi; destruct Hi as [_ Hi]; exact (H1 i Hi)].
    destruct (valid_memory c _ _ _ Hb) as [[_ [H2 _]]|[_ [H2 [H3 H4]]]]; [right; intros i Hi; apply HI in Hi; destruct Hi as [Hi _]; exact (H2 i Hi)|].
    left. split; auto. unfold ib, pointer_add. rewrite H3. apply is_null_block. cbn [ptr_off fst]. congruence. }
  exists l. split.
  - f_equal. apply map_ext_in. intros i Hi. rewrite Hel by (apply Hl; auto). auto.
  - destruct Hl as [Hn Hl]. split; auto. intros i. rewrite Hl, HI. tauto.
Qed.

Lemma make_ok w y b s al (step : heap V -> arr -> outcome (ended (heap V))) X : Inv w -> w_arr w y = Some b -> shape_arg c s ->
  (forall z, In z X -> z = y) ->
  (forall w1 a, Inv w1 -> w_arr w1 (w_next w) = Some a -> w_arr w1 y = Some b -> a_shape a = resolve s ->
    exists r, step (w_heap w1) a = Ok r /\ Inv (set_heap w1 (st_of r)) /\ unchanged w1 (set_heap w1 (st_of r)) (w_next w :: X)) ->
  exists e, do_make_t c w s al step = Ok e /\ after w e X.
Proof.
  intros Hw Eb Hs HX Hst. unfold do_make_t.
  destruct (new_world c w s al Hw Hs) as [w1 [E1 [I1 [U1 [N1 [D1 [a [Ea _]]]]]]]]. rewrite E1. cbn [bind].
  rewrite (get_ok w1 _ a Ea). cbn [bind]. destruct (denotes_has _ _ _ _ _ D1 Ea) as [Es _].
  pose proof (inv_lt c w y b Hw Eb) as Ly.
  destruct (Hst w1 a) as [r [E [I2 U2]]]; auto.
  { destruct (U1 y) as [-> _]; [simpl; intuition lia|]. auto. }
  unfold tbind. rewrite E. cbn [bind]. destruct r as [h2|h2]; cbn [st_of] in *.
  - eexists. split; [reflexivity|]. split; auto.
  - eapply unwind_ok; eauto.
Qed.

Lemma tstep_ok w o f k : Inv w -> legal_act c w o -> exists e, tstep tear spoil c w o f k = Ok e /\ after w e (targets o).
Proof.
  intros Hw L.
  assert (Plain : exists e, (w' <- astep c w o ;; Ok (Returned w')) = Ok e /\ after w e (targets o)).
  { destruct (astep_ok c Hf w o Hw L) as [w' [-> I]]. cbn [bind]. eexists. split; [reflexivity|]. split; auto. }
  destruct o; cbn [legal_act] in L; try exact Plain.
  - destruct o; try exact Plain; cbn [legal_op] in L; cbn [tstep targets].
    + destruct L as [Hs [b [Eb Hi]]]. rewrite (get_ok w y b Eb). cbn [bind].
      apply (make_ok w y b); auto; [intros z []|]. intros w1 a I1 Ea Eb1 Es.
      destruct (copy_to_vals w1 (w_next w) a y b k I1 Ea Eb1) as [r [E R]]; [rewrite Es; auto|].
      exists r. split; auto. eapply vals_inv; eauto.
    + destruct L as [Hs [b [Eb Hi]]]. rewrite (get_ok w y b Eb). cbn [bind].
      apply (make_ok w y b); auto; [intros z [<-|[]]; auto|]. intros w1 a I1 Ea Eb1 Es.
      destruct (move_to_vals w1 (w_next w) a y b k I1 Ea Eb1) as [r [E R]]; [rewrite Es; auto|].
      exists r. split; auto. eapply vals_inv2; eauto.
    + destruct L as [Hs [a [Ea Hm]]]. unfold do_reshape_t. rewrite (get_ok w x a Ea). cbn [bind].
      destruct (shape_eqb (a_shape a) (resolve s)) eqn:Eq; [eexists; split; [reflexivity|]; split; auto|].
      set (n := w_next w). pose proof (inv_lt c w x a Hw Ea) as Lx. fold n in Lx.
      assert (Hk : known_strides (resolve s)) by apply Hs.
      assert (Hrr : resolve (resolve s) = resolve s) by (apply resolve_known; auto).
      assert (Hs2 : shape_arg c (resolve s)).
      { destruct Hs as [H1 H2]. split; [rewrite resolve_length; auto|]. rewrite Hrr. auto. }
      destruct (new_world c w (resolve s) (c_default c) Hw Hs2) as [w1 [-> [I1 [U1 [N1 [D1 [b [Eb Eal]]]]]]]]. cbn [bind].
      fold n in U1, N1, D1, Eb. rewrite (get_ok w1 n b Eb). cbn [bind]. rewrite Hrr in D1.
      destruct (denotes_has _ _ _ _ _ D1 Eb) as [Es Hb]. destruct (U1 x) as [X1 X2]; [simpl; intuition lia|].
      rewrite Ea in X1. unfold move_common_t. cbv zeta. rewrite Es.
      destruct (reshape_list w1 x a b n s I1 X1 Eb Hm (eq_sym Es)) as [l [-> Hl]]. cbn [bind].
      destruct (move_vals (fun p => els a p \/ els b p) (w_heap w1)
        (map (fun i => (elem (a_base a) (a_shape a) i, elem (a_base b) (a_shape b) i)) l) k) as [r [E2 R]].
      { intros ab I. apply in_map_iff in I. destruct I as [i [<- Hi]]. apply Hl in Hi. destruct Hi as [H1 H2]. cbn [fst snd].
        split; [eapply inv_alive; eauto|]. split; [eapply inv_alive; eauto|]. split; [left|right]; exists i; auto. }
      destruct (vals_inv2 w1 x a n b (st_of r) I1 X1 Eb R) as [I2 U2].
      unfold tbind. rewrite E2. cbn [bind]. destruct r as [h2|h2]; cbn [st_of] in *.
      * assert (Cb : copyable c b) by (right; rewrite <- Es; auto).
        destruct (move_assign_world c Hf (set_heap w1 h2) x n a b) as [w3 [-> [I3 [U3 [N3 [M3 [a3 [b3 [Ea3 [Eb3 _]]]]]]]]]]; auto; [lia|].
        cbn [bind]. destruct (delete_world c Hf w3 n b3 I3 Eb3) as [w4 [-> [I4 _]]]. cbn [bind].
        eexists. split; [reflexivity|]. split; auto.
      * apply (unwind_ok w w1 h2 b [x]); auto. eapply unchanged_weaken; [|exact U2]. simpl. fold n. tauto.
  - destruct L as [a Ea]. cbn [tstep]. rewrite (get_ok w x a Ea). cbn [bind].
    destruct (fill_vals w x a k v Hw Ea) as [r [E R]]. destruct (vals_inv w x a _ Hw Ea R). eapply on_heap_ok; eauto.
  - destruct L as [[a Ea] [b [Eb Hi]]]. destruct (inv_denotes c w y b Hw Eb) as [g D]. cbn [tstep].
    rewrite (get_ok w x a Ea), (get_ok w y b Eb). cbn [bind]. rewrite (elem_value c w y b i g Hw Eb Hi D). cbn [bind].
    destruct (fill_vals w x a k (g i) Hw Ea) as [r [E R]]. destruct (vals_inv w x a _ Hw Ea R). eapply on_heap_ok; eauto.
  - destruct L as [a [b [Ea [Eb Hi]]]]. cbn [tstep]. rewrite (get_ok w x a Ea), (get_ok w y b Eb). cbn [bind].
    destruct (copy_to_vals w x a y b k Hw Ea Eb Hi) as [r [E R]]. destruct (vals_inv w x a _ Hw Ea R). eapply on_heap_ok; eauto.
  - destruct L as [N [a [b [Ea [Eb Hi]]]]]. cbn [tstep]. rewrite (get_ok w x a Ea), (get_ok w y b Eb). cbn [bind].
    destruct (move_to_vals w x a y b k Hw Ea Eb Hi) as [r [E R]]. destruct (vals_inv2 w x a y b _ Hw Ea Eb R). eapply on_heap_ok; eauto.
  - destruct L as [a Ea]. cbn [tstep]. rewrite (get_ok w x a Ea). cbn [bind].
    destruct (generate_vals w x a f k g Hw Ea) as [r [E R]]. destruct (vals_inv w x a _ Hw Ea R).
    eapply (on_heap_ok w _ (match r with Returned st => Returned (fst st) | Raised st => Raised (fst st) end)).
    + unfold tbind. rewrite E. cbn [bind]. destruct r; auto.
    + destruct r; auto.
    + destruct r; auto.
  - destruct L as [a Ea]. cbn [tstep]. rewrite (get_ok w x a Ea). cbn [bind].
    destruct (transform_vals w x a f k fn Hw Ea) as [r [E R]]. destruct (vals_inv w x a _ Hw Ea R). eapply on_heap_ok; eauto.
Qed.

(** ** Without exceptions these are the statements of Program.v *)

Lemma on_heap_returned w (r : outcome (ended (heap V))) w' :
  tbind r (fun h' => Ok (Returned (set_heap w h'))) (fun h' => Ok (Raised (set_heap w h'))) = Ok (Returned w') ->
  exists h', r = Ok (Returned h') /\ w' = mkW h' (w_arr w) (w_next w).
Proof.
  unfold tbind. destruct r as [[h'|h']| |]; cbn [bind]; intros E; try discriminate. injection E as <-. exists h'. auto.
Qed.
Lemma copy_returned nd k h src dst h' : copy_t tear nd k h src dst = Ok (Returned h') -> copy nd h src dst = Ok h'.
Proof.
  unfold copy_t, copy. destruct (empty (r_shape dst)); [intros E; injection E as <-; auto|].
  destruct (assert_ nd _); cbn [bind]; try discriminate. destruct (values_copy _ _ _ _ _); cbn [bind]; try discriminate. apply each_returned.
Qed.
Lemma move_returned nd mv k h src dst h' : move_t tear spoil nd mv k h src dst = Ok (Returned h') -> move nd mv h src dst = Ok h'.
Proof.
  unfold move_t, move. destruct (empty (r_shape dst)); [intros E; injection E as <-; auto|].
  destruct (assert_ nd _); cbn [bind]; try discriminate. destruct (values_copy _ _ _ _ _); cbn [bind]; try discriminate. apply each_returned.
Qed.
Lemma make_returned w s al (step : heap V -> arr -> outcome (ended (heap V))) (plain : heap V -> arr -> outcome (heap V)) w' :
  (forall h a h', step h a = Ok (Returned h') -> plain h a = Ok h') ->
  do_make_t c w s al step = Ok (Returned w') ->
  add w (' (h1, a) <- ctor_shape c (w_next w) (w_heap w) al s ;; h2 <- plain h1 a ;; Ok (h2, a)) = Ok w'.
Proof.
  intros Hp. unfold do_make_t, do_new, add. destruct (ctor_shape c (w_next w) (w_heap w) al s) as [[h1 a]| |]; cbn [bind]; try discriminate.
  unfold get. cbn [w_arr]. rewrite put_same. cbn [bind w_heap]. unfold tbind.
  destruct (step h1 a) as [[h2|h2]| |] eqn:E; cbn [bind]; try discriminate.
  - intros Q. injection Q as <-. rewrite (Hp _ _ _ E). cbn [bind]. reflexivity.
  - unfold unwind. destruct (do_delete c _ _); cbn [bind]; discriminate.
Qed.
Lemma tstep_returned w o f k w' : tstep tear spoil c w o f k = Ok (Returned w') -> astep c w o = Ok w'.
Proof.
  assert (Plain : (w1 <- astep c w o ;; Ok (Returned w1)) = Ok (Returned w') -> astep c w o = Ok w').
  { destruct (astep c w o); cbn [bind]; try discriminate. intros E. injection E as <-. auto. }
  destruct o; try exact Plain; cbn [tstep].
  - destruct o; try exact Plain; cbn [astep step].
    + destruct (get w y) as [b| |]; cbn [bind]; try discriminate. intros E.
      eapply (make_returned w s al _ (fun h a => copy (c_ndebug c) h (aref_of b) (aref_of a))); [|exact E].
      intros h a h'. apply copy_returned.
    + destruct (get w y) as [b| |]; cbn [bind]; try discriminate. intros E.
      eapply (make_returned w s al _ (fun h a => move (c_ndebug c) (c_mv c) h (aref_of b) (aref_of a))); [|exact E].
      intros h a h'. apply move_returned.
    + unfold do_reshape_t, do_reshape. destruct (get w x) as [a| |]; cbn [bind]; try discriminate.
      destruct (shape_eqb _ _); [intros E; injection E as <-; auto|].
      destruct (do_new c w (resolve s) (c_default c)) as [w1| |]; cbn [bind]; try discriminate.
      destruct (get w1 (w_next w)) as [b| |]; cbn [bind]; try discriminate. unfold tbind, move_common_t, move_common.
      destruct (values_copy _ _ _ _ _) as [l| |]; cbn [bind]; try discriminate.
      destruct (each_t _ _ l k (w_heap w1)) as [[h2|h2]| |] eqn:E; cbn [bind]; try discriminate.
      * rewrite (each_returned _ _ _ _ _ _ E). cbn [bind]. unfold set_heap.
        destruct (do_move_assign c _ x (w_next w)) as [w3| |]; cbn [bind]; try discriminate.
        destruct (do_delete c w3 (w_next w)); cbn [bind]; try discriminate. intros Q; injection Q as <-; auto.
      * unfold unwind. destruct (do_delete c _ _); cbn [bind]; discriminate.
  - cbn [astep]. destruct (get w x) as [a| |]; cbn [bind]; try discriminate. intros E. apply on_heap_returned in E. destruct E as [h' [E ->]].
    unfold fill, fill_t in *. destruct (values _ _ _); cbn [bind] in *; try discriminate. rewrite (each_returned _ _ _ _ _ _ E). auto.
  - cbn [astep]. destruct (get w x) as [a| |]; cbn [bind]; try discriminate. destruct (get w y) as [b| |]; cbn [bind]; try discriminate.
    destruct (ref_at _ _ _) as [v| |]; cbn [bind]; try discriminate. intros E. apply on_heap_returned in E. destruct E as [h' [E ->]].
    unfold fill, fill_t in *. destruct (values _ _ _); cbn [bind] in *; try discriminate. rewrite (each_returned _ _ _ _ _ _ E). auto.
  - cbn [astep]. destruct (get w y) as [b| |]; cbn [bind]; try discriminate. destruct (get w x) as [a| |]; cbn [bind]; try discriminate.
    intros E. apply on_heap_returned in E. destruct E as [h' [E ->]]. rewrite (copy_returned _ _ _ _ _ _ E). auto.
  - cbn [astep]. destruct (get w y) as [b| |]; cbn [bind]; try discriminate. destruct (get w x) as [a| |]; cbn [bind]; try discriminate.
    intros E. apply on_heap_returned in E. destruct E as [h' [E ->]]. rewrite (move_returned _ _ _ _ _ _ _ E). auto.
  - cbn [astep]. destruct (get w x) as [a| |]; cbn [bind]; try discriminate. intros E. apply on_heap_returned in E. destruct E as [h' [E ->]].
    unfold generate, generate_t, tbind in *. destruct (values _ _ _) as [l| |]; cbn [bind] in *; try discriminate.
    destruct (each_t _ _ l k _) as [[st|st]| |] eqn:Ee; cbn [bind] in *; try discriminate. injection E as <-.
    unfold assign_each. rewrite (each_returned _ _ _ _ _ _ Ee). auto.
  - cbn [astep]. destruct (get w x) as [a| |]; cbn [bind]; try discriminate. intros E. apply on_heap_returned in E. destruct E as [h' [E ->]].
    unfold transform_index, transform_index_t in *. destruct (for_each_index _); cbn [bind] in *; try discriminate. rewrite (each_returned _ _ _ _ _ _ E). auto.
Qed.

(** ** Programs *)

Lemma trun_ok ops : forall w, Inv w -> tlegal tear spoil c w ops -> exists w', trun tear spoil c ops w = Ok w' /\ Inv w'.
Proof.
  induction ops as [|[[o f] k] ops IH]; intros w Hw L; cbn [trun].
  - eauto.
  - destruct L as [L1 L2]. destruct (tstep_ok w o f k Hw L1) as [e [E [I _]]]. specialize (L2 e E). rewrite E. cbn [bind].
    destruct e as [w'|w']; cbn [st_of] in I; apply IH; auto.
Qed.
Lemma treachable_inv w : treachable tear spoil c w -> Inv w.
Proof. intros [ops [L R]]. destruct (trun_ok ops empty_world (inv_empty c) L) as [w' [E I]]. congruence. Qed.
Lemma tprograms ops : tlegal tear spoil c empty_world ops -> exists w, trun tear spoil c ops empty_world = Ok w.
Proof. intros L. destruct (trun_ok ops empty_world (inv_empty c) L) as [w [E _]]. eauto. Qed.
Lemma tlegal_snoc ops o f k : forall w w1, tlegal tear spoil c w ops -> trun tear spoil c ops w = Ok w1 -> legal_act c w1 o ->
  tlegal tear spoil c w (ops ++ [(o, f, k)]).
Proof.
  induction ops as [|[[p g] m] ops IH]; intros w w1 L R Lo; cbn [app tlegal trun] in *.
  - injection R as <-. split; auto. intros [e|e] _; exact I.
  - destruct L as [L1 L2]. split; auto. intros e E. specialize (L2 e E). rewrite E in R. cbn [bind] in R. destruct e; eapply IH; eauto.
Qed.
Lemma trun_snoc ops o f k : forall w w1 e, trun tear spoil c ops w = Ok w1 -> tstep tear spoil c w1 o f k = Ok e ->
  trun tear spoil c (ops ++ [(o, f, k)]) w = Ok (st_of e).
Proof.
  induction ops as [|[[p g] m] ops IH]; intros w w1 e R E; cbn [app trun] in *.
  - injection R as <-. rewrite E. cbn [bind]. destruct e; auto.
  - destruct (tstep tear spoil c w p g m) as [r| |]; cbn [bind] in *; try discriminate. destruct r; eapply IH; eauto.
Qed.
Lemma tstep_prop w o f k : treachable tear spoil c w -> legal_act c w o ->
  exists e, tstep tear spoil c w o f k = Ok e /\
    match e with
    | Returned w' => treachable tear spoil c w' /\ astep c w o = Ok w'
    | Raised w' => treachable tear spoil c w' /\ (forall z, w_arr w' z = w_arr w z) /\ unchanged w w' (targets o)
    end.
Proof.
  intros R L. destruct (tstep_ok w o f k (treachable_inv w R) L) as [e [E [I A]]]. exists e. split; auto.
  assert (Re : treachable tear spoil c (st_of e)).
  { destruct R as [ops [L1 R1]]. exists (ops ++ [(o, f, k)]). split; [eapply tlegal_snoc; eauto|eapply trun_snoc; eauto]. }
  destruct e as [w'|w']; cbn [st_of] in *; split; auto. eapply tstep_returned; eauto.
Qed.

(** ** What is left of the elements that were to be moved *)

Lemma remains_ex (f : list Z -> V) l1 i : ~ In i l1 -> exists g, remains (c_mv c) spoil f g l1 i.
Proof.
  intros N. exists (fun j => if in_dec idx_dec j l1 then c_mv c (f j) else if idx_dec j i then spoil (f j) else f j). split; [|split].
  - intros j Hj. destruct (in_dec idx_dec j l1); tauto.
  - destruct (in_dec idx_dec i l1); [tauto|]. destruct (idx_dec i i); congruence.
  - intros j Hj. rewrite in_app_iff in Hj. simpl in Hj. destruct (in_dec idx_dec j l1); [tauto|]. destruct (idx_dec j i); [subst; tauto|auto].
Qed.

Lemma stopped_source w x a n b l k f h2 : Inv w -> x <> n -> w_arr w x = Some a -> w_arr w n = Some b -> NoDup l ->
  (forall j, In j l -> in_bounds (a_shape a) j /\ in_bounds (a_shape b) j) -> denotes w x (a_shape a) f ->
  stops2 (a_base b) (a_shape b) (a_base a) (a_shape a) l k f tear (c_mv c) spoil (w_heap w) (Raised h2) ->
  exists l1 i l2 g, l = l1 ++ i :: l2 /\ length l1 = k /\ denotes (set_heap w h2) x (a_shape a) g /\ remains (c_mv c) spoil f g l1 i.
Proof.
  intros Hw N Ea Eb Hd Hin D S. cbn [stops2] in S. destruct S as [l1 [i [l2 [El [Hk [_ [Hs [_ [Hi O]]]]]]]]].
  assert (Ni : ~ In i l1).
  { intros C. rewrite El in Hd. apply NoDup_remove_2 in Hd. apply Hd. apply in_or_app; auto. }
  destruct (remains_ex f l1 i Ni) as [g Hg]. exists l1, i, l2, g. split; auto. split; auto. split; auto.
  destruct (denotes_has w x a _ f D Ea) as [_ Hff]. apply has_denotes; auto.
  intros j Hj. destruct Hg as [G1 [G2 G3]]. destruct (in_dec idx_dec j (l1 ++ [i])) as [J|J].
  - apply in_app_or in J. destruct J as [J|[<-|[]]]; [rewrite G1 by auto; apply Hs; auto|rewrite G2; auto].
  - rewrite G3 by auto. unfold holds. cbn [set_heap w_heap]. rewrite (proj1 O); [apply Hff; auto|].
    intros [q [Iq [Q|Q]]].
    + apply (elems_differ c x n (w_heap w) a b j q (inv_valid c w x a Hw Ea) (inv_valid c w n b Hw Eb)); auto; [apply (inv_apart c w x n); auto|].
      apply Hin. rewrite El. apply in_app_or in Iq. apply in_or_app. destruct Iq as [Iq|[<-|[]]]; simpl; auto.
    + apply J. replace j with q; auto. symmetry. apply (elem_unique c x (w_heap w) a); auto; [apply inv_valid; auto|].
      apply Hin. rewrite El. apply in_app_or in Iq. apply in_or_app. destruct Iq as [Iq|[<-|[]]]; simpl; auto.
Qed.
Lemma stopped_moves w x a n b l k f : Inv w -> x <> n -> w_arr w x = Some a -> w_arr w n = Some b -> NoDup l ->
  (forall j, In j l -> in_bounds (a_shape a) j /\ in_bounds (a_shape b) j) -> denotes w x (a_shape a) f ->
  exists r, each_t (move_assign (c_mv c)) (move_assign_t tear spoil)
      (map (fun i => (elem (a_base a) (a_shape a) i, elem (a_base b) (a_shape b) i)) l) k (w_heap w) = Ok r /\
    stops2 (a_base b) (a_shape b) (a_base a) (a_shape a) l k f tear (c_mv c) spoil (w_heap w) r.
Proof.
  intros Hw N Ea Eb Hd Hin D. rewrite each_t_map. destruct (denotes_has w x a _ f D Ea) as [_ Hff].
  apply moves_stop.
  - apply NoDup_map_inj; auto. intros i j Ii Ij E. apply (elem_unique c n (w_heap w) b); auto; try apply Hin; auto. apply inv_valid; auto.
  - apply NoDup_map_inj; auto. intros i j Ii Ij E. apply (elem_unique c x (w_heap w) a); auto; try apply Hin; auto. apply inv_valid; auto.
  - intros i Ii. apply Hff. apply Hin; auto.
  - intros i Ii. eapply inv_alive; eauto. apply Hin; auto.
  - intros i j Ii Ij. apply (elems_differ c x n (w_heap w) a b i j (inv_valid c w x a Hw Ea) (inv_valid c w n b Hw Eb)); auto; try apply Hin; auto.
    apply (inv_apart c w x n); auto.
Qed.
Lemma reshape_raised w x s t f fl k w' : treachable tear spoil c w -> legal_act c w (Run (Reshape x s)) -> denotes w x t f ->
  tstep tear spoil c w (Run (Reshape x s)) fl k = Ok (Raised w') ->
  exists l1 i l2 g, enumerates (fun j => in_bounds t j /\ in_bounds s j) (l1 ++ i :: l2) /\ length l1 = k /\
    denotes w' x t g /\ remains (c_mv c) spoil f g l1 i.
Proof.
  intros R L D. apply treachable_inv in R. rename R into Hw. destruct L as [Hs [a [Ea Hm]]].
  assert (t = a_shape a) by (apply (denotes_has w x a t f D Ea)). subst t.
  cbn [tstep]. unfold do_reshape_t. rewrite (get_ok w x a Ea). cbn [bind].
  destruct (shape_eqb (a_shape a) (resolve s)) eqn:Eq; [discriminate|].
  set (n := w_next w). pose proof (inv_lt c w x a Hw Ea) as Lx. fold n in Lx.
  assert (Hk : known_strides (resolve s)) by apply Hs.
  assert (Hrr : resolve (resolve s) = resolve s) by (apply resolve_known; auto).
  assert (Hs2 : shape_arg c (resolve s)).
  { destruct Hs as [H1 H2]. split; [rewrite resolve_length; auto|]. rewrite Hrr. auto. }
  destruct (new_world c w (resolve s) (c_default c) Hw Hs2) as [w1 [-> [I1 [U1 [N1 [D1 [b [Eb Eal]]]]]]]]. cbn [bind].
  fold n in U1, N1, D1, Eb. rewrite (get_ok w1 n b Eb). cbn [bind]. rewrite Hrr in D1.
  destruct (denotes_has _ _ _ _ _ D1 Eb) as [Es Hb]. destruct (U1 x) as [X1 X2]; [simpl; intuition lia|].
  rewrite Ea in X1. unfold move_common_t. cbv zeta. rewrite Es.
  destruct (reshape_list w1 x a b n s I1 X1 Eb Hm (eq_sym Es)) as [l [-> Hl]]. cbn [bind].
  destruct (stopped_moves w1 x a n b l k f) as [r [E2 St]]; auto; [lia|apply Hl|intros j Hj; apply Hl; auto|].
  unfold tbind. rewrite E2. cbn [bind]. destruct r as [h2|h2].
  - destruct (do_move_assign c _ x n); cbn [bind]; try discriminate. destruct (do_delete c _ _); cbn [bind]; discriminate.
  - destruct (stopped_source w1 x a n b l k f h2) as [l1 [i [l2 [g [El [Hk1 [Dg Rg]]]]]]]; auto; [lia|apply Hl|intros j Hj; apply Hl; auto|].
    unfold unwind. destruct (vals_inv2 w1 x a n b h2) as [I2 _]; auto.
    { destruct (move_vals (fun p => els a p \/ els b p) (w_heap w1)
        (map (fun i => (elem (a_base a) (a_shape a) i, elem (a_base b) (a_shape b) i)) l) k) as [r [E3 R3]].
      { intros ab I. apply in_map_iff in I. destruct I as [j [<- Hi]]. apply Hl in Hi. destruct Hi as [H1 H2]. cbn [fst snd].
        split; [eapply inv_alive; eauto|]. split; [eapply inv_alive; eauto|]. split; [left|right]; exists j; auto. }
      rewrite E2 in E3. injection E3 as <-. exact R3. }
    destruct (delete_world c Hf (set_heap w1 h2) n b) as [w4 [-> [I4 [U4 _]]]]; auto. cbn [bind]. intros E. injection E as <-.
    exists l1, i, l2, g. split; [|split; [auto|split; [|auto]]].
    + rewrite <- El. destruct Hl as [Hn Hl]. split; auto. intros j. rewrite Hl, <- Es. rewrite resolve_in_bounds. tauto.
    + apply U4; auto. simpl. intuition lia.
Qed.
Lemma make_move_raised w y s al t f fl k w' : treachable tear spoil c w -> legal_act c w (Run (MakeMove y s al)) -> denotes w y t f ->
  tstep tear spoil c w (Run (MakeMove y s al)) fl k = Ok (Raised w') ->
  exists l1 i l2 g, enumerates (in_bounds s) (l1 ++ i :: l2) /\ length l1 = k /\
    denotes w' y t g /\ remains (c_mv c) spoil f g l1 i.
Proof.
  intros R L D. apply treachable_inv in R. rename R into Hw. destruct L as [Hs [b [Eb Hi]]].
  assert (t = a_shape b) by (apply (denotes_has w y b t f D Eb)). subst t.
  cbn [tstep]. rewrite (get_ok w y b Eb). cbn [bind]. unfold do_make_t.
  destruct (new_world c w s al Hw Hs) as [w1 [-> [I1 [U1 [N1 [D1 [a [Ea _]]]]]]]]. cbn [bind].
  rewrite (get_ok w1 _ a Ea). cbn [bind]. destruct (denotes_has _ _ _ _ _ D1 Ea) as [Es _].
  pose proof (inv_lt c w y b Hw Eb) as Ly.
  destruct (U1 y) as [X1 X2]; [simpl; intuition lia|]. rewrite Eb in X1.
  destruct (move_to_vals w1 (w_next w) a y b k I1 Ea X1) as [r [E R]]; [rewrite <- Es; auto|].
  unfold tbind. rewrite E. cbn [bind]. destruct r as [h2|h2]; [discriminate|]. cbn [st_of] in R.
  destruct (vals_inv2 w1 (w_next w) a y b h2 I1 Ea X1 R) as [I2 _].
  unfold move_t in E. cbn [aref_of r_shape r_base] in E. destruct (empty (a_shape a)) eqn:Em; [discriminate|].
  rewrite (in_range w1 (w_next w) a y b) in E by (auto; rewrite <- Es; auto). cbn [assert_ bind] in E.
  pose proof (inv_valid c w1 _ a I1 Ea) as Va. pose proof (inv_valid c w1 y b I1 X1) as Vb.
  assert (Hlen : length (a_shape b) = length (a_shape a)) by (destruct Va as [[H1 _] _], Vb as [[H2 _] _]; congruence).
  destruct (values_copy_spec (c_ndebug c) (a_shape b) (a_base b) (a_shape a) (a_base a) Hlen (inv_extents c w1 _ a I1 Ea)) as [l [Hen Hv]].
  { destruct (repr_base c live_cells y _ _ Vb) as [H1|H1]; [|right; intros i J; apply (H1 i), Hi; rewrite Es; auto].
    destruct (repr_base c live_cells _ _ _ Va) as [H2|H2]; [|right; auto]. left; auto. }
  rewrite Hv in E. cbn [bind] in E.
  assert (Hin : forall j, In j l -> in_bounds (a_shape b) j /\ in_bounds (a_shape a) j).
  { intros j Hj. apply Hen in Hj. split; auto. apply Hi. rewrite Es. auto. }
  destruct (stopped_moves w1 y b (w_next w) a l k f) as [r [E2 St]]; auto; [lia|apply Hen|].
  rewrite E in E2. injection E2 as <-.
  destruct (stopped_source w1 y b (w_next w) a l k f h2) as [l1 [i [l2 [g [El [Hk1 [Dg Rg]]]]]]]; auto; [lia|apply Hen|].
  unfold unwind. destruct (delete_world c Hf (set_heap w1 h2) (w_next w) a) as [w4 [-> [I4 [U4 _]]]]; auto. cbn [bind]. intros Q. injection Q as <-.
  exists l1, i, l2, g. split; [|split; [auto|split; [|auto]]].
  - rewrite <- El. destruct Hen as [Hn He]. split; auto. intros j. rewrite He, <- Es. apply resolve_in_bounds.
  - apply U4; auto. simpl. intuition lia.
Qed.
End Facts.
