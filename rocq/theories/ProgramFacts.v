(** Proofs about programs that use arrays and algorithms. *)
From Coq Require Import ZArith List Bool Lia Permutation Arith.
From Verif Require Import Base Interval Shape Memory Ref Container Program Spec SpecMem SpecContainer SpecProgram Tac
  ShapeFacts ResolveFacts TraverseFacts MemFacts RefFacts SliceFacts ContainerFacts ContainerWorld ContainerProps.
Import ListNotations.
Open Scope Z_scope.

Section Facts.
Context {V : Type}.
Variable c : config V.
Hypothesis Hf : fair c.
Implicit Types (w : world V) (h : heap V).
Notation Inv := (Inv c).

(** ** Assigning to elements keeps the invariant *)

Definition values_only h h' (P : ptr -> Prop) : Prop :=
  only_changes P h h' /\ (forall p, P p -> alive h p /\ alive h' p) /\ (forall p, P p \/ ~ P p).
Lemma values_alive h h' P p : values_only h h' P -> alive h' p <-> alive h p.
Proof.
  intros [[H _] [A D]]. destruct (D p) as [Q|Q].
  - destruct (A p Q). tauto.
  - unfold alive, holds. rewrite (H p Q). tauto.
Qed.
Lemma is_elem_dec b s p : is_elem b s p \/ ~ is_elem b s p.
Proof.
  destruct (in_dec ptr_dec p (map (elem b s) (box s))) as [I|I]; [left|right].
  - apply in_map_iff in I. destruct I as [i [<- Hi]]. exists i. split; auto. apply box_In; auto.
  - intros [i [Hi ->]]. apply I. apply in_map, box_In; auto.
Qed.
Lemma same_block h h' P k b : only_changes P h h' -> h_blk h k = Some b ->
  exists b', h_blk h' k = Some b' /\ b_owner b' = b_owner b /\ b_size b' = b_size b.
Proof.
  intros [_ [_ H]] E. specialize (H k). rewrite E in H. destruct (h_blk h' k) as [b'|]; [|discriminate].
  cbn [option_map] in H. inv H. exists b'. auto.
Qed.
Lemma no_block h h' P k : only_changes P h h' -> h_blk h k = None <-> h_blk h' k = None.
Proof.
  intros [_ [_ H]]. specialize (H k). destruct (h_blk h k), (h_blk h' k); cbn [option_map] in H; split; intro; congruence.
Qed.
Lemma valid_values x h h' P a : values_only h h' P -> valid c x h a -> valid c x h' a.
Proof.
  intros Hv [Hs [H|[Hp [k [b [Hb [Hin Hc]]]]]]]; (split; [auto|]); auto. right. split; auto.
  destruct (same_block h h' P k b (proj1 Hv) Hb) as [b' [Hb' [Eo Es]]]. exists k, b'. split; auto. split.
  - unfold in_block in *. rewrite Es, Eo. auto.
  - intros z Hz. rewrite Es in Hz. rewrite <- (Hc z Hz).
    assert (Hk : k <> 0%nat) by apply Hin. pose proof (values_alive h h' P (k, z) Hv) as A.
    unfold alive, holds in A. rewrite (peek_cell h k b) in A by auto. rewrite (peek_cell h' k b') in A by (auto; lia).
    split; intros [v E].
    + destruct (proj1 A) as [u U]; [exists v; rewrite E; auto|]. exists u. congruence.
    + destruct (proj2 A) as [u U]; [exists v; rewrite E; auto|]. exists u. congruence.
Qed.
Lemma inv_values w h' P X : Inv w -> values_only (w_heap w) h' P -> (forall p, P p -> exists x, In x X /\ elem_of w x p) ->
  Inv (mkW h' (w_arr w) (w_next w)) /\ unchanged w (mkW h' (w_arr w) (w_next w)) X.
Proof.
  intros Hw Hv HX. pose proof Hw as [[H1 [H2 H3]] [Ha [Hap Hb]]]. split.
  - split; [|split; [|split]]; cbn [w_heap w_arr w_next].
    + pose proof (proj1 (proj2 (proj1 Hv))) as En. split; [rewrite En; auto|].
      split; [apply (no_block _ _ _ _ (proj1 Hv)); auto|]. intros k Hk. rewrite En in Hk. apply (no_block _ _ _ _ (proj1 Hv)); auto.
    + intros x a E. destruct (Ha x a E) as [L G]. split; auto. eapply valid_values; eauto.
    + auto.
    + intros k Hk. apply Hb. intro E. apply Hk. apply (no_block _ _ _ _ (proj1 Hv)); auto.
  - intros z Hz. cbn [w_arr]. split; auto. intros s f [a [Ea [Es D]]]. exists a. cbn [w_arr w_heap]. split; auto. split; auto.
    intros i Hi. unfold holds. destruct Hv as [[Hp _] _]. rewrite Hp; [apply D; auto|].
    intro Q. destruct (HX _ Q) as [x [Ix Ex]]. apply Hz. replace z with x; auto.
    apply (inv_elem_unique c w x z (elem (a_base a) s i) Hw Ex). exists a. split; auto. exists i. subst s. auto.
Qed.
(** A change of the elements of one array *)
Lemma one_array w x a h' : Inv w -> w_arr w x = Some a -> only_changes (is_elem (a_base a) (a_shape a)) (w_heap w) h' ->
  (forall i, in_bounds (a_shape a) i -> alive h' (elem (a_base a) (a_shape a) i)) ->
  Inv (mkW h' (w_arr w) (w_next w)) /\ unchanged w (mkW h' (w_arr w) (w_next w)) [x].
Proof.
  intros Hw Ea O A. apply (inv_values w h' (is_elem (a_base a) (a_shape a))); auto.
  - split; auto. split; [|apply is_elem_dec]. intros p [i [Hi ->]]. split; auto.
    apply (live_alive c x); auto. apply inv_valid; auto.
  - intros p Hp. exists x. split; [left; auto|]. exists a. auto.
Qed.
Lemma inv_alive w x a i : Inv w -> w_arr w x = Some a -> in_bounds (a_shape a) i ->
  alive (w_heap w) (elem (a_base a) (a_shape a) i).
Proof. intros Hw Ea. apply (live_alive c x). apply inv_valid; auto. Qed.
Lemma inv_extents w x a : Inv w -> w_arr w x = Some a -> extents_ge 0 (a_shape a).
Proof. intros Hw Ea. apply (repr_extents c live_cells x (w_heap w)). apply inv_valid; auto. Qed.
Lemma inv_injective w x a : Inv w -> w_arr w x = Some a -> injective_layout (a_shape a).
Proof. intros Hw Ea. apply (repr_injective c live_cells x (w_heap w)). apply inv_valid; auto. Qed.

(** ** The statements *)

Lemma fill_world w x a v : Inv w -> w_arr w x = Some a ->
  exists w', astep c w (Fill x v) = Ok w' /\ Inv w' /\ unchanged w w' [x] /\ w_arr w' = w_arr w /\ denotes w' x (a_shape a) (fun _ => v).
Proof.
  intros Hw Ea. cbn [astep]. rewrite (get_ok w x a Ea). cbn [bind].
  destruct (fill_spec (c_ndebug c) (w_heap w) (aref_of a) v) as [h' [E [D O]]].
  { eapply inv_extents; eauto. } { intros i Hi. eapply inv_alive; eauto. }
  rewrite E. cbn [bind]. destruct (one_array w x a h') as [I U]; auto.
  { intros i Hi. exists v. apply D; auto. }
  eexists. split; [reflexivity|]. split; auto. split; auto. split; auto. exists a. auto.
Qed.
Lemma elem_value w y b i f : Inv w -> w_arr w y = Some b -> in_bounds (a_shape b) i -> denotes w y (a_shape b) f ->
  ref_at (w_heap w) (aref_of b) i = Ok (f i).
Proof.
  intros Hw Eb Hi D. destruct (denotes_has w y b _ f D Eb) as [_ H]. unfold ref_at. apply load_holds.
  rewrite elem_ref by auto. apply H; auto.
Qed.
Lemma fill_elem_world w x a y b i f : Inv w -> w_arr w x = Some a -> w_arr w y = Some b -> in_bounds (a_shape b) i ->
  denotes w y (a_shape b) f ->
  exists w', astep c w (FillElem x y i) = Ok w' /\ Inv w' /\ unchanged w w' [x] /\ w_arr w' = w_arr w /\ denotes w' x (a_shape a) (fun _ => f i).
Proof.
  intros Hw Ea Eb Hi D. destruct (fill_world w x a (f i) Hw Ea) as [w' [E R]]. exists w'. split; auto.
  cbn [astep] in *. rewrite (get_ok w x a Ea) in *. rewrite (get_ok w y b Eb). cbn [bind] in *. rewrite (elem_value w y b i f Hw Eb Hi D). exact E.
Qed.
Lemma copy_world w x a y b : Inv w -> x <> y -> w_arr w x = Some a -> w_arr w y = Some b -> within (a_shape a) (a_shape b) ->
  exists w', astep c w (CopyTo y x) = Ok w' /\ Inv w' /\ unchanged w w' [x] /\ w_arr w' = w_arr w /\
    forall f, denotes w y (a_shape b) f -> denotes w' x (a_shape a) f.
Proof.
  intros Hw N Ea Eb Hi. cbn [astep]. rewrite (get_ok w x a Ea), (get_ok w y b Eb). cbn [bind].
  pose proof (inv_valid c w x a Hw Ea) as Va. pose proof (inv_valid c w y b Hw Eb) as Vb.
  destruct (inv_has c w x a Hw Ea) as [g Hg]. pose proof (inv_apart c w x y a b Hw N Ea Eb) as Hap.
  assert (Hsp := fun f Hff => copy_aref_spec c x y (w_heap w) a b f g (proj1 Hw) Va Vb Hg Hff Hap Hi).
  destruct (inv_has c w y b Hw Eb) as [f0 Hf0]. destruct (Hsp f0 Hf0) as [h' [E [V1 [H1 L]]]]. rewrite E. cbn [bind].
  destruct (inv_write c w x a h') as [I U]; auto. eexists. split; [reflexivity|]. split; auto. split; auto. split; auto.
  intros f D. destruct (denotes_has w y b _ f D Eb) as [_ Hff]. destruct (Hsp f Hff) as [h2 [E2 [_ [G _]]]].
  rewrite E in E2. inv E2. apply (has_denotes (mkW h2 (w_arr w) (w_next w))); auto.
Qed.
Lemma fold_copy_same l : forall h, (forall ab : ptr * ptr, In ab l -> fst ab = snd ab /\ alive h (fst ab)) ->
  exists h', foldM (@copy_assign V) l h = Ok h' /\ only_changes (fun _ => False) h h'.
Proof.
  induction l as [|[p q] l IH]; intros h H; cbn [foldM].
  - exists h. split; auto. apply only_changes_refl.
  - destruct (H (p, q) (or_introl eq_refl)) as [E A]. cbn [fst snd] in E, A. subst q.
    unfold copy_assign at 1. cbn [fst snd]. destruct A as [v Hv]. pose proof (proj2 (load_holds h p v) Hv) as Lv. rewrite Lv. cbn [bind].
    rewrite store_ok by (exists v; auto). cbn [bind].
    assert (P : forall r, peek (upd h p (Live v)) r = peek h r).
    { intros r. destruct (ptr_dec p r) as [->|Nr]; [|apply peek_upd_other; auto].
      rewrite peek_upd_same; [symmetry; exact Hv|]. rewrite Hv. discriminate. }
    destruct (IH (upd h p (Live v))) as [h' [E1 [O1 [O2 O3]]]].
    { intros ab I. destruct (H ab (or_intror I)) as [G1 [u G2]]. split; auto. exists u. unfold holds. rewrite P. exact G2. }
    exists h'. split; auto. split; [intros r _; rewrite O1 by auto; apply P|]. split; [rewrite O2; auto|].
    intros k. rewrite O3. apply (upds_meta [(p, Live v)] h k).
Qed.
Lemma self_copy_world w x a : Inv w -> w_arr w x = Some a ->
  exists w', astep c w (CopyTo x x) = Ok w' /\ Inv w' /\ unchanged w w' [] /\ w_arr w' = w_arr w.
Proof.
  intros Hw Ea. cbn [astep]. rewrite (get_ok w x a Ea). cbn [bind].
  assert (H : exists h', copy (c_ndebug c) (w_heap w) (aref_of a) (aref_of a) = Ok h' /\ only_changes (fun _ => False) (w_heap w) h').
  { unfold copy. cbn [aref_of r_shape r_base]. pose proof (inv_extents w x a Hw Ea) as He.
    destruct (empty (a_shape a)) eqn:E.
    - exists (w_heap w). split; auto. apply only_changes_refl.
    - rewrite (proj2 (in_range_corners _ _ eq_refl (not_empty_ge1 _ He E)) (fun i Hi => Hi)). cbn [assert_ bind].
      destruct (values_copy_spec (c_ndebug c) (a_shape a) (a_base a) (a_shape a) (a_base a) eq_refl He) as [l [Hl ->]].
      { destruct (repr_base c live_cells x (w_heap w) a (inv_valid c w x a Hw Ea)); auto. }
      cbn [bind]. apply fold_copy_same. intros ab I. apply in_map_iff in I. destruct I as [i [<- Hi]]. cbn [fst snd]. split; auto.
      apply (inv_alive w x); auto. apply Hl; auto. }
  destruct H as [h' [E O]]. rewrite E. cbn [bind].
  destruct (inv_values w h' (fun _ => False) []) as [I U]; auto; [|intros p []|].
  { split; auto. split; [intros p []|right; auto]. }
  eexists. split; [reflexivity|]. auto.
Qed.
Lemma move_world w x a y b : Inv w -> x <> y -> w_arr w x = Some a -> w_arr w y = Some b -> within (a_shape a) (a_shape b) ->
  exists w', astep c w (MoveTo y x) = Ok w' /\ Inv w' /\ unchanged w w' [x; y] /\ w_arr w' = w_arr w /\
    forall f, denotes w y (a_shape b) f -> denotes w' x (a_shape a) f /\
      exists g, denotes w' y (a_shape b) g /\ (forall i, ~ in_bounds (a_shape a) i -> g i = f i) /\
                (forall i, in_bounds (a_shape a) i -> g i = c_mv c (f i)).
Proof.
  intros Hw N Ea Eb Hi. cbn [astep]. rewrite (get_ok w x a Ea), (get_ok w y b Eb). cbn [bind].
  pose proof (inv_valid c w x a Hw Ea) as Va. pose proof (inv_valid c w y b Hw Eb) as Vb.
  destruct (inv_has c w x a Hw Ea) as [g Hg]. pose proof (inv_apart c w x y a b Hw N Ea Eb) as Hap.
  assert (Hsp := fun f Hff => move_aref_spec c x y (w_heap w) a b f g (proj1 Hw) Va Vb Hg Hff Hap Hi).
  destruct (inv_has c w y b Hw Eb) as [f0 Hf0]. destruct (Hsp f0 Hf0) as [h' [f' [E [V1 [H1 [V2 [H2 [_ [_ L]]]]]]]]]. rewrite E. cbn [bind].
  destruct (inv_two c w x y a b h') as [I U]; auto. eexists. split; [reflexivity|]. split; auto. split; auto. split; auto.
  intros f D. destruct (denotes_has w y b _ f D Eb) as [_ Hff].
  destruct (Hsp f Hff) as [h2 [g2 [E2 [_ [G [_ [G2 [G3 [G4 _]]]]]]]]].
  rewrite E in E2. inv E2. split; [apply (has_denotes (mkW h2 (w_arr w) (w_next w))); auto|].
  exists g2. split; [apply (has_denotes (mkW h2 (w_arr w) (w_next w))); auto|]. auto.
Qed.
Lemma generate_world w x a (g : nat -> V) : Inv w -> w_arr w x = Some a ->
  exists w' l f, astep c w (Generate x g) = Ok w' /\ Inv w' /\ unchanged w w' [x] /\ w_arr w' = w_arr w /\
    enumerates (in_bounds (a_shape a)) l /\ denotes w' x (a_shape a) f /\ forall k i, nth_error l k = Some i -> f i = g k.
Proof.
  intros Hw Ea. cbn [astep]. rewrite (get_ok w x a Ea). cbn [bind].
  destruct (generate_spec (c_ndebug c) (w_heap w) (aref_of a) g) as [h' [l [E [En [D O]]]]].
  { eapply inv_extents; eauto. } { eapply inv_injective; eauto. } { intros i Hi. eapply inv_alive; eauto. }
  rewrite E. cbn [bind fst]. cbn [aref_of r_shape r_base] in *. destruct (one_array w x a h') as [I U]; auto.
  { intros i Hi. apply En in Hi. apply In_nth_error in Hi. destruct Hi as [k Hk]. exists (g k). apply D; auto. }
  destruct (inv_denotes c (mkW h' (w_arr w) (w_next w)) x a I Ea) as [f Df].
  eexists. exists l, f. split; [reflexivity|]. split; auto. split; auto. split; auto. split; auto. split; auto.
  intros k i Hk. destruct (denotes_has _ x a _ f Df Ea) as [_ Hh].
  assert (Hi : in_bounds (a_shape a) i) by (apply En; eapply nth_error_In; eauto).
  specialize (Hh i Hi). specialize (D k i Hk). cbn [w_heap] in Hh. unfold holds in Hh, D. congruence.
Qed.
Lemma transform_world w x a (fn : index -> V) : Inv w -> w_arr w x = Some a ->
  exists w', astep c w (Transform x fn) = Ok w' /\ Inv w' /\ unchanged w w' [x] /\ w_arr w' = w_arr w /\ denotes w' x (a_shape a) fn.
Proof.
  intros Hw Ea. cbn [astep]. rewrite (get_ok w x a Ea). cbn [bind].
  destruct (transform_index_spec (w_heap w) (aref_of a) fn) as [h' [E [D O]]].
  { eapply inv_extents; eauto. } { eapply inv_injective; eauto. } { intros i Hi. eapply inv_alive; eauto. }
  rewrite E. cbn [bind]. destruct (one_array w x a h') as [I U]; auto.
  { intros i Hi. exists (fn i). apply D; auto. }
  eexists. split; [reflexivity|]. split; auto. split; auto. split; auto. exists a. auto.
Qed.

(** assign(shape, y[i]) *)
Lemma construct_from x h a v init : heap_ok h -> repr c raw_cells x h a ->
  (forall h', (forall q, fst q <> blk a -> peek h' q = peek h q) -> init h' = Ok v) ->
  exists h', construct c h a init = Ok h' /\ valid c x h' a /\ has h' a (fun _ => v) /\ local h [blk a] h' [blk a].
Proof.
  intros Hh H Hi. unfold construct. rewrite (repr_assert _ _ _ _ _ H). cbn [bind].
  destruct (values_spec (c_ndebug c) (a_shape a) (a_base a) (repr_extents _ _ _ _ _ H) (repr_base _ _ _ _ _ H))
    as [l [Hl ->]]. cbn [bind]. rewrite foldM_map.
  rewrite (fold_construct_list (elem (a_base a) (a_shape a)) _ (fun _ => v)).
  - eexists. split; [reflexivity|]. apply constructed; auto.
  - apply NoDup_map_elem; auto. eapply repr_injective; eauto.
  - intros i Ii. eapply raw_peek; eauto. apply Hl; auto.
  - intros h' i Ii Hq. rewrite (Hi h'); [reflexivity|]. intros q Nq. apply Hq. intros I. apply in_map_iff in I.
    destruct I as [j [<- Ij]]. apply Nq. apply Hl in Ij. destruct (repr_elem _ _ _ _ _ _ H Ij) as [? [_ [_ [_ [_ [E _]]]]]].
    rewrite E. auto.
Qed.
Lemma peek_block h h' q : h_blk h' (fst q) = h_blk h (fst q) -> peek h' q = peek h q.
Proof. destruct q as [k z]. apply peek_same_block. Qed.
Lemma assign_from_spec x h a s v init k : heap_ok h -> valid c x h a -> shape_arg c s -> k <> blk a -> h_blk h k <> None ->
  (forall h', (forall q, fst q = k -> peek h' q = peek h q) -> init h' = Ok v) ->
  exists h' a', assign_value c x h a s init = Ok (h', a') /\ valid c x h' a' /\ has h' a' (fun _ => v) /\
    local h [blk a] h' [blk a'] /\ a_shape a' = resolve s /\ a_al a' = a_al a.
Proof.
  intros Hh Ha Hs Nk Hk Hi.
  assert (Fr : forall h1 a1, local h [blk a] h1 [blk a1] -> k <> blk a1 /\ forall q, fst q = k -> peek h1 q = peek h q).
  { intros h1 a1 [L1 [L2 [L3 [L4 L5]]]]. assert (N1 : k <> blk a1).
    { intros E. destruct (L5 k) as [[E2|[]]|[E2|E2]]; [left; auto|congruence| |]; apply Hk; destruct Hh as [_ [Z Zn]]; subst; auto.
      rewrite E2. auto. }
    split; auto. intros q E. apply peek_block. rewrite E. apply L3; intros [E2|[]]; congruence. }
  unfold assign_value. destruct (shape_eqb (a_shape a) (resolve s)) eqn:E.
  - apply shape_eqb_eq in E.
    destruct (destroy_spec c x h a Hh Ha) as [h1 [-> [Hr Hl]]]. cbn [bind]. destruct (Fr h1 a Hl) as [_ F].
    destruct (construct_from x h1 a v init) as [h2 [-> [Hv [Hhas Hl2]]]]; auto; [apply Hl| |].
    { intros h2 Q. apply Hi. intros q Eq. rewrite Q by congruence. auto. }
    cbn [bind]. exists h2, a. split; auto. split; auto. split; auto. split; auto. eapply local_trans; eauto.
  - destruct (refit_spec c x h a (resolve s) Hh Ha) as [h1 [a1 [E1 [Hr [Hl [Es Eal]]]]]]; [apply shape_arg_resolve; auto|].
    rewrite E1. cbn [bind]. destruct (Fr h1 a1 Hl) as [N1 F].
    destruct (construct_from x h1 a1 v init) as [h2 [-> [Hv [Hhas Hl2]]]]; auto; [apply Hl| |].
    { intros h2 Q. apply Hi. intros q Eq. rewrite Q by congruence. auto. }
    cbn [bind]. exists h2, a1. split; auto. split; auto. split; auto. split; [eapply local_trans; eauto|].
    split; auto. rewrite Es. apply proper_resolve2, Hs.
Qed.
Lemma assign_elem_world w x a s y b i f : Inv w -> x <> y -> w_arr w x = Some a -> w_arr w y = Some b -> shape_arg c s ->
  in_bounds (a_shape b) i -> denotes w y (a_shape b) f ->
  exists w', astep c w (AssignElem x s y i) = Ok w' /\ Inv w' /\ unchanged w w' [x] /\ denotes w' x (resolve s) (fun _ => f i).
Proof.
  intros Hw N Ea Eb Hs Hi D. cbn [astep]. rewrite (get_ok w x a Ea), (get_ok w y b Eb). cbn [bind].
  destruct (repr_elem _ _ _ _ _ i (inv_valid c w y b Hw Eb) Hi) as [bl [Hk [Hbl [_ [_ [Ee _]]]]]].
  destruct (assign_from_spec x (w_heap w) a s (f i) (fun h' => ref_at h' (aref_of b) i) (blk b))
    as [h' [a' [E [V1 [H1 [L [Es Eal]]]]]]]; auto; [apply Hw|apply inv_valid; auto| |congruence| |].
  { intros E. apply Hk. rewrite E. apply (inv_apart c w x y a b Hw N Ea Eb). auto. }
  { intros h' Q. rewrite <- (elem_value w y b i f Hw Eb Hi D). unfold ref_at, load. rewrite Q; auto.
    rewrite elem_ref by auto. cbn [aref_of r_base r_shape]. rewrite Ee. auto. }
  unfold change. rewrite E. cbn [bind]. destruct (inv_put c w x a h' a') as [I U]; auto.
  eexists. split; [reflexivity|]. split; auto. split; auto. rewrite <- Es.
  apply (has_denotes (mkW h' (put (w_arr w) x (Some a')) (w_next w)) x a'); auto. apply put_same.
Qed.
Lemma construct_ub x h a init : repr c raw_cells x h a -> (exists i, in_bounds (a_shape a) i) -> init h = UB ->
  construct c h a init = UB.
Proof.
  intros H [i Hi] E. unfold construct. rewrite (repr_assert _ _ _ _ _ H). cbn [bind].
  destruct (values_spec (c_ndebug c) (a_shape a) (a_base a) (repr_extents _ _ _ _ _ H) (repr_base _ _ _ _ _ H))
    as [l [Hl ->]]. cbn [bind]. destruct l as [|j l]; [destruct (proj2 (proj2 Hl i) Hi)|].
  cbn [map foldM]. rewrite E. auto.
Qed.
Lemma assign_own_elem w x a s i : Inv w -> w_arr w x = Some a -> shape_arg c s -> in_bounds (a_shape a) i ->
  (exists j, in_bounds s j) -> astep c w (AssignElem x s x i) = UB.
Proof.
  intros Hw Ea Hs Hi [j Hj]. cbn [astep]. rewrite (get_ok w x a Ea). cbn [bind]. unfold change.
  pose proof (inv_valid c w x a Hw Ea) as Va. pose proof (proj1 Hw) as Hh.
  destruct (repr_elem _ _ _ _ _ i Va Hi) as [bl [Hk [Hbl [_ [_ [Ee _]]]]]].
  assert (G : assign_value c x (w_heap w) a s (fun h' => ref_at h' (aref_of a) i) = UB); [|rewrite G; auto].
  unfold assign_value. destruct (shape_eqb (a_shape a) (resolve s)) eqn:E.
  - apply shape_eqb_eq in E.
    destruct (destroy_spec c x (w_heap w) a Hh Va) as [h1 [-> [Hr Hl]]]. cbn [bind].
    rewrite (construct_ub x); auto.
    + exists i; auto.
    + unfold ref_at, load. rewrite elem_ref by auto. cbn [aref_of r_base r_shape]. rewrite (raw_peek c x h1 a i); auto.
  - destruct (refit_spec c x (w_heap w) a (resolve s) Hh Va) as [h1 [a1 [E1 [Hr [Hl [Es Eal]]]]]]; [apply shape_arg_resolve; auto|].
    rewrite E1. cbn [bind].
    assert (Hj1 : in_bounds (a_shape a1) j) by (rewrite Es; apply resolve_in_bounds, resolve_in_bounds; auto).
    rewrite (construct_ub x); auto.
    + exists j; auto.
    + unfold ref_at, load. rewrite elem_ref by auto. cbn [aref_of r_base r_shape]. rewrite Ee.
      destruct (repr_elem _ _ _ _ _ j Hr Hj1) as [b1 [_ [Hb1 [_ [Hc1 _]]]]].
      unfold peek. cbn [fst snd]. destruct Hl as [_ [_ [_ [L4 L5]]]]. destruct (Nat.eq_dec (blk a1) (blk a)) as [Q|Q].
      * rewrite Q in Hb1. rewrite Hb1. destruct (_ && _) eqn:R; [|destruct (blk a); auto]. rewrite Hc1; [destruct (blk a); auto|].
        apply andb_true_iff in R. destruct R as [R1 R2]. apply Z.leb_le in R1. apply Z.ltb_lt in R2. lia.
      * rewrite L4; [destruct (blk a); auto|intros [E2|[]]; congruence|left; auto].
Qed.

(** ** Programs *)

Lemma astep_ok w o : Inv w -> legal_act c w o -> exists w', astep c w o = Ok w' /\ Inv w'.
Proof.
  intros Hw. destruct o; cbn [legal_act]; intros L.
  - apply step_ok; auto.
  - destruct L as [a Ea]. destruct (fill_world w x a v Hw Ea) as [w' [E [I _]]]; eauto.
  - destruct L as [[a Ea] [b [Eb Hi]]]. destruct (inv_denotes c w y b Hw Eb) as [f D].
    destruct (fill_elem_world w x a y b i f Hw Ea Eb Hi D) as [w' [E [I _]]]; eauto.
  - destruct L as [a [b [Ea [Eb Hi]]]]. destruct (Nat.eq_dec x y) as [<-|N].
    + destruct (self_copy_world w x a Hw Ea) as [w' [E [I _]]]; eauto.
    + destruct (copy_world w x a y b Hw N Ea Eb Hi) as [w' [E [I _]]]; eauto.
  - destruct L as [N [a [b [Ea [Eb Hi]]]]]. destruct (move_world w x a y b Hw (not_eq_sym N) Ea Eb Hi) as [w' [E [I _]]]; eauto.
  - apply (step_ok c Hf w (MoveAssign x y)); auto.
  - destruct L as [a Ea]. destruct (generate_world w x a g Hw Ea) as [w' [l [f [E [I _]]]]]; eauto.
  - destruct L as [a Ea]. destruct (transform_world w x a fn Hw Ea) as [w' [E [I _]]]; eauto.
  - destruct L as [[a Ea] [Hs [N [b [Eb Hi]]]]]. destruct (inv_denotes c w y b Hw Eb) as [f D].
    destruct (assign_elem_world w x a s y b i f Hw (not_eq_sym N) Ea Eb Hs Hi D) as [w' [E [I _]]]; eauto.
Qed.
Lemma arun_ok ops : forall w, Inv w -> alegal c w ops -> exists w', arun c ops w = Ok w' /\ Inv w'.
Proof.
  induction ops as [|o ops IH]; intros w Hw L; unfold arun in *; cbn [foldM].
  - eauto.
  - destruct L as [L1 L2]. destruct (astep_ok w o Hw L1) as [w1 [E I]]. rewrite E. cbn [bind]. apply IH; auto.
Qed.
Lemma areachable_inv w : areachable c w -> Inv w.
Proof. intros [ops [L R]]. destruct (arun_ok ops empty_world (inv_empty c) L) as [w' [E I]]. congruence. Qed.
Lemma alegal_snoc ops o : forall w w1, alegal c w ops -> arun c ops w = Ok w1 -> legal_act c w1 o -> alegal c w (ops ++ [o]).
Proof.
  induction ops as [|p ops IH]; intros w w1 L R Lo; unfold arun in *; cbn [app alegal foldM] in *.
  - inv R. auto.
  - destruct L as [L1 L2]. split; auto. intros w' E. rewrite E in R. cbn [bind] in R. eapply IH; eauto.
Qed.
Lemma arun_snoc ops o : forall w w1, arun c ops w = Ok w1 -> arun c (ops ++ [o]) w = astep c w1 o.
Proof.
  induction ops as [|p ops IH]; intros w w1 R; unfold arun in *; cbn [app foldM] in *.
  - inv R. destruct (astep c w1 o); auto.
  - destruct (astep c w p) as [w'| |]; cbn [bind] in *; try discriminate. apply IH; auto.
Qed.
Lemma areach_step w o : areachable c w -> legal_act c w o -> exists w', astep c w o = Ok w' /\ areachable c w'.
Proof.
  intros R L. destruct (astep_ok w o (areachable_inv w R) L) as [w' [E I]]. exists w'. split; auto.
  destruct R as [ops [L1 R1]]. exists (ops ++ [o]). split; [eapply alegal_snoc; eauto|]. rewrite (arun_snoc _ _ _ w); auto.
Qed.
Lemma aprograms ops : alegal c empty_world ops -> exists w, arun c ops empty_world = Ok w.
Proof. intros L. destruct (arun_ok ops empty_world (inv_empty c) L) as [w [E _]]. eauto. Qed.
Lemma run_embeds ops : forall w, arun c (map Run ops) w = run c ops w.
Proof.
  induction ops as [|o ops IH]; intros w; unfold arun, run in *; cbn [map foldM]; auto.
  cbn [astep]. destruct (step c w o); cbn [bind]; auto.
Qed.
Lemma legal_embeds ops : forall w, legal c w ops -> alegal c w (map Run ops).
Proof. induction ops as [|o ops IH]; intros w L; cbn [map alegal legal] in *; auto. destruct L. split; auto. Qed.
Lemma reachable_areachable w : reachable c w -> areachable c w.
Proof. intros [ops [L R]]. exists (map Run ops). split; [apply legal_embeds; auto|]. rewrite run_embeds; auto. Qed.

(** ** The properties as they are stated in PropProgram.v *)

Lemma fill_prop w x v s f : areachable c w -> denotes w x s f ->
  exists w', astep c w (Fill x v) = Ok w' /\ denotes w' x s (fun _ => v) /\ w_arr w' = w_arr w /\ unchanged w w' [x].
Proof.
  intros R D. pose proof D as [a [Ea [<- _]]]. destruct (fill_world w x a v (areachable_inv w R) Ea) as [w' [E [_ [U [A D']]]]].
  exists w'. auto.
Qed.
Lemma fill_elem_prop w x y i s f t g : areachable c w -> denotes w x s f -> denotes w y t g -> in_bounds t i ->
  exists w', astep c w (FillElem x y i) = Ok w' /\ denotes w' x s (fun _ => g i) /\ w_arr w' = w_arr w /\ unchanged w w' [x].
Proof.
  intros R D D2 Hi. pose proof D as [a [Ea [<- _]]]. pose proof D2 as [b [Eb [<- _]]].
  destruct (fill_elem_world w x a y b i g (areachable_inv w R) Ea Eb Hi D2) as [w' [E [_ [U [A D']]]]]. exists w'. auto.
Qed.
Lemma copy_prop w x y s f t g : areachable c w -> x <> y -> denotes w x s f -> denotes w y t g -> within s t ->
  exists w', astep c w (CopyTo y x) = Ok w' /\ denotes w' x s g /\ w_arr w' = w_arr w /\ unchanged w w' [x].
Proof.
  intros R N D D2 Hi. pose proof D as [a [Ea [<- _]]]. pose proof D2 as [b [Eb [<- _]]].
  destruct (copy_world w x a y b (areachable_inv w R) N Ea Eb Hi) as [w' [E [_ [U [A D']]]]]. exists w'. auto.
Qed.
Lemma self_copy_prop w x : areachable c w -> exists_arr w x ->
  exists w', astep c w (CopyTo x x) = Ok w' /\ w_arr w' = w_arr w /\ unchanged w w' [].
Proof.
  intros R [a Ea]. destruct (self_copy_world w x a (areachable_inv w R) Ea) as [w' [E [_ [U A]]]]. exists w'. auto.
Qed.
Lemma move_prop w x y s f t g : areachable c w -> x <> y -> denotes w x s f -> denotes w y t g -> within s t ->
  exists w' g', astep c w (MoveTo y x) = Ok w' /\ denotes w' x s g /\ denotes w' y t g' /\
    (forall i, in_bounds s i -> g' i = c_mv c (g i)) /\ (forall i, ~ in_bounds s i -> g' i = g i) /\
    w_arr w' = w_arr w /\ unchanged w w' [x; y].
Proof.
  intros R N D D2 Hi. pose proof D as [a [Ea [<- _]]]. pose proof D2 as [b [Eb [<- _]]].
  destruct (move_world w x a y b (areachable_inv w R) N Ea Eb Hi) as [w' [E [_ [U [A D']]]]].
  destruct (D' g D2) as [G [g' [G1 [G2 G3]]]]. exists w', g'. auto 8.
Qed.
Lemma generate_prop w x (g : nat -> V) s f : areachable c w -> denotes w x s f ->
  exists w' l f', astep c w (Generate x g) = Ok w' /\ enumerates (in_bounds s) l /\ denotes w' x s f' /\
    (forall k i, nth_error l k = Some i -> f' i = g k) /\ w_arr w' = w_arr w /\ unchanged w w' [x].
Proof.
  intros R D. pose proof D as [a [Ea [<- _]]].
  destruct (generate_world w x a g (areachable_inv w R) Ea) as [w' [l [f' [E [_ [U [A [L [D' Q]]]]]]]]]. exists w', l, f'. auto 7.
Qed.
Lemma transform_prop w x (fn : list Z -> V) s f : areachable c w -> denotes w x s f ->
  exists w', astep c w (Transform x fn) = Ok w' /\ denotes w' x s fn /\ w_arr w' = w_arr w /\ unchanged w w' [x].
Proof.
  intros R D. pose proof D as [a [Ea [<- _]]]. destruct (transform_world w x a fn (areachable_inv w R) Ea) as [w' [E [_ [U [A D']]]]].
  exists w'. auto.
Qed.
Lemma move_all_prop w x y s f : areachable c w -> x <> y -> exists_arr w x -> may_copy c w y -> denotes w y s f ->
  exists w' s', astep c w (MoveAll y x) = Ok w' /\ same_shape s' s /\ denotes w' x s' f /\ unchanged w w' [x; y].
Proof.
  intros R N [a Ea] M D. pose proof M as [b [Eb _]].
  destruct (move_assign_prop c Hf (areachable c) areachable_inv w x y a b s f R N Ea Eb M D) as [w' [s' [E [Q [D' [U _]]]]]].
  exists w', s'. auto.
Qed.
Lemma assign_elem_prop w x s y i t g : areachable c w -> x <> y -> exists_arr w x -> shape_arg c s -> denotes w y t g -> in_bounds t i ->
  exists w' s', astep c w (AssignElem x s y i) = Ok w' /\ same_shape s' s /\ denotes w' x s' (fun _ => g i) /\ unchanged w w' [x].
Proof.
  intros R N [a Ea] Hs D2 Hi. pose proof D2 as [b [Eb [<- _]]].
  destruct (assign_elem_world w x a s y b i g (areachable_inv w R) N Ea Eb Hs Hi D2) as [w' [E [_ [U D']]]].
  exists w', (resolve s). split; auto. split; [apply resolve_same_shape|]. auto.
Qed.
Lemma assign_own_elem_prop w x s i t f : areachable c w -> denotes w x t f -> in_bounds t i -> shape_arg c s ->
  (exists j, in_bounds s j) -> astep c w (AssignElem x s x i) = UB.
Proof.
  intros R D Hi Hs Hj. pose proof D as [a [Ea [<- _]]]. apply (assign_own_elem w x a); auto. apply areachable_inv; auto.
Qed.
End Facts.
