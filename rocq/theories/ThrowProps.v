(** Properties of programs in which allocations fail. *)
From Coq Require Import ZArith List Bool Lia Arith.
From Verif Require Import Base Interval Shape Traverse Memory Ref Container Throw Spec SpecMem SpecContainer
  SpecThrow Tac ShapeFacts ResolveFacts MemFacts RefFacts SliceFacts ContainerFacts ContainerWorld ContainerProps
  ThrowFacts ThrowWorld ThrowLift ThrowPlain.
Import ListNotations.
Open Scope Z_scope.

Section Props.
Context {V : Type}.
Variable c : config V.
Implicit Types (w : world V) (o : op V).
Hypothesis Hf : fair c.
Notation normal := (normal c).
Notation norm := (norm c).
Notation XInv := (XInv c).

Definition goodX w (o : op V) (r : outcome (xres (world V) (world V))) : Prop :=
  match r with
  | Ok (Done w' f) => XInv w' /\ b_elems f = None
  | Ok (Threw w') => XInv w' /\ unchanged w w' (targets o) /\ same_arrays w w'
  | _ => False
  end.

(** [r] (from [w]) and [r0] (from [norm w]) differ in failed arrays only; [T]: the arrays
    assigned to; [P]: another array may become a failed one *)
Definition same_at w (T : list nat) w' (w0' : world V) z : Prop :=
  (w_arr w' z = w_arr w0' z /\ (In z T \/ w_arr w z = w_arr (norm w) z)) \/
  (~ In z T /\ w_arr w' z = w_arr w z /\ w_arr w0' z = w_arr (norm w) z).
Definition close w (T : list nat) (P : Prop) (r r0 : outcome (xres (world V) (world V))) : Prop :=
  match r, r0 with
  | Ok (Done w' f), Ok (Done w0' f0) => f = f0 /\ w_heap w' = w_heap w0' /\ w_next w' = w_next w0' /\
      forall z, same_at w T w' w0' z \/
        (P /\ option_map normal (w_arr w' z) = option_map normal (w_arr w0' z) /\
         forall a, w_arr w' z = Some a -> extents_ge 0 (a_shape a))
  | Ok (Threw w'), Ok (Threw w0') => w_heap w' = w_heap w0' /\ w_next w' = w_next w0' /\ forall z, same_at w T w' w0' z
  | AssertFail, AssertFail | UB, UB => True
  | _, _ => False
  end.
Lemma norm_inv w : Inv c w -> forall z, option_map normal (w_arr w z) = w_arr w z.
Proof.
  intros H z. destruct (w_arr w z) as [a|] eqn:E; auto. cbn. f_equal. apply (valid_normal c z (w_heap w)).
  apply (inv_valid c w); auto.
Qed.
Lemma norm_twice w z : option_map normal (w_arr (norm w) z) = w_arr (norm w) z.
Proof. cbn. destruct (w_arr w z) as [a|]; auto. cbn. rewrite normal_normal; auto. Qed.
Lemma same_at_norm w T w' w0' z : same_at w T w' w0' z -> option_map normal (w_arr w0' z) = option_map normal (w_arr w' z).
Proof. intros [[-> _]|[_ [-> ->]]]; auto. apply norm_twice. Qed.
Lemma same_at_ext w T w' w0' z a : XInv w -> (forall x b, w_arr w0' x = Some b -> extents_ge 0 (a_shape b)) ->
  same_at w T w' w0' z -> w_arr w' z = Some a -> extents_ge 0 (a_shape a).
Proof.
  intros Hw H0 [[E _]|[_ [E _]]] Ea; rewrite Ea in E; symmetry in E; [apply (H0 z a E)|apply (proj2 Hw z a E)].
Qed.
Lemma same_at_unchanged w T w' w0' : XInv w -> w_heap w' = w_heap w0' -> unchanged (norm w) w0' T ->
  (forall z, same_at w T w' w0' z) -> unchanged w w' T.
Proof.
  intros Hw Eh GU Ez.
  assert (Eo : forall z, ~ In z T -> w_arr w' z = w_arr w z).
  { intros z Hz. destruct (Ez z) as [[E [I|I]]|[_ [E _]]]; [tauto| |auto]. rewrite E, I. apply GU; auto. }
  apply (norm_unchanged c); auto. intros z Hz. destruct (GU z Hz) as [E1 E2]. split.
  - cbn. rewrite Eo; auto.
  - intros s g D. apply E2 in D. destruct D as [a [Ea [Es Hd]]]. exists a. cbn [ThrowWorld.norm w_heap w_arr]. rewrite Eh.
    rewrite Eo by auto. split; auto. rewrite <- Ea, E1. reflexivity.
Qed.
Lemma close_good w o P r r0 : XInv w -> good c (norm w) o r0 (step c (norm w) o) ->
  (forall w0', step c (norm w) o = Ok w0' -> Inv c w0') -> close w (targets o) P r r0 -> goodX w o r.
Proof.
  intros Hw G Hi C.
  destruct r as [[w' f|w']| |], r0 as [[w0' f0|w0']| |]; cbn [close good goodX] in *; try tauto.
  - destruct G as [G Gf]. specialize (Hi _ G). destruct C as [-> [Eh [En Ez]]]. split; auto. split.
    + unfold ThrowWorld.norm. rewrite Eh, En. destruct w0' as [h g n]. cbn [w_heap w_next w_arr] in *.
      apply (inv_ext c h g); auto. intros z. rewrite <- (norm_inv (mkW h g n) Hi).
      destruct (Ez z) as [E|[_ [E _]]]; [apply (same_at_norm w (targets o) w' (mkW h g n)); auto|auto].
    + intros z a Ea. destruct (Ez z) as [E|[_ [_ E]]]; auto.
      eapply same_at_ext; eauto. intros x b Eb. eapply repr_extents. apply (inv_valid c w0' x b Hi Eb).
  - destruct G as [GI [GU GS]]. destruct C as [Eh [En Ez]].
    split; [split|split].
    + unfold ThrowWorld.norm. rewrite Eh, En. apply (inv_ext c (w_heap w0') (fun z => option_map normal (w_arr w0' z))); [|apply GI].
      intros z. apply (same_at_norm w (targets o) w' w0'); auto.
    + intros z a Ea. apply (same_at_ext w (targets o) w' w0' z a); auto. apply GI.
    + apply (same_at_unchanged w _ w' w0'); auto.
    + intros z. destruct (Ez z) as [[E _]|[_ [E _]]]; rewrite E; [|tauto].
      rewrite (GS z). cbn. destruct (w_arr w z); cbn; split; intros; try discriminate; auto.
Qed.

(** All arguments are usable *)
Definition all_normal w (X : list nat) : Prop := forall z a, In z X -> w_arr w z = Some a -> normal a = a.
Lemma usable_normal w x : XInv w -> usable w x -> exists a, w_arr w x = Some a /\ normal a = a.
Proof.
  intros Hw [a [Ea H]]. exists a. split; auto. unfold ThrowWorld.normal. destruct H as [H|H].
  - destruct (is_null (a_base a)) eqn:E; auto. apply ptr_eqb_eq in E. congruence.
  - rewrite (proj2 (empty_iff _ (proj2 Hw x a Ea)) H), andb_false_r. auto.
Qed.
Lemma xinv_fresh w z : XInv w -> (w_next w <= z)%nat -> w_arr w z = None.
Proof.
  intros [Hw _] Hz. destruct (w_arr w z) as [a|] eqn:E; auto.
  pose proof (inv_lt c (norm w) z (normal a) Hw (norm_arr c w z a E)). cbn in *. lia.
Qed.
Lemma rel_norm w o : XInv w -> all_normal w (args o) -> rel (w_next w) (args o) w (norm w).
Proof.
  intros Hw Ha. split; auto. split; auto. split; auto. intros z [Hz|Hz]; cbn.
  - destruct (w_arr w z) as [a|] eqn:E; auto. cbn. rewrite (Ha z a); auto.
  - rewrite (xinv_fresh w z); auto.
Qed.
Lemma norm_get w x a : w_arr w x = Some a -> normal a = a -> w_arr (norm w) x = Some a.
Proof. intros E N. rewrite (norm_arr c w x a E), N. auto. Qed.
Lemma legal_norm w o : all_normal w (args o) -> legal_op c w o -> legal_op c (norm w) o.
Proof.
  intros Ha L.
  assert (M : forall y, In y (args o) -> may_copy c w y -> may_copy c (norm w) y).
  { intros y Hy [b [E Hb]]. exists b. split; auto. apply norm_get; auto. apply (Ha y); auto. }
  assert (E : forall y, exists_arr w y -> exists_arr (norm w) y).
  { intros y [b Eb]. exists (normal b). apply norm_arr; auto. }
  destruct o; cbn [legal_op args] in *; simpl In in M; auto; try (destruct L as [L1 L2]; split; auto; fail).
  - destruct L as [L1 [b [L2 L3]]]. split; auto. exists b. split; auto. apply norm_get; auto. apply (Ha y); auto. left; auto.
  - destruct L as [L1 [b [L2 L3]]]. split; auto. exists b. split; auto. apply norm_get; auto. apply (Ha y); auto. left; auto.
  - destruct L as [L1 [b [L2 L3]]]. split; auto. exists b. split; auto. apply norm_get; auto. apply (Ha x); auto. left; auto.
  - destruct L as [b [L2 L3]]. exists b. split; auto. apply norm_get; auto. apply (Ha x); auto. left; auto.
Qed.
Lemma targets_args o z : In z (targets o) -> In z (args o).
Proof. destruct o; simpl; tauto. Qed.
Lemma close_usable w o f : XInv w -> all_normal w (args o) -> close w (targets o) False (xstep c w o f) (xstep c (norm w) o f).
Proof.
  intros Hw Ha. pose proof (rel_norm w o Hw Ha) as R.
  pose proof (xstep_lifts c (w_next w) (args o) w (norm w) o f (incl_refl _) R) as H.
  assert (Q : forall z w' w0', rel (w_next w) (args o) w' w0' -> frame (w_next w) (args o) w w' ->
            frame (w_next w) (args o) (norm w) w0' -> same_at w (targets o) w' w0' z).
  { intros z w' w0' [R1 [R2 [R3 R4]]] F F0.
    assert (M : mine (w_next w) (args o) z \/ ~ mine (w_next w) (args o) z).
    { unfold mine. destruct (in_dec Nat.eq_dec z (args o)); [auto|]. destruct (le_dec (w_next w) z); tauto. }
    destruct M as [M|M].
    - left. split; auto. right. apply R; auto.
    - right. split; auto. intros I. apply M. left. apply targets_args; auto. }
  destruct (xstep c w o f) as [[w' f'|w']| |], (xstep c (norm w) o f) as [[w0' f0'|w0']| |]; cbn [lifts close] in *; auto.
  - destruct H as [-> [H1 [H2 H3]]]. split; auto. split; [apply H1|]. split; [apply H1|]. auto.
  - destruct H as [H1 [H2 H3]]. split; [apply H1|]. split; [apply H1|]. auto.
Qed.

(** ** The array that is assigned to has lost its storage *)

Lemma failed_normal w x a : XInv w -> w_arr w x = Some a -> normal a <> a -> no_memory a /\ normal a = with_shape a (c_shape0 c).
Proof.
  intros Hw Ea N. destruct (xinv_failed c w x a Hw Ea) as [H|H]; [contradiction|]. split; auto.
  unfold ThrowWorld.normal in *. destruct (_ && _); [auto|contradiction].
Qed.
Lemma close_change w x a r : w_arr w x = Some a -> close w [x] False (change_x w x r) (change_x (norm w) x r).
Proof.
  intros Ea.
  assert (Q : forall h a' z, same_at w [x] (mkW h (put (w_arr w) x (Some a')) (w_next w)) (mkW h (put (w_arr (norm w)) x (Some a')) (w_next w)) z).
  { intros h a' z. unfold same_at. cbn [w_arr]. unfold put. destruct (Nat.eqb_spec z x) as [->|N].
    - left. split; auto. left. left; auto.
    - right. split; [simpl; intuition|]. auto. }
  unfold change_x. destruct r as [[[h a'] f|[h a']]| |]; cbn [xbind bind close fst snd w_heap w_next]; auto.
Qed.
Lemma with_shape_twice a s t : with_shape (with_shape a s) t = with_shape a t.
Proof. reflexivity. Qed.
Lemma assign_copy_failed x h a b s f : is_null (a_base a) = true ->
  assign_copy_x c x h (with_shape a s) b f = assign_copy_x c x h a b f.
Proof.
  intros N. unfold assign_copy_x, assign_copy, refit_x. cbn [with_shape a_base a_shape]. rewrite N. cbn [negb andb].
  destruct (ptr_eqb (a_base a) (a_base b)); [reflexivity|].
  rewrite !deallocate_nothing by auto. cbn [bind]. rewrite with_shape_twice. reflexivity.
Qed.
Lemma assign_move_failed x h a b s f : is_null (a_base a) = true ->
  assign_move_x c x h (with_shape a s) b f = assign_move_x c x h a b f.
Proof.
  intros N. unfold assign_move_x, assign_move, refit_x. cbn [with_shape a_base a_shape]. rewrite N. cbn [negb andb].
  destruct (ptr_eqb (a_base a) (a_base b)); [reflexivity|].
  rewrite !deallocate_nothing by auto. cbn [bind]. rewrite with_shape_twice. reflexivity.
Qed.
Lemma copy_assign_failed x h a y b s f : is_null (a_base a) = true ->
  copy_assign_op_x c x h (with_shape a s) y b f = copy_assign_op_x c x h a y b f.
Proof.
  intros N. unfold copy_assign_op_x, copy_assign_op. cbn [with_shape a_base]. rewrite N. cbn [negb].
  destruct (ptr_eqb (a_base a) (a_base b)); [reflexivity|].
  rewrite !deallocate_nothing by auto. change (alloc_eq x (with_shape a s) y b) with (alloc_eq x a y b).
  destruct (c_pocca c); cbn [bind].
  - destruct (negb (alloc_eq x a y b)); cbn [bind]; apply (assign_copy_failed x h (set_al a (a_al b)) b s f N).
  - apply assign_copy_failed; auto.
Qed.
Lemma clear_failed x h a s f : is_null (a_base a) = true -> clear_x c x h (with_shape a s) f = clear_x c x h a f.
Proof. intros N. unfold clear_x. rewrite !deallocate_nothing by auto. reflexivity. Qed.

(** Assignments to a failed array *)
Lemma close_failed w o x a f : XInv w -> w_arr w x = Some a -> normal a <> a ->
  match o with
  | CopyAssign x' y | AssignCopy x' y | AssignMove x' y => x' = x /\ all_normal w [y]
  | Clear x' => x' = x
  | _ => False
  end -> close w (targets o) False (xstep c w o f) (xstep c (norm w) o f).
Proof.
  intros Hw Ea N Ho. destruct (failed_normal w x a Hw Ea N) as [M En]. pose proof (no_memory_null a M) as Nb.
  assert (G : forall y, all_normal w [y] -> (exists b, get w y = Ok b /\ get (norm w) y = Ok b) \/ (get w y = get (norm w) y /\ forall b, get w y <> Ok b)).
  { intros y Hy. unfold get. cbn [ThrowWorld.norm w_arr]. destruct (w_arr w y) as [b|] eqn:Eb; cbn [option_map].
    - left. exists b. rewrite (Hy y b); auto. left; auto.
    - right. split; auto. intros; discriminate. }
  pose proof (norm_arr c w x a Ea) as Ea0. rewrite En in Ea0.
  destruct o; try tauto; cbn [xstep targets].
  - destruct Ho as [-> Hy]. rewrite (get_ok _ _ _ Ea), (get_ok _ _ _ Ea0). cbn [bind ThrowWorld.norm w_heap].
    destruct (G y Hy) as [[b [-> ->]]|[-> Hn]]; cbn [bind].
    + rewrite copy_assign_failed by auto. apply (close_change w x a); auto.
    + destruct (get (norm w) y) as [b| |]; cbn [bind close]; auto.
      rewrite copy_assign_failed by auto. apply (close_change w x a); auto.
  - destruct Ho as [-> Hy]. rewrite (get_ok _ _ _ Ea), (get_ok _ _ _ Ea0). cbn [bind ThrowWorld.norm w_heap].
    destruct (G y Hy) as [[b [-> ->]]|[-> Hn]]; cbn [bind].
    + rewrite assign_copy_failed by auto. apply (close_change w x a); auto.
    + destruct (get (norm w) y) as [b| |]; cbn [bind close]; auto.
      rewrite assign_copy_failed by auto. apply (close_change w x a); auto.
  - destruct Ho as [-> Hy]. rewrite (get_ok _ _ _ Ea), (get_ok _ _ _ Ea0). cbn [bind ThrowWorld.norm w_heap].
    destruct (G y Hy) as [[b [-> ->]]|[-> Hn]]; cbn [bind].
    + rewrite assign_move_failed by auto. apply (close_change w x a); auto.
    + destruct (get (norm w) y) as [b| |]; cbn [bind close]; auto.
      rewrite assign_move_failed by auto. apply (close_change w x a); auto.
  - subst x0. rewrite (get_ok _ _ _ Ea), (get_ok _ _ _ Ea0). cbn [bind ThrowWorld.norm w_heap].
    rewrite clear_failed by auto. apply (close_change w x a); auto.
Qed.
Lemma close_move_failed w x y a b f : XInv w -> w_arr w x = Some a -> normal a <> a -> w_arr w y = Some b -> normal b = b ->
  close w [x] True (xstep c w (MoveAssign x y) f) (xstep c (norm w) (MoveAssign x y) f).
Proof.
  intros Hw Ea N Eb Nb. destruct (failed_normal w x a Hw Ea N) as [M En]. pose proof (no_memory_null a M) as Na.
  pose proof (norm_arr c w x a Ea) as Ea0. rewrite En in Ea0. pose proof (norm_get w y b Eb Nb) as Eb0.
  assert (Nxy : x <> y) by (intros ->; congruence).
  assert (Xa := proj2 Hw x a Ea). assert (Xb := proj2 Hw y b Eb).
  assert (Ne : empty (a_shape a) = false).
  { destruct (empty (a_shape a)) eqn:E; auto. exfalso. apply N. unfold ThrowWorld.normal. rewrite E, andb_false_r. auto. }
  cbn [xstep]. unfold do_move_assign_x. rewrite (get_ok _ _ _ Ea), (get_ok _ _ _ Ea0), (get_ok _ _ _ Eb), (get_ok _ _ _ Eb0).
  cbn [bind ThrowWorld.norm w_heap].
  assert (Lose : forall b1 h a', is_null (a_base b1) = true -> (exists b0, b1 = with_shape b0 (a_shape a)) ->
     close w [x] True (Ok (Done (mkW h (put (put (w_arr w) y (Some b1)) x (Some a')) (w_next w)) f))
                      (Ok (Done (mkW h (put (put (w_arr (norm w)) y (Some (with_shape b1 (c_shape0 c)))) x (Some a')) (w_next (norm w))) f))).
  { intros b1 h a' Hb [b0 Hb0]. cbn [close w_heap w_next w_arr]. split; auto. split; auto. split; auto. intros z.
    destruct (Nat.eqb_spec z x) as [->|Zx].
    { left. left. cbn [w_arr]. rewrite !put_same. split; auto. left. left; auto. }
    destruct (Nat.eqb_spec z y) as [->|Zy].
    { right. split; auto. unfold put. rewrite (proj2 (Nat.eqb_neq y x) Zx), Nat.eqb_refl. cbn [option_map]. split.
      - f_equal. transitivity (with_shape b1 (c_shape0 c)).
        + unfold ThrowWorld.normal. rewrite Hb. subst b1. cbn [with_shape a_shape]. rewrite Ne. reflexivity.
        + unfold ThrowWorld.normal. cbn [with_shape a_shape]. rewrite (shape0_empty c Hf), andb_false_r. auto.
      - intros d Hd. inv Hd. cbn [with_shape a_shape]. auto. }
    left. right. cbn [w_arr]. unfold put. rewrite (proj2 (Nat.eqb_neq z x) Zx), (proj2 (Nat.eqb_neq z y) Zy). split; [simpl; intuition|]. auto. }
  unfold move_assign_op_x. cbn [with_shape a_base]. destruct (ptr_eqb (a_base a) (a_base b)) eqn:Ep; cbn [orb].
  { unfold move_assign_op. cbn [with_shape a_base a_shape]. rewrite Ep, Na. cbn [negb].
    destruct (assert_ (c_ndebug c) (empty (a_shape b))) as [u| |]; cbn [nothrow xbind bind close]; auto.
    apply (Lose (with_shape b (a_shape a))); [|eauto]. cbn [with_shape a_base]. apply ptr_eqb_eq in Ep. rewrite <- Ep. auto. }
  change (alloc_eq x (with_shape a (c_shape0 c)) y b) with (alloc_eq x a y b).
  destruct (c_pocma c) eqn:Em; cbn [orb].
  { unfold move_assign_op. cbn [with_shape a_base]. rewrite Ep, Em. cbn [nothrow swap_allocators swap_except_allocator xbind bind set_al a_al a_busy a_buf a_bufsize a_base a_shape with_shape].
    apply (Lose (mkA (a_al a) (a_busy b) (a_buf a) (a_bufsize a) (a_base a) (a_shape a))); [exact Na|]. exists (mkA (a_al a) (a_busy b) (a_buf a) (a_bufsize a) (a_base a) (c_shape0 c)). reflexivity. }
  destruct (alloc_eq x a y b) eqn:Eq; cbn [orb].
  { unfold move_assign_op. cbn [with_shape a_base]. rewrite Ep, Em. change (alloc_eq x (with_shape a (c_shape0 c)) y b) with (alloc_eq x a y b). rewrite Eq.
    cbn [nothrow swap_except_allocator xbind bind a_al a_busy a_buf a_bufsize a_base a_shape with_shape].
    apply (Lose (mkA (a_al b) (a_busy b) (a_buf a) (a_bufsize a) (a_base a) (a_shape a))); [exact Na|]. exists (mkA (a_al b) (a_busy b) (a_buf a) (a_bufsize a) (a_base a) (c_shape0 c)). reflexivity. }
  rewrite assign_move_failed by auto.
  destruct (assign_move_x c x (w_heap w) a b f) as [[[h a'] f'|[h a']]| |]; cbn [xbind bind close w_heap w_next w_arr fst snd]; auto.
  - split; auto. split; auto. split; auto. intros z. left. unfold same_at. cbn [w_arr]. unfold put.
    destruct (Nat.eqb_spec z x) as [->|Zx]; [left; split; auto; left; left; auto|].
    destruct (Nat.eqb_spec z y) as [->|Zy]; [left; split; auto; right; rewrite Eb, Eb0; auto|].
    right. split; [simpl; intuition|]. auto.
  - split; auto. split; auto. intros z. unfold same_at. cbn [w_arr]. unfold put.
    destruct (Nat.eqb_spec z x) as [->|Zx]; [left; split; auto; left; left; auto|].
    right. split; [simpl; intuition|]. auto.
Qed.
(** Assigning a value with another shape to a failed array *)
Lemma assign_value_failed w x a s v f : XInv w -> w_arr w x = Some a -> normal a <> a -> shape_arg c s -> a_shape a <> resolve s ->
  b_elems f = None ->
  match xstep c w (AssignValue x s v) f with
  | Ok (Done w' f') => XInv w' /\ b_elems f' = None /\ denotes w' x (resolve s) (fun _ => v) /\ unchanged w w' [x]
  | Ok (Threw w') => XInv w' /\ unchanged w w' [x] /\ same_arrays w w'
  | _ => False
  end.
Proof.
  intros Hw Ea N Hs Ns Hb. destruct (failed_normal w x a Hw Ea N) as [M En].
  pose proof (no_memory_null a M) as Na. pose proof (norm_arr c w x a Ea) as Ea0.
  cbn [xstep]. rewrite (get_ok _ _ _ Ea). cbn [bind].
  pose proof (inv_valid c (norm w) x (normal a) (proj1 Hw) Ea0) as Hv. cbn [ThrowWorld.norm w_heap] in Hv.
  assert (Hh : heap_ok (w_heap w)) by apply (proj1 Hw).
  assert (Hsr : shape_arg c (resolve s)) by (apply shape_arg_resolve; auto).
  assert (P : exists h' a', assign_value c x (w_heap w) a s (fun _ => Ok v) = Ok (h', a') /\ valid c x h' a' /\ has h' a' (fun _ => v) /\
     local (w_heap w) [blk a] h' [blk a'] /\ a_shape a' = resolve s).
  { unfold assign_value. destruct (shape_eqb (a_shape a) (resolve s)) eqn:E; [apply shape_eqb_eq in E; congruence|].
    destruct (refit_spec c x (w_heap w) (normal a) (resolve s) Hh Hv Hsr) as [h1 [a1 [E1 [Hr [Hl [Es _]]]]]].
    rewrite deallocate_nothing in E1 by (rewrite base_normal; auto). cbn [bind] in E1. rewrite En, with_shape_twice in E1.
    rewrite deallocate_nothing by auto. cbn [bind]. rewrite E1. cbn [bind].
    destruct (construct_spec c x h1 a1 v) as [h2 [-> [Hv2 [Hhas Hl2]]]]; auto; [apply Hl|]. cbn [bind].
    exists h2, a1. split; auto. split; auto. split; auto. rewrite blk_normal in Hl.
    split; [eapply local_trans; eauto|]. rewrite Es. apply proper_resolve2, Hs. }
  destruct P as [h' [a' [E [V' [H' [L' Es]]]]]].
  pose proof (assign_value_tracks c x (w_heap w) a s (fun _ => Ok v) f Hb) as Tr.
  destruct (assign_value_x c x (w_heap w) a s (fun _ => Ok v) f) as [[[h1 a1] f1|[h1 a1]]| |]; cbn [tracks] in Tr; try congruence;
    cbn [change_x xbind bind fst snd].
  - destruct Tr as [Tr Hb1]. rewrite E in Tr. inv Tr.
    destruct (xinv_put c w x a h1 a1) as [I U]; auto.
    { eapply repr_extents. exact V'. }
    { rewrite (valid_normal c x h1); auto. }
    split; auto. split; auto. split; auto. exists a1. cbn [w_arr w_heap]. rewrite put_same. split; auto. split; auto.
    rewrite <- Es. exact H'.
  - destruct Tr as [h2 [a2 [E2 E3]]]. rewrite deallocate_nothing in E2 by auto. injection E2 as <- <-. injection E3 as -> ->.
    assert (N' : no_memory (failed a (resolve s))) by (destruct a; exact M).
    assert (Xs : extents_ge 0 (a_shape (failed a (resolve s)))) by (apply arg_extents with (c := c), shape_arg_resolve; auto).
    destruct (xinv_put c w x a (w_heap w) (failed a (resolve s))) as [I U]; auto.
    { apply failed_valid; auto. apply shape_arg_resolve; auto. }
    { change (blk (failed a (resolve s))) with (blk a). apply local_refl; auto. }
    split; auto. split; auto. apply (same_put w _ x a); auto.
Qed.

(** ** Every operation *)
Lemma arr_dec (a b : arr) : {a = b} + {a <> b}.
Proof. repeat decide equality. Qed.
Lemma all_normal_dec w X : all_normal w X \/ exists z a, In z X /\ w_arr w z = Some a /\ normal a <> a.
Proof.
  induction X as [|x X IH].
  - left. intros z a [].
  - destruct IH as [IH|[z [a [H1 H2]]]]; [|right; exists z, a; split; [right|]; auto].
    destruct (w_arr w x) as [a|] eqn:E.
    + destruct (arr_dec (normal a) a) as [D|D].
      * left. intros z b [<-|Hz] Eb; [congruence|]. apply (IH z b); auto.
      * right. exists x, a. split; [left|]; auto.
    + left. intros z b [<-|Hz] Eb; [congruence|]. apply (IH z b); auto.
Qed.
Lemma usable_all w x : XInv w -> usable w x -> all_normal w [x].
Proof. intros Hw U z a [<-|[]] Ea. destruct (usable_normal w x Hw U) as [b [Eb N]]. congruence. Qed.
Lemma all_normal_two w x y : all_normal w [x] -> all_normal w [y] -> all_normal w [x; y].
Proof. intros H1 H2 z a [<-|[<-|[]]] Ea; [apply (H1 x)|apply (H2 y)]; auto; left; auto. Qed.
Lemma failed_step_ok w o x a : XInv w -> w_arr w x = Some a ->
  match o with
  | CopyAssign x' y | AssignCopy x' y | AssignMove x' y | MoveAssign x' y => x' = x /\ may_copy c w y /\ all_normal w [y]
  | Clear x' => x' = x
  | _ => False
  end -> legal_op c (norm w) o.
Proof.
  intros Hw Ea Ho.
  assert (M : forall y, may_copy c w y -> all_normal w [y] -> may_copy c (norm w) y).
  { intros y [b [Eb Hb]] Hn. exists b. split; auto. apply norm_get; auto. apply (Hn y b); auto. left; auto. }
  assert (E : exists_arr (norm w) x) by (exists (normal a); apply norm_arr; auto).
  destruct o; try tauto; cbn [legal_op]; match type of Ho with _ /\ _ => destruct Ho as [? [H1 H2]]; subst; split; auto | _ => subst; auto end.
Qed.
Lemma xstep_good w o f : XInv w -> xlegal_op c w o -> b_elems f = None -> goodX w o (xstep c w o f).
Proof.
  intros Hw [L U] Hb.
  destruct (all_normal_dec w (args o)) as [Ha|[z [a [Hz [Ez Nz]]]]].
  { pose proof (legal_norm w o Ha L) as L0.
    apply (close_good w o False _ (xstep c (norm w) o f)); auto.
    - apply xstep_inv; auto. apply Hw.
    - intros w0' E. destruct (step_ok c Hf (norm w) o (proj1 Hw) L0) as [w1 [E1 I1]]. congruence.
    - apply close_usable; auto. }
  assert (Nu : forall y, usable w y -> z <> y).
  { intros y Hy ->. destruct (usable_normal w y Hw Hy) as [b [Eb Nb]]. congruence. }
  assert (Fin : forall P, legal_op c (norm w) o -> close w (targets o) P (xstep c w o f) (xstep c (norm w) o f) -> goodX w o (xstep c w o f)).
  { intros P L0 C. apply (close_good w o P _ (xstep c (norm w) o f)); auto.
    - apply xstep_inv; auto. apply Hw.
    - intros w0' E. destruct (step_ok c Hf (norm w) o (proj1 Hw) L0) as [w1 [E1 I1]]. congruence. }
  destruct o; cbn [args In] in Hz; cbn [legal_op] in L; try tauto;
    try (exfalso; destruct Hz as [<-|[]]; apply (Nu _ U); reflexivity).
  - destruct Hz as [<-|[<-|[]]]; [|destruct (Nu _ U eq_refl)]. apply (Fin False).
    + apply (failed_step_ok w _ x a); auto. split; auto. split; [apply L|]. apply usable_all; auto.
    + apply (close_failed w _ x a); auto. split; auto. apply usable_all; auto.
  - destruct Hz as [<-|[<-|[]]]; [|destruct (Nu _ U eq_refl)]. apply (Fin True).
    + apply (failed_step_ok w _ x a); auto. split; auto. split; [apply L|]. apply usable_all; auto.
    + destruct (usable_normal w y Hw U) as [b [Eb Nb]]. apply (close_move_failed w x y a b); auto.
  - destruct Hz as [<-|[<-|[]]]; [|destruct (Nu _ U eq_refl)]. apply (Fin False).
    + apply (failed_step_ok w _ x a); auto. split; auto. split; [apply L|]. apply usable_all; auto.
    + apply (close_failed w _ x a); auto. split; auto. apply usable_all; auto.
  - destruct Hz as [<-|[<-|[]]]; [|destruct (Nu _ U eq_refl)]. apply (Fin False).
    + apply (failed_step_ok w _ x a); auto. split; auto. split; [apply L|]. apply usable_all; auto.
    + apply (close_failed w _ x a); auto. split; auto. apply usable_all; auto.
  - destruct Hz as [<-|[]]. destruct U as [U|[a' [Ea' Ns]]]; [destruct (Nu _ U eq_refl)|].
    assert (a' = a) by congruence. subst a'. destruct L as [_ Hs].
    pose proof (assign_value_failed w x a s v f Hw Ez Nz Hs Ns Hb) as G.
    destruct (xstep c w (AssignValue x s v) f) as [[w' f'|w']| |]; cbn [goodX targets]; tauto.
  - destruct Hz as [<-|[]]. apply (Fin False).
    + apply (failed_step_ok w _ x a); auto.
    + apply (close_failed w _ x a); auto.
  - exfalso. destruct U as [U1 U2]. destruct Hz as [<-|[<-|[]]]; [apply (Nu _ U1)|apply (Nu _ U2)]; auto.
  - destruct Hz as [<-|[]]. cbn [xstep step]. destruct (xdelete c Hf w x a Hw Ez) as [w' [-> [I _]]]. cbn. auto.
Qed.

(** ** Programs *)
Lemma xinv_empty : XInv empty_world.
Proof. apply inv_xinv. apply inv_empty. Qed.
Lemma settle_inv w o f r : XInv w -> xlegal_op c w o -> b_elems f = None -> xstep c w o f = Ok r -> XInv (fst (settle r)).
Proof.
  intros Hw L Hb E. pose proof (xstep_good w o f Hw L Hb) as G. rewrite E in G. destruct r; cbn in *; tauto.
Qed.
Lemma xrun_ok ops : forall w, XInv w -> xlegal c w ops -> exists w', xrun c (with_allocs ops) w = Ok w' /\ XInv w'.
Proof.
  induction ops as [|[o n] ops IH]; intros w Hw L; cbn [with_allocs map xrun fst snd].
  - eauto.
  - destruct L as [L1 L2]. pose proof (xstep_good w o (allocs n) Hw L1 eq_refl) as G.
    destruct (xstep c w o (allocs n)) as [r| |] eqn:E; cbn [goodX] in G; try tauto. cbn [bind].
    apply IH; auto. apply (settle_inv w o (allocs n)); auto.
Qed.
Lemma xreachable_inv w : xreachable c w -> XInv w.
Proof. intros [ops [L R]]. destruct (xrun_ok ops empty_world xinv_empty L) as [w' [E I]]. congruence. Qed.
Lemma xprograms_run ops : xlegal c empty_world ops -> exists w, xrun c (with_allocs ops) empty_world = Ok w.
Proof. intros L. destruct (xrun_ok ops empty_world xinv_empty L) as [w' [E I]]. eauto. Qed.
Lemma xlegal_snoc ops : forall w, xlegal c w ops -> forall w' o n, xrun c (with_allocs ops) w = Ok w' -> xlegal_op c w' o ->
  xlegal c w (ops ++ [(o, n)]).
Proof.
  induction ops as [|[p k] ops IH]; intros w L w' o n R Lo; cbn [with_allocs map xrun fst snd xlegal app] in *.
  - inv R. split; auto.
  - destruct L as [L1 L2]. split; auto. intros r E. rewrite E in R. cbn [bind] in R. eapply IH; eauto.
Qed.
Lemma xrun_snoc ops : forall w w' o n r, xrun c (with_allocs ops) w = Ok w' -> xstep c w' o (allocs n) = Ok r ->
  xrun c (with_allocs (ops ++ [(o, n)])) w = Ok (fst (settle r)).
Proof.
  induction ops as [|[p k] ops IH]; intros w w' o n r R E; cbn [with_allocs map xrun fst snd app] in *.
  - inv R. rewrite E. reflexivity.
  - destruct (xstep c w p (allocs k)) as [q| |]; cbn [bind] in *; [|discriminate|discriminate]. eapply IH; eauto.
Qed.
Lemma xstep_prop w o n : xreachable c w -> xlegal_op c w o ->
  exists r, xstep c w o (allocs n) = Ok r /\ xreachable c (fst (settle r)) /\
    (forall w' f, r = Done w' f -> step c w o = Ok w') /\
    (forall w', r = Threw w' -> unchanged w w' (targets o) /\ same_arrays w w').
Proof.
  intros R L. pose proof (xreachable_inv w R) as Hw. pose proof (xstep_good w o (allocs n) Hw L eq_refl) as G.
  pose proof (xstep_follows c w o (allocs n)) as [Fo _].
  destruct (xstep c w o (allocs n)) as [r| |] eqn:E; cbn [goodX] in G; try tauto. exists r. split; auto. split; [|split].
  - destruct R as [ops [L0 R0]]. exists (ops ++ [(o, n)]). split; [eapply xlegal_snoc; eauto|eapply xrun_snoc; eauto].
  - intros w' f ->. eapply Fo; eauto.
  - intros w' ->. tauto.
Qed.
Lemma xblocks_owned w k b : xreachable c w -> h_blk (w_heap w) k = Some b ->
  exists x a, w_arr w x = Some a /\ a_buf a = (k, 0) /\ b_size b = a_bufsize a /\
    b_owner b = (if a_busy a then Inline x else Base (a_al a)).
Proof.
  intros R Eb. pose proof (xreachable_inv w R) as Hw. pose proof (proj1 Hw) as [Hh [Hv [_ Hk]]].
  destruct (Hk k) as [x [a0 [Ea0 Ek]]]; [cbn; congruence|]. cbn in Ea0. destruct (w_arr w x) as [a|] eqn:Ea; [|discriminate].
  cbn in Ea0. injection Ea0 as <-. destruct (xinv_failed c w x a Hw Ea) as [N|N].
  - exists x, a. split; auto. rewrite N in Ek. destruct (Hv x a) as [_ [_ [[Hm _]|[_ [k0 [b0 [Hb0 [Hin _]]]]]]]]; [apply norm_get; auto| |].
    + exfalso. apply no_memory_blk in Hm. destruct Hh as [_ [Z _]]. cbn in Z. congruence.
    + destruct Hin as [_ [Ebuf [_ [Es [_ [_ [Eo _]]]]]]]. unfold blk in Ek. rewrite Ebuf in Ek. cbn [fst] in Ek. subst k0.
      cbn in Hb0. rewrite Eb in Hb0. inv Hb0. auto.
  - exfalso. rewrite blk_normal in Ek. apply no_memory_blk in N. destruct Hh as [_ [Z _]]. cbn in Z. congruence.
Qed.
Lemma xblocks_unshared w x y a b k : xreachable c w -> w_arr w x = Some a -> w_arr w y = Some b ->
  k <> 0%nat -> fst (a_buf a) = k -> fst (a_buf b) = k -> x = y.
Proof.
  intros R Ea Eb Hk E1 E2. destruct (Nat.eq_dec x y) as [|N]; auto. exfalso. pose proof (xreachable_inv w R) as [Hw _].
  pose proof (inv_apart c (norm w) x y (normal a) (normal b) Hw N (norm_arr c w x a Ea) (norm_arr c w y b Eb)) as A.
  apply Hk. rewrite <- E1. unfold apart in A. rewrite !blk_normal in A. apply A. unfold blk. congruence.
Qed.
Lemma xlive_objects w : xreachable c w ->
  (forall p, alive (w_heap w) p <-> exists x, usable w x /\ elem_of w x p) /\
  (forall x y p, usable w x -> usable w y -> elem_of w x p -> elem_of w y p -> x = y).
Proof.
  intros R. pose proof (xreachable_inv w R) as Hw.
  assert (Up : forall x p, usable w x -> elem_of w x p -> elem_of (norm w) x p).
  { intros x p U [a [Ea Hp]]. destruct (usable_normal w x Hw U) as [b [Eb Nb]]. exists a. split; auto. apply norm_get; congruence. }
  split.
  - intros p. change (w_heap w) with (w_heap (norm w)). rewrite (inv_live c (norm w) p (proj1 Hw)). split.
    + intros [x [a0 [Ea0 [i [Hi Ei]]]]]. exists x. cbn in Ea0. destruct (w_arr w x) as [a|] eqn:Ea; [|discriminate]. cbn in Ea0.
      injection Ea0 as <-. destruct (arr_dec (normal a) a) as [N|N].
      * rewrite N in Hi, Ei. split; [|exists a; split; [auto|exists i; auto]]. exists a. split; auto.
        left. intros B. pose proof (inv_valid c (norm w) x a (proj1 Hw) (norm_get w x a Ea N)) as Hv.
        destruct (repr_base _ _ _ _ _ Hv) as [Q|Q]; [|apply (Q i Hi)]. rewrite B in Q. discriminate.
      * exfalso. destruct (failed_normal w x a Hw Ea N) as [_ En]. rewrite En in Hi. cbn in Hi.
        destruct Hf as [_ [_ [H0 _]]]. apply (H0 i Hi).
    + intros [x [U Hx]]. exists x. auto.
  - intros x y p Ux Uy H1 H2. apply (inv_elem_unique c (norm w) x y p); auto. apply Hw.
Qed.
Lemma xno_leak w : xreachable c w -> (forall x, w_arr w x = None) ->
  (forall k, h_blk (w_heap w) k = None) /\ forall p, ~ alive (w_heap w) p.
Proof.
  intros R H. split.
  - intros k. destruct (h_blk (w_heap w) k) as [b|] eqn:E; auto.
    destruct (xblocks_owned w k b R E) as [x [a [Ea _]]]. rewrite H in Ea. discriminate.
  - intros p A. apply (proj1 (xlive_objects w R) p) in A. destruct A as [x [_ [a [Ea _]]]]. rewrite H in Ea. discriminate.
Qed.

(** ** Assigning to an array, whether or not it has lost its storage *)
Lemma close_done w T r r0 w' f : close w T False r r0 -> r = Ok (Done w' f) ->
  exists w0', r0 = Ok (Done w0' f) /\ w_heap w' = w_heap w0' /\ forall z, same_at w T w' w0' z.
Proof.
  intros C ->. destruct r0 as [[w0' f0|w0']| |]; cbn [close] in C; try tauto. destruct C as [-> [Eh [_ Ez]]].
  exists w0'. split; auto. split; auto. intros z. destruct (Ez z) as [E|[[] _]]; auto.
Qed.
Lemma denotes_at w T w' w0' x s g : same_at w T w' w0' x -> In x T -> w_heap w' = w_heap w0' -> denotes w0' x s g -> denotes w' x s g.
Proof.
  intros [[E _]|[N _]] HT Eh [a [Ea [Es H]]]; [|contradiction]. exists a. rewrite E, Eh. auto.
Qed.
Lemma xcopy_assign w o x y s g n w' f' : xreachable c w -> exists_arr w x -> may_copy c w y -> usable w y -> x <> y -> denotes w y s g ->
  o = CopyAssign x y \/ o = AssignCopy x y -> xstep c w o (allocs n) = Ok (Done w' f') ->
  exists s', same_shape s' s /\ denotes w' x s' g /\ denotes w' y s g /\ unchanged w w' [x].
Proof.
  intros R [a Ea] [b [Eb Cb]] Uy Nxy D Ho E. pose proof (xreachable_inv w R) as Hw.
  destruct (usable_normal w y Hw Uy) as [b' [Eb' Nb]]. assert (b' = b) by congruence. subst b'. clear Eb'.
  assert (Ny : all_normal w [y]) by (apply usable_all; auto).
  assert (C : close w [x] False (xstep c w o (allocs n)) (xstep c (norm w) o (allocs n))).
  { replace [x] with (targets o) by (destruct Ho; subst; auto). destruct (arr_dec (normal a) a) as [N|N].
    - apply close_usable; auto. replace (args o) with [x; y] by (destruct Ho; subst; auto). apply all_normal_two; auto.
      intros z d [<-|[]] Ed. congruence.
    - apply (close_failed w o x a); auto. destruct Ho; subst o; auto. }
  destruct (close_done w [x] _ _ w' f' C E) as [w0' [E0 [Eh Ez]]].
  apply (proj1 (xstep_follows c (norm w) o (allocs n))) in E0.
  assert (H : exists w1, step c (norm w) o = Ok w1 /\ unchanged (norm w) w1 [x] /\
     (forall s f, denotes (norm w) y s f -> exists s', refines s' s /\ denotes w1 x s' f)).
  { destruct Ho; subst o.
    - destruct (copy_assign_world c Hf (norm w) x y (normal a) b (proj1 Hw) Nxy (norm_arr c w x a Ea) (norm_get w y b Eb Nb) Cb) as [w1 [H1 [_ [H2 [_ [H3 _]]]]]]; eauto.
    - destruct (assign_copy_world c Hf (norm w) x y (normal a) b (proj1 Hw) Nxy (norm_arr c w x a Ea) (norm_get w y b Eb Nb) Cb) as [w1 [H1 [_ [H2 [_ [H3 _]]]]]]; eauto. }
  destruct H as [w1 [H1 [H2 H3]]]. rewrite E0 in H1. injection H1 as <-.
  assert (U : unchanged w w' [x]) by (apply (same_at_unchanged w [x] w' w0'); auto).
  assert (D0 : denotes (norm w) y s g).
  { destruct D as [d [Ed [Es Hd]]]. exists d. split; [|auto]. apply norm_get; congruence. }
  destruct (H3 s g D0) as [s' [Rs Ds]]. exists s'. split; [apply refines_same; auto|]. split.
  - apply (denotes_at w [x] w' w0'); auto. left; auto.
  - split; auto. apply U; auto. simpl. intuition.
Qed.
Lemma xassign_value w x s v n w' f' : xreachable c w -> xlegal_op c w (AssignValue x s v) ->
  xstep c w (AssignValue x s v) (allocs n) = Ok (Done w' f') ->
  exists s', same_shape s' s /\ denotes w' x s' (fun _ => v) /\ unchanged w w' [x].
Proof.
  intros R [[[a Ea] Hs] U] E. pose proof (xreachable_inv w R) as Hw. exists (resolve s). split; [apply resolve_same_shape|].
  destruct (arr_dec (normal a) a) as [N|N].
  - assert (C : close w [x] False (xstep c w (AssignValue x s v) (allocs n)) (xstep c (norm w) (AssignValue x s v) (allocs n))).
    { apply (close_usable w (AssignValue x s v)); auto. intros z d [<-|[]] Ed. congruence. }
    destruct (close_done w [x] _ _ w' f' C E) as [w0' [E0 [Eh Ez]]].
    apply (proj1 (xstep_follows c (norm w) (AssignValue x s v) (allocs n))) in E0.
    destruct (assign_value_world c (norm w) x a s v (proj1 Hw) (norm_get w x a Ea N) Hs) as [w1 [H1 [_ [H2 [_ [H3 _]]]]]].
    rewrite E0 in H1. injection H1 as <-. split.
    + apply (denotes_at w [x] w' w0'); auto. left; auto.
    + apply (same_at_unchanged w [x] w' w0'); auto.
  - assert (Ns : a_shape a <> resolve s).
    { destruct U as [U|[a' [Ea' H]]]; [|congruence]. destruct (usable_normal w x Hw U) as [a' [Ea' H]]. congruence. }
    pose proof (assign_value_failed w x a s v (allocs n) Hw Ea N Hs Ns eq_refl) as G. rewrite E in G. tauto.
Qed.
Lemma xclear w x n w' f' : xreachable c w -> exists_arr w x -> xstep c w (Clear x) (allocs n) = Ok (Done w' f') ->
  usable w' x /\ unchanged w w' [x] /\ exists s' f, same_shape s' (c_shape0 c) /\ no_index s' /\ denotes w' x s' f.
Proof.
  intros R [a Ea] E. pose proof (xreachable_inv w R) as Hw.
  assert (C : close w [x] False (xstep c w (Clear x) (allocs n)) (xstep c (norm w) (Clear x) (allocs n))).
  { destruct (arr_dec (normal a) a) as [N|N].
    - apply (close_usable w (Clear x)); auto. intros z d [<-|[]] Ed. congruence.
    - apply (close_failed w (Clear x) x a); auto. }
  destruct (close_done w [x] _ _ w' f' C E) as [w0' [E0 [Eh Ez]]].
  apply (proj1 (xstep_follows c (norm w) (Clear x) (allocs n))) in E0.
  destruct (clear_world c Hf (norm w) x (normal a) (proj1 Hw) (norm_arr c w x a Ea)) as [w1 [H1 [I [H2 [_ [a' [Ea' [_ Es]]]]]]]].
  rewrite E0 in H1. injection H1 as <-.
  destruct (inv_denotes c w0' x a' I Ea') as [g D]. rewrite Es in D.
  assert (Nr : no_index (resolve (c_shape0 c))).
  { intros i Hi. destruct Hf as [_ [_ [H0 _]]]. apply (H0 i). apply resolve_in_bounds; auto. }
  assert (D' : denotes w' x (resolve (c_shape0 c)) g) by (apply (denotes_at w [x] w' w0'); auto; left; auto).
  split; [|split].
  - destruct D' as [d [Ed [Esd _]]]. exists d. split; auto. right. rewrite Esd. auto.
  - apply (same_at_unchanged w [x] w' w0'); auto.
  - exists (resolve (c_shape0 c)), g. split; [apply resolve_same_shape|]. auto.
Qed.
Lemma xdelete_prop w x n : xreachable c w -> exists_arr w x ->
  exists w' f', xstep c w (Delete x) (allocs n) = Ok (Done w' f') /\ w_arr w' x = None /\ unchanged w w' [x].
Proof.
  intros R [a Ea]. pose proof (xreachable_inv w R) as Hw. cbn [xstep step].
  destruct (xdelete c Hf w x a Hw Ea) as [w' [-> [I [U [_ N]]]]]. exists w', (allocs n). cbn. auto.
Qed.
Lemma xunlimited w o : xreachable c w -> xlegal_op c w o ->
  exists w', step c w o = Ok w' /\ xstep c w o unlimited = Ok (Done w' unlimited).
Proof.
  intros R L. pose proof (xreachable_inv w R) as Hw. pose proof (xstep_good w o unlimited Hw L eq_refl) as G.
  destruct (xstep_follows c w o unlimited) as [_ Fo]. rewrite (Fo eq_refl) in *.
  destruct (step c w o) as [w'| |]; cbn [nothrow bind goodX] in *; try tauto. exists w'. auto.
Qed.
(** When a constructor throws *)
Lemma xnew_throws w s al :
  ((exists w', xstep c w (New s al) (allocs (Some 0%nat)) = Ok (Threw w')) <->
   0 < flat_extent (resolve s) /\ c_cap c < flat_extent (resolve s)).
Proof.
  cbn [xstep]. unfold do_new_x, add_x, ctor_shape_x, allocate_x, alloc_get_x.
  cbn [blank a_buf a_busy a_shape a_al is_null ptr_eqb null fst snd Nat.eqb Z.eqb andb assert_ bind negb spend b_allocs allocs].
  set (fe := flat_extent (resolve s)).
  assert (G : forall h a w', xbind (xbind (xbind (construct_x c h a (fun _ => Ok (c_dv c)) (allocs (Some 0%nat)))
                                (fun h2 f2 => Ok (Done (h2, a) f2)) (fun h2 => Ok (Threw h2)))
                (fun ha f => Ok (Done (mkW (fst ha) (put (w_arr w) (w_next w) (Some (snd ha))) (S (w_next w))) f))
                (fun h' => Ok (Threw (mkW h' (w_arr w) (S (w_next w)))))) (fun a f => Ok (Done a f)) (fun b => Ok (Threw b)) = Ok (Threw w') -> False).
  { intros h a w' E. pose proof (construct_tracks c h a (fun _ => Ok (c_dv c)) (allocs (Some 0%nat)) eq_refl) as T.
    destruct (construct_x c h a _ _) as [[h2 f2|h2]| |]; cbn in *; try discriminate. exact T. }
  destruct (0 <? fe) eqn:E1; [destruct (fe <=? c_cap c) eqn:E2|]; cbn [xbind bind fst].
  - split; [|lia]. intros [w' E]. exfalso. unfold alloc_block in E. cbn [xbind bind] in E. eapply (G _ _ w').
    unfold xbind in *. cbn [bind] in *.
    destruct (construct_x _ _ _ _ _) as [[h2 f2|h2]| |] eqn:Ec in E; cbn [bind] in *; try discriminate.
    erewrite Ec. cbn [bind]. exact E.
  - split; [lia|]. intros _. eexists. reflexivity.
  - split; [|lia]. intros [w' E]. exfalso. eapply (G _ _ w').
    unfold xbind in *. cbn [bind] in *.
    destruct (construct_x _ _ _ _ _) as [[h2 f2|h2]| |] eqn:Ec in E; cbn [bind] in *; try discriminate.
    erewrite Ec. cbn [bind]. exact E.
Qed.
Lemma xstrong w w' o n : xreachable c w -> xlegal_op c w o -> targets o = [] -> xstep c w o (allocs n) = Ok (Threw w') ->
  unchanged w w' [].
Proof.
  intros Hw Ho Et E. destruct (xstep_prop w o n Hw Ho) as [r [E2 [_ [_ H]]]]. rewrite E in E2. inv E2.
  destruct (H w' eq_refl) as [U _]. rewrite Et in U. exact U.
Qed.

End Props.
Lemma xcompletes {V} (c : config V) w o f w' f' : xstep c w o f = Ok (Done w' f') -> step c w o = Ok w'.
Proof. apply (xstep_follows c w o f). Qed.
