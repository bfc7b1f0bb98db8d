(** Proofs of the properties of the container as they are stated in PropContainer.v. *)
From Coq Require Import ZArith List Bool Lia Permutation Arith.
From Verif Require Import Base Interval Shape Memory Ref Container Spec SpecMem SpecContainer Tac
  ShapeFacts ResolveFacts MemFacts RefFacts SliceFacts ContainerFacts ContainerWorld.
Import ListNotations.
Open Scope Z_scope.

Lemma resolve_same_shape s : same_shape (resolve s) s.
Proof.
  unfold resolve, same_shape.
  cut (forall todo pre p, Forall2 (fun d' d => dmin d' = dmin d /\ dext d' = dext d /\ (~ unknown_stride d -> dstr d' = dstr d)) pre p ->
       Forall2 (fun d' d => dmin d' = dmin d /\ dext d' = dext d /\ (~ unknown_stride d -> dstr d' = dstr d)) (resolve_from pre todo) (p ++ todo)).
  { intros H. apply (H s [] []). constructor. }
  induction todo as [|d r IH]; intros pre p H; simpl; [rewrite app_nil_r; auto|].
  replace (p ++ d :: r) with ((p ++ [d]) ++ r) by (rewrite <- app_assoc; auto).
  apply IH, Forall2_snoc; auto. rewrite is_unresolved_unknown. destruct (unknown_strideb d) eqn:U; cbn [dmin dext dstr]; auto.
  apply unknown_strideb_iff in U. tauto.
Qed.
Lemma refines_same s' s : refines s' s -> same_shape s' s.
Proof.
  intros [->| ->]; [|apply resolve_same_shape]. unfold same_shape. induction s; constructor; auto.
Qed.

Section Props.
Context {V : Type}.
Variable c : config V.
Implicit Types w : world V.

(** ** Live objects *)

Lemma inv_live w p : Inv c w -> (alive (w_heap w) p <-> exists x, elem_of w x p).
Proof.
  intros Hw. split.
  - intros [v Hv]. unfold holds, peek in Hv. destruct p as [k z]. cbn [fst snd] in Hv. destruct k as [|k]; [discriminate|].
    set (k' := S k) in *. destruct (h_blk (w_heap w) k') as [b|] eqn:Eb; [|discriminate].
    destruct ((0 <=? z) && (z <? b_size b)) eqn:Ez; [|discriminate].
    destruct Hw as [Hh [Ha [Hap Hb]]]. destruct (Hb k') as [x [a [Ea Ek]]]; [congruence|].
    exists x, a. split; auto. destruct (Ha x a Ea) as [_ Hva].
    destruct (repr_block c _ _ _ _ Hva) as [[C _]|_]; [rewrite Ek in C; discriminate C|].
    destruct Hva as [_ [[Hm _]|[Hp [k0 [b0 [Hb0 [Hin Hc]]]]]]].
    { apply no_memory_blk in Hm. rewrite Ek in Hm. discriminate Hm. }
    destruct Hin as [Hk [Ebuf [Ebase _]]]. unfold blk in Ek. rewrite Ebuf in Ek. cbn [fst] in Ek. subst k0.
    rewrite Eb in Hb0. inv Hb0. destruct (proj1 (Hc z ltac:(lia))) as [i [Hi Ei]].
    { exists v. congruence. }
    exists i. split; auto. unfold elem. rewrite Ebase. cbn [fst snd]. f_equal. lia.
  - intros [x [a [Ea [i [Hi ->]]]]]. destruct (inv_has c w x a Hw Ea) as [f H]. exists (f i). apply H; auto.
Qed.
Lemma inv_elem_unique w x y p : Inv c w -> elem_of w x p -> elem_of w y p -> x = y.
Proof.
  intros Hw [a [Ea [i [Hi Ei]]]] [b [Eb [j [Hj Ej]]]]. destruct (Nat.eq_dec x y) as [|N]; auto. exfalso.
  apply (elems_differ c x y (w_heap w) a b i j); auto; [apply (inv_valid c w)|apply (inv_valid c w)|apply (inv_apart c w x y)|congruence]; auto.
Qed.
Lemma inv_adds2 w w' : Inv c w -> Inv c w' -> (forall z, z <> w_next w -> w_arr w' z = w_arr w z) ->
  adds_objects w w' (w_next w).
Proof.
  intros Hw Hw' U p. split.
  - rewrite (inv_live w' p Hw'), (inv_live w p Hw). split.
    + intros [x [a [Ea Hp]]]. destruct (Nat.eq_dec x (w_next w)) as [->|N].
      * right. exists a. auto.
      * left. exists x, a. rewrite <- (U x N). auto.
    + intros [[x [a [Ea Hp]]]|H]; [|exists (w_next w); auto]. exists x, a.
      assert (N : x <> w_next w) by (pose proof (inv_lt c w x a Hw Ea); lia).
      rewrite (U x N). auto.
  - intros [H1 H2]. apply (inv_live w p Hw) in H1. destruct H1 as [x [a [Ea Hp]]].
    assert (N : x <> w_next w) by (pose proof (inv_lt c w x a Hw Ea); lia).
    assert (G : elem_of w' x p) by (exists a; rewrite (U x N); auto).
    pose proof (inv_elem_unique w' _ _ _ Hw' G H2). auto.
Qed.
Lemma inv_adds w w' : Inv c w -> Inv c w' -> unchanged w w' [w_next w] -> adds_objects w w' (w_next w).
Proof. intros H1 H2 U. apply inv_adds2; auto. intros z N. apply U. simpl. intuition. Qed.

Hypothesis Hf : fair c.
(** The states of the programs considered *)
Variable reach : world V -> Prop.
Hypothesis inv_of : forall w, reach w -> Inv c w.

Lemma live_objects w : reach w ->
  (forall p, alive (w_heap w) p <-> exists x, elem_of w x p) /\
  (forall x y p, elem_of w x p -> elem_of w y p -> x = y).
Proof.
  intros R. pose proof (inv_of w R) as Hw. split.
  - intros p. apply inv_live; auto.
  - intros x y p. apply inv_elem_unique; auto.
Qed.

(** ** Construction *)

Lemma construct_shape w s al : reach w -> shape_arg c s ->
  exists w' s', step c w (New s al) = Ok w' /\ same_shape s' s /\ denotes w' (w_next w) s' (fun _ => c_dv c) /\
    adds_objects w w' (w_next w) /\ unchanged w w' [w_next w].
Proof.
  intros R Hs. pose proof (inv_of w R) as Hw.
  destruct (new_world c w s al Hw Hs) as [w' [E [I [U [_ [D _]]]]]].
  exists w', (resolve s). split; auto. split; [apply resolve_same_shape|]. split; auto. split; auto. apply inv_adds; auto.
Qed.
Lemma construct_value w s v al : reach w -> shape_arg c s ->
  exists w' s', step c w (NewValue s v al) = Ok w' /\ same_shape s' s /\ denotes w' (w_next w) s' (fun _ => v) /\
    adds_objects w w' (w_next w) /\ unchanged w w' [w_next w].
Proof.
  intros R Hs. pose proof (inv_of w R) as Hw.
  destruct (new_value_world c Hf w s v al Hw Hs) as [w' [E [I [U [_ D]]]]].
  exists w', (resolve s). split; auto. split; [apply resolve_same_shape|]. split; auto. split; auto. apply inv_adds; auto.
Qed.
Lemma copy_construct_world w o y s f : reach w -> may_copy c w y -> denotes w y s f ->
  o = NewCopy y \/ (exists al, o = NewCopyAlloc y al) ->
  exists w' s', step c w o = Ok w' /\ same_shape s' s /\ denotes w' (w_next w) s' f /\ denotes w' y s f /\
    adds_objects w w' (w_next w) /\ unchanged w w' [w_next w].
Proof.
  intros R [b [Eb Cb]] D Ho. pose proof (inv_of w R) as Hw.
  assert (H : exists w', step c w o = Ok w' /\ Inv c w' /\ unchanged w w' [w_next w] /\
     (forall s f, denotes w y s f -> exists s', refines s' s /\ denotes w' (w_next w) s' f)).
  { destruct Ho as [->|[al ->]].
    - destruct (new_copy_world c Hf w y b Hw Eb Cb) as [w' [E [I [U [_ [M _]]]]]]. exists w'. auto.
    - destruct (new_copy_alloc_world c Hf w y b al Hw Eb Cb) as [w' [E [I [U [_ [M _]]]]]]. exists w'. auto. }
  destruct H as [w' [E [I [U M]]]]. destruct (M s f D) as [s' [R' D']].
  exists w', s'. split; auto. split; [apply refines_same; auto|]. split; auto. split; [|split; auto; apply inv_adds; auto].
  apply U; auto. pose proof (inv_lt c w y b Hw Eb). simpl. intuition lia.
Qed.
Lemma make_copy_prop w y t al s f : reach w -> shape_arg c t -> denotes w y s f -> within t s ->
  exists w' t', step c w (MakeCopy y t al) = Ok w' /\ same_shape t' t /\ denotes w' (w_next w) t' f /\ denotes w' y s f /\
    adds_objects w w' (w_next w) /\ unchanged w w' [w_next w].
Proof.
  intros R Ht D Hwi. pose proof (inv_of w R) as Hw. pose proof D as [b [Eb [Es _]]]. subst s.
  destruct (make_copy_world c w y b t al Hw Eb Ht) as [w' [E [I [U [_ M]]]]].
  { intros i Hi. apply Hwi. apply resolve_in_bounds; auto. }
  exists w', (resolve t). split; auto. split; [apply resolve_same_shape|]. split; auto. split; [|split; auto; apply inv_adds; auto].
  apply U; auto. pose proof (inv_lt c w y b Hw Eb). simpl. intuition lia.
Qed.
Lemma make_move_prop w y t al s f : reach w -> shape_arg c t -> denotes w y s f -> within t s ->
  exists w' t' g, step c w (MakeMove y t al) = Ok w' /\ same_shape t' t /\ denotes w' (w_next w) t' f /\
    denotes w' y s g /\ (forall i, ~ in_bounds t i -> g i = f i) /\ (forall i, in_bounds t i -> g i = c_mv c (f i)) /\
    unchanged w w' [w_next w; y].
Proof.
  intros R Ht D Hwi. pose proof (inv_of w R) as Hw. pose proof D as [b [Eb [Es _]]]. subst s.
  destruct (make_move_world c w y b t al Hw Eb Ht) as [w' [E [I [U [_ M]]]]].
  { intros i Hi. apply Hwi. apply resolve_in_bounds; auto. }
  destruct (M f D) as [D1 [g [D2 [G1 G2]]]].
  exists w', (resolve t), g. split; auto. split; [apply resolve_same_shape|]. auto.
Qed.

(** ** Copy assignment *)

Lemma copy_assign_prop w o x y s f : reach w -> exists_arr w x -> may_copy c w y -> x <> y -> denotes w y s f ->
  o = CopyAssign x y \/ o = AssignCopy x y ->
  exists w' s', step c w o = Ok w' /\ same_shape s' s /\ denotes w' x s' f /\ denotes w' y s f /\ unchanged w w' [x].
Proof.
  intros R [a Ea] [b [Eb Cb]] N D Ho. pose proof (inv_of w R) as Hw.
  assert (H : exists w', step c w o = Ok w' /\ Inv c w' /\ unchanged w w' [x] /\
     (forall s f, denotes w y s f -> exists s', refines s' s /\ denotes w' x s' f)).
  { destruct Ho as [->| ->].
    - destruct (copy_assign_world c Hf w x y a b Hw N Ea Eb Cb) as [w' [E [I [U [_ [M _]]]]]]. exists w'. auto.
    - destruct (assign_copy_world c Hf w x y a b Hw N Ea Eb Cb) as [w' [E [I [U [_ [M _]]]]]]. exists w'. auto. }
  destruct H as [w' [E [I [U M]]]]. destruct (M s f D) as [s' [R' D']].
  exists w', s'. split; auto. split; [apply refines_same; auto|]. split; auto. split; auto.
  apply U; auto. simpl. intuition.
Qed.
Lemma self_assign_prop w o x : reach w -> exists_arr w x ->
  o = CopyAssign x x \/ o = AssignCopy x x \/ o = AssignMove x x \/ o = MoveAssign x x ->
  exists w', step c w o = Ok w' /\ w_heap w' = w_heap w /\ forall z, w_arr w' z = w_arr w z.
Proof.
  intros R [a Ea] Ho. pose proof (inv_of w R) as Hw.
  destruct (self_world c w o x a Hw Ea Ho) as [w' [E [I [U [_ H]]]]]. exists w'. split; auto. split; auto.
  intros z. apply U. intros [].
Qed.
Lemma write_prop w x i v s f : reach w -> denotes w x s f -> in_bounds s i ->
  exists w' g, step c w (Write x i v) = Ok w' /\ denotes w' x s g /\ g i = v /\ (forall j, j <> i -> g j = f j) /\
    unchanged w w' [x].
Proof.
  intros R D Hi. pose proof (inv_of w R) as Hw. pose proof D as [a [Ea [Es _]]]. subst s.
  destruct (write_world c w x a i v Hw Ea Hi) as [w' [E [I [U [_ [_ M]]]]]]. destruct (M f D) as [g [D' [G1 G2]]].
  exists w', g. auto.
Qed.
Lemma assign_value_prop w x s v : reach w -> exists_arr w x -> shape_arg c s ->
  exists w' s', step c w (AssignValue x s v) = Ok w' /\ same_shape s' s /\ denotes w' x s' (fun _ => v) /\ unchanged w w' [x].
Proof.
  intros R [a Ea] Hs. pose proof (inv_of w R) as Hw.
  destruct (assign_value_world c w x a s v Hw Ea Hs) as [w' [E [I [U [_ [D _]]]]]].
  exists w', (resolve s). split; auto. split; [apply resolve_same_shape|]. auto.
Qed.
Lemma clear_prop w x : reach w -> exists_arr w x ->
  exists w' s' f, step c w (Clear x) = Ok w' /\ same_shape s' (c_shape0 c) /\ no_index s' /\ denotes w' x s' f /\ unchanged w w' [x].
Proof.
  intros R [a Ea]. pose proof (inv_of w R) as Hw.
  destruct (clear_world c Hf w x a Hw Ea) as [w' [E [I [U [_ [a' [Ea' [_ Es]]]]]]]].
  destruct (inv_denotes c w' x a' I Ea') as [f D]. rewrite Es in D.
  exists w', (resolve (c_shape0 c)), f. split; auto. split; [apply resolve_same_shape|]. split; auto.
  apply resolve_no_index. apply Hf.
Qed.

(** ** Moves *)

Lemma move_construct_prop w o y b al s f : reach w -> may_copy c w y -> w_arr w y = Some b -> denotes w y s f ->
  (o = NewMove y /\ al = (if c_pocma c then a_al b else c_default c)) \/ o = NewMoveAlloc y al ->
  exists w' s', step c w o = Ok w' /\ same_shape s' s /\ denotes w' (w_next w) s' f /\ unchanged w w' [w_next w; y] /\
    (a_busy b = false -> al = a_al b ->
       w_heap w' = w_heap w /\ s' = s /\
       exists a' b', w_arr w' (w_next w) = Some a' /\ w_arr w' y = Some b' /\
         a_base a' = a_base b /\ a_buf b' = null /\ a_base b' = null /\ no_index (a_shape b')) /\
    (a_busy b = true \/ al <> a_al b ->
       denotes w' y s (fun i => c_mv c (f i)) /\ adds_objects w w' (w_next w)).
Proof.
  intros R [b0 [Eb0 Cb]] Eb D Ho. rewrite Eb in Eb0. inv Eb0. pose proof (inv_of w R) as Hw.
  assert (H : exists w', step c w o = Ok w' /\ Inv c w' /\ unchanged w w' [w_next w; y] /\
    (forall s f, denotes w y s f -> exists s', refines s' s /\ denotes w' (w_next w) s' f) /\
    exists a' b', w_arr w' (w_next w) = Some a' /\ w_arr w' y = Some b' /\
    (if negb (a_busy b0) && (al =? a_al b0)%nat
     then w_heap w' = w_heap w /\ no_memory b' /\ a_shape b' = c_shape0 c /\ a_shape a' = a_shape b0 /\ a_base a' = a_base b0
     else b' = b0 /\ forall f, has (w_heap w) b0 f -> has (w_heap w') b0 (fun i => c_mv c (f i)))).
  { destruct Ho as [[-> Ho]| ->].
    - destruct (new_move_world c Hf w y b0 Hw Eb Cb) as [w' [E [I [U [_ [M Q]]]]]]. exists w'.
      split; auto. split; auto. split; auto. split; auto. destruct (c_pocma c) eqn:Ep; subst al; auto.
      assert (Hbz : a_busy b0 = false).
      { apply (not_busy c y (w_heap w)); [apply (inv_valid c w); auto|]. destruct Hf as [_ [_ [_ [Hc|[_ [Hc _]]]]]]; [auto|congruence]. }
      rewrite Hbz, Nat.eqb_refl. auto.
    - destruct (new_move_alloc_world c Hf w y b0 al Hw Eb Cb) as [w' [E [I [U [_ [M Q]]]]]]. exists w'. auto 6. }
  destruct H as [w' [E [I [U [M [a' [b' [Ea' [Eb' Q]]]]]]]]]. destruct (M s f D) as [s' [Rf D']].
  destruct (denotes_has _ _ _ _ _ D Eb) as [-> Hff].
  exists w', s'. split; auto. split; [apply refines_same; auto|]. split; auto. split; auto. split.
  - intros Hbz ->. rewrite Hbz, Nat.eqb_refl in Q. cbn [negb andb] in Q. destruct Q as [Q1 [[Q2 [Q3 _]] [Q4 [Q5 Q6]]]].
    split; auto. split.
    { destruct (denotes_has _ _ _ _ _ D' Ea') as [-> _]. auto. }
    exists a', b'. split; auto. split; auto. split; auto. split; auto. split; auto. rewrite Q4. apply Hf.
  - intros Hn. replace (negb (a_busy b0) && (al =? a_al b0)%nat) with false in Q.
    + destruct Q as [-> Q]. split; [apply has_denotes; auto|]. apply inv_adds2; auto. intros z N.
      destruct (Nat.eq_dec z y) as [->|N2]; [congruence|]. apply U. simpl. intuition.
    + symmetry. destruct Hn as [->|Hn]; auto. apply Nat.eqb_neq in Hn. rewrite Hn. apply andb_false_r.
Qed.
Lemma move_assign_prop w x y a b s f : reach w -> x <> y -> w_arr w x = Some a -> w_arr w y = Some b ->
  may_copy c w y -> denotes w y s f ->
  exists w' s', step c w (MoveAssign x y) = Ok w' /\ same_shape s' s /\ denotes w' x s' f /\ unchanged w w' [x; y] /\
    (c_pocma c = true \/ (a_busy a = false /\ a_busy b = false /\ a_al a = a_al b) ->
       w_heap w' = w_heap w /\ s' = s /\
       (forall t g, denotes w x t g -> denotes w' y t g) /\
       exists a' b', w_arr w' x = Some a' /\ w_arr w' y = Some b' /\ a_base a' = a_base b /\ a_base b' = a_base a) /\
    (c_pocma c = false -> a_busy a = true \/ a_busy b = true \/ a_al a <> a_al b ->
       denotes w' y s (fun i => c_mv c (f i)) \/ (no_index s /\ exists t, denotes w' y t f /\ no_index t)).
Proof.
  intros R N Ea Eb [b0 [Eb0 Cb]] D. rewrite Eb in Eb0. inv Eb0. pose proof (inv_of w R) as Hw.
  destruct (move_assign_world c Hf w x y a b0 Hw N Ea Eb Cb) as [w' [E [I [U [_ [M [a' [b' [Ea' [Eb' Q]]]]]]]]]].
  destruct (M s f D) as [s' [Rf D']]. destruct (denotes_has _ _ _ _ _ D Eb) as [-> Hff].
  exists w', s'. split; auto. split; [apply refines_same; auto|]. split; auto. split; auto. split.
  - intros Hc. replace (c_pocma c || negb (a_busy a || a_busy b0) && (a_al a =? a_al b0)%nat) with true in Q.
    + destruct Q as [Q1 [Q2 [Q3 [Q4 Q5]]]]. split; auto. split.
      { destruct (denotes_has _ _ _ _ _ D' Ea') as [-> _]. auto. }
      split; [|exists a', b'; auto]. intros t g Dt. destruct (denotes_has _ _ _ _ _ Dt Ea) as [-> Hg].
      exists b'. split; auto. split; auto. rewrite Q1, Q5. exact Hg.
    + symmetry. destruct Hc as [->|[-> [-> ->]]]; auto. rewrite Nat.eqb_refl. apply orb_true_r.
  - intros Hc Hn. replace (c_pocma c || negb (a_busy a || a_busy b0) && (a_al a =? a_al b0)%nat) with false in Q.
    + destruct Q as [[-> Q]|[Q1 Q2]].
      * left. apply has_denotes; auto.
      * right. pose proof (inv_valid c w y b0 Hw Eb) as V1. pose proof (inv_valid c w' y b' I Eb') as V2.
        split.
        -- destruct (valid_memory c _ _ _ V1) as [[_ [H _]]|[_ [H _]]]; auto. destruct (H (no_memory_blk _ Q1)).
        -- exists (a_shape b'). split.
           ++ apply has_denotes; auto. apply (no_memory_has c y); auto.
           ++ destruct (valid_memory c _ _ _ V2) as [[_ [H _]]|[_ [H _]]]; auto. destruct (H (no_memory_blk _ Q2)).
    + symmetry. rewrite Hc. cbn [orb]. destruct Hn as [->|[->|Hn]]; auto; [rewrite orb_true_r; auto|].
      apply Nat.eqb_neq in Hn. rewrite Hn. apply andb_false_r.
Qed.
Lemma assign_move_prop w x y s f : reach w -> x <> y -> exists_arr w x -> may_copy c w y -> denotes w y s f ->
  exists w' s', step c w (AssignMove x y) = Ok w' /\ same_shape s' s /\ denotes w' x s' f /\
    denotes w' y s (fun i => c_mv c (f i)) /\ unchanged w w' [x; y].
Proof.
  intros R N [a Ea] [b [Eb Cb]] D. pose proof (inv_of w R) as Hw.
  destruct (assign_move_world c Hf w x y a b Hw N Ea Eb Cb) as [w' [E [I [U [_ [_ M]]]]]].
  destruct (M s f D) as [[s' [Rf D1]] D2]. exists w', s'. split; auto. split; [apply refines_same; auto|]. auto.
Qed.

(** ** swap, reshape *)

Lemma swap_prop w x y s f t g : reach w -> may_copy c w x -> may_copy c w y -> denotes w x s f -> denotes w y t g ->
  exists w' s' t', step c w (Swap x y) = Ok w' /\ same_shape s' s /\ same_shape t' t /\
    denotes w' x t' g /\ denotes w' y s' f /\ unchanged w w' [x; y].
Proof.
  intros R [a [Ea Ca]] [b [Eb Cb]] D1 D2. pose proof (inv_of w R) as Hw.
  destruct (swap_world c Hf w x y a b Hw Ea Eb Ca Cb) as [w' [E [I [U [_ [_ [M1 M2]]]]]]].
  destruct (M1 s f D1) as [s' [R1 E1]]. destruct (M2 t g D2) as [t' [R2 E2]].
  exists w', s', t'. split; auto. split; [apply refines_same; auto|]. split; [apply refines_same; auto|]. auto.
Qed.
Lemma reshape_prop w x t s f : reach w -> shape_arg c t -> denotes w x s f -> Forall2 meets t s ->
  exists w' t' g, step c w (Reshape x t) = Ok w' /\ same_shape t' t /\ denotes w' x t' g /\
    (forall i, in_bounds s i -> in_bounds t i -> g i = f i) /\
    (forall i, ~ in_bounds s i -> in_bounds t i -> g i = c_dv c) /\ unchanged w w' [x].
Proof.
  intros R Ht D Hm. pose proof (inv_of w R) as Hw. pose proof D as [a [Ea [Es _]]]. subst s.
  destruct (reshape_world c Hf w x a t Hw Ea Ht Hm) as [w' [E [I [U M]]]]. destruct (M f D) as [g [D' [G1 G2]]].
  exists w', (resolve t), g. split; auto. split; [apply resolve_same_shape|]. auto.
Qed.

(** ** Programs *)

Lemma blocks_owned w k b : reach w -> h_blk (w_heap w) k = Some b ->
  exists x a, w_arr w x = Some a /\ a_buf a = (k, 0) /\ b_size b = a_bufsize a /\
    b_owner b = (if a_busy a then Inline x else Base (a_al a)).
Proof.
  intros R Eb. pose proof (inv_of w R) as Hw. pose proof Hw as [Hh [Hv [_ Hb]]].
  destruct (Hb k) as [x [a [Ea Ek]]]; [congruence|]. exists x, a. split; auto.
  destruct (Hv x a Ea) as [_ [_ [[Hm _]|[_ [k0 [b0 [Hb0 [Hin _]]]]]]]].
  - exfalso. apply no_memory_blk in Hm. destruct Hh as [_ [Z _]]. congruence.
  - destruct Hin as [Hk [Ebuf [_ [Es [_ [_ [Eo _]]]]]]]. unfold blk in Ek. rewrite Ebuf in Ek. cbn [fst] in Ek. subst k0.
    rewrite Eb in Hb0. inv Hb0. auto.
Qed.
Lemma blocks_unshared w x y a b k : reach w -> w_arr w x = Some a -> w_arr w y = Some b ->
  k <> 0%nat -> fst (a_buf a) = k -> fst (a_buf b) = k -> x = y.
Proof.
  intros R Ea Eb Hk E1 E2. destruct (Nat.eq_dec x y) as [|N]; auto. exfalso.
  apply Hk. rewrite <- E1. apply (inv_apart c w x y a b (inv_of w R) N Ea Eb). unfold blk. congruence.
Qed.
Lemma no_leak w : reach w -> (forall x, w_arr w x = None) ->
  (forall k, h_blk (w_heap w) k = None) /\ forall p, ~ alive (w_heap w) p.
Proof.
  intros R H. pose proof (inv_of w R) as Hw. split.
  - intros k. destruct (h_blk (w_heap w) k) as [b|] eqn:E; auto.
    destruct (blocks_owned w k b R E) as [x [a [Ea _]]]. rewrite H in Ea. discriminate.
  - intros p A. apply (inv_live w p Hw) in A. destruct A as [x [a [Ea _]]]. rewrite H in Ea. discriminate.
Qed.

(** ** auto_allocator *)

Lemma inline_once w x k1 k2 b1 b2 : reach w -> h_blk (w_heap w) k1 = Some b1 -> h_blk (w_heap w) k2 = Some b2 ->
  b_owner b1 = Inline x -> b_owner b2 = Inline x -> k1 = k2.
Proof.
  intros R E1 E2 O1 O2. destruct (blocks_owned w k1 b1 R E1) as [x1 [a1 [Ea1 [Eb1 [_ Eo1]]]]].
  destruct (blocks_owned w k2 b2 R E2) as [x2 [a2 [Ea2 [Eb2 [_ Eo2]]]]].
  destruct (a_busy a1), (a_busy a2); try congruence.
Qed.
Lemma inline_fits w x k b : reach w -> h_blk (w_heap w) k = Some b -> b_owner b = Inline x ->
  0 < b_size b <= c_cap c /\ exists a, w_arr w x = Some a /\ a_buf a = (k, 0) /\ a_busy a = true.
Proof.
  intros R E O. pose proof (inv_of w R) as Hw. pose proof Hw as [Hh [Hv [_ Hb]]].
  destruct (Hb k) as [y [a [Ea Ek]]]; [congruence|].
  destruct (Hv y a Ea) as [_ [_ [[Hm _]|[_ [k0 [b0 [Hb0 [Hin _]]]]]]]].
  { exfalso. apply no_memory_blk in Hm. destruct Hh as [_ [Z _]]. congruence. }
  destruct Hin as [Hk [Ebuf [_ [_ [_ [Hp [Eo Hc]]]]]]]. unfold blk in Ek. rewrite Ebuf in Ek. cbn [fst] in Ek. subst k0.
  rewrite E in Hb0. inv Hb0. rewrite O in Eo. destruct (a_busy a) eqn:Eb; [|discriminate]. inv Eo.
  split; [split; [exact Hp|apply Hc; auto]|]. exists a. auto.
Qed.
Lemma heap_too_big w k b al : reach w -> h_blk (w_heap w) k = Some b -> b_owner b = Base al -> 0 < b_size b /\ c_cap c < b_size b.
Proof.
  intros R E O. pose proof (inv_of w R) as Hw. pose proof Hw as [Hh [Hv [_ Hb]]].
  destruct (Hb k) as [y [a [Ea Ek]]]; [congruence|].
  destruct (Hv y a Ea) as [_ [_ [[Hm _]|[_ [k0 [b0 [Hb0 [Hin _]]]]]]]].
  { exfalso. apply no_memory_blk in Hm. destruct Hh as [_ [Z _]]. congruence. }
  destruct Hin as [Hk [Ebuf [_ [_ [_ [Hp [Eo Hc]]]]]]]. unfold blk in Ek. rewrite Ebuf in Ek. cbn [fst] in Ek. subst k0.
  rewrite E in Hb0. inv Hb0. rewrite O in Eo. destruct (a_busy a) eqn:Eb; [discriminate|]. split; [exact Hp|].
  destruct (Z.ltb_spec (c_cap c) (b_size b0)); auto. apply Hc in H. discriminate.
Qed.
Lemma equal_can_release w x y a b k bl : reach w -> x <> y -> w_arr w x = Some a -> w_arr w y = Some b ->
  alloc_eq x a y b = true -> a_buf b = (k, 0) -> h_blk (w_heap w) k = Some bl ->
  b_owner bl = Base (a_al a) /\ inline_block x (w_heap w) (a_buf b) = None.
Proof.
  intros R N Ea Eb Q Ebuf Ebl. destruct (blocks_owned w k bl R Ebl) as [z [d [Ed [Ebd [_ Eo]]]]].
  assert (z = y).
  { pose proof (inv_of w R) as [[_ [Z _]] _]. apply (blocks_unshared w z y d b k R); auto; [congruence| |]; [rewrite Ebd|rewrite Ebuf]; auto. }
  subst z. rewrite Eb in Ed. inv Ed. unfold alloc_eq in Q. destruct (a_busy a || a_busy d) eqn:Z.
  - apply Nat.eqb_eq in Q. contradiction.
  - apply orb_false_iff in Z. destruct Z as [_ Z]. rewrite Z in Eo. apply Nat.eqb_eq in Q. rewrite Q. split; auto.
    unfold inline_block. rewrite Ebuf. cbn [fst snd]. rewrite Ebl, Eo. auto.
Qed.

End Props.

Section Programs.
Context {V : Type}.
Variable c : config V.
Hypothesis Hf : fair c.
Implicit Types w : world V.

Lemma legal_snoc ops o : forall w w1, legal c w ops -> run c ops w = Ok w1 -> legal_op c w1 o -> legal c w (ops ++ [o]).
Proof.
  unfold run. induction ops as [|p ops IH]; intros w w1 L E Lo; cbn [app legal foldM] in *.
  - inv E. split; auto.
  - destruct L as [L1 L2]. split; auto. intros w' Ew. rewrite Ew in E. cbn [bind] in E. apply (IH w' w1); auto.
Qed.
Lemma run_snoc ops o w w1 : run c ops w = Ok w1 -> run c (ops ++ [o]) w = step c w1 o.
Proof.
  unfold run. revert w. induction ops as [|p ops IH]; intros w E; cbn [app foldM] in *.
  - inv E. destruct (step c w1 o); auto.
  - destruct (step c w p) as [w'| |] eqn:Ew; cbn [bind] in *; try discriminate. apply IH; auto.
Qed.
Lemma step_reachable w o : reachable c w -> legal_op c w o -> exists w', step c w o = Ok w' /\ reachable c w'.
Proof.
  intros R L. destruct (step_ok c Hf w o (reachable_inv c Hf w R) L) as [w' [E I]]. exists w'. split; auto.
  destruct R as [ops [L1 R1]]. exists (ops ++ [o]). split; [eapply legal_snoc; eauto|]. rewrite (run_snoc _ _ _ w); auto.
Qed.
Lemma programs_run ops : legal c empty_world ops -> exists w, run c ops empty_world = Ok w.
Proof.
  intros L. destruct (run_ok c Hf ops empty_world (inv_empty c) L) as [w [E _]]. eauto.
Qed.
End Programs.

(** ** Allocation (needs no injectivity) *)

Lemma allocate_in_buffer (V : Type) (c : config V) x (h : heap V) a i :
  a_buf a = null -> in_bounds (a_shape a) i -> (1 <= h_next h)%nat ->
  exists h' a' k b, allocate c x h a = Ok (h', a') /\ same_shape (a_shape a') (a_shape a) /\
    h_next h = k /\ h_blk h' k = Some b /\ b_size b = flat_extent (a_shape a') /\ a_bufsize a' = b_size b /\ a_buf a' = (k, 0) /\
    (forall j, h_blk h j <> None -> j <> k -> h_blk h' j = h_blk h j) /\
    forall i, in_bounds (a_shape a) i -> ref_ptr (aref_of a') i = elem (a_base a') (a_shape a') i /\
      exists z, elem (a_base a') (a_shape a') i = (k, z) /\ 0 <= z < b_size b.
Proof.
  intros Hb Hi Hn. unfold allocate. rewrite Hb. cbn [is_null ptr_eqb null fst snd Nat.eqb Z.eqb andb assert_ bind].
  apply resolve_in_bounds in Hi. pose proof (elem_in_buffer _ _ Hi) as Hp.
  replace (0 <? flat_extent (resolve (a_shape a))) with true by lia.
  unfold alloc_get.
  set (o := if negb (a_busy a) && (flat_extent (resolve (a_shape a)) <=? c_cap c) then Inline x else Base (a_al a)).
  set (bz := if negb (a_busy a) && (flat_extent (resolve (a_shape a)) <=? c_cap c) then true else a_busy a).
  replace (if negb (a_busy a) && (flat_extent (resolve (a_shape a)) <=? c_cap c)
       then let '(h', p) := alloc_block h (Inline x) (flat_extent (resolve (a_shape a))) in (h', true, p)
       else let '(h', p) := alloc_block h (Base (a_al a)) (flat_extent (resolve (a_shape a))) in (h', a_busy a, p))
    with (fst (alloc_block h o (flat_extent (resolve (a_shape a)))), bz, (h_next h, 0)).
  2: { unfold o, bz. destruct (_ && _); reflexivity. }
  cbn [alloc_block fst]. eexists _, _, (h_next h), _. split; [reflexivity|].
  unfold set_base; cbn [a_shape a_bufsize a_buf a_base aref_of h_blk].
  rewrite Nat.eqb_refl. split; [apply resolve_same_shape|]. split; auto. split; [reflexivity|]. cbn [b_size]. split; auto. split; auto.
  split; auto. split.
  - intros j Hj N. apply Nat.eqb_neq in N. rewrite N. auto.
  - intros j Hj. apply resolve_in_bounds in Hj. split.
    + apply elem_ref.
    + unfold ptr_off, elem. cbn [fst snd]. pose proof (elem_in_buffer _ _ Hj). eexists. split; [reflexivity|]. lia.
Qed.
