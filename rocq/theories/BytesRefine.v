(** Memory of cells is refined by memory of bytes. *)
From Verif Require Import Tac Interval Shape Traverse Memory Ref Spec SpecMem Bytes SpecBytes ShapeFacts ResolveFacts ShapeProps TraverseFacts MemFacts RefFacts BytesFacts.
Import ListNotations.
Open Scope Z_scope.

Section Refine.
Context {V : Type} (t : ctype V) (G : good_type t).

Lemma size_pos : 0 < t_size t. Proof. apply G. Qed.
Lemma peek_room h m p c : represents t h m -> peek h p = Some c ->
  exists blk bb, fst p <> 0%nat /\ h_blk h (fst p) = Some blk /\ m (fst p) = Some bb /\ 0 <= snd p < b_size blk /\ c = b_cell blk (snd p) /\
    room t m (in_bytes t p) = Some bb.
Proof.
  intros R P. unfold peek in P. destruct p as [[|k] x]; cbn [fst snd] in *; [discriminate|].
  destruct (h_blk h (S k)) as [blk|] eqn:B; [|discriminate].
  destruct ((0 <=? x) && (x <? b_size blk)) eqn:X; [|discriminate]. injection P as <-. apply andb_true_iff in X.
  destruct (R _ _ B) as [bb [M [SZ [A _]]]]. exists blk, bb. split; [discriminate|]. split; [auto|]. split; [auto|].
  split; [lia|]. split; [reflexivity|]. apply room_spec; auto. unfold in_bytes. cbn [fst snd]. split; [discriminate|]. split; [exact M|].
  pose proof size_pos. split; [nia|]. split; [rewrite SZ; nia|]. apply Z.divide_add_r; [exact A|]. apply Z.divide_mul_l. apply G.
Qed.
Lemma load_sim h m p v : represents t h m -> load h p = Ok v -> bload t m (in_bytes t p) = Ok v.
Proof.
  intros R L. unfold load in L. destruct (peek h p) as [[|w]|] eqn:P; try discriminate. injection L as ->.
  destruct (peek_room h m p _ R P) as [blk [bb [N [B [M [X [C RM]]]]]]]. unfold bload. rewrite RM.
  destruct (R _ _ B) as [bb' [M' [_ [_ D]]]]. rewrite M in M'. injection M' as <-.
  unfold in_bytes. cbn [snd]. rewrite <- bytes_from_map. rewrite (D (snd p) v X) by congruence. reflexivity.
Qed.
(** Writing one cell *)
Lemma upd_sim h m p c v : represents t h m -> peek h p = Some c ->
  exists m', bstore t m (in_bytes t p) v = Ok m' /\ represents t (upd h p (Live v)) m'.
Proof.
  intros R P. destruct (peek_room h m p _ R P) as [blk [bb [N [B [M [X [C RM]]]]]]].
  destruct (bstore_spec t m (in_bytes t p) v G) as [m' [E [S O]]].
  { eexists. apply storage_room; auto. exists bb. split; [exact RM|reflexivity]. }
  exists m'. split; [exact E|]. intros k b' H. unfold upd in H. cbn [h_blk] in H. specialize (O k).
  destruct (k =? fst p)%nat eqn:K.
  - apply Nat.eqb_eq in K. subst k. rewrite B in H. injection H as <-. rewrite M in O. destruct (m' (fst p)) as [bb'|] eqn:M'; [|contradiction].
    destruct O as [O1 [O2 O3]]. exists bb'. split; [reflexivity|]. cbn [b_size b_cell]. rewrite O1, O2.
    destruct (R _ _ B) as [bb0 [M0 [SZ [A D]]]]. rewrite M in M0. injection M0 as <-. split; [exact SZ|]. split; [exact A|].
    intros x w Hx Hc. destruct (x =? snd p) eqn:XE.
    + apply Z.eqb_eq in XE. subst x. injection Hc as <-. destruct S as [_ [bb2 [M2 [_ [_ [_ S]]]]]].
      unfold in_bytes in M2, S. cbn [fst snd] in M2, S. rewrite M' in M2. injection M2 as <-. rewrite <- S. apply G.
    + rewrite <- (D x w Hx Hc). f_equal. rewrite !bytes_from_map. apply map_ext_in. intros y Hy. apply zseq_In in Hy.
      apply O3. intros [_ Cv]. unfold in_bytes in Cv. cbn [snd] in Cv. apply Z.eqb_neq in XE. pose proof size_pos.
      assert (x < snd p \/ snd p < x) by lia. clear - Cv Hy H0 H. nia.
  - destruct (R _ _ H) as [bb0 [M0 [SZ [A D]]]]. rewrite M0 in O. destruct (m' k) as [bb'|]; [|contradiction].
    destruct O as [O1 [O2 O3]]. exists bb'. rewrite O1, O2. split; [reflexivity|]. split; [exact SZ|]. split; [exact A|].
    intros x w Hx Hc. rewrite <- (D x w Hx Hc). f_equal. rewrite !bytes_from_map. apply map_ext_in. intros y Hy.
    apply O3. intros [Ck _]. apply Nat.eqb_neq in K. apply K. exact Ck.
Qed.
Lemma store_sim h h' m p v : represents t h m -> store h p v = Ok h' ->
  exists m', bstore t m (in_bytes t p) v = Ok m' /\ represents t h' m'.
Proof. intros R S. unfold store in S. destruct (peek h p) as [[|w]|] eqn:P; try discriminate. injection S as <-. eapply upd_sim; eauto. Qed.
Lemma construct_sim h h' m p v : represents t h m -> construct_at h p v = Ok h' ->
  exists m', bstore t m (in_bytes t p) v = Ok m' /\ represents t h' m'.
Proof. intros R S. unfold construct_at in S. destruct (peek h p) as [[|w]|] eqn:P; try discriminate. injection S as <-. eapply upd_sim; eauto. Qed.
Lemma destroy_sim h h' m p : represents t h m -> destroy_at h p = Ok h' -> represents t h' m.
Proof.
  intros R S. unfold destroy_at in S. destruct (peek h p) as [[|w]|]; try discriminate. injection S as <-.
  intros k b' H. unfold upd in H. cbn [h_blk] in H. destruct (k =? fst p)%nat; [|apply R; exact H].
  destruct (h_blk h k) as [b|] eqn:B; [|discriminate]. injection H as <-. destruct (R _ _ B) as [bb [M [SZ [A D]]]].
  exists bb. cbn [b_size b_cell]. split; [exact M|]. split; [exact SZ|]. split; [exact A|]. intros x v Hx Hc.
  destruct (x =? snd p); [discriminate|]. apply D; auto.
Qed.
Lemma alloc_sim h m o n a : represents t h m -> (t_align t | a) ->
  represents t (fst (alloc_block h o n)) (balloc t m (h_next h) a n) /\ snd (alloc_block h o n) = in_bytes t (snd (alloc_block h o n)).
Proof.
  intros R A. split; [|unfold alloc_block, in_bytes; cbn [fst snd]; rewrite Z.mul_0_r; reflexivity].
  intros k b H. unfold alloc_block in H. cbn [fst h_blk] in H. unfold balloc. destruct (k =? h_next h)%nat; [|apply R; exact H].
  injection H as <-. eexists. split; [reflexivity|]. cbn [bb_size b_size bb_addr b_cell]. split; [ring|]. split; [exact A|]. discriminate.
Qed.
Lemma free_sim h h' m o p n : represents t h m -> free_block h o p n = Ok h' -> represents t h' m.
Proof.
  intros R F. unfold free_block in F. destruct (fst p) as [|k0]; [discriminate|]. destruct (h_blk h (S k0)) as [b|]; [|discriminate].
  destruct (_ && _); [|discriminate]. injection F as <-. intros k b' H. cbn [h_blk] in H. destruct (k =? S k0)%nat; [discriminate|]. apply R; exact H.
Qed.

(** ** Loops *)
Lemma fold_sim {A} (f : heap V -> A -> outcome (heap V)) (g : bmem -> A -> outcome bmem) l :
  (forall h m a h', In a l -> represents t h m -> f h a = Ok h' -> exists m', g m a = Ok m' /\ represents t h' m') ->
  forall h m h', represents t h m -> foldM f l h = Ok h' -> exists m', foldM g l m = Ok m' /\ represents t h' m'.
Proof.
  induction l as [|a l IH]; intros S h m h' R F; cbn [foldM] in *; [injection F as <-; exists m; auto|].
  destruct (f h a) as [h1| |] eqn:E; try discriminate. cbn [bind] in F. destruct (S h m a h1 (or_introl eq_refl) R E) as [m1 [E1 R1]].
  rewrite E1. cbn [bind]. apply (IH (fun h m a h' Ia => S h m a h' (or_intror Ia)) h1); auto.
Qed.
Notation bref := (bref t).
Lemma in_bytes_null p : is_null (in_bytes t p) = is_null p.
Proof.
  unfold is_null, ptr_eqb, in_bytes, null. cbn [fst snd]. f_equal. pose proof size_pos.
  destruct (snd p =? 0) eqn:E; [apply Z.eqb_eq in E; rewrite E, Z.mul_0_r; reflexivity|]. apply Z.eqb_neq in E. apply Z.eqb_neq. nia.
Qed.
Lemma step_to_ptr b n x : x = snd b + n -> step t (in_bytes t b) n = in_bytes t (fst b, x).
Proof. intros ->. unfold step, ptr_off, in_bytes. cbn [fst snd]. f_equal. ring. Qed.
Lemma values_sim nd s base l : values nd s base = Ok l -> bvalues t nd (bref (mkR base s)) = Ok (map (in_bytes t) l).
Proof.
  unfold values, values_in_order, bvalues, bref. cbn [r_base r_shape]. rewrite in_bytes_null. destruct (is_null base).
  - destruct (assert_ nd _); try discriminate. cbn [bind]. intros [= <-]. reflexivity.
  - intros [= <-]. rewrite map_map. unfold for_each_value. rewrite !fev_in_order_spec, !map_map. f_equal. apply map_ext. intros i.
    unfold to_ptr. cbn [nth]. apply step_to_ptr. lia.
Qed.
Lemma values_copy_sim nd ssrc src sdst dst l : length ssrc = length sdst -> values_copy nd ssrc src sdst dst = Ok l ->
  bvalues_copy t t nd (bref (mkR src ssrc)) (bref (mkR dst sdst)) = Ok (map (fun ab => (in_bytes t (fst ab), in_bytes t (snd ab))) l).
Proof.
  intros L. unfold values_copy, bvalues_copy, bref, for_each_value_copy. cbn [r_base r_shape]. rewrite !in_bytes_null.
  pose proof (optimize_copy_lengths ssrc sdst L) as HL. destruct (optimize_copy_shapes ssrc sdst) as [os od]. cbn [fst snd] in *.
  unfold values_in_order2. destruct (is_null src || is_null dst).
  - destruct (assert_ nd _); try discriminate. cbn [bind]. intros [= <-]. reflexivity.
  - intros [= <-]. rewrite map_map. rewrite !fev_in_order2_spec by auto. rewrite !map_map. f_equal. apply map_ext. intros i.
    unfold to_ptr2. cbn [nth fst snd]. f_equal; apply step_to_ptr; lia.
Qed.
Lemma copy_sim : forall (ndebug : bool) (h h' : heap V) (m : bmem) (src dst : aref), length (r_shape src) = length (r_shape dst) ->
  represents t h m -> copy ndebug h src dst = Ok h' ->
  exists m', bcopy t t (fun v => v) ndebug m (bref src) (bref dst) = Ok m' /\ represents t h' m'.
Proof.
  intros nd h h' m [sb ss] [db ds] L R C. unfold copy in C. unfold bcopy. cbn [bref r_base r_shape] in *.
  destruct (empty ds); [injection C as <-; exists m; auto|].
  destruct (assert_ nd _); try discriminate. cbn [bind] in *. destruct (values_copy nd ss sb ds db) as [l| |] eqn:E; try discriminate. cbn [bind] in C.
  pose proof (values_copy_sim nd ss sb ds db l L E) as B. rewrite B. cbn [bind]. rewrite foldM_map. cbn [fst snd].
  eapply fold_sim; [|exact R|exact C]. intros h1 m1 ab h2 _ R1 S1. unfold copy_assign in S1.
  destruct (load h1 (fst ab)) as [v| |] eqn:LD; try discriminate. cbn [bind] in S1. rewrite (load_sim h1 m1 _ v R1 LD). cbn [bind].
  eapply store_sim; eauto.
Qed.
Lemma fill_sim : forall (ndebug : bool) (h h' : heap V) (m : bmem) (dst : aref) (v : V),
  represents t h m -> fill ndebug h dst v = Ok h' -> exists m', bfill t ndebug m (bref dst) v = Ok m' /\ represents t h' m'.
Proof.
  intros nd h h' m [db ds] v R C. unfold fill in C. unfold bfill. cbn [r_base r_shape] in *.
  destruct (values nd ds db) as [l| |] eqn:E; try discriminate. cbn [bind] in C. rewrite (values_sim nd ds db l E). cbn [bind]. rewrite foldM_map.
  eapply fold_sim; [|exact R|exact C]. intros h1 m1 p h2 _ R1 S1. eapply store_sim; eauto.
Qed.
Lemma transform_sim : forall (h h' : heap V) (m : bmem) (dst : aref) (fn : index -> V),
  represents t h m -> transform_index h dst fn = Ok h' -> exists m', btransform t m (bref dst) fn = Ok m' /\ represents t h' m'.
Proof.
  intros h h' m [db ds] fn R C. unfold transform_index in C. unfold btransform. cbn [bref r_base r_shape] in *.
  destruct (for_each_index ds) as [l| |] eqn:E; try discriminate. cbn [bind] in *.
  eapply fold_sim; [|exact R|exact C]. intros h1 m1 i h2 _ R1 S1.
  assert (P : bref_ptr t (bref (mkR db ds)) i = in_bytes t (ref_ptr (mkR db ds) i)).
  { unfold bref_ptr, ref_ptr, ptr_off, in_bytes, bref. cbn [r_base r_shape fst snd]. f_equal. unfold in_bytes. cbn [snd]. ring. }
  rewrite P. eapply store_sim; eauto.
Qed.
Lemma equal_sim : forall (ndebug : bool) (eqb : V -> V -> bool) (h : heap V) (m : bmem) (a b : aref) (r : bool),
  length (r_shape a) = length (r_shape b) -> represents t h m -> equal ndebug eqb h a b = Ok r -> bequal t t eqb ndebug m (bref a) (bref b) = Ok r.
Proof.
  intros nd eqb h m [ab as_] [bb bs] r L R C. unfold equal in C. unfold bequal. cbn [bref r_base r_shape] in *.
  destruct (negb _ || negb _); [exact C|]. destruct (values_copy nd as_ ab bs bb) as [l| |] eqn:E; try discriminate. cbn [bind] in C.
  pose proof (values_copy_sim nd as_ ab bs bb l L E) as B. rewrite B. cbn [bind].
  rewrite foldM_map. cbn [fst snd]. unfold compare_each in C. revert C. generalize true. clear E B. induction l as [|p l IH]; intros acc C; [exact C|].
  cbn [foldM] in *. destruct (load h (fst p)) as [x| |] eqn:L1; try discriminate. cbn [bind] in C.
  destruct (load h (snd p)) as [y| |] eqn:L2; try discriminate. cbn [bind] in C.
  rewrite (load_sim h m _ x R L1). cbn [bind]. rewrite (load_sim h m _ y R L2). cbn [bind]. apply IH. exact C.
Qed.
End Refine.

Lemma memory_sim : forall (V : Type) (t : ctype V), good_type t -> forall (h h' : heap V) (m : bmem), represents t h m ->
  (forall p v, load h p = Ok v -> bload t m (in_bytes t p) = Ok v) /\
  (forall p v, store h p v = Ok h' -> exists m', bstore t m (in_bytes t p) v = Ok m' /\ represents t h' m') /\
  (forall p v, construct_at h p v = Ok h' -> exists m', bstore t m (in_bytes t p) v = Ok m' /\ represents t h' m') /\
  (forall p, destroy_at h p = Ok h' -> represents t h' m) /\
  (forall o n a, (t_align t | a) -> represents t (fst (alloc_block h o n)) (balloc t m (h_next h) a n)) /\
  (forall o p n, free_block h o p n = Ok h' -> represents t h' m).
Proof.
  intros V t G h h' m R. split; [|split; [|split; [|split; [|split]]]]; intros.
  - eapply load_sim; eauto.
  - eapply store_sim; eauto.
  - eapply construct_sim; eauto.
  - eapply destroy_sim; eauto.
  - apply alloc_sim; auto.
  - eapply free_sim; eauto.
Qed.
