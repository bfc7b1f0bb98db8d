(** Facts on elements as bytes. *)
From Verif Require Import Tac Interval Shape Traverse Memory Ref Spec SpecMem Bytes SpecBytes ShapeFacts ResolveFacts ShapeProps TraverseFacts MemFacts RefFacts.
From Verif Require ContainerFacts.
Import ListNotations.
Open Scope Z_scope.

(** ** Access *)
Lemma bytes_from_map f n : forall x, bytes_from f x n = map f (zseq x n).
Proof. induction n as [|n IH]; intros x; [reflexivity|]. cbn [bytes_from zseq map]. rewrite IH. reflexivity. Qed.
Lemma align_pos {V} (t : ctype V) : good_type t -> 0 < t_align t.
Proof. intros [[k [K ->]] _]. apply Z.pow_pos_nonneg; lia. Qed.
Lemma room_spec {V} (t : ctype V) m p bb : good_type t ->
  room t m p = Some bb <-> fst p <> 0%nat /\ m (fst p) = Some bb /\ 0 <= snd p /\ snd p + t_size t <= bb_size bb /\ (t_align t | bb_addr bb + snd p).
Proof.
  intros G. pose proof (align_pos t G) as AP. unfold room. destruct p as [[|k] o]; cbn [fst snd].
  - split; [discriminate|]. intros [X _]. congruence.
  - destruct (m (S k)) as [bb'|].
    + split.
      * destruct (0 <=? o) eqn:E1; [|discriminate]. destruct (o + t_size t <=? bb_size bb') eqn:E2; [|discriminate].
        destruct ((bb_addr bb' + o) mod t_align t =? 0) eqn:E3; [|discriminate]. cbn [andb]. intros [= ->].
        repeat split; try lia. apply Z.mod_divide; lia.
      * intros [_ [[= ->] [A [B C]]]]. apply Z.mod_divide in C; [|lia]. rewrite C.
        destruct (0 <=? o) eqn:E1; [|lia]. destruct (o + t_size t <=? bb_size bb) eqn:E2; [|lia]. reflexivity.
    + split; [discriminate|]. intros [_ [X _]]. discriminate X.
Qed.
Lemma storage_room {V} (t : ctype V) m p l : good_type t ->
  storage t m p l <-> exists bb, room t m p = Some bb /\ l = map (bb_byte bb) (zseq (snd p) (Z.to_nat (t_size t))).
Proof.
  intros G. unfold storage. split.
  - intros [N [bb [A [B [C [D E]]]]]]. exists bb. split; [apply room_spec; auto|]. rewrite <- bytes_from_map. exact E.
  - intros [bb [R E]]. apply room_spec in R; auto. destruct R as [N [A [B [C D]]]]. split; [exact N|]. exists bb.
    rewrite bytes_from_map. auto.
Qed.
Lemma bload_spec : forall (V : Type) (t : ctype V) (m : bmem) (p : ptr) (v : V), good_type t ->
  (bload t m p = Ok v <-> shows t m p v).
Proof.
  intros V t m p v G. unfold bload, shows. split.
  - destruct (room t m p) as [bb|] eqn:R; [|discriminate].
    destruct (t_dec t _) as [v'|] eqn:D; [|discriminate]. intros [= ->]. eexists. split; [|exact D].
    apply storage_room; auto. exists bb. auto.
  - intros [l [S D]]. apply storage_room in S; auto. destruct S as [bb [R ->]]. rewrite R, D. reflexivity.
Qed.
Lemma bload_ub : forall (V : Type) (t : ctype V) (m : bmem) (p : ptr), good_type t ->
  bload t m p = UB \/ exists v, shows t m p v.
Proof.
  intros V t m p G. destruct (bload t m p) as [v| |] eqn:E; auto.
  - right. exists v. apply bload_spec; auto.
  - unfold bload in E. destruct (room t m p); [|discriminate]. destruct (t_dec t _); discriminate.
Qed.

(** Bytes written *)
Lemma nth_bytes {A} (f : Z -> A) (d : A) (l : list A) x n : n = length l ->
  (forall y, x <= y < x + Z.of_nat n -> f y = nth (Z.to_nat (y - x)) l d) -> map f (zseq x n) = l.
Proof.
  intros ->. revert x. induction l as [|a l IH]; intros x H; [reflexivity|]. cbn [length zseq map]. f_equal.
  - rewrite H by (cbn [length]; lia). rewrite Z.sub_diag. reflexivity.
  - apply IH. intros y Hy. rewrite H by (cbn [length]; lia).
    replace (Z.to_nat (y - x)) with (S (Z.to_nat (y - (x + 1)))) by lia. reflexivity.
Qed.
Lemma bstore_spec {V} (t : ctype V) m p v : good_type t -> writable t m p ->
  exists m', bstore t m p v = Ok m' /\ storage t m' p (t_enc t v) /\ only_bytes (covers t p) m m'.
Proof.
  intros G [l S]. apply storage_room in S; auto. destruct S as [bb [R _]]. unfold bstore. rewrite R. eexists. split; [reflexivity|].
  apply room_spec in R; auto. destruct R as [N [A [B [C D]]]]. pose proof G as G'. destruct G' as [_ [P [_ [L _]]]]. split.
  - split; [exact N|]. rewrite Nat.eqb_refl. eexists. split; [reflexivity|]. cbn [bb_addr bb_size bb_byte].
    split; [auto|]. split; [auto|]. split; [auto|]. rewrite bytes_from_map. symmetry. apply (nth_bytes _ None).
    + rewrite <- (Nat2Z.id (length _)), L. reflexivity.
    + intros y Hy. destruct (snd p <=? y) eqn:E1; [|lia]. destruct (y <? snd p + t_size t) eqn:E2; [reflexivity|lia].
  - intros k. destruct (k =? fst p)%nat eqn:E.
    + apply Nat.eqb_eq in E. subst k. rewrite A. split; [reflexivity|]. split; [reflexivity|]. intros x NC. cbn [bb_byte].
      destruct (snd p <=? x) eqn:E1; [|reflexivity]. destruct (x <? snd p + t_size t) eqn:E2; [|reflexivity].
      exfalso. apply NC. split; [reflexivity|lia].
    + destruct (m k); auto.
Qed.
Lemma only_bytes_storage {V} (t : ctype V) (P : nat -> Z -> Prop) m m' q l : only_bytes P m m' ->
  (forall k x, covers t q k x -> ~ P k x) -> storage t m q l -> storage t m' q l.
Proof.
  intros O NC [N [bb [A [B [C [D E]]]]]]. split; [exact N|]. specialize (O (fst q)). rewrite A in O.
  destruct (m' (fst q)) as [bb'|]; [|contradiction]. destruct O as [O1 [O2 O3]]. exists bb'.
  rewrite O1, O2. split; [reflexivity|]. split; [auto|]. split; [auto|]. split; [auto|]. subst l.
  rewrite !bytes_from_map. apply map_ext_in. intros x Hx. apply zseq_In in Hx. symmetry. apply O3. apply NC.
  split; [reflexivity|lia].
Qed.
Lemma only_bytes_shows {V} (t : ctype V) (P : nat -> Z -> Prop) m m' q v : only_bytes P m m' ->
  (forall k x, covers t q k x -> ~ P k x) -> shows t m q v -> shows t m' q v.
Proof. intros O NC [l [S D]]. exists l. split; [eapply only_bytes_storage; eauto|exact D]. Qed.
Lemma only_bytes_writable {V} (t : ctype V) (P : nat -> Z -> Prop) m m' q : only_bytes P m m' -> writable t m q -> writable t m' q.
Proof.
  intros O [l [N [bb [A [B [C [D E]]]]]]]. specialize (O (fst q)). rewrite A in O.
  destruct (m' (fst q)) as [bb'|] eqn:E'; [|contradiction]. destruct O as [O1 [O2 O3]]. eexists. split; [exact N|]. exists bb'.
  rewrite O1, O2. split; [exact E'|]. split; [auto|]. split; [auto|]. split; [auto|]. reflexivity.
Qed.
Lemma only_bytes_refl P m : only_bytes P m m.
Proof. intros k. destruct (m k); auto. Qed.
Lemma only_bytes_trans (P Q R : nat -> Z -> Prop) m1 m2 m3 : (forall k x, P k x -> R k x) -> (forall k x, Q k x -> R k x) ->
  only_bytes P m1 m2 -> only_bytes Q m2 m3 -> only_bytes R m1 m3.
Proof.
  intros PR QR A B k. specialize (A k). specialize (B k). destruct (m1 k), (m2 k), (m3 k); try contradiction; auto.
  destruct A as [A1 [A2 A3]]. destruct B as [B1 [B2 B3]]. split; [congruence|]. split; [congruence|].
  intros x N. rewrite B3, A3; auto.
Qed.
Lemma storage_dec {V} (t : ctype V) m p v : good_type t -> storage t m p (t_enc t v) -> shows t m p v.
Proof. intros [_ [_ [_ [_ D]]]] S. exists (t_enc t v). auto. Qed.

(** Storing, and what other elements show *)
Lemma access : forall (U V : Type) (t : ctype V) (u : ctype U) (m : bmem) (p : ptr) (v : V), good_type t -> writable t m p ->
  exists m', bstore t m p v = Ok m' /\ shows t m' p v /\ storage t m' p (t_enc t v) /\
    (forall q w, apart u q t p -> shows u m q w -> shows u m' q w) /\ only_bytes (covers t p) m m'.
Proof.
  intros U V t u m p v G W. destruct (bstore_spec t m p v G W) as [m' [E [S O]]]. exists m'. split; [exact E|].
  split; [apply storage_dec; auto|]. split; [exact S|]. split; [|exact O]. intros q w A. apply only_bytes_shows with (P := covers t p); auto.
  intros k x C C'. exact (A k x (conj C C')).
Qed.

(** ** Loops of writes *)
Lemma write_loop {A V} (t : ctype V) (step : bmem -> A -> outcome V) (dst : A -> ptr) (val : A -> V) (l : list A) :
  good_type t ->
  ForallOrdPairs (fun a b => apart t (dst a) t (dst b)) l ->
  forall m, Forall (fun a => writable t m (dst a)) l ->
  (forall m', only_bytes (fun k x => exists a, In a l /\ covers t (dst a) k x) m m' -> Forall (fun a => step m' a = Ok (val a)) l) ->
  exists m', foldM (fun m a => v <- step m a ;; bstore t m (dst a) v) l m = Ok m' /\
    (forall a, In a l -> shows t m' (dst a) (val a)) /\
    only_bytes (fun k x => exists a, In a l /\ covers t (dst a) k x) m m'.
Proof.
  intros G. induction l as [|a l IH]; intros D m W R.
  - exists m. split; [reflexivity|]. split; [intros ? []|]. apply only_bytes_refl.
  - inversion D as [|? ? D1 D2]; subst. inversion W as [|? ? W1 W2]; subst. cbn [foldM].
    pose proof (R m (only_bytes_refl _ m)) as R0. inversion R0 as [|? ? R1 _]; subst. rewrite R1. cbn [bind].
    destruct (bstore_spec t m (dst a) (val a) G W1) as [m1 [E [S O]]]. rewrite E. cbn [bind].
    assert (O1 : only_bytes (fun k x => exists b, In b (a :: l) /\ covers t (dst b) k x) m m1).
    { eapply only_bytes_trans; [|intros ? ? X; exact X|exact O|apply only_bytes_refl]. intros k x C. exists a. split; [left; auto|auto]. }
    destruct (IH D2 m1) as [m' [E' [S' O']]].
    + eapply Forall_impl; [|exact W2]. cbv beta. intros b. apply only_bytes_writable with (P := covers t (dst a)). exact O.
    + intros m2 O2. assert (O3 : only_bytes (fun k x => exists b, In b (a :: l) /\ covers t (dst b) k x) m m2).
      { eapply only_bytes_trans; [intros ? ? X; exact X| |exact O1|exact O2]. intros k x [b [I C]]. exists b. split; [right; auto|auto]. }
      specialize (R m2 O3). inversion R; auto.
    + exists m'. split; [exact E'|]. split.
      * intros b [<-|I]; [|apply S'; auto]. eapply only_bytes_shows; [exact O'| |apply storage_dec; eauto].
        intros k x C [b [I C']]. rewrite Forall_forall in D1. exact (D1 b I k x (conj C C')).
      * eapply only_bytes_trans; [intros ? ? X; exact X| |exact O1|exact O']. intros k x [b [I C]]. exists b. split; [right; auto|auto].
Qed.
Lemma read_loop {A} (step : A -> outcome bool) (val : A -> bool) (l : list A) : Forall (fun a => step a = Ok (val a)) l ->
  forall acc, foldM (fun r a => x <- step a ;; Ok (if (x : bool) then r else false)) l acc = Ok (acc && forallb val l).
Proof.
  induction 1 as [|a l H F IH]; intros acc; cbn [foldM forallb]; [rewrite andb_true_r; reflexivity|].
  rewrite H. cbn [bind]. rewrite IH. destruct (val a), acc; reflexivity.
Qed.

(** ** Views *)
Lemma apart_sym {U V} (t : ctype U) p (u : ctype V) q : apart t p u q -> apart u q t p.
Proof. intros A k x [B C]. exact (A k x (conj C B)). Qed.
Lemma layout_separate : forall (V : Type) (t : ctype V) (b : ptr) (s : shape), 0 < t_size t -> injective_layout s -> separated t b s.
Proof.
  intros V t b s P I i j Hi Hj N k x [[_ A] [_ B]]. cbn [belem fst snd] in A, B.
  assert (D : offset s i <> offset s j) by (intro E; apply N, I; auto). nia.
Qed.
Lemma bref_elem {V} (t : ctype V) r i : bref_ptr t r i = belem t (r_base r) (r_shape r) i.
Proof. unfold bref_ptr, ptr_off, belem. rewrite flat_offset_spec, Z.mul_comm. reflexivity. Qed.
Lemma enum_pairs {A V} (t : ctype V) (f : A -> ptr) l : NoDup l ->
  (forall i j, In i l -> In j l -> i <> j -> apart t (f i) t (f j)) -> ForallOrdPairs (fun a b => apart t (f a) t (f b)) l.
Proof.
  induction 1 as [|a l N ND IH]; intros H; constructor.
  - rewrite Forall_forall. intros b Hb. apply H; [left; auto|right; auto|]. intros ->. contradiction.
  - apply IH. intros i j Hi Hj. apply H; right; auto.
Qed.
Lemma writable_base {V} (t : ctype V) m b (s dom : list dim) : extents_ge 0 dom ->
  (forall i, in_bounds dom i -> writable t m (belem t b s i)) -> is_null b = false \/ (forall i, ~ in_bounds dom i).
Proof.
  intros E W. destruct (box dom) as [|i r] eqn:B.
  - right. intros i Hi. apply box_In in Hi. rewrite B in Hi. exact Hi.
  - left. apply is_null_block. assert (Hi : in_bounds dom i) by (apply box_In; rewrite B; left; auto).
    destruct (W i Hi) as [l [N _]]. exact N.
Qed.
Lemma shows_writable {V} (t : ctype V) m p v : shows t m p v -> writable t m p.
Proof. intros [l [S _]]. exists l. exact S. Qed.
Lemma bvalues_spec {V} (t : ctype V) nd r : extents_ge 0 (r_shape r) ->
  is_null (r_base r) = false \/ (forall i, ~ in_bounds (r_shape r) i) ->
  exists l, enumerates (in_bounds (r_shape r)) l /\ bvalues t nd r = Ok (map (belem t (r_base r) (r_shape r)) l).
Proof.
  intros E N. unfold bvalues. destruct (is_null (r_base r)) eqn:B.
  - destruct N as [N|N]; [discriminate|]. exists []. split; [apply enumerates_nil; auto|].
    rewrite optimize_empty by auto. rewrite (proj2 (empty_iff _ E) N). reflexivity.
  - destruct (for_each_value_visits (r_shape r) 0 E) as [l [L F]]. exists l. split; [exact L|]. rewrite F, map_map. f_equal.
    apply map_ext. intros i. unfold step, ptr_off, belem. cbn [nth]. rewrite flat_offset_spec, Z.add_0_l, Z.mul_comm. reflexivity.
Qed.
Lemma bvalues_copy_spec {U V} (tu : ctype U) (tv : ctype V) nd src dst : length (r_shape src) = length (r_shape dst) ->
  extents_ge 0 (r_shape dst) ->
  (is_null (r_base src) = false /\ is_null (r_base dst) = false) \/ (forall i, ~ in_bounds (r_shape dst) i) ->
  exists l, enumerates (in_bounds (r_shape dst)) l /\
    bvalues_copy tu tv nd src dst =
    Ok (map (fun i => (belem tu (r_base src) (r_shape src) i, belem tv (r_base dst) (r_shape dst) i)) l).
Proof.
  intros L E N. unfold bvalues_copy. destruct (is_null (r_base src) || is_null (r_base dst)) eqn:B.
  - destruct N as [[N1 N2]|N]; [rewrite N1, N2 in B; discriminate|]. exists []. split; [apply enumerates_nil; auto|].
    rewrite optimize_copy_empty by auto. rewrite (proj2 (empty_iff _ E) N). reflexivity.
  - destruct (copy_traversal_pairs (r_shape src) (r_shape dst) 0 0 L E) as [l [EN F]]. exists l. split; [exact EN|].
    rewrite F, map_map. f_equal. apply map_ext. intros i. unfold step, ptr_off, belem. cbn [nth].
    rewrite !flat_offset_spec, !Z.add_0_l, (Z.mul_comm (offset (r_shape src) i)), (Z.mul_comm (offset (r_shape dst) i)). reflexivity.
Qed.
Lemma foldM_ext {A S} (f g : S -> A -> outcome S) l : (forall s a, f s a = g s a) -> forall s, foldM f l s = foldM g l s.
Proof. intros H. induction l as [|a l IH]; intros s; cbn [foldM]; [reflexivity|]. rewrite H. destruct (g s a); cbn [bind]; auto. Qed.
Lemma foldM_map {A B S} (f : S -> B -> outcome S) (g : A -> B) l : forall s, foldM f (map g l) s = foldM (fun s a => f s (g a)) l s.
Proof. induction l as [|a l IH]; intros s; cbn [foldM map]; [reflexivity|]. destruct (f s (g a)); cbn [bind]; auto. Qed.

(** ** The algorithms *)
(** A loop that writes the elements of a view *)
Lemma write_view {V} (t : ctype V) (rd : bmem -> index -> outcome V) (val : index -> V) b (s : shape) l m :
  good_type t -> injective_layout s -> enumerates (in_bounds s) l ->
  (forall i, in_bounds s i -> writable t m (belem t b s i)) ->
  (forall i m', in_bounds s i -> only_bytes (view_bytes t b s) m m' -> rd m' i = Ok (val i)) ->
  exists m', foldM (fun m i => v <- rd m i ;; bstore t m (belem t b s i) v) l m = Ok m' /\
    (forall i, in_bounds s i -> shows t m' (belem t b s i) (val i)) /\ only_bytes (view_bytes t b s) m m'.
Proof.
  intros G I [ND EN] W R. pose proof (layout_separate V t b s (proj1 (proj2 G)) I) as SP.
  assert (SUB : forall k x, (exists a, In a l /\ covers t (belem t b s a) k x) <-> view_bytes t b s k x).
  { intros k x. split; intros [i [A C]]; exists i; split; auto; apply EN; auto. }
  destruct (write_loop t rd (fun i => belem t b s i) val l G) with (m := m) as [m' [E [S O]]].
  - apply enum_pairs; [exact ND|]. intros i j Hi Hj. apply SP; apply EN; auto.
  - rewrite Forall_forall. intros i Hi. apply W, EN, Hi.
  - intros m' O. rewrite Forall_forall. intros i Hi. apply R; [apply EN, Hi|].
    eapply only_bytes_trans; [intros k x X; apply SUB; exact X|intros k x X; exact X|exact O|apply only_bytes_refl].
  - exists m'. split; [exact E|]. split; [intros i Hi; apply S, EN, Hi|].
    eapply only_bytes_trans; [intros k x X; apply SUB; exact X|intros k x X; exact X|exact O|apply only_bytes_refl].
Qed.
Lemma bcopy_spec : forall (U V : Type) (tu : ctype U) (tv : ctype V) (conv : U -> V) (ndebug : bool) (m : bmem) (src dst : aref) (f : index -> U),
  good_type tu -> good_type tv -> length (r_shape src) = length (r_shape dst) ->
  extents_ge 0 (r_shape dst) -> within (r_shape dst) (r_shape src) -> injective_layout (r_shape dst) ->
  (forall i, in_bounds (r_shape dst) i -> shows tu m (belem tu (r_base src) (r_shape src) i) (f i)) ->
  (forall i, in_bounds (r_shape dst) i -> writable tv m (belem tv (r_base dst) (r_shape dst) i)) ->
  (forall i j, in_bounds (r_shape dst) i -> in_bounds (r_shape dst) j ->
     apart tu (belem tu (r_base src) (r_shape src) i) tv (belem tv (r_base dst) (r_shape dst) j)) ->
  exists m', bcopy tu tv conv ndebug m src dst = Ok m' /\
    (forall i, in_bounds (r_shape dst) i -> shows tv m' (belem tv (r_base dst) (r_shape dst) i) (conv (f i))) /\
    only_bytes (view_bytes tv (r_base dst) (r_shape dst)) m m'.
Proof.
  intros U V tu tv conv nd m src dst f Gu Gv L E Wi I Sh Wr Ap. unfold bcopy. destruct (empty (r_shape dst)) eqn:Em.
  - exists m. split; [reflexivity|]. split; [|apply only_bytes_refl]. intros i Hi. destruct (empty_no_index _ E Em i Hi).
  - rewrite (proj2 (in_range_corners _ _ L (not_empty_ge1 _ E Em)) Wi). cbn [assert_ bind].
    destruct (bvalues_copy_spec tu tv nd src dst L E) as [l [EN ->]].
    { destruct (writable_base tv m (r_base dst) (r_shape dst) (r_shape dst) E Wr) as [H1|H1]; [|right; auto].
      destruct (writable_base tu m (r_base src) (r_shape src) (r_shape dst) E) as [H2|H2]; [|auto|right; auto].
      intros i Hi. eapply shows_writable, Sh, Hi. }
    cbn [bind]. rewrite foldM_map. cbn [fst snd].
    rewrite foldM_ext with (g := fun m i => v <- (u <- bload tu m (belem tu (r_base src) (r_shape src) i) ;; Ok (conv u)) ;;
                                            bstore tv m (belem tv (r_base dst) (r_shape dst) i) v).
    + apply write_view with (val := fun i => conv (f i)); auto. intros i m' Hi O.
      assert (X : shows tu m' (belem tu (r_base src) (r_shape src) i) (f i)).
      { eapply only_bytes_shows; [exact O| |apply Sh, Hi]. intros k x C [j [Hj C']]. exact (Ap i j Hi Hj k x (conj C C')). }
      apply bload_spec in X; auto. rewrite X. reflexivity.
    + intros m1 i. destruct (bload tu m1 _); reflexivity.
Qed.
Lemma bcopy_rejects : forall (U V : Type) (tu : ctype U) (tv : ctype V) (conv : U -> V) (m : bmem) (src dst : aref),
  length (r_shape src) = length (r_shape dst) -> extents_ge 1 (r_shape dst) ->
  ~ within (r_shape dst) (r_shape src) -> bcopy tu tv conv false m src dst = AssertFail.
Proof.
  intros U V tu tv conv m src dst L E NW. unfold bcopy.
  destruct (empty (r_shape dst)) eqn:Em.
  - exfalso. assert (E0 : extents_ge 0 (r_shape dst)) by (eapply Forall_impl; [|exact E]; cbv beta; intros; lia).
    apply (empty_no_index _ E0 Em (map dmin (r_shape dst))). apply mins_in_bounds. exact E.
  - destruct (index_in_range (r_shape src) (mins (r_shape dst)) && index_in_range (r_shape src) (maxs (r_shape dst))) eqn:X.
    + exfalso. apply NW. apply (in_range_corners _ _ L E). exact X.
    + reflexivity.
Qed.
Lemma bfill_spec : forall (V : Type) (t : ctype V) (ndebug : bool) (m : bmem) (dst : aref) (v : V),
  good_type t -> extents_ge 0 (r_shape dst) -> injective_layout (r_shape dst) ->
  (forall i, in_bounds (r_shape dst) i -> writable t m (belem t (r_base dst) (r_shape dst) i)) ->
  exists m', bfill t ndebug m dst v = Ok m' /\
    (forall i, in_bounds (r_shape dst) i -> shows t m' (belem t (r_base dst) (r_shape dst) i) v) /\
    only_bytes (view_bytes t (r_base dst) (r_shape dst)) m m'.
Proof.
  intros V t nd m dst v G E I W. unfold bfill.
  destruct (bvalues_spec t nd dst E (writable_base t m _ _ _ E W)) as [l [EN ->]]. cbn [bind]. rewrite foldM_map.
  apply (write_view t (fun _ _ => Ok v) (fun _ => v)); auto.
Qed.
Lemma btransform_spec : forall (V : Type) (t : ctype V) (m : bmem) (dst : aref) (fn : index -> V),
  good_type t -> extents_ge 0 (r_shape dst) -> injective_layout (r_shape dst) ->
  (forall i, in_bounds (r_shape dst) i -> writable t m (belem t (r_base dst) (r_shape dst) i)) ->
  exists m', btransform t m dst fn = Ok m' /\
    (forall i, in_bounds (r_shape dst) i -> shows t m' (belem t (r_base dst) (r_shape dst) i) (fn i)) /\
    only_bytes (view_bytes t (r_base dst) (r_shape dst)) m m'.
Proof.
  intros V t m dst fn G E I W. unfold btransform. destruct (for_each_index_visits (r_shape dst) E) as [l [-> [EN _]]]. cbn [bind].
  rewrite foldM_ext with (g := fun m i => v <- Ok (fn i) ;; bstore t m (belem t (r_base dst) (r_shape dst) i) v).
  - apply (write_view t (fun _ i => Ok (fn i)) fn); auto.
  - intros m1 i. rewrite bref_elem. reflexivity.
Qed.
Lemma bequal_spec : forall (U V : Type) (tu : ctype U) (tv : ctype V) (eqb : U -> V -> bool) (ndebug : bool) (m : bmem) (a b : aref)
  (f : index -> U) (g : index -> V), good_type tu -> good_type tv -> length (r_shape a) = length (r_shape b) ->
  extents_ge 0 (r_shape a) -> extents_ge 0 (r_shape b) ->
  (forall i, in_bounds (r_shape a) i -> shows tu m (belem tu (r_base a) (r_shape a) i) (f i)) ->
  (forall i, in_bounds (r_shape b) i -> shows tv m (belem tv (r_base b) (r_shape b) i) (g i)) ->
  exists r, bequal tu tv eqb ndebug m a b = Ok r /\
    (r = true <-> map dmin (r_shape a) = map dmin (r_shape b) /\ map dext (r_shape a) = map dext (r_shape b) /\
       forall i, in_bounds (r_shape a) i -> eqb (f i) (g i) = true).
Proof.
  intros U V tu tv eqb nd m a b f g Gu Gv L Ea Eb Sa Sb. unfold bequal.
  destruct (list_eqb (mins (r_shape a)) (mins (r_shape b))) eqn:E1; cbn [negb orb].
  2:{ exists false. split; auto. split; [discriminate|]. intros [H _]. unfold mins in E1.
      rewrite (proj2 (list_eqb_eq _ _) H) in E1. discriminate. }
  destruct (list_eqb (extents (r_shape a)) (extents (r_shape b))) eqn:E2; cbn [negb orb].
  2:{ exists false. split; auto. split; [discriminate|]. intros [_ [H _]]. unfold extents in E2.
      rewrite (proj2 (list_eqb_eq _ _) H) in E2. discriminate. }
  apply list_eqb_eq in E1. apply list_eqb_eq in E2. unfold mins in E1. unfold extents in E2.
  assert (IB : forall i, in_bounds (r_shape a) i <-> in_bounds (r_shape b) i).
  { intros i. split; apply in_bounds_map; auto. }
  destruct (bvalues_copy_spec tu tv nd a b L Eb) as [l [EN ->]].
  { destruct (writable_base tv m (r_base b) (r_shape b) (r_shape b) Eb) as [H1|H1]; [|destruct (writable_base tu m (r_base a) (r_shape a) (r_shape b) Eb) as [H2|H2]| ]; auto.
    - intros i Hi. eapply shows_writable, Sb, Hi.
    - intros i Hi. eapply shows_writable, Sa, IB, Hi. }
  cbn [bind]. rewrite foldM_map. cbn [fst snd].
  rewrite foldM_ext with (g := fun r i => x <- (x <- bload tu m (belem tu (r_base a) (r_shape a) i) ;;
            y <- bload tv m (belem tv (r_base b) (r_shape b) i) ;; Ok (eqb x y)) ;; Ok (if (x : bool) then r else false)).
  - rewrite read_loop with (val := fun i => eqb (f i) (g i)).
    + eexists. split; [reflexivity|]. cbn [andb]. rewrite forallb_forall. split.
      * intros H. split; [auto|]. split; [auto|]. intros i Hi. apply H, EN, IB, Hi.
      * intros [_ [_ H]] i Hi. apply H, IB, EN, Hi.
    + rewrite Forall_forall. intros i Hi. apply EN in Hi.
      rewrite (proj2 (bload_spec _ _ _ _ _ Gu) (Sa i (proj2 (IB i) Hi))). cbn [bind].
      rewrite (proj2 (bload_spec _ _ _ _ _ Gv) (Sb i Hi)). reflexivity.
  - intros r i. destruct (bload tu m _); [|reflexivity|reflexivity]. cbn [bind]. destruct (bload tv m _); reflexivity.
Qed.

(** ** reinterpret *)
Lemma reinterpret_spec : forall (U V : Type) (t : ctype V) (u : ctype U) (r r' : aref), reinterpret t u r = Some r' ->
  reinterpret u t r' = Some r /\
  (forall i, belem u (r_base r') (r_shape r') i = belem t (r_base r) (r_shape r) i) /\
  (forall m p l, (t_align u | t_align t) -> storage t m p l -> storage u m p l).
Proof.
  intros U V t u r r' H. unfold reinterpret in *. destruct (t_size t =? t_size u) eqn:E; [|discriminate]. injection H as <-.
  apply Z.eqb_eq in E. rewrite <- E, Z.eqb_refl. split; [reflexivity|]. split; [intros i; unfold belem; rewrite E; reflexivity|].
  intros m p l D [N [bb [A [B [C [F G]]]]]]. split; [exact N|]. exists bb. rewrite <- E.
  split; [exact A|]. split; [exact B|]. split; [exact C|]. split; [eapply Z.divide_trans; eauto|exact G].
Qed.
Lemma reinterpret_read : forall (U V : Type) (t : ctype V) (u : ctype U) (m m' : bmem) (p : ptr) (v : V) (w : U),
  good_type t -> good_type u -> t_size t = t_size u -> (t_align u | t_align t) -> writable t m p ->
  bstore t m p v = Ok m' -> (bload u m' p = Ok w <-> t_dec u (t_enc t v) = Some w).
Proof.
  intros U V t u m m' p v w Gt Gu E D W S. destruct (bstore_spec t m p v Gt W) as [m1 [S1 [ST _]]]. rewrite S in S1. injection S1 as <-.
  assert (X : storage u m' p (t_enc t v)).
  { destruct ST as [N [bb [A [B [C [F G]]]]]]. split; [exact N|]. exists bb. rewrite <- E.
    split; [exact A|]. split; [exact B|]. split; [exact C|]. split; [eapply Z.divide_trans; eauto|exact G]. }
  rewrite bload_spec by auto. split.
  - intros [l [Sl Dl]]. apply storage_room in Sl; auto. apply storage_room in X; auto. destruct Sl as [bb [R ->]].
    destruct X as [bb' [R' ->]]. rewrite R in R'. injection R' as <-. exact Dl.
  - intros Dw. exists (t_enc t v). auto.
Qed.

(** ** Allocation *)
Lemma ballocate_spec : forall (V : Type) (t : ctype V) (m : bmem) (k : nat) (a : Z) (s : shape), good_type t -> k <> 0%nat ->
  (t_align t | a) ->
  let '(m', r) := ballocate t m k a s in
  r_shape r = resolve s /\
  (forall i, in_bounds (resolve s) i -> writable t m' (belem t (r_base r) (resolve s) i) /\ fst (belem t (r_base r) (resolve s) i) = k) /\
  (forall k', k' <> k -> m' k' = m k').
Proof.
  intros V t m k a s G K A. unfold ballocate. set (rs := resolve s) in *.
  destruct (flat_extent rs >? 0) eqn:F.
  - split; [reflexivity|]. split.
    + intros i Hi. cbn [r_base]. split; [|reflexivity].
      pose proof (ContainerFacts.elem_in_buffer rs i Hi) as X.
      eexists. split; [exact K|]. unfold balloc, belem. cbn [fst snd r_base]. rewrite Nat.eqb_refl. eexists. split; [reflexivity|].
      cbn [bb_addr bb_size bb_byte snd]. destruct G as [_ [P [D _]]].
      replace (- (flat_min rs * t_size t) + t_size t * offset rs i) with (t_size t * (offset rs i - flat_min rs)) by ring.
      set (d := offset rs i - flat_min rs) in *.
      split; [clearbody d; clear - X P; nia|]. split; [clearbody d; clear - X P; nia|]. split; [|reflexivity]. apply Z.divide_add_r; [exact A|].
      apply Z.divide_mul_l. exact D.
    + intros k' N. unfold balloc. destruct (k' =? k)%nat eqn:X; [apply Nat.eqb_eq in X; contradiction|reflexivity].
  - split; [reflexivity|]. split; [|auto]. intros i Hi. exfalso. pose proof (ContainerFacts.elem_in_buffer rs i Hi) as X. lia.
Qed.


(** ** Copying as another type *)
Lemma storage_unique {V} (t : ctype V) m p l l' : storage t m p l -> storage t m p l' -> l = l'.
Proof.
  intros [_ [bb [A [_ [_ [_ ->]]]]]] [_ [bb' [A' [_ [_ [_ ->]]]]]]. rewrite A in A'. injection A' as ->. reflexivity.
Qed.
Lemma storage_as {U V} (t : ctype V) (u : ctype U) m p l l' : t_size t = t_size u -> storage t m p l -> storage u m p l' -> l = l' /\ storage u m p l.
Proof.
  intros E [N [bb [A [B [C [D ->]]]]]] [N' [bb' [A' [B' [C' [D' ->]]]]]]. rewrite A in A'. injection A' as <-. rewrite E. split; [reflexivity|].
  split; [exact N|]. exists bb. split; [exact A|]. split; [exact B|]. split; [exact C'|]. split; [exact D'|reflexivity].
Qed.
Lemma bcopy_bits : forall (U V : Type) (t : ctype V) (u : ctype U) (ndebug : bool) (m : bmem) (src dst src' dst' : aref)
  (f : index -> V) (g : index -> U),
  good_type t -> good_type u -> exact_type u -> (t_align u | t_align t) ->
  reinterpret t u src = Some src' -> reinterpret t u dst = Some dst' ->
  length (r_shape src) = length (r_shape dst) ->
  extents_ge 0 (r_shape dst) -> within (r_shape dst) (r_shape src) -> injective_layout (r_shape dst) ->
  (forall i, in_bounds (r_shape dst) i -> shows t m (belem t (r_base src) (r_shape src) i) (f i)) ->
  (forall i, in_bounds (r_shape dst) i -> shows u m (belem t (r_base src) (r_shape src) i) (g i)) ->
  (forall i, in_bounds (r_shape dst) i -> writable t m (belem t (r_base dst) (r_shape dst) i)) ->
  (forall i j, in_bounds (r_shape dst) i -> in_bounds (r_shape dst) j ->
     apart t (belem t (r_base src) (r_shape src) i) t (belem t (r_base dst) (r_shape dst) j)) ->
  exists m', bcopy u u (fun w => w) ndebug m src' dst' = Ok m' /\
    (forall i, in_bounds (r_shape dst) i -> shows t m' (belem t (r_base dst) (r_shape dst) i) (f i)) /\
    only_bytes (view_bytes t (r_base dst) (r_shape dst)) m m'.
Proof.
  intros U V t u nd m src dst src' dst' f g Gt Gu X D R1 R2 L E Wi I Sh Su Wr Ap.
  unfold reinterpret in R1, R2. destruct (t_size t =? t_size u) eqn:SZ; [|discriminate]. injection R1 as <-. injection R2 as <-.
  apply Z.eqb_eq in SZ.
  assert (BE : forall b s i, belem u b s i = belem t b s i) by (intros; unfold belem; rewrite SZ; reflexivity).
  assert (CV : forall p k x, covers u p k x <-> covers t p k x) by (intros; unfold covers; rewrite SZ; tauto).
  assert (TU : forall m p l, storage t m p l -> storage u m p l).
  { intros m0 p l. apply (reinterpret_spec U V t u src src); [|exact D]. unfold reinterpret. rewrite SZ, Z.eqb_refl. reflexivity. }
  destruct (bcopy_spec U U u u (fun w => w) nd m src dst g Gu Gu L E Wi I) as [m' [C [S O]]].
  - intros i Hi. rewrite BE. auto.
  - intros i Hi. rewrite BE. destruct (Wr i Hi) as [l Sl]. exists l. auto.
  - intros i j Hi Hj k x [A B]. rewrite !BE in *. apply CV in A. apply CV in B. exact (Ap i j Hi Hj k x (conj A B)).
  - exists m'. split; [exact C|]. split.
    + intros i Hi. destruct (S i Hi) as [l [Sl Dl]]. rewrite BE in Sl. apply X in Dl.
      destruct (Sh i Hi) as [l1 [S1 D1]]. destruct (Su i Hi) as [l2 [S2 D2]]. apply X in D2.
      assert (l1 = l2) by (eapply storage_unique; [apply TU; exact S1|exact S2]). subst l1. rewrite Dl in D2. subst l2.
      destruct (only_bytes_writable t _ m m' _ O (Wr i Hi)) as [l3 S3].
      exists l. split; [|exact D1]. replace l with l3; [exact S3|]. eapply storage_unique; [apply TU; exact S3|exact Sl].
    + eapply only_bytes_trans; [|intros k x Y; exact Y|exact O|apply only_bytes_refl].
      intros k x [i [Hi Ci]]. exists i. split; [exact Hi|]. rewrite BE in Ci. apply CV. exact Ci.
Qed.

(** ** The buffer of auto_allocator *)
Lemma pow2_divide a b : 0 <= a -> 0 <= b -> (2 ^ a | 2 ^ b) <-> a <= b.
Proof.
  intros A B. split.
  - intros D. apply Z.divide_pos_le in D; [|apply Z.pow_pos_nonneg; lia]. apply Z.pow_le_mono_r_iff in D; lia.
  - intros L. exists (2 ^ (b - a)). rewrite <- Z.pow_add_r by lia. f_equal. lia.
Qed.
Lemma alignas_spec : forall a, alignas_ok a = true <-> exists k, 0 <= k /\ a = 2 ^ k.
Proof.
  intros a. unfold alignas_ok. split.
  - destruct (0 <? a) eqn:P; [|discriminate]. cbn [andb]. intros E. apply Z.eqb_eq in E. exists (Z.log2 a). split; [apply Z.log2_nonneg|exact E].
  - intros [k [K ->]]. pose proof (Z.pow_pos_nonneg 2 k ltac:(lia) K). destruct (0 <? 2 ^ k) eqn:P; [|lia]. cbn [andb].
    rewrite Z.log2_pow2 by lia. apply Z.eqb_refl.
Qed.
Lemma auto_aligned : forall (V : Type) (t : ctype V) (n alignment : Z), good_type t -> alignas_ok alignment = true ->
  ((forall a, (alignment | a) -> exists size, auto_buffer t n alignment a = Some (a, size) /\ (t_align t | a) /\ size = n * t_size t) <->
   t_align t <= alignment).
Proof.
  intros V t n al [[k [K E]] _] A. unfold auto_buffer. rewrite A. apply alignas_spec in A. destruct A as [j [J ->]]. rewrite E. split.
  - intros H. destruct (H (2 ^ j) (Z.divide_refl _)) as [z [_ [D _]]]. apply pow2_divide in D; auto. apply Z.pow_le_mono_r; lia.
  - intros Le a D. eexists. split; [reflexivity|]. split; [|reflexivity]. eapply Z.divide_trans; [|exact D]. apply pow2_divide; auto.
    apply Z.pow_le_mono_r_iff in Le; lia.
Qed.
Lemma auto_defaults : forall (V : Type) (t : ctype V) (n a : Z), good_type t ->
  (alignas_ok (auto_alignment t) = true) /\
  (auto_buffer t n (uninit_auto_alignment t) a <> None <-> exists k, 0 <= k /\ t_size t = 2 ^ k) /\
  t_align t <= uninit_auto_alignment t.
Proof.
  intros V t n a [P [S [D _]]]. split; [apply alignas_spec; exact P|]. split.
  - unfold auto_buffer, uninit_auto_alignment. rewrite <- alignas_spec. destruct (alignas_ok (t_size t)); split; auto; congruence.
  - apply Z.divide_pos_le; auto.
Qed.
