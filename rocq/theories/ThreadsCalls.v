(** What calls do, one access at a time.  Proofs about Threads.v. *)
From Verif Require Import Tac Interval Shape Traverse Memory Ref Ein Matrix Tiling Spec SpecMem SpecEin SpecStatic SpecMatrix
  ShapeFacts IntervalFacts TraverseFacts MemFacts RefFacts EinFacts AliasFacts MatrixFacts Threads SpecThreads ThreadsFacts.
Import ListNotations.
Open Scope Z_scope.

Section Run.
Context {V : Type}.
Implicit Types h : heap V.

(** ** The programs are those of the sequential model *)
Lemma run_pbind {A B} (m : prog V A) (f : A -> prog V B) : forall h,
  run (pbind m f) h = ' (a, h') <- run m h ;; run (f a) h'.
Proof.
  induction m as [a|p k IH|p v k IH| |]; intro h; cbn [pbind run]; auto.
  - destruct (load h p); cbn [bind]; auto.
  - destruct (store h p v); cbn [bind]; auto.
Qed.
Lemma run_lift {A} (o : outcome A) h : run (lift o) h = a <- o ;; Ok (a, h).
Proof. destruct o; reflexivity. Qed.
Lemma run_lift_bind {A B} (o : outcome A) (f : A -> prog V B) h : run (pbind (lift o) f) h = a <- o ;; run (f a) h.
Proof. destruct o; reflexivity. Qed.
Lemma run_pfold {A} (f : unit -> A -> prog V unit) (g : heap V -> A -> outcome (heap V)) l :
  (forall u a h, run (f u a) h = h' <- g h a ;; Ok (tt, h')) ->
  forall u h, run (pfold f l u) h = h' <- foldM g l h ;; Ok (tt, h').
Proof.
  intro E. induction l as [|a l IH]; intros u h; cbn [pfold foldM run bind]; [destruct u; reflexivity|].
  rewrite run_pbind, E. destruct (g h a) as [h1| |]; cbn [bind]; auto.
Qed.

Lemma run_fill nd dst v h : run (p_fill nd dst v) h = h' <- fill nd h dst v ;; Ok (tt, h').
Proof.
  unfold p_fill, fill. rewrite run_lift_bind. destruct (values _ _ _) as [l| |]; cbn [bind]; auto.
  apply run_pfold. intros u p h1. cbn [run]. destruct (store h1 p v); reflexivity.
Qed.
Lemma run_each nd dst u h : run (p_for_each_value nd dst u) h =
  l <- values nd (r_shape dst) (r_base dst) ;; h' <- foldM (fun h p => v <- load h p ;; store h p (u v)) l h ;; Ok (tt, h').
Proof.
  unfold p_for_each_value. rewrite run_lift_bind. destruct (values _ _ _) as [l| |]; cbn [bind]; auto.
  apply (run_pfold _ (fun h p => v <- load h p ;; store h p (u v))).
  intros t p h1. cbn [run]. destruct (load h1 p) as [v| |]; cbn [bind]; auto; try (destruct (store h1 p (u v)); reflexivity).
Qed.
Lemma run_generate nd dst g h : run (p_generate nd dst g) h = ' (h', n) <- generate nd h dst g ;; Ok (n, h').
Proof.
  unfold p_generate, generate. rewrite run_lift_bind. destruct (values _ _ _) as [l| |]; cbn [bind]; auto.
  unfold assign_each. generalize O as n. revert h. induction l as [|p l IH]; intros h n; cbn [pfold foldM run bind pbind fst snd]; auto.
  destruct (store h p (g n)) as [h1| |]; cbn [bind]; auto.
Qed.
Lemma run_transform dst fn h : run (p_transform_index dst fn) h = h' <- transform_index h dst fn ;; Ok (tt, h').
Proof.
  unfold p_transform_index, transform_index. rewrite run_lift_bind. destruct (for_each_index _) as [l| |]; cbn [bind]; auto.
  apply run_pfold. intros u i h1. cbn [run]. destruct (store h1 _ _); reflexivity.
Qed.
Lemma run_update u r h : run (p_update_view u r) h = h' <- update_view u r h ;; Ok (tt, h').
Proof.
  unfold p_update_view, update_view, for_in. rewrite run_lift_bind. destruct (for_each_index _) as [l| |]; cbn [bind]; auto.
  apply (run_pfold _ (fun h i => old <- ref_at h r i ;; store h (ref_ptr r i) (u i old))).
  intros t i h1. cbn [run]. unfold ref_at. destruct (load h1 _) as [v| |]; cbn [bind]; auto; try (destruct (store h1 _ _); reflexivity).
Qed.
Lemma run_transfer each g nd src dst h :
  (forall u ab h, run (each u ab) h = h' <- g h ab ;; Ok (tt, h')) ->
  run (p_transfer each nd src dst) h = h' <-
    (if empty (r_shape dst) then Ok h
     else
       _ <- assert_ nd (index_in_range (r_shape src) (mins (r_shape dst)) && index_in_range (r_shape src) (maxs (r_shape dst))) ;;
       l <- values_copy nd (r_shape src) (r_base src) (r_shape dst) (r_base dst) ;;
       foldM g l h) ;; Ok (tt, h').
Proof.
  intro E. unfold p_transfer. destruct (empty _); [reflexivity|]. rewrite run_lift_bind. destruct (assert_ _ _); cbn [bind]; auto.
  rewrite run_lift_bind. destruct (values_copy _ _ _ _ _) as [l| |]; cbn [bind]; auto. apply run_pfold. auto.
Qed.
Lemma run_copy nd src dst h : run (p_copy nd src dst) h = h' <- copy nd h src dst ;; Ok (tt, h').
Proof.
  unfold p_copy, copy. apply run_transfer. intros u ab h1. unfold p_copy_assign, copy_assign. cbn [run].
  destruct (load h1 _) as [v| |]; cbn [bind]; auto; try (destruct (store h1 _ _); reflexivity).
Qed.
Lemma run_move nd mv src dst h : run (p_move nd mv src dst) h = h' <- move nd mv h src dst ;; Ok (tt, h').
Proof.
  unfold p_move, move. apply run_transfer. intros u ab h1. unfold p_move_assign, move_assign. cbn [run].
  destruct (load h1 _) as [v| |]; cbn [bind]; auto. destruct (store h1 _ _) as [h2| |]; cbn [bind]; auto.

Qed.
Lemma run_equal nd eqb a b h : run (p_equal nd eqb a b) h = t <- equal nd eqb h a b ;; Ok (t, h).
Proof.
  unfold p_equal, equal. destruct (negb _ || negb _); [reflexivity|]. rewrite run_lift_bind.
  destruct (values_copy _ _ _ _ _) as [l| |]; cbn [bind]; auto. unfold compare_each. generalize true as t.
  induction l as [|ab l IH]; intro t; cbn [pfold foldM run bind pbind]; auto.
  destruct (load h (fst ab)) as [x| |]; cbn [bind]; auto. destruct (load h (snd ab)) as [y| |]; cbn [bind]; auto.
Qed.
Lemma run_eval (e : expr V) idx h : run (p_eval e idx) h = v <- eval h e idx ;; Ok (v, h).
Proof.
  induction e as [r is_|f is_|f e IH|f a IHa b IHb]; cbn [p_eval eval run]; auto.
  - rewrite run_pbind, IH. destruct (eval h e idx); reflexivity.
  - rewrite run_pbind, IHa. destruct (eval h a idx); cbn [bind]; auto. rewrite run_pbind, IHb. destruct (eval h b idx); reflexivity.
Qed.
Lemma run_reduce nd f r out (e : expr V) h : run (p_ein_reduce nd f r out e) h = h' <- ein_reduce nd f h r out e ;; Ok (tt, h').
Proof.
  unfold p_ein_reduce, ein_reduce. rewrite run_lift_bind. destruct (ein_loop_shape _ _ _ _) as [s| |]; cbn [bind]; auto.
  rewrite run_lift_bind. destruct (for_each_index_in_order s) as [l| |]; cbn [bind]; auto. apply run_pfold.
  intros u i h1. unfold p_ein_assign, ein_assign. rewrite run_pbind, run_eval. destruct (eval h1 e i) as [v| |]; cbn [bind]; auto.
  cbn [run]. unfold ref_at. destruct (load h1 _) as [w| |]; cbn [bind]; auto; try (destruct (store h1 _ _); reflexivity).
Qed.
Lemma run_for {A} (l : outcome (list A)) body (g : heap V -> A -> outcome (heap V)) h :
  (forall a h, run (body a) h = h' <- g h a ;; Ok (tt, h')) -> run (p_for l body) h = h' <- for_in l g h ;; Ok (tt, h').
Proof.
  intro E. unfold p_for, for_in. rewrite run_lift_bind. destruct l as [l| |]; cbn [bind]; auto. apply run_pfold. auto.
Qed.
Lemma run_multiply zero add mul A B C h :
  run (p_multiply_reduce_cols zero add mul A B C) h = h' <- multiply_reduce_cols zero add mul A B C h ;; Ok (tt, h').
Proof.
  apply run_for. intros i h1. apply run_for. intros j h2. cbn [run]. unfold set_elem.
  destruct (store h2 _ _) as [h3| |]; cbn [bind]; auto. apply run_for. intros k h4. unfold p_mac, mac, ref_at. cbn [run].
  destruct (load h4 _) as [a| |]; cbn [bind]; auto. destruct (load h4 _) as [b| |]; cbn [bind]; auto.
  destruct (load h4 _) as [c| |]; cbn [bind]; auto; try (destruct (store h4 _ _); reflexivity).
Qed.
Lemma run_nothing (m : prog V unit) o h : run m h = (h' <- o ;; Ok (tt, h')) ->
  run (pbind m (fun _ => Ret Nothing)) h = h' <- o ;; Ok (Nothing, h').
Proof. intro E. rewrite run_pbind, E. destruct o; reflexivity. Qed.
Lemma calls_sequential nd (c : call V) h : run (call_prog nd c) h = call_seq nd c h.
Proof.
  destruct c; cbn [call_prog call_seq].
  - apply run_nothing, run_fill.
  - rewrite run_pbind, run_generate. destruct (generate _ _ _ _) as [[h' n]| |]; reflexivity.
  - rewrite run_pbind, run_each. destruct (values _ _ _) as [l| |]; cbn [bind]; auto. destruct (foldM _ l h); reflexivity.
  - apply run_nothing, run_transform.
  - apply run_nothing, run_update.
  - apply run_nothing, run_copy.
  - apply run_nothing, run_move.
  - rewrite run_pbind, run_equal. destruct (equal _ _ _ _ _); reflexivity.
  - apply run_nothing, run_reduce.
  - apply run_nothing, run_multiply.
Qed.

(** ** Programs whose accesses do not depend on the values read *)
Inductive follows {A} : prog V A -> list (ptr * bool) -> Prop :=
| f_ret a : follows (Ret a) []
| f_ld p k l : (forall v, follows (k v) l) -> follows (Ld p k) ((p, false) :: l)
| f_st p v k l : follows k l -> follows (St p v k) ((p, true) :: l).
Lemma follows_bind {A B} (m : prog V A) (f : A -> prog V B) l l' : follows m l -> (forall a, follows (f a) l') ->
  follows (pbind m f) (l ++ l').
Proof. intros H Hf. induction H; cbn [pbind app]; [auto|constructor; auto|constructor; auto]. Qed.
Lemma follows_end {A B} (m : prog V A) (f : A -> B) l : follows m l -> follows (pbind m (fun a => Ret (f a))) l.
Proof. intro H. rewrite <- (app_nil_r l). apply follows_bind; auto. intro. constructor. Qed.
Lemma follows_fold {A S} (f : S -> A -> prog V S) (acc : A -> list (ptr * bool)) l :
  (forall s a, In a l -> follows (f s a) (acc a)) -> forall s, follows (pfold f l s) (flat_map acc l).
Proof.
  induction l as [|a l IH]; intros H s; cbn [pfold flat_map]; [constructor|].
  apply follows_bind; [apply H; left; auto|]. intro s'. apply IH. intros; apply H; right; auto.
Qed.
Lemma alive_upd h p v q : alive h p -> alive h q -> alive (upd h p (Live v)) q.
Proof.
  intros [w Hw] [x Hx]. destruct (ptr_dec p q) as [->|N].
  - exists v. unfold holds in *. rewrite peek_upd_same; congruence.
  - exists x. unfold holds in *. rewrite peek_upd_other; auto.
Qed.
Lemma follows_run {A} (m : prog V A) l : follows m l -> forall h, (forall p b, In (p, b) l -> alive h p) ->
  (exists r, run m h = Ok r) /\ accesses m h = l.
Proof.
  induction 1 as [a|p k l _ IH|p v k l _ IH]; intros h Ha; cbn [run accesses].
  - eauto.
  - destruct (Ha p false) as [v Hv]; [left; auto|]. rewrite (proj2 (load_holds h p v) Hv). cbn [bind].
    destruct (IH v h) as [R E]; [intros; eapply Ha; right; eauto|]. split; [auto|congruence].
  - assert (Hp : alive h p) by (eapply Ha; left; auto). rewrite (store_ok h p v Hp). cbn [bind].
    destruct (IH (upd h p (Live v))) as [R E].
    { intros q b Hq. apply alive_upd; auto. eapply Ha. right. eauto. }
    split; [auto|congruence].
Qed.

(** ** The accesses of the calls *)
Definition footprint nd h (c : call V) : Prop := exists l, follows (call_prog nd c) l /\
  (forall p, In (p, false) l <-> call_reads c p) /\ (forall p, In (p, true) l <-> call_writes c p) /\
  (forall p b, In (p, b) l -> alive h p).

Lemma in_flat {A} (acc : A -> list (ptr * bool)) (P : A -> Prop) (Q : Prop) (l : list A) p b :
  (forall a, In a l <-> P a) -> ((exists a, P a /\ In (p, b) (acc a)) <-> Q) -> (In (p, b) (flat_map acc l) <-> Q).
Proof.
  intros Hl <-. rewrite in_flat_map. split; intros (a & H1 & H2); exists a; (split; [apply Hl; auto|auto]).
Qed.
Lemma live_base h r : extents_ge 0 (r_shape r) -> view_alive h r -> is_null (r_base r) = false \/ (forall i, ~ in_bounds (r_shape r) i).
Proof. intros. apply (alive_base h _ (r_shape r)); auto. Qed.

Lemma over_values nd h r A (f : A -> ptr -> prog V A) (acc : ptr -> list (ptr * bool)) s : extents_ge 0 (r_shape r) -> view_alive h r ->
  (forall s p, follows (f s p) (acc p)) ->
  exists l, enumerates (in_bounds (r_shape r)) l /\
   follows (pbind (lift (values nd (r_shape r) (r_base r))) (fun l => pfold f l s)) (flat_map (fun i => acc (elem (r_base r) (r_shape r) i)) l).
Proof.
  intros Hs Ha Hf. destruct (values_spec nd (r_shape r) (r_base r) Hs (live_base h r Hs Ha)) as (l & Hl & ->).
  exists l. split; [exact Hl|]. cbn [lift pbind].
  replace (flat_map _ l) with (flat_map acc (map (elem (r_base r) (r_shape r)) l)) by (rewrite !flat_map_concat_map, map_map; auto).
  apply follows_fold. auto.
Qed.
Lemma over_indices r (f : unit -> index -> prog V unit) (acc : index -> list (ptr * bool)) : extents_ge 0 (r_shape r) ->
  (forall s i, follows (f s i) (acc i)) ->
  exists l, enumerates (in_bounds (r_shape r)) l /\
   follows (pbind (lift (for_each_index (r_shape r))) (fun l => pfold f l tt)) (flat_map acc l).
Proof.
  intros Hs Hf. destruct (for_each_index_visits (r_shape r) Hs) as (l & -> & Hl & _).
  exists l. split; [exact Hl|]. cbn [lift pbind]. apply follows_fold. auto.
Qed.
Ltac in_list := repeat match goal with
  | H : In _ (_ :: _) |- _ => destruct H as [H|H]
  | H : In _ [] |- _ => destruct H
  | H : (_, _) = (_, _) |- _ => inversion H; clear H; subst
  | H : exists _, _ |- _ => destruct H as [? H]
  | H : _ /\ _ |- _ => destruct H as [? H]
  end.
(** A view whose elements are all written, and read before if [rd] *)
Lemma foot_view nd h (c : call V) r l (acc : index -> list (ptr * bool)) (rd : bool) : 
  enumerates (in_bounds (r_shape r)) l -> view_alive h r ->
  (forall i, acc i = if rd then [(elem (r_base r) (r_shape r) i, false); (elem (r_base r) (r_shape r) i, true)]
                     else [(elem (r_base r) (r_shape r) i, true)]) ->
  follows (call_prog nd c) (flat_map acc l) ->
  (forall p, call_writes c p <-> is_elem (r_base r) (r_shape r) p) ->
  (forall p, call_reads c p <-> if rd then is_elem (r_base r) (r_shape r) p else False) -> footprint nd h c.
Proof.
  intros Hl Ha Hacc Hf Hw Hr. exists (flat_map acc l). split; [exact Hf|]. split; [|split].
  - intro p. rewrite Hr. apply (in_flat acc (in_bounds (r_shape r))); [apply Hl|]. split.
    + intros (i & Hi & H). rewrite Hacc in H. destruct rd; in_list. exists i. auto.
    + destruct rd; [|tauto]. intros (i & Hi & ->). exists i. rewrite Hacc. simpl. auto.
  - intro p. rewrite Hw. apply (in_flat acc (in_bounds (r_shape r))); [apply Hl|]. split.
    + intros (i & Hi & H). rewrite Hacc in H. destruct rd; in_list; exists i; auto.
    + intros (i & Hi & ->). exists i. rewrite Hacc. destruct rd; simpl; auto.
  - intros p b H. apply in_flat_map in H. destruct H as (i & Hi & H). apply Hl in Hi. specialize (Ha i Hi). rewrite Hacc in H.
    destruct rd; in_list; auto.
Qed.
(** Pairs of elements at the same index *)
Lemma over_pairs nd h a b A (f : A -> ptr * ptr -> prog V A) (acc : ptr * ptr -> list (ptr * bool)) s :
  length (r_shape a) = length (r_shape b) -> extents_ge 0 (r_shape b) ->
  (forall i, in_bounds (r_shape b) i -> alive h (elem (r_base a) (r_shape a) i)) -> view_alive h b ->
  (forall s ab, follows (f s ab) (acc ab)) ->
  exists l, enumerates (in_bounds (r_shape b)) l /\
   follows (pbind (lift (values_copy nd (r_shape a) (r_base a) (r_shape b) (r_base b))) (fun l => pfold f l s))
     (flat_map (fun i => acc (elem (r_base a) (r_shape a) i, elem (r_base b) (r_shape b) i)) l).
Proof.
  intros L Hs Ha Hb Hf. destruct (values_copy_spec nd (r_shape a) (r_base a) (r_shape b) (r_base b) L Hs) as (l & Hl & ->).
  { destruct (alive_base h (r_base a) (r_shape a) _ Hs Ha) as [H1|H1]; [|right; auto].
    destruct (live_base h b Hs Hb) as [H2|H2]; [|right; auto]. left; auto. }
  exists l. split; [exact Hl|]. cbn [lift pbind].
  replace (flat_map _ l) with (flat_map acc (map (fun i => (elem (r_base a) (r_shape a) i, elem (r_base b) (r_shape b) i)) l))
    by (rewrite !flat_map_concat_map, map_map; auto).
  apply follows_fold. auto.
Qed.
Lemma over_transfer nd h src dst each acc : length (r_shape src) = length (r_shape dst) -> extents_ge 0 (r_shape dst) ->
  within (r_shape dst) (r_shape src) -> view_alive h src -> view_alive h dst -> (forall u ab, follows (each u ab) (acc ab)) ->
  exists l, enumerates (in_bounds (r_shape dst)) l /\
    follows (p_transfer each nd src dst) (flat_map (fun i => acc (elem (r_base src) (r_shape src) i, elem (r_base dst) (r_shape dst) i)) l).
Proof.
  intros L Hd W As Ad Hf. unfold p_transfer. destruct (empty (r_shape dst)) eqn:E.
  - exists []. split; [|constructor]. apply enumerates_nil. apply (empty_iff (r_shape dst) Hd). auto.
  - rewrite (proj2 (in_range_corners _ _ L (not_empty_ge1 _ Hd E)) W). cbn [assert_ lift pbind].
    apply over_pairs with (h := h); auto.
Qed.
Lemma eval_follows (e : expr V) idx : follows (p_eval e idx) (map (fun o => (elem (r_base (fst o)) (r_shape (fst o)) (values_of (snd o) idx), false)) (operands e)).
Proof.
  induction e as [r is_|f is_|f e IH|f a IHa b IHb]; cbn [p_eval operands map].
  - rewrite elem_ref. cbn [fst snd]. constructor. intro. constructor.
  - constructor.
  - apply follows_end. auto.
  - rewrite map_app. apply follows_bind; auto. intro v. apply follows_end. auto.
Qed.
Lemma foot_reduce nd h f r out (e : expr V) : legal_call h (KReduce f r out e) -> footprint nd h (KReduce f r out e).
Proof.
  intros (R & Al & B & n & G & Lo). destruct (loop_shape_ok nd B n r out e R G Lo) as (s & Es & Xs & Is).
  pose (rd := fun env => map (fun o => (elem (r_base (fst o)) (r_shape (fst o)) (values_of (snd o) env), false)) (operands e)).
  pose (acc := fun env => rd env ++ [(elem (r_base r) (r_shape r) (values_of out env), false); (elem (r_base r) (r_shape r) (values_of out env), true)]).
  assert (RI : forall env, reduce_index r out e env <-> In env (box s)).
  { intro env. rewrite box_In, Is. split.
    - intros (B' & n' & G' & Lo' & I'). pose proof (loops_unique _ _ _ Lo Lo') as <-.
      destruct (loop_shape_ok nd B' n r out e R G' Lo) as (s' & Es' & _ & Is'). rewrite Es in Es'. injection Es' as <-.
      apply Is, Is'. auto.
    - intro I. exists B, n. auto. }
  exists (flat_map acc (box s)). split.
  { cbn [call_prog]. apply follows_end. unfold p_ein_reduce. rewrite Es. cbn [lift pbind]. rewrite fei_box by auto. cbn [lift pbind].
    apply follows_fold. intros [] env _. unfold p_ein_assign, acc. apply follows_bind; [apply eval_follows|]. intro v.
    rewrite !elem_ref. constructor. intro. constructor. constructor. }
  split; [|split].
  - intro p. apply (in_flat acc (reduce_index r out e)); [intro; symmetry; apply RI|]. cbn [call_reads]. split.
    + intros (env & I & H). exists env. apply in_app_or in H. destruct H as [H|H].
      * apply in_map_iff in H. destruct H as ([r' is_] & E & H). cbn [fst snd] in E. exists r', is_. split; auto. split; [right; auto|congruence].
      * exists r, out. split; auto. split; [left; auto|]. in_list. auto.
    + intros (env & r' & is_ & I & H & ->). exists env. split; auto. apply in_or_app. destruct H as [H|H].
      * injection H as <- <-. right. left. auto.
      * left. apply in_map_iff. exists (r', is_). auto.
  - intro p. apply (in_flat acc (reduce_index r out e)); [intro; symmetry; apply RI|]. cbn [call_writes]. split.
    + intros (env & I & H). exists env. apply in_app_or in H. destruct H as [H|H].
      * apply in_map_iff in H. destruct H as (o & E & H). discriminate.
      * in_list. auto.
    + intros (env & I & ->). exists env. split; auto. apply in_or_app. right. right. left. auto.
  - intros p b H. apply in_flat_map in H. destruct H as (env & I & H). apply box_In, Is in I.
    assert (K : forall r' is_, In (r', is_) ((r, out) :: operands e) -> alive h (elem (r_base r') (r_shape r') (values_of is_ env))).
    { intros r' is_ Hin. apply (Al r' is_); auto. apply (operand_in_bounds B n r out e); auto. }
    apply in_app_or in H. destruct H as [H|H].
    + apply in_map_iff in H. destruct H as ([r' is_] & E & H). injection E as <- _. apply K. right. auto.
    + pose proof (K r out (or_introl eq_refl)). in_list; auto.
Qed.
Lemma follows_for {A} (l : list A) body acc : (forall a, In a l -> follows (body a) (acc a)) ->
  follows (p_for (Ok l) body) (flat_map acc l).
Proof. intro H. unfold p_for. cbn [lift pbind]. apply follows_fold. auto. Qed.
Lemma foot_multiply nd h zero add mul A B C : legal_call h (KMultiply zero add mul A B C) -> footprint nd h (KMultiply zero add mul A B C).
Proof.
  intros ((ai & ak & bk & bj & ci & cj & EA & EB & EC & X1 & X2 & X3 & I1 & I2 & I3) & AlA & AlB & AlC).
  pose (eA := elem (r_base A) (r_shape A)). pose (eB := elem (r_base B) (r_shape B)). pose (eC := elem (r_base C) (r_shape C)).
  pose (acc3 := fun i j k => [(eA [i; k], false); (eB [k; j], false); (eC [i; j], false); (eC [i; j], true)]).
  pose (acc2 := fun i j => (eC [i; j], true) :: flat_map (acc3 i j) (range (dmin ak) (dext ak))).
  pose (acc1 := fun i => flat_map (acc2 i) (range (dmin cj) (dext cj))).
  assert (PI : forall i j k, product_index A B C i j k <-> in_dim ci i /\ in_dim cj j /\ in_dim ak k).
  { intros i j k. split.
    - intros (ai' & ak' & bk' & bj' & ci' & cj' & EA' & EB' & EC' & H). rewrite EA in EA'. rewrite EC in EC'.
      injection EA' as <- <-. injection EC' as <- <-. exact H.
    - intro H. exists ai, ak, bk, bj, ci, cj. auto. }
  assert (B2 : forall d d' x y, in_dim d x -> in_dim d' y -> in_bounds [d; d'] [x; y]) by (intros; constructor; [auto|constructor; [auto|constructor]]).
  assert (Fl : forall p b, In (p, b) (flat_map acc1 (range (dmin ci) (dext ci))) <->
     exists i j, in_dim ci i /\ in_dim cj j /\ ((p, b) = (eC [i; j], true) \/ exists k, in_dim ak k /\ In (p, b) (acc3 i j k))).
  { intros p b. rewrite in_flat_map. split.
    - intros (i & Hi & H). apply in_flat_map in H. destruct H as (j & Hj & H). apply in_dim_range in Hi. apply in_dim_range in Hj.
      exists i, j. split; auto. split; auto. destruct H as [H|H]; [left; auto|right]. apply in_flat_map in H. destruct H as (k & Hk & H).
      apply in_dim_range in Hk. eauto.
    - intros (i & j & Hi & Hj & H). exists i. split; [apply in_dim_range; auto|]. apply in_flat_map. exists j. split; [apply in_dim_range; auto|].
      destruct H as [H|(k & Hk & H)]; [left; auto|right]. apply in_flat_map. exists k. split; [apply in_dim_range; auto|auto]. }
  exists (flat_map acc1 (range (dmin ci) (dext ci))). split.
  { cbn [call_prog]. apply follows_end. unfold p_multiply_reduce_cols, row_dim, col_dim. rewrite EA, EC. cbn [nth].
    rewrite !for_dim_range by auto. apply follows_for. intros i _. apply follows_for. intros j _.
    rewrite elem_ref. fold eC. constructor. apply follows_for. intros k _. unfold p_mac. rewrite !elem_ref.
    constructor. intro. constructor. intro. constructor. intro. constructor. constructor. }
  split; [|split].
  - intro p. rewrite Fl. cbn [call_reads]. split.
    + intros (i & j & Hi & Hj & [H|(k & Hk & H)]); [discriminate|]. exists i, j, k. split; [apply PI; auto|].
      unfold acc3 in H. destruct H as [H|[H|[H|[H|[]]]]]; try discriminate; injection H as <-; auto.
    + intros (i & j & k & P & H). apply PI in P. destruct P as (Hi & Hj & Hk). exists i, j. split; auto. split; auto. right. exists k. split; auto.
      unfold acc3. simpl. destruct H as [->|[->| ->]]; auto.
  - intro p. rewrite Fl. cbn [call_writes]. split.
    + intros (i & j & Hi & Hj & H). exists [i; j]. split; [rewrite EC; auto|]. destruct H as [H|(k & Hk & H)].
      * injection H as ->. reflexivity.
      * unfold acc3 in H. destruct H as [H|[H|[H|[H|[]]]]]; try discriminate; injection H as <-; auto.
    + intros (ij & Hij & ->). rewrite EC in Hij. inversion Hij as [|? i ? r Hi Hr]; subst. inversion Hr as [|? j ? r' Hj Hr']; subst.
      inversion Hr'; subst. exists i, j. split; auto.
  - intros p b H. apply Fl in H. destruct H as (i & j & Hi & Hj & H).
    assert (Hc : alive h (eC [i; j])) by (apply AlC; rewrite EC; auto).
    destruct H as [H|(k & Hk & H)]; [injection H as -> _; auto|].
    unfold acc3 in H. destruct H as [H|[H|[H|[H|[]]]]]; injection H as <- _; auto.
    + apply AlA. rewrite EA. auto.
    + apply AlB. rewrite EB. auto.
Qed.
Lemma bounds_of_maps a : forall b, map dmin a = map dmin b -> map dext a = map dext b -> forall i, in_bounds a i <-> in_bounds b i.
Proof.
  induction a as [|d a IH]; intros [|d' b] E1 E2 i; try discriminate; [tauto|]. injection E1 as M E1. injection E2 as X E2.
  split; intro H; inversion H; subst; constructor; try (apply (IH b); auto); unfold in_dim in *; lia.
Qed.
Lemma call_footprint nd h (c : call V) : legal_call h c -> footprint nd h c.
Proof.
  destruct c as [dst v|dst g|dst u|dst fn|dst u|src dst|mv src dst|eqb a b|f r out e|zero add mul A B C]; intro L.
  - destruct L as [X Al].
    destruct (over_values nd h dst _ (fun _ p => St p v (Ret tt)) (fun p => [(p, true)]) tt X Al) as (l & Hl & F).
    { intros. constructor. constructor. }
    eapply (foot_view nd h _ dst l _ false); eauto; [reflexivity|apply follows_end; exact F|reflexivity|reflexivity].
  - destruct L as [X Al].
    destruct (over_values nd h dst _ (fun n p => St p (g n) (Ret (S n))) (fun p => [(p, true)]) O X Al) as (l & Hl & F).
    { intros. constructor. constructor. }
    eapply (foot_view nd h _ dst l _ false); eauto; [reflexivity|apply follows_end; exact F|reflexivity|reflexivity].
  - destruct L as [X Al].
    destruct (over_values nd h dst _ (fun _ p => Ld p (fun v => St p (u v) (Ret tt))) (fun p => [(p, false); (p, true)]) tt X Al) as (l & Hl & F).
    { intros. constructor. intro. constructor. constructor. }
    eapply (foot_view nd h _ dst l _ true); eauto; [reflexivity|apply follows_end; exact F|reflexivity|reflexivity].
  - destruct L as [X Al].
    destruct (over_indices dst (fun _ i => St (ref_ptr dst i) (fn i) (Ret tt)) (fun i => [(elem (r_base dst) (r_shape dst) i, true)]) X) as (l & Hl & F).
    { intros. rewrite elem_ref. constructor. constructor. }
    eapply (foot_view nd h _ dst l _ false); eauto; [reflexivity|apply follows_end; exact F|reflexivity|reflexivity].
  - destruct L as [X Al].
    destruct (over_indices dst (fun _ i => Ld (ref_ptr dst i) (fun old => St (ref_ptr dst i) (u i old) (Ret tt)))
      (fun i => [(elem (r_base dst) (r_shape dst) i, false); (elem (r_base dst) (r_shape dst) i, true)]) X) as (l & Hl & F).
    { intros. rewrite elem_ref. constructor. intro. constructor. constructor. }
    eapply (foot_view nd h _ dst l _ true); eauto; [reflexivity|apply follows_end; exact F|reflexivity|reflexivity].
  - destruct L as (Le & X & W & As & Ad).
    destruct (over_transfer nd h src dst p_copy_assign (fun ab => [(fst ab, false); (snd ab, true)]) Le X W As Ad) as (l & Hl & F).
    { intros. constructor. intro. constructor. constructor. }
    eexists. split; [apply follows_end; exact F|]. cbn [fst snd]. split; [|split].
    + intro p. apply (in_flat _ (in_bounds (r_shape dst))); [apply Hl|]. cbn [call_reads]. split.
      * intros (i & Hi & H). exists i. in_list. auto.
      * intros (i & Hi & ->). exists i. simpl. auto.
    + intro p. apply (in_flat _ (in_bounds (r_shape dst))); [apply Hl|]. cbn [call_writes]. split.
      * intros (i & Hi & H). exists i. in_list. auto.
      * intros (i & Hi & ->). exists i. simpl. auto.
    + intros p b H. apply in_flat_map in H. destruct H as (i & Hi & H). apply Hl in Hi. in_list; auto.
  - destruct L as (Le & X & W & As & Ad).
    destruct (over_transfer nd h src dst (p_move_assign mv) (fun ab => [(fst ab, false); (snd ab, true); (fst ab, true)]) Le X W As Ad) as (l & Hl & F).
    { intros. constructor. intro. constructor. constructor. constructor. }
    eexists. split; [apply follows_end; exact F|]. cbn [fst snd]. split; [|split].
    + intro p. apply (in_flat _ (in_bounds (r_shape dst))); [apply Hl|]. cbn [call_reads]. split.
      * intros (i & Hi & H). exists i. in_list. auto.
      * intros (i & Hi & ->). exists i. simpl. auto.
    + intro p. apply (in_flat _ (in_bounds (r_shape dst))); [apply Hl|]. cbn [call_writes]. split.
      * intros (i & Hi & H). in_list; [left|right]; exists i; auto.
      * intros [(i & Hi & ->)|(i & Hi & ->)]; exists i; simpl; auto.
    + intros p b H. apply in_flat_map in H. destruct H as (i & Hi & H). apply Hl in Hi. in_list; auto.
  - destruct L as (Le & Xa & Xb & Aa & Ab). unfold footprint. cbn [call_prog call_reads call_writes]. unfold p_equal, mins, extents.
    destruct (list_eqb (map dmin (r_shape a)) (map dmin (r_shape b))) eqn:E1; cbn [negb orb];
      [apply list_eqb_eq in E1; destruct (list_eqb (map dext (r_shape a)) (map dext (r_shape b))) eqn:E2; cbn [negb];
        [apply list_eqb_eq in E2|]|].
    + pose proof (bounds_of_maps _ _ E1 E2) as Bd.
      destruct (over_pairs nd h a b _ (fun result ab => Ld (fst ab) (fun x => Ld (snd ab) (fun y => Ret (if eqb x y then result else false))))
        (fun ab => [(fst ab, false); (snd ab, false)]) true Le Xb) as (l & Hl & F); auto.
      { intros i Hi. apply Aa, Bd. auto. }
      { intros. constructor. intro. constructor. intro. constructor. }
      eexists. split; [apply follows_end; exact F|]. cbn [fst snd]. split; [|split].
      * intro p. apply (in_flat _ (in_bounds (r_shape b))); [apply Hl|]. split.
        -- intros (i & Hi & H). split; auto. split; auto. in_list; [left|right]; exists i; split; auto. apply Bd. auto.
        -- intros (_ & _ & [(i & Hi & ->)|(i & Hi & ->)]); exists i; (split; [first [exact Hi | apply Bd; exact Hi]|simpl; auto]).
      * intro p. split; [|tauto]. intro H. apply in_flat_map in H. destruct H as (i & Hi & H). in_list.
      * intros p c H. apply in_flat_map in H. destruct H as (i & Hi & H). apply Hl in Hi. in_list; auto. apply Aa, Bd; auto.
    + exists []. split; [constructor|]. split; [|split; [|intros ? ? []]]; intro p; (split; [intros []|]); [|tauto].
      intros (_ & Q & _). rewrite (proj2 (list_eqb_eq _ _) Q) in E2. discriminate.
    + exists []. split; [constructor|]. split; [|split; [|intros ? ? []]]; intro p; (split; [intros []|]); [|tauto].
      intros (Q & _). rewrite (proj2 (list_eqb_eq _ _) Q) in E1. discriminate.
  - apply foot_reduce. exact L.
  - apply foot_multiply. exact L.
Qed.
End Run.
