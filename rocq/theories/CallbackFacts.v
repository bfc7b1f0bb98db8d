(** Proofs about calls of function objects. *)
From Coq Require Import ZArith List Bool Lia Permutation Sorted.
From Verif Require Import Base Interval Shape Traverse Memory Ref Callback Spec SpecMem SpecAbort SpecCallback Tac
  ShapeFacts TraverseFacts MemFacts RefFacts AbortFacts AliasFacts EinFacts EinUses.
Import ListNotations.
Open Scope Z_scope.

Section Facts.
Context {V F S : Type}.
Notation reply := (reply V F S).
Notation mem := (mem V S).

(** ** Calls one after the other *)

Lemma call_each_in_turn {A} (one : F -> mem -> A -> outcome (reply unit)) l : forall f m x,
  call_each one l f m = x <-> in_turn one l f m x.
Proof.
  induction l as [|a l IH]; intros f m x; cbn [call_each].
  - split; [intros <-; constructor|intros H; inv H; reflexivity].
  - destruct (one f m a) as [[[] f' m'|f' m']| |] eqn:E; cbn [bind].
    + rewrite IH. split; [intros H; eapply turn_gives; eauto|]. intros H. inv H; congruence.
    + split; [intros <-; apply turn_fails; auto|]. intros H. inv H; congruence.
    + split; [intros <-; apply turn_assert; auto|]. intros H. inv H; congruence.
    + split; [intros <-; apply turn_ub; auto|]. intros H. inv H; congruence.
Qed.
Lemma captured_is {A R} (k : callable V F S A R) f x : captured k f x = in_outcome (with_object (moved k f)) x.
Proof. destruct x as [[r f' m'|f' m']| |]; reflexivity. Qed.
Lemma const_keeps {A} (k : callable V F S A unit) f l : keeps k f -> forall m, call_each (const_call k) l f m = call_each (call k) l f m.
Proof.
  intros K. induction l as [|a l IH]; intros m; cbn [call_each]; auto. unfold const_call.
  destruct (call k f m a) as [[[] f' m'|f' m']| |] eqn:E; cbn [bind]; auto; pose proof (K _ _ _ E) as E1; cbn [object] in E1; subst f'; auto.
Qed.
Lemma index_calls s : extents_ge 0 s -> exists l, enumerates (in_bounds s) l /\ StronglySorted colex_lt l /\
  forall (k : callable V F S index unit) f m,
    (forall x, for_each_index_f k s f m = x <-> in_turn (call k) l f m x) /\
    (keeps k f -> forall x, for_all_indices_f k s f m = x <-> exists y, in_turn (call k) l f m y /\ x = in_outcome (with_object (moved k f)) y).
Proof.
  intros Hs. destruct (for_each_index_visits s Hs) as (l & El & Hl & Sl). exists l. split; [exact Hl|]. split; [exact Sl|].
  intros k f m. unfold for_each_index_f, for_all_indices_f. rewrite El. cbn [bind]. split; [intros x; apply call_each_in_turn|].
  intros K x. rewrite captured_is, const_keeps by auto. split.
  - intros <-. exists (call_each (call k) l f m). split; [apply call_each_in_turn|]; reflexivity.
  - intros (y & Hy & ->). apply call_each_in_turn in Hy. rewrite Hy. reflexivity.
Qed.
Lemma index_order_calls s order : extents_ge 0 s -> (0 < length s)%nat -> Permutation order (seq 0 (length s)) ->
  exists l, enumerates (in_bounds s) l /\
    StronglySorted (fun i j => colex_lt (map (fun k => nth k i 0) order) (map (fun k => nth k j 0) order)) l /\
    forall (k : callable V F S index unit) f m, keeps k f ->
    forall x, for_each_index_order_f order k s f m = Some x <-> exists y, in_turn (call k) l f m y /\ x = in_outcome (with_object (moved k f)) y.
Proof.
  intros Hs H0 Hp. destruct (for_each_index_order_visits s order Hs H0 Hp) as (l & El & Hl & Sl). exists l. split; [exact Hl|]. split; [exact Sl|].
  intros k f m K x. unfold for_each_index_order_f. rewrite El. cbn [bind]. rewrite captured_is, const_keeps by auto. split.
  - intros E. injection E as <-. exists (call_each (call k) l f m). split; [apply call_each_in_turn|]; reflexivity.
  - intros (y & Hy & ->). apply call_each_in_turn in Hy. rewrite Hy. reflexivity.
Qed.
Lemma value_calls nd (dst : aref) : extents_ge 0 (r_shape dst) -> is_null (r_base dst) = false \/ (forall i, ~ in_bounds (r_shape dst) i) ->
  exists l, memory_order (r_shape dst) l /\
  forall (k : callable V F S ptr unit) f m x,
    for_each_value_f nd k dst f m = x <-> in_turn (call k) (map (elem (r_base dst) (r_shape dst)) l) f m x.
Proof.
  intros Hs Hn. destruct (values_order nd (r_shape dst) (r_base dst) Hs Hn) as (l & Hl & El). exists l. split; [exact Hl|].
  intros k f m x. unfold for_each_value_f. rewrite El. cbn [bind]. apply call_each_in_turn.
Qed.
Lemma matrix_calls i j base : 0 <= dext i -> 0 <= dext j ->
  exists l, enumerates (in_bounds [i; j]) l /\ StronglySorted lex_lt l /\
  forall (k : callable V F S ptr unit) f m, keeps k f -> forall x,
    for_each_value_matrix_f k i j base f m = x <->
    exists y, in_turn (call k) (map (elem base [i; j]) l) f m y /\ x = in_outcome (with_object (moved k f)) y.
Proof.
  intros Hi Hj. destruct (matrix_value_visits i j (snd base) Hi Hj) as (l & Hl & Sl & El). exists l. split; [exact Hl|]. split; [exact Sl|].
  intros k f m K x. unfold for_each_value_matrix_f, values_matrix. rewrite El. cbn [bind].
  assert (M : map (to_ptr base) (map (fun q => [snd base + flat_offset [i; j] q]) l) = map (elem base [i; j]) l).
  { rewrite map_map. apply map_ext. intros q. unfold to_ptr, elem. cbn [hd]. rewrite flat_offset_spec. reflexivity. }
  rewrite M, captured_is, const_keeps by auto. split.
  - intros <-. exists (call_each (call k) (map (elem base [i; j]) l) f m). split; [apply call_each_in_turn|]; reflexivity.
  - intros (y & Hy & ->). apply call_each_in_turn in Hy. rewrite Hy. reflexivity.
Qed.
Lemma chunky_calls x y c base : 0 <= dext x -> 0 <= dext y -> 0 <= dext c ->
  exists l, enumerates (in_bounds [x; y; c]) l /\
    StronglySorted (fun i j => lex_lt (map (fun k => nth k i 0) [1%nat; 0%nat; 2%nat]) (map (fun k => nth k j 0) [1%nat; 0%nat; 2%nat])) l /\
  forall (k : callable V F S ptr unit) f m, keeps k f -> forall r,
    for_each_value_chunky_f k x y c base f m = r <->
    exists r0, in_turn (call k) (map (elem base [x; y; c]) l) f m r0 /\ r = in_outcome (with_object (moved k f)) r0.
Proof.
  intros Hx Hy Hc. destruct (image_index_visits x y c Hx Hy Hc) as (l & El & Hl & Sl). exists l. split; [exact Hl|]. split; [exact Sl|].
  intros k f m K r. unfold for_each_value_chunky_f, values_chunky_general, chunky_for_each_value_general. rewrite El. cbn [bind].
  assert (M : map (to_ptr base) (map (fun q => [snd base + flat_offset [x; y; c] q]) l) = map (elem base [x; y; c]) l).
  { rewrite map_map. apply map_ext. intros q. unfold to_ptr, elem. cbn [hd]. rewrite flat_offset_spec. reflexivity. }
  rewrite M, captured_is, const_keeps by auto. split.
  - intros <-. exists (call_each (call k) (map (elem base [x; y; c]) l) f m). split; [apply call_each_in_turn|]; reflexivity.
  - intros (z & Hz & ->). apply call_each_in_turn in Hz. rewrite Hz. reflexivity.
Qed.

(** ** Where the object is moved from *)

Lemma captured_object {A R} (k : callable V F S A R) f x r : captured k f x = Ok r -> object r = moved k f.
Proof. destruct x as [[u f' m'|f' m']| |]; intros E; inv E; reflexivity. Qed.
Lemma objects nd f (m : mem) dst s order i j x y c base (ki : callable V F S index unit) (kp : callable V F S ptr unit)
  (kg : callable V F S unit V) (kt : callable V F S index V) r :
  (for_all_indices_f ki s f m = Ok r -> object r = moved ki f) /\
  (for_each_index_order_f order ki s f m = Some (Ok r) -> object r = moved ki f) /\
  (for_each_value_matrix_f kp i j base f m = Ok r -> object r = moved kp f) /\
  (for_each_value_chunky_f kp x y c base f m = Ok r -> object r = moved kp f) /\
  (generate_f nd kg dst f m = Ok r -> object r = moved kg f) /\
  (transform_index_f kt dst f m = Ok r -> object r = moved kt f) /\
  (transform_indices_f kt dst f m = Ok r -> object r = moved kt f).
Proof.
  repeat match goal with |- _ /\ _ => split end.
  - apply captured_object.
  - unfold for_each_index_order_f. destruct (for_each_index_loop_order order s); [|discriminate]. intros E. injection E as E. eapply captured_object; eauto.
  - apply captured_object.
  - apply captured_object.
  - apply captured_object.
  - apply captured_object.
  - apply captured_object.
Qed.
Lemma held_object {A} (one : F -> mem -> A -> outcome (reply unit)) f l :
  (forall m a r, one f m a = Ok r -> object r = f) -> forall m r, call_each one l f m = Ok r -> object r = f.
Proof.
  intros H. induction l as [|a l IH]; intros m r E; cbn [call_each] in E; [injection E as <-; reflexivity|].
  destruct (one f m a) as [[u f' m'|f' m']| |] eqn:E1; cbn [bind] in E; try discriminate.
  - pose proof (H _ _ _ E1) as E2. cbn [object] in E2. subst f'. eapply IH; eauto.
  - pose proof (H _ _ _ E1) as E2. cbn [object] in E2. subst f'. injection E as <-. reflexivity.
Qed.

(** ** Filling an array *)

Lemma const_result {A} (k : callable V F S A V) f m a : const_call k f m a = in_outcome (with_object f) (call k f m a).
Proof. unfold const_call. destruct (call k f m a) as [[v f' m'|f' m']| |]; reflexivity. Qed.
Lemma upd_shows (h : heap V) b sh g i v : injective_layout sh -> shows_elems h b sh g -> in_bounds sh i ->
  shows_elems (upd h (elem b sh i) (Live v)) b sh (put g i v).
Proof.
  intros Hi Hg Ii j Ij. unfold put. destruct (list_eq_dec Z.eq_dec j i) as [->|N].
  - unfold holds. apply peek_upd_same. rewrite (Hg i Ii). discriminate.
  - unfold holds. rewrite peek_upd_other; [apply Hg; auto|].
    intros E. apply N. apply Hi; auto. unfold elem in E. injection E as E. lia.
Qed.
Lemma loop_fills {A} (k : callable V F S A V) (arg : list Z -> A) h0 b sh f phi : injective_layout sh -> computes_from h0 b sh k f arg phi ->
  forall l h g s, (forall i, In i l -> in_bounds sh i) -> only_changes (is_elem b sh) h0 h -> shows_elems h b sh g ->
  exists r, call_each (fun f m i => assign_result k (elem b sh i) (arg i) f m) l f (h, s) = Ok r /\ filled_by h0 b sh f phi l g s r.
Proof.
  intros Hi Hc. induction l as [|i l IH]; intros h g s Hl Ho Hg; cbn [call_each]; unfold filled_by; cbn [fills].
  - eexists. split; [reflexivity|]. exists h. split; [reflexivity|]. split; [exact Hg|exact Ho].
  - assert (Ii : in_bounds sh i) by (apply Hl; left; auto).
    destruct (Hc h g s i Ho Hg Ii) as (f' & E). unfold assign_result. rewrite const_result, E.
    destruct (phi g s i) as [[v|] s'] eqn:P; cbn [in_outcome with_object bind].
    + assert (Al : alive h (elem b sh i)) by (exists (g i); apply Hg; auto).
      rewrite (store_ok h (elem b sh i) v Al). cbn [bind].
      destruct (IH (upd h (elem b sh i) (Live v)) (put g i v) s') as (r & Er & Hr).
      { intros j Hj. apply Hl. right. auto. }
      { eapply only_changes_trans; [exact Ho|]. apply only_changes_upd. exists i. auto. }
      { apply upd_shows; auto. }
      exists r. split; [exact Er|exact Hr].
    + eexists. split; [reflexivity|]. exists h. split; [reflexivity|]. split; [exact Hg|exact Ho].
Qed.
Lemma filled_moved {A R} (k : callable V F S A R) (h0 : heap V) b sh f f1 phi l g (s : S) (r : reply unit) : filled_by h0 b sh f1 phi l g s r ->
  filled_by h0 b sh (moved k f) phi l g s (with_object (moved k f) r).
Proof.
  unfold filled_by. destruct (fills phi l g s) as [[g' s'] d]. intros (h' & -> & Hg & Ho). exists h'. split; [destruct d; reflexivity|].
  split; [exact Hg|exact Ho].
Qed.
Lemma call_each_map {A B} (one : F -> mem -> B -> outcome (reply unit)) (p : A -> B) l : forall f m,
  call_each one (map p l) f m = call_each (fun f m a => one f m (p a)) l f m.
Proof. induction l as [|a l IH]; intros f m; cbn [map call_each]; auto. destruct (one f m (p a)) as [[u f' m'|f' m']| |]; cbn [bind]; auto. Qed.
Lemma call_each_ext {A} (one two : F -> mem -> A -> outcome (reply unit)) l : (forall f m a, one f m a = two f m a) -> forall f m,
  call_each one l f m = call_each two l f m.
Proof. intros H. induction l as [|a l IH]; intros f m; cbn [call_each]; auto. rewrite H. destruct (two f m a) as [[u f' m'|f' m']| |]; cbn [bind]; auto. Qed.

Lemma generate_fills nd (dst : aref) h g : extents_ge 0 (r_shape dst) -> injective_layout (r_shape dst) ->
  shows_elems h (r_base dst) (r_shape dst) g ->
  exists l, memory_order (r_shape dst) l /\
  forall (k : callable V F S unit V) f phi s, computes_from h (r_base dst) (r_shape dst) k f (fun _ => tt) phi ->
    exists r, generate_f nd k dst f (h, s) = Ok r /\ filled_by h (r_base dst) (r_shape dst) (moved k f) phi l g s r.
Proof.
  intros Hs Hi Hg.
  assert (Ha : forall i, in_bounds (r_shape dst) i -> alive h (elem (r_base dst) (r_shape dst) i)) by (intros i Ii; exists (g i); apply Hg; auto).
  destruct (values_order nd (r_shape dst) (r_base dst) Hs (alive_base h _ _ _ Hs Ha)) as (l & Hl & El). exists l. split; [exact Hl|].
  intros k f phi s Hc. unfold generate_f. rewrite El. cbn [bind]. rewrite call_each_map.
  destruct (loop_fills k (fun _ => tt) h _ _ f phi Hi Hc l h g s) as (r & Er & Hr); auto.
  { intros i Ii. apply Hl. auto. } { apply only_changes_refl. }
  rewrite Er, captured_is. cbn [in_outcome]. eexists. split; [reflexivity|]. eapply filled_moved; eauto.
Qed.
Lemma transform_fills (dst : aref) h g : extents_ge 0 (r_shape dst) -> injective_layout (r_shape dst) ->
  shows_elems h (r_base dst) (r_shape dst) g ->
  exists l, enumerates (in_bounds (r_shape dst)) l /\ StronglySorted colex_lt l /\
  forall (k : callable V F S index V) f phi s, computes_from h (r_base dst) (r_shape dst) k f (fun i => i) phi ->
    exists r, transform_index_f k dst f (h, s) = Ok r /\ transform_indices_f k dst f (h, s) = Ok r /\
      filled_by h (r_base dst) (r_shape dst) (moved k f) phi l g s r.
Proof.
  intros Hs Hi Hg. destruct (for_each_index_visits (r_shape dst) Hs) as (l & El & Hl & Sl). exists l. split; [exact Hl|]. split; [exact Sl|].
  assert (T : forall (k : callable V F S index V) f phi s, computes_from h (r_base dst) (r_shape dst) k f (fun i => i) phi ->
    exists r0, transform_index_f k dst f (h, s) = Ok (with_object (moved k f) r0) /\
      filled_by h (r_base dst) (r_shape dst) f phi l g s r0).
  { intros k f phi s Hc. unfold transform_index_f. rewrite El. cbn [bind].
    destruct (loop_fills k (fun i => i) h _ _ f phi Hi Hc l h g s) as (r & Er & Hr); auto.
    { intros i Ii. apply Hl. auto. } { apply only_changes_refl. }
    exists r. split; [|exact Hr]. rewrite captured_is.
    rewrite (call_each_ext _ (fun f m i => assign_result k (elem (r_base dst) (r_shape dst) i) i f m)); [|intros; rewrite elem_ref; reflexivity].
    rewrite Er. reflexivity. }
  intros k f phi s Hc. destruct (T k f phi s Hc) as (r0 & E0 & H0). exists (with_object (moved k f) r0). split; [exact E0|].
  split; [|eapply filled_moved; eauto]. unfold transform_indices_f. rewrite captured_is.
  destruct (T (mkCall (const_call k) (moved k)) f phi s) as (r1 & E1 & H1).
  { intros h1 g1 s1 i Ho1 Hg1 Ii. destruct (Hc h1 g1 s1 i Ho1 Hg1 Ii) as (f' & E). exists f. cbn [call]. rewrite const_result, E.
    destruct (phi g1 s1 i) as [[v|] s']; reflexivity. }
  rewrite E1. cbn [moved in_outcome]. f_equal. clear T.
  (* both runs make the same calls *)
  assert (Q : transform_index_f (mkCall (const_call k) (moved k)) dst f (h, s) = transform_index_f k dst f (h, s)).
  { unfold transform_index_f. rewrite El. cbn [bind]. rewrite !captured_is. cbn [moved]. f_equal. apply call_each_ext. intros f1 m1 a.
    unfold assign_result. f_equal. unfold const_call. cbn [call]. destruct (call k f1 m1 a) as [[v f' m'|f' m']| |]; reflexivity. }
  rewrite E1, E0 in Q. injection Q as Q. cbn [moved] in Q. rewrite Q. destruct r0; reflexivity.
Qed.

(** ** Generators with a state *)

Lemma iter_after (next : S -> S) n s : Nat.iter n next (next s) = Nat.iter (Datatypes.S n) next s.
Proof. induction n as [|n IH]; [reflexivity|]. change (next (Nat.iter n next (next s)) = next (Nat.iter (Datatypes.S n) next s)). rewrite IH. reflexivity. Qed.

Lemma fills_generator (out : S -> V) (next : S -> S) l : forall g s, NoDup l ->
  exists g', fills (fun _ s _ => (Some (out s), next s)) l g s = (g', Nat.iter (length l) next s, true) /\
    (forall n i, nth_error l n = Some i -> g' i = out (Nat.iter n next s)) /\ (forall i, ~ In i l -> g' i = g i).
Proof.
  induction l as [|a l IH]; intros g s Hn; cbn [fills].
  - exists g. split; [reflexivity|]. split; [intros [|n] i E; discriminate|auto].
  - apply NoDup_cons_iff in Hn. destruct Hn as [Na Hn]. destruct (IH (put g a (out s)) (next s) Hn) as (g' & E & H1 & H2).
    exists g'. split; [rewrite E, iter_after; reflexivity|]. split.
    + intros [|n] i Ei; cbn [nth_error] in Ei.
      * injection Ei as ->. rewrite H2 by auto. unfold put. destruct (list_eq_dec Z.eq_dec i i); [reflexivity|congruence].
      * rewrite (H1 n i Ei), iter_after. reflexivity.
    + intros i Ni. cbn [In] in Ni. rewrite H2 by tauto. unfold put. destruct (list_eq_dec Z.eq_dec i a); [|reflexivity]. subst. tauto.
Qed.
Lemma generate_once nd (dst : aref) h : extents_ge 0 (r_shape dst) -> injective_layout (r_shape dst) ->
  (forall i, in_bounds (r_shape dst) i -> alive h (elem (r_base dst) (r_shape dst) i)) ->
  exists l, memory_order (r_shape dst) l /\
  forall (k : callable V F S unit V) f out next s, generator k f out next ->
    exists h', generate_f nd k dst f (h, s) = Ok (Gives tt (moved k f) (h', Nat.iter (length l) next s)) /\
      (forall n i, nth_error l n = Some i -> holds h' (elem (r_base dst) (r_shape dst) i) (out (Nat.iter n next s))) /\
      only_changes (is_elem (r_base dst) (r_shape dst)) h h'.
Proof.
  intros Hs Hi Ha. destruct (values_order nd (r_shape dst) (r_base dst) Hs (alive_base h _ _ _ Hs Ha)) as (l0 & Hl0 & El0).
  exists l0. split; [exact Hl0|]. intros k f out next s Hc.
  set (g := fun i => match peek h (elem (r_base dst) (r_shape dst) i) with Some (Live v) => v | _ => out s end).
  assert (Hg : shows_elems h (r_base dst) (r_shape dst) g).
  { intros i Ii. destruct (Ha i Ii) as [v Hv]. unfold holds, g in *. rewrite Hv. reflexivity. }
  unfold generate_f. rewrite El0. cbn [bind]. rewrite call_each_map.
  destruct (loop_fills k (fun _ => tt) h (r_base dst) (r_shape dst) f (fun _ s _ => (Some (out s), next s)) Hi) with (l := l0) (h := h) (g := g) (s := s)
    as (r & Er & Hr); auto.
  { intros h1 g1 s1 i _ _ _. apply Hc. } { intros i Ii. apply Hl0. auto. } { apply only_changes_refl. }
  rewrite Er, captured_is. cbn [in_outcome]. unfold filled_by in Hr.
  destruct (fills_generator out next l0 g s) as (g' & E & H1 & _); [apply Hl0|]. rewrite E in Hr. destruct Hr as (h' & -> & Hg' & Ho).
  exists h'. split; [reflexivity|]. split; [|exact Ho]. intros n i Hn. rewrite <- (H1 n i Hn). apply Hg'. apply Hl0. eapply nth_error_In; eauto.
Qed.
(** Again with the object that is left *)
Lemma generate_twice nd (dst1 dst2 : aref) h : extents_ge 0 (r_shape dst1) -> injective_layout (r_shape dst1) ->
  extents_ge 0 (r_shape dst2) -> injective_layout (r_shape dst2) ->
  (forall i, in_bounds (r_shape dst1) i -> alive h (elem (r_base dst1) (r_shape dst1) i)) ->
  (forall i, in_bounds (r_shape dst2) i -> alive h (elem (r_base dst2) (r_shape dst2) i)) ->
  (forall p, is_elem (r_base dst1) (r_shape dst1) p -> ~ is_elem (r_base dst2) (r_shape dst2) p) ->
  exists l1 l2, memory_order (r_shape dst1) l1 /\ memory_order (r_shape dst2) l2 /\
  forall (k : callable V F S unit V) f out next s, generator k f out next -> moved k f = f ->
    exists h1 h2, generate_f nd k dst1 f (h, s) = Ok (Gives tt f (h1, Nat.iter (length l1) next s)) /\
      generate_f nd k dst2 f (h1, Nat.iter (length l1) next s) = Ok (Gives tt f (h2, Nat.iter (length l1 + length l2) next s)) /\
      (forall n i, nth_error l1 n = Some i -> holds h2 (elem (r_base dst1) (r_shape dst1) i) (out (Nat.iter n next s))) /\
      (forall n i, nth_error l2 n = Some i -> holds h2 (elem (r_base dst2) (r_shape dst2) i) (out (Nat.iter (length l1 + n) next s))).
Proof.
  intros Hs1 Hi1 Hs2 Hi2 Ha1 Ha2 Hd. destruct (generate_once nd dst1 h Hs1 Hi1 Ha1) as (l1 & Hl1 & G1).
  destruct (values_order nd (r_shape dst2) (r_base dst2) Hs2 (alive_base h _ _ _ Hs2 Ha2)) as (l2 & Hl2 & El2).
  exists l1, l2. split; [exact Hl1|]. split; [exact Hl2|]. intros k f out next s Hc Hm.
  destruct (G1 k f out next s Hc) as (h1 & E1 & V1 & O1). exists h1.
  assert (Ha2' : forall i, in_bounds (r_shape dst2) i -> alive h1 (elem (r_base dst2) (r_shape dst2) i)).
  { intros i Ii. destruct (Ha2 i Ii) as [v Hv]. exists v. unfold holds in *. rewrite (proj1 O1); auto. intros C. apply (Hd _ C). exists i. auto. }
  set (s1 := Nat.iter (length l1) next s) in *.
  set (g := fun i => match peek h1 (elem (r_base dst2) (r_shape dst2) i) with Some (Live v) => v | _ => out s end).
  assert (Hg : shows_elems h1 (r_base dst2) (r_shape dst2) g).
  { intros i Ii. destruct (Ha2' i Ii) as [v Hv]. unfold holds, g in *. rewrite Hv. reflexivity. }
  assert (It : forall n, Nat.iter n next s1 = Nat.iter (length l1 + n) next s).
  { intros n. unfold s1. rewrite Nat.add_comm. induction n as [|n IH]; [reflexivity|]. cbn [Nat.add].
    change (next (Nat.iter n next (Nat.iter (length l1) next s)) = next (Nat.iter (n + length l1) next s)). rewrite IH. reflexivity. }
  destruct (loop_fills k (fun _ => tt) h1 (r_base dst2) (r_shape dst2) f (fun _ s _ => (Some (out s), next s)) Hi2) with (l := l2) (h := h1) (g := g) (s := s1)
    as (r & Er & Hr); auto.
  { intros h3 g1 s3 i _ _ _. apply Hc. } { intros i Ii. apply Hl2. auto. } { apply only_changes_refl. }
  unfold filled_by in Hr. destruct (fills_generator out next l2 g s1) as (g' & E & H1 & _); [apply Hl2|]. rewrite E in Hr. destruct Hr as (h2 & -> & Hg' & Ho).
  exists h2. rewrite Hm in E1. split; [exact E1|]. split; [|split].
  - unfold generate_f. rewrite El2. cbn [bind]. rewrite call_each_map, Er, captured_is. cbn [in_outcome with_object]. rewrite Hm, It. reflexivity.
  - intros n i Hn. unfold holds. rewrite (proj1 Ho); [apply V1; auto|]. apply Hd. exists i. split; [|reflexivity]. apply Hl1. eapply nth_error_In; eauto.
  - intros n i Hn. rewrite <- It, <- (H1 n i Hn). apply Hg'. apply Hl2. eapply nth_error_In; eauto.
Qed.

(** ** Results that depend on the elements *)

Lemma fills_total phi l : forall g (s : S), fills (fun g s i => (Some (phi g i), s)) l g s =
  (fold_left (fun (g : list Z -> V) i => put g i (phi g i)) l g, s, true).
Proof. induction l as [|a l IH]; intros g s; cbn [fills fold_left]; auto. Qed.
Lemma puts_other (phi : (list Z -> V) -> list Z -> V) l i : ~ In i l -> forall g, fold_left (fun g i => put g i (phi g i)) l g i = g i.
Proof.
  induction l as [|a l IH]; intros Hn g; cbn [fold_left]; auto. cbn [In] in Hn. rewrite IH by tauto. unfold put.
  destruct (list_eq_dec Z.eq_dec i a); [subst; tauto|reflexivity].
Qed.
Lemma recurrence (dst : aref) h g (k : callable V F S index V) f phi s : extents_ge 0 (r_shape dst) -> injective_layout (r_shape dst) ->
  shows_elems h (r_base dst) (r_shape dst) g ->
  computes_from h (r_base dst) (r_shape dst) k f (fun i => i) (fun g s i => (Some (phi g i), s)) ->
  exists h' g', transform_index_f k dst f (h, s) = Ok (Gives tt (moved k f) (h', s)) /\
    shows_elems h' (r_base dst) (r_shape dst) g' /\ only_changes (is_elem (r_base dst) (r_shape dst)) h h' /\
    forall i u, in_bounds (r_shape dst) i ->
      (forall j, in_bounds (r_shape dst) j -> colex_lt j i -> u j = g' j) ->
      (forall j, in_bounds (r_shape dst) j -> ~ colex_lt j i -> u j = g j) ->
      g' i = phi u i.
Proof.
  intros Hs Hi Hg Hc. destruct (transform_fills dst h g Hs Hi Hg) as (l & Hl & Sl & T).
  destruct (T k f _ s Hc) as (r & Er & _ & Hr). unfold filled_by in Hr. rewrite fills_total in Hr. destruct Hr as (h' & -> & Hg' & Ho).
  exists h', (fold_left (fun g i => put g i (phi g i)) l g). split; [exact Er|]. split; [exact Hg'|]. split; [exact Ho|].
  intros i u Ii U1 U2. assert (Il : In i l) by (apply Hl; auto). destruct (in_split i l Il) as (l1 & l2 & El).
  destruct Hl as [Hn Hl].
  assert (N1 : ~ In i l1 /\ ~ In i l2). { rewrite El in Hn. apply NoDup_remove_2 in Hn. rewrite in_app_iff in Hn. tauto. }
  assert (S1 : forall j, In j l1 -> colex_lt j i).
  { intros j Hj. rewrite El in Sl. clear - Sl Hj. induction l1 as [|a l1 IH]; [destruct Hj|]. cbn in Sl. inv Sl. destruct Hj as [->|Hj]; auto.
    rewrite Forall_forall in H2. apply H2. apply in_or_app. right. left. auto. }
  assert (S2 : forall j, In j l2 -> colex_lt i j).
  { intros j Hj. rewrite El in Sl. clear - Sl Hj. induction l1 as [|a l1 IH]; cbn in Sl; inv Sl; auto. rewrite Forall_forall in H2. auto. }
  set (g1 := fold_left (fun g i => put g i (phi g i)) l1 g) in *.
  assert (Ef : forall j, fold_left (fun g i => put g i (phi g i)) l g j = fold_left (fun g i => put g i (phi g i)) l2 (put g1 i (phi g1 i)) j).
  { intros j. rewrite El, fold_left_app. reflexivity. }
  assert (D : forall j, In j l1 -> ~ In j (i :: l2)).
  { intros j Hj C. rewrite El in Hn. clear - Hn Hj C. induction l1 as [|a l1 IH]; [destruct Hj|]. cbn in Hn. apply NoDup_cons_iff in Hn. destruct Hn as [Ha Hn].
    destruct Hj as [->|Hj]; auto. apply Ha. apply in_or_app. right. exact C. }
  (* the heap when [i] is reached *)
  destruct (loop_fills k (fun i => i) h (r_base dst) (r_shape dst) f _ Hi Hc l1 h g s) as (r1 & _ & Hr1); auto.
  { intros j Hj. apply Hl. rewrite El. apply in_or_app. auto. } { apply only_changes_refl. }
  unfold filled_by in Hr1. rewrite fills_total in Hr1. destruct Hr1 as (h1 & _ & Hg1 & Ho1). fold g1 in Hg1.
  assert (Hu : shows_elems h1 (r_base dst) (r_shape dst) u).
  { intros j Ij. destruct (in_dec (list_eq_dec Z.eq_dec) j l1) as [J|J].
    - rewrite U1; auto. rewrite Ef. rewrite puts_other; [|intros C; apply (D j J); right; auto].
      unfold put. destruct (list_eq_dec Z.eq_dec j i) as [->|_]; [exfalso; apply (proj1 N1); auto|]. apply Hg1; auto.
    - rewrite U2; auto.
      + specialize (Hg1 j Ij). unfold g1 in Hg1. rewrite puts_other in Hg1 by auto. exact Hg1.
      + intros C. assert (Jl : In j l) by (apply Hl; auto). rewrite El in Jl. apply in_app_or in Jl. destruct Jl as [Jl|[<-|Jl]]; [auto| |].
        * eapply colex_irrefl; eauto.
        * eapply colex_asym; eauto. }
  destruct (Hc h1 g1 s i Ho1 Hg1 Ii) as (f1 & C1). destruct (Hc h1 u s i Ho1 Hu Ii) as (f2 & C2). rewrite C1 in C2. injection C2 as C2 _.
  rewrite Ef, puts_other by tauto. unfold put. destruct (list_eq_dec Z.eq_dec i i); [exact C2|congruence].
Qed.

(** ** Callables without memory: the models of Ref.v *)

Lemma pure_transform (dst : aref) h (k : callable V F S index V) f (fn : list Z -> V) s :
  (forall h i, exists f', call k f (h, s) i = Ok (Gives (fn i) f' (h, s))) ->
  transform_index_f k dst f (h, s) = (h' <- transform_index h dst fn ;; Ok (Gives tt (moved k f) (h', s))).
Proof.
  intros Hc. unfold transform_index_f, transform_index. destruct (for_each_index (r_shape dst)) as [l| |]; cbn [bind]; [|reflexivity|reflexivity].
  assert (Q : forall h, call_each (fun f m i => assign_result k (ref_ptr dst i) i f m) l f (h, s) =
    (h' <- foldM (fun h i => store h (ref_ptr dst i) (fn i)) l h ;; Ok (Gives tt f (h', s)))).
  { clear h. induction l as [|i l IH]; intros h; cbn [call_each foldM bind]; [reflexivity|]. unfold assign_result at 1. rewrite const_result.
    destruct (Hc h i) as (f' & ->). cbn [in_outcome with_object bind]. destruct (store h (ref_ptr dst i) (fn i)) as [h1| |]; cbn [bind]; auto. }
  rewrite Q. destruct (foldM _ l h) as [h1| |]; reflexivity.
Qed.
Lemma pure_generate nd (dst : aref) h (k : callable V F S unit V) f out next s : generator k f out next ->
  generate_f nd k dst f (h, s) =
  (' (h', n) <- generate nd h dst (fun n => out (Nat.iter n next s)) ;; Ok (Gives tt (moved k f) (h', Nat.iter n next s))).
Proof.
  intros Hc. unfold generate_f, generate. destruct (values nd (r_shape dst) (r_base dst)) as [l| |]; cbn [bind]; [|reflexivity|reflexivity].
  unfold assign_each. rewrite captured_is.
  assert (Q : forall n h, call_each (fun f m p => assign_result k p tt f m) l f (h, Nat.iter n next s) =
    (' (h', n) <- foldM (fun st p => h' <- store (fst st) p (out (Nat.iter (snd st) next s)) ;; Ok (h', Datatypes.S (snd st))) l (h, n) ;;
     Ok (Gives tt f (h', Nat.iter n next s)))).
  { clear h. induction l as [|p l IH]; intros n h; cbn [call_each foldM bind]; [reflexivity|]. unfold assign_result at 1. rewrite const_result.
    destruct (Hc h (Nat.iter n next s)) as (f' & ->). cbn [in_outcome with_object bind fst snd].
    destruct (store h p (out (Nat.iter n next s))) as [h1| |]; cbn [bind]; auto. apply (IH (Datatypes.S n) h1). }
  specialize (Q 0%nat h). change (Nat.iter 0 next s) with s in Q. rewrite Q. destruct (foldM _ l (h, 0%nat)) as [[h1 n]| |]; reflexivity.
Qed.

(** ** Elements passed by reference *)

Lemma visit_loop b sh (k : callable V F S ptr unit) acc up g : injective_layout sh -> visits_each k acc up ->
  forall l h f s, NoDup l -> (forall i, In i l -> in_bounds sh i) -> (forall i, In i l -> holds h (elem b sh i) (g i)) ->
  exists h', call_each (call k) (map (elem b sh) l) f (h, s) =
      Ok (Gives tt (fst (fold_left acc (map g l) (f, s))) (h', snd (fold_left acc (map g l) (f, s)))) /\
    (forall n i, nth_error l n = Some i -> holds h' (elem b sh i) (up (fold_left acc (map g (firstn n l)) (f, s)) (g i))) /\
    only_changes (fun p => exists i, In i l /\ p = elem b sh i) h h'.
Proof.
  intros Hi Hk. induction l as [|i l IH]; intros h f s Hn Hl Hg; cbn [map call_each fold_left].
  - exists h. split; [reflexivity|]. split; [intros [|n] i E; discriminate|apply only_changes_refl].
  - destruct (Hk h (elem b sh i) (g i) f s) as (h1 & E1 & V1 & O1); [apply Hg; left; auto|]. rewrite E1. cbn [bind].
    apply NoDup_cons_iff in Hn. destruct Hn as [Ni Hn].
    assert (D : forall j, In j l -> elem b sh i <> elem b sh j).
    { intros j Hj E. apply Ni. replace i with j; auto. apply Hi; [apply Hl; right; auto|apply Hl; left; auto|]. unfold elem in E. injection E as E. lia. }
    destruct (IH h1 (fst (acc (f, s) (g i))) (snd (acc (f, s) (g i))) Hn) as (h2 & E2 & V2 & O2).
    { intros j Hj. apply Hl. right. auto. }
    { intros j Hj. unfold holds. rewrite (proj1 O1) by (apply D; auto). apply Hg. right. auto. }
    rewrite <- !surjective_pairing in E2. exists h2. split; [exact E2|]. split.
    + intros [|n] j Ej; cbn [nth_error] in Ej.
      * injection Ej as <-. cbn [firstn map fold_left]. unfold holds. rewrite (proj1 O2); [exact V1|]. intros (j & Hj & E). apply (D j Hj E).
      * cbn [firstn map fold_left]. specialize (V2 n j Ej). rewrite <- surjective_pairing in V2. exact V2.
    + eapply only_changes_trans.
      * eapply only_changes_more; [|exact O1]. intros p <-. exists i. split; [left; auto|auto].
      * eapply only_changes_more; [|exact O2]. intros p (j & Hj & ->). exists j. split; [right; auto|auto].
Qed.
Lemma visit_values nd (dst : aref) h g : extents_ge 0 (r_shape dst) -> injective_layout (r_shape dst) ->
  shows_elems h (r_base dst) (r_shape dst) g ->
  exists l, memory_order (r_shape dst) l /\
  forall (k : callable V F S ptr unit) acc up f s, visits_each k acc up ->
    exists h', for_each_value_f nd k dst f (h, s) =
        Ok (Gives tt (fst (fold_left acc (map g l) (f, s))) (h', snd (fold_left acc (map g l) (f, s)))) /\
      (forall n i, nth_error l n = Some i ->
        holds h' (elem (r_base dst) (r_shape dst) i) (up (fold_left acc (map g (firstn n l)) (f, s)) (g i))) /\
      only_changes (is_elem (r_base dst) (r_shape dst)) h h'.
Proof.
  intros Hs Hi Hg.
  assert (Ha : forall i, in_bounds (r_shape dst) i -> alive h (elem (r_base dst) (r_shape dst) i)) by (intros i Ii; exists (g i); apply Hg; auto).
  destruct (values_order nd (r_shape dst) (r_base dst) Hs (alive_base h _ _ _ Hs Ha)) as (l & Hl & El). exists l. split; [exact Hl|].
  intros k acc up f s Hk. unfold for_each_value_f. rewrite El. cbn [bind].
  destruct (visit_loop (r_base dst) (r_shape dst) k acc up g Hi Hk l h f s) as (h' & E & Hv & Ho); [apply Hl|intros i Ii; apply Hl; auto|intros i Ii; apply Hg, Hl; auto|].
  exists h'. split; [exact E|]. split; [exact Hv|]. eapply only_changes_more; [|exact Ho]. intros p (i & Ii & ->). exists i. split; [apply Hl; auto|auto].
Qed.
End Facts.
