(** Proofs about programs over several arrays: an invariant of the world, and what each
    operation does. *)
From Coq Require Import ZArith List Bool Lia Permutation Arith.
From Verif Require Import Base Interval Shape Memory Ref Container Spec SpecMem SpecContainer Tac
  ShapeFacts ResolveFacts MemFacts RefFacts SliceFacts ContainerFacts.
Import ListNotations.
Open Scope Z_scope.

(** [s'] is [s], or [s] with strides chosen *)
Definition refines (s' s : list dim) : Prop := s' = s \/ s' = resolve s.

Section World.
Context {V : Type}.
Variable c : config V.
Implicit Types w : world V.

Definition valid_arr (x : nat) (h : heap V) (a : arr) : Prop := valid c x h a.

Definition Inv w : Prop :=
  heap_ok (w_heap w) /\
  (forall x a, w_arr w x = Some a -> (x < w_next w)%nat /\ valid c x (w_heap w) a) /\
  (forall x y a b, x <> y -> w_arr w x = Some a -> w_arr w y = Some b -> apart a b) /\
  (forall k, h_blk (w_heap w) k <> None -> exists x a, w_arr w x = Some a /\ blk a = k).

Lemma inv_update w h' arr' n' X K K' : Inv w -> local (w_heap w) K h' K' -> (w_next w <= n')%nat ->
  (forall x, ~ In x X -> arr' x = w_arr w x) ->
  (forall k, In k K -> k = 0%nat \/ exists x a, In x X /\ w_arr w x = Some a /\ blk a = k) ->
  (forall x a, In x X -> w_arr w x = Some a -> blk a = 0%nat \/ In (blk a) K) ->
  (forall x a, In x X -> arr' x = Some a -> (x < n')%nat /\ valid c x h' a /\ (blk a = 0%nat \/ In (blk a) K')) ->
  (forall k, In k K' -> k = 0%nat \/ exists x a, In x X /\ arr' x = Some a /\ blk a = k) ->
  (forall x y a b, In x X -> In y X -> x <> y -> arr' x = Some a -> arr' y = Some b -> apart a b) ->
  Inv (mkW h' arr' n') /\ unchanged w (mkW h' arr' n') X.
Proof.
  intros [Hh [Hv [Hap Hb]]] Hl Hn Ho HK HX HX' HK' Hap'.
  assert (Hout : forall z a, ~ In z X -> w_arr w z = Some a ->
     valid c z h' a /\ (forall f, has (w_heap w) a f -> has h' a f) /\ (In (blk a) K' -> blk a = 0%nat)).
  { intros z a Hz Ea. destruct (Hv z a Ea) as [_ Hva].
    destruct (frame_local c _ z _ h' K K' a Hh Hl Hva) as [F1 [F2 [F3 _]]]; auto.
    intros I. destruct (HK _ I) as [?|[x [b [Ix [Eb E]]]]]; auto. apply (Hap z x a b); auto. intros ->; auto. }
  split.
  - split; [apply Hl|]. cbn [w_heap w_arr w_next]. split; [|split].
    + intros x a E. destruct (in_dec Nat.eq_dec x X) as [I|I].
      * destruct (HX' x a I E) as [? [? _]]; auto.
      * rewrite Ho in E by auto. split; [destruct (Hv x a E); lia|apply Hout; auto].
    + intros x y a b Hxy Ea Eb. destruct (in_dec Nat.eq_dec x X) as [I|I], (in_dec Nat.eq_dec y X) as [J|J].
      * apply (Hap' x y); auto.
      * rewrite Ho in Eb by auto. destruct (HX' x a I Ea) as [_ [_ [Z|Z]]]; [intros _; auto|].
        intros E. rewrite E in Z |- *. apply (Hout y b); auto.
      * rewrite Ho in Ea by auto. destruct (HX' y b J Eb) as [_ [_ [Z|Z]]]; [intros E; congruence|].
        intros E. rewrite <- E in Z. apply (Hout x a); auto.
      * rewrite Ho in Ea, Eb by auto. apply (Hap x y); auto.
    + intros k Hk. destruct (in_dec Nat.eq_dec k K') as [I|I].
      * destruct (HK' k I) as [->|[x [a [_ [E1 E2]]]]]; [|exists x, a; auto].
        exfalso. apply Hk. destruct Hl as [[_ [Z _]] _]. exact Z.
      * destruct (in_dec Nat.eq_dec k K) as [J|J].
        -- exfalso. apply Hk. destruct Hl as [_ [_ [_ [Z _]]]]. apply Z; auto.
        -- assert (Hk0 : h_blk (w_heap w) k <> None).
           { destruct Hl as [_ [_ [Z _]]]. rewrite <- Z by auto. auto. }
           destruct (Hb k Hk0) as [x [a [Ea Eb]]]. exists x, a. split; auto. rewrite Ho; auto.
           intros Ix. destruct (HX x a Ix Ea) as [Z|Z]; rewrite Eb in Z; [|auto].
           subst k. rewrite Z in Hk0. destruct Hh as [_ [Q _]]. auto.
  - intros z Hz. cbn [w_arr]. rewrite (Ho z Hz). split; auto.
    intros s f [a [Ea [Es Hf]]]. exists a. cbn [w_arr w_heap]. rewrite (Ho z Hz). split; auto. split; auto. subst s.
    apply (Hout z a); auto.
Qed.

Definition wadd w h' a' : world V := mkW h' (put (w_arr w) (w_next w) (Some a')) (S (w_next w)).
Definition wadd2 w y h' a' b' : world V := mkW h' (put (put (w_arr w) y (Some b')) (w_next w) (Some a')) (S (w_next w)).
Definition wput w x h' a' : world V := mkW h' (put (w_arr w) x (Some a')) (w_next w).
Definition wput2 w x y h' a' b' : world V := mkW h' (put (put (w_arr w) y (Some b')) x (Some a')) (w_next w).
Definition wdel w x h' : world V := mkW h' (put (w_arr w) x None) (w_next w).

Lemma put_same (g : nat -> option arr) x o : put g x o x = o.
Proof. unfold put. rewrite Nat.eqb_refl. auto. Qed.
Lemma put_other (g : nat -> option arr) x o z : z <> x -> put g x o z = g z.
Proof. unfold put. intros H. apply Nat.eqb_neq in H. rewrite H. auto. Qed.

Lemma fresh w : Inv w -> w_arr w (w_next w) = None.
Proof.
  intros [_ [H _]]. destruct (w_arr w (w_next w)) as [a|] eqn:E; auto. destruct (H _ _ E). lia.
Qed.

Lemma inv_add w h' a' : Inv w -> valid c (w_next w) h' a' -> local (w_heap w) [0%nat] h' [blk a'] ->
  Inv (wadd w h' a') /\ unchanged w (wadd w h' a') [w_next w].
Proof.
  intros Hw Hv Hl. apply (inv_update w _ _ _ [w_next w] [0%nat] [blk a']); auto.
  - intros x Hx. apply put_other. simpl in Hx. intuition.
  - intros k [<-|[]]. auto.
  - intros x a [<-|[]] E. rewrite fresh in E by auto. discriminate.
  - intros x a [<-|[]] E. rewrite put_same in E. inv E. split; [lia|]. split; auto. right; left; auto.
  - intros k [<-|[]]. right. exists (w_next w), a'. split; [left; auto|]. rewrite put_same. auto.
  - intros x y a b [<-|[]] [<-|[]]; congruence.
Qed.
Lemma inv_put w x a h' a' : Inv w -> w_arr w x = Some a -> valid c x h' a' -> local (w_heap w) [blk a] h' [blk a'] ->
  Inv (wput w x h' a') /\ unchanged w (wput w x h' a') [x].
Proof.
  intros Hw Ea Hv Hl. apply (inv_update w _ _ _ [x] [blk a] [blk a']); auto.
  - intros z Hz. apply put_other. simpl in Hz. intuition.
  - intros k [<-|[]]. right. exists x, a. simpl; auto.
  - intros z b [<-|[]] E. right. left. congruence.
  - intros z b [<-|[]] E. rewrite put_same in E. inv E. destruct Hw as [_ [H _]]. split; [apply (H _ _ Ea)|]. split; auto. right; left; auto.
  - intros k [<-|[]]. right. exists x, a'. split; [left; auto|]. rewrite put_same. auto.
  - intros z y d b [<-|[]] [<-|[]]; congruence.
Qed.
Lemma inv_del w x a h' a' : Inv w -> w_arr w x = Some a -> no_memory a' -> local (w_heap w) [blk a] h' [blk a'] ->
  Inv (wdel w x h') /\ unchanged w (wdel w x h') [x].
Proof.
  intros Hw Ea Hm Hl. apply (inv_update w _ _ _ [x] [blk a] [blk a']); auto.
  - intros z Hz. apply put_other. simpl in Hz. intuition.
  - intros k [<-|[]]. right. exists x, a. simpl; auto.
  - intros z b [<-|[]] E. right. left. congruence.
  - intros z b [<-|[]] E. rewrite put_same in E. discriminate.
  - intros k [<-|[]]. left. apply no_memory_blk; auto.
  - intros z y d b [<-|[]] [<-|[]]; congruence.
Qed.
Lemma inv_add2 w y b h' a' b' : Inv w -> w_arr w y = Some b -> valid c (w_next w) h' a' -> valid c y h' b' ->
  apart a' b' -> local (w_heap w) [0%nat; blk b] h' [blk a'; blk b'] ->
  Inv (wadd2 w y h' a' b') /\ unchanged w (wadd2 w y h' a' b') [w_next w; y].
Proof.
  intros Hw Eb Hv Hv' Hap Hl. pose proof (proj1 (proj2 Hw) _ _ Eb) as [Hy _].
  apply (inv_update w _ _ _ [w_next w; y] [0%nat; blk b] [blk a'; blk b']); auto.
  - intros z Hz. simpl in Hz. rewrite !put_other; intuition.
  - intros k [<-|[<-|[]]]; auto. right. exists y, b. simpl; auto.
  - intros z d [<-|[<-|[]]] E; [rewrite fresh in E by auto; discriminate|]. right. right. left. congruence.
  - intros z d [<-|[<-|[]]] E.
    + rewrite put_same in E. inv E. split; [lia|]. split; auto. right; left; auto.
    + rewrite put_other, put_same in E by lia. inv E. split; [lia|]. split; auto. right; right; left; auto.
  - intros k [<-|[<-|[]]]; right.
    + exists (w_next w), a'. split; [left; auto|]. rewrite put_same. auto.
    + exists y, b'. split; [right; left; auto|]. rewrite put_other, put_same by lia. auto.
  - intros z z' d e [<-|[<-|[]]] [<-|[<-|[]]] N E E'; try congruence.
    + rewrite put_same in E. rewrite put_other, put_same in E' by lia. inv E. inv E'. auto.
    + rewrite put_same in E'. rewrite put_other, put_same in E by lia. inv E. inv E'. apply apart_sym. auto.
Qed.
Lemma inv_put2 w x y a b h' a' b' : Inv w -> x <> y -> w_arr w x = Some a -> w_arr w y = Some b ->
  valid c x h' a' -> valid c y h' b' ->
  apart a' b' -> local (w_heap w) [blk a; blk b] h' [blk a'; blk b'] ->
  Inv (wput2 w x y h' a' b') /\ unchanged w (wput2 w x y h' a' b') [x; y].
Proof.
  intros Hw Hxy Ea Eb Hv Hv' Hap Hl. pose proof (proj1 (proj2 Hw) _ _ Eb) as [Hy _].
  pose proof (proj1 (proj2 Hw) _ _ Ea) as [Hx _].
  apply (inv_update w _ _ _ [x; y] [blk a; blk b] [blk a'; blk b']); auto.
  - intros z Hz. simpl in Hz. rewrite !put_other; intuition.
  - intros k [<-|[<-|[]]]; right; [exists x, a|exists y, b]; simpl; auto.
  - intros z d [<-|[<-|[]]] E; right; [left|right; left]; congruence.
  - intros z d [<-|[<-|[]]] E.
    + rewrite put_same in E. inv E. split; [lia|]. split; auto. right; left; auto.
    + rewrite put_other, put_same in E by auto. inv E. split; [lia|]. split; auto. right; right; left; auto.
  - intros k [<-|[<-|[]]]; right.
    + exists x, a'. split; [left; auto|]. rewrite put_same. auto.
    + exists y, b'. split; [right; left; auto|]. rewrite put_other, put_same by auto. auto.
  - intros z z' d e [<-|[<-|[]]] [<-|[<-|[]]] N E E'; try congruence.
    + rewrite put_same in E. rewrite put_other, put_same in E' by auto. inv E. inv E'. auto.
    + rewrite put_same in E'. rewrite put_other, put_same in E by auto. inv E. inv E'. apply apart_sym. auto.
Qed.

Lemma inv_ext h arr1 arr2 n : (forall z, arr1 z = arr2 z) -> Inv (mkW h arr1 n) -> Inv (mkW h arr2 n).
Proof.
  intros E [H1 [H2 [H3 H4]]]. split; [exact H1|]. cbn [w_heap w_arr w_next] in *. split; [|split].
  - intros x a. rewrite <- E. apply H2.
  - intros x y a b N. rewrite <- !E. apply H3; auto.
  - intros k Hk. destruct (H4 k Hk) as [x [a [E1 E2]]]. exists x, a. rewrite <- E. auto.
Qed.
Lemma unchanged_ext w h arr1 arr2 n X : (forall z, arr1 z = arr2 z) -> unchanged w (mkW h arr1 n) X -> unchanged w (mkW h arr2 n) X.
Proof.
  intros E H z Hz. destruct (H z Hz) as [H1 H2]. cbn [w_arr] in *. split; [rewrite <- E; auto|].
  intros s f D. destruct (H2 s f D) as [a [E1 E2]]. exists a. cbn [w_arr w_heap] in *. rewrite <- E. auto.
Qed.
Lemma put_id (g : nat -> option arr) x o z : g x = o -> put g x o z = g z.
Proof. intros E. unfold put. destruct (z =? x)%nat eqn:Ez; auto. apply Nat.eqb_eq in Ez. congruence. Qed.
Lemma inv_add_touch w y b h' a' : Inv w -> w_arr w y = Some b -> valid c (w_next w) h' a' -> valid c y h' b ->
  apart a' b -> local (w_heap w) [0%nat; blk b] h' [blk a'; blk b] ->
  Inv (wadd w h' a') /\ unchanged w (wadd w h' a') [w_next w; y].
Proof.
  intros Hw Eb H1 H2 H3 H4. destruct (inv_add2 w y b h' a' b) as [I U]; auto.
  assert (E : forall z, put (put (w_arr w) y (Some b)) (w_next w) (Some a') z = put (w_arr w) (w_next w) (Some a') z).
  { intros z. unfold put at 1 3. destruct (z =? w_next w)%nat; auto. apply put_id. auto. }
  split; [eapply inv_ext; eauto|eapply unchanged_ext; eauto].
Qed.
Lemma inv_put_touch w x y a b h' a' : Inv w -> x <> y -> w_arr w x = Some a -> w_arr w y = Some b ->
  valid c x h' a' -> valid c y h' b ->
  apart a' b -> local (w_heap w) [blk a; blk b] h' [blk a'; blk b] ->
  Inv (wput w x h' a') /\ unchanged w (wput w x h' a') [x; y].
Proof.
  intros Hw Hxy Ea Eb H1 H2 H3 H4. destruct (inv_put2 w x y a b h' a' b) as [I U]; auto.
  assert (E : forall z, put (put (w_arr w) y (Some b)) x (Some a') z = put (w_arr w) x (Some a') z).
  { intros z. unfold put at 1 3. destruct (z =? x)%nat; auto. apply put_id. auto. }
  split; [eapply inv_ext; eauto|eapply unchanged_ext; eauto].
Qed.
Lemma inv_write w x a h' : Inv w -> w_arr w x = Some a -> valid c x h' a -> local (w_heap w) [blk a] h' [blk a] ->
  Inv (mkW h' (w_arr w) (w_next w)) /\ unchanged w (mkW h' (w_arr w) (w_next w)) [x].
Proof.
  intros Hw Ea H1 H2. destruct (inv_put w x a h' a) as [I U]; auto.
  assert (E : forall z, put (w_arr w) x (Some a) z = w_arr w z) by (intros z; apply put_id; auto).
  split; [eapply inv_ext; eauto|eapply unchanged_ext; eauto].
Qed.
Lemma inv_two w x y a b h' : Inv w -> x <> y -> w_arr w x = Some a -> w_arr w y = Some b -> valid c x h' a -> valid c y h' b ->
  local (w_heap w) [blk a; blk b] h' [blk a; blk b] ->
  Inv (mkW h' (w_arr w) (w_next w)) /\ unchanged w (mkW h' (w_arr w) (w_next w)) [x; y].
Proof.
  intros Hw Hxy Ea Eb H1 H2 H3. destruct (inv_put2 w x y a b h' a b) as [I U]; auto.
  { destruct Hw as [_ [_ [Q _]]]. apply (Q x y); auto. }
  assert (E : forall z, put (put (w_arr w) y (Some b)) x (Some a) z = w_arr w z).
  { intros z. rewrite put_id; [apply put_id; auto|]. rewrite put_other; auto. }
  split; [eapply inv_ext; eauto|eapply unchanged_ext; eauto].
Qed.

Lemma get_ok w x a : w_arr w x = Some a -> get w x = Ok a.
Proof. unfold get. intros ->. auto. Qed.
Lemma inv_valid w x a : Inv w -> w_arr w x = Some a -> valid c x (w_heap w) a.
Proof. intros [_ [H _]] E. apply (H x a E). Qed.
Lemma inv_lt w x a : Inv w -> w_arr w x = Some a -> (x < w_next w)%nat.
Proof. intros [_ [H _]] E. apply (H x a E). Qed.
Lemma inv_apart w x y a b : Inv w -> x <> y -> w_arr w x = Some a -> w_arr w y = Some b -> apart a b.
Proof. intros [_ [_ [H _]]]. apply H. Qed.
Lemma inv_has w x a : Inv w -> w_arr w x = Some a -> exists f, has (w_heap w) a f.
Proof. intros H E. apply (valid_has c x). apply inv_valid; auto. Qed.
Lemma denotes_has w x a s f : denotes w x s f -> w_arr w x = Some a -> s = a_shape a /\ has (w_heap w) a f.
Proof. intros [a' [E [Es H]]] E'. rewrite E in E'. inv E'. auto. Qed.
Lemma has_denotes w x a f : w_arr w x = Some a -> has (w_heap w) a f -> denotes w x (a_shape a) f.
Proof. intros E H. exists a. auto. Qed.
Lemma unchanged_refl w X : unchanged w w X.
Proof. intros z Hz. auto. Qed.
Lemma unchanged_trans w w1 w2 X : unchanged w w1 X -> unchanged w1 w2 X -> unchanged w w2 X.
Proof.
  intros H G z Hz. destruct (H z Hz) as [H1 H2], (G z Hz) as [G1 G2]. split; [congruence|auto].
Qed.
Lemma unchanged_weaken w w' X Y : (forall z, In z X -> In z Y) -> unchanged w w' X -> unchanged w w' Y.
Proof. intros H G z Hz. apply G. auto. Qed.

Hypothesis Hf : fair c.

(** ** One operation *)

Lemma new_world w s al : Inv w -> shape_arg c s ->
  exists w', do_new c w s al = Ok w' /\ Inv w' /\ unchanged w w' [w_next w] /\ w_next w' = S (w_next w) /\
   denotes w' (w_next w) (resolve s) (fun _ => c_dv c) /\ exists a, w_arr w' (w_next w) = Some a /\ a_al a = al.
Proof.
  intros Hw Hs. unfold do_new, add.
  destruct (ctor_shape_spec c (w_next w) (w_heap w) al s) as [h' [a' [-> [Hv [Hh [Hl [Es Ea]]]]]]]; auto; [apply Hw|].
  cbn [bind]. destruct (inv_add w h' a') as [I U]; auto. exists (wadd w h' a'). split; auto. split; auto. split; auto. split; auto.
  split; [|exists a'; split; auto; apply put_same].
  rewrite <- Es. apply has_denotes; auto. apply put_same.
Qed.
Lemma new_value_world w s v al : Inv w -> shape_arg c s ->
  exists w', step c w (NewValue s v al) = Ok w' /\ Inv w' /\ unchanged w w' [w_next w] /\ w_next w' = S (w_next w) /\
   denotes w' (w_next w) (resolve s) (fun _ => v).
Proof.
  intros Hw Hs. cbn [step]. unfold add.
  destruct (ctor_value_spec c (w_next w) (w_heap w) al s v) as [h' [a' [-> [Hv [Hh [Hl [Es Ea]]]]]]]; auto; [apply Hf|apply Hw|].
  cbn [bind]. destruct (inv_add w h' a') as [I U]; auto. exists (wadd w h' a'). split; auto. split; auto. split; auto. split; auto.
  rewrite <- Es. apply has_denotes; auto. apply put_same.
Qed.

(** Results of functions that make or change one array from the contents of array [y] *)
Lemma copied_add w y b r (Q : arr -> Prop) : Inv w -> w_arr w y = Some b ->
  (forall f, has (w_heap w) b f -> exists h' a', r = Ok (h', a') /\ valid c (w_next w) h' a' /\ has h' a' f /\
     local (w_heap w) [0%nat] h' [blk a'] /\ Q a' /\ shape_from a' b) ->
  exists w', add w r = Ok w' /\ Inv w' /\ unchanged w w' [w_next w] /\ w_next w' = S (w_next w) /\
   (forall s f, denotes w y s f -> exists s', refines s' s /\ denotes w' (w_next w) s' f) /\
   exists a, w_arr w' (w_next w) = Some a /\ Q a.
Proof.
  intros Hw Eb Hall. destruct (inv_has w y b Hw Eb) as [f0 Hf0].
  destruct (Hall f0 Hf0) as [h' [a' [E [Hv [Hh [Hl [Eal Es]]]]]]]. unfold add. rewrite E. cbn [bind].
  destruct (inv_add w h' a') as [I U]; auto. exists (wadd w h' a'). split; auto. split; auto. split; auto. split; auto. split.
  - intros s f D. destruct (denotes_has w y b s f D Eb) as [-> Hff].
    destruct (Hall f Hff) as [h2 [a2 [E2 [_ [Hh2 _]]]]]. rewrite E in E2. inv E2.
    exists (a_shape a2). split; auto. apply has_denotes; auto. apply put_same.
  - exists a'. split; [apply put_same|]. auto.
Qed.
Lemma copied_put w x y a b r (Q : arr -> Prop) : Inv w -> w_arr w x = Some a -> w_arr w y = Some b ->
  (forall f, has (w_heap w) b f -> exists h' a', r = Ok (h', a') /\ valid c x h' a' /\ has h' a' f /\
     local (w_heap w) [blk a] h' [blk a'] /\ Q a' /\ shape_from a' b) ->
  exists w', change w x r = Ok w' /\ Inv w' /\ unchanged w w' [x] /\ w_next w' = w_next w /\
   (forall s f, denotes w y s f -> exists s', refines s' s /\ denotes w' x s' f) /\
   exists a, w_arr w' x = Some a /\ Q a.
Proof.
  intros Hw Ea Eb Hall. destruct (inv_has w y b Hw Eb) as [f0 Hf0].
  destruct (Hall f0 Hf0) as [h' [a' [E [Hv [Hh [Hl [Eal Es]]]]]]]. unfold change. rewrite E. cbn [bind].
  destruct (inv_put w x a h' a') as [I U]; auto. exists (wput w x h' a'). split; auto. split; auto. split; auto. split; auto. split.
  - intros s f D. destruct (denotes_has w y b s f D Eb) as [-> Hff].
    destruct (Hall f Hff) as [h2 [a2 [E2 [_ [Hh2 _]]]]]. rewrite E in E2. inv E2.
    exists (a_shape a2). split; auto. apply has_denotes; auto. apply put_same.
  - exists a'. split; [apply put_same|]. auto.
Qed.

Lemma new_copy_world w y b : Inv w -> w_arr w y = Some b -> copyable c b ->
  exists w', step c w (NewCopy y) = Ok w' /\ Inv w' /\ unchanged w w' [w_next w] /\ w_next w' = S (w_next w) /\
   (forall s f, denotes w y s f -> exists s', refines s' s /\ denotes w' (w_next w) s' f) /\
   exists a, w_arr w' (w_next w) = Some a /\ a_al a = c_select c (a_al b).
Proof.
  intros Hw Eb Hc. cbn [step]. rewrite (get_ok w y b Eb). cbn [bind].
  apply (copied_add w y b _ (fun a => a_al a = c_select c (a_al b))); auto.
  intros f Hff. apply (ctor_copy_spec c (w_next w) y); auto; [apply Hw|apply inv_valid; auto].
Qed.
Lemma new_copy_alloc_world w y b al : Inv w -> w_arr w y = Some b -> copyable c b ->
  exists w', step c w (NewCopyAlloc y al) = Ok w' /\ Inv w' /\ unchanged w w' [w_next w] /\ w_next w' = S (w_next w) /\
   (forall s f, denotes w y s f -> exists s', refines s' s /\ denotes w' (w_next w) s' f) /\
   exists a, w_arr w' (w_next w) = Some a /\ a_al a = al.
Proof.
  intros Hw Eb Hc. cbn [step]. rewrite (get_ok w y b Eb). cbn [bind].
  apply (copied_add w y b _ (fun a => a_al a = al)); auto.
  intros f Hff. apply (ctor_copy_alloc_spec c (w_next w) y); auto; [apply Hw|apply inv_valid; auto].
Qed.
Lemma copy_assign_world w x y a b : Inv w -> x <> y -> w_arr w x = Some a -> w_arr w y = Some b -> copyable c b ->
  exists w', step c w (CopyAssign x y) = Ok w' /\ Inv w' /\ unchanged w w' [x] /\ w_next w' = w_next w /\
   (forall s f, denotes w y s f -> exists s', refines s' s /\ denotes w' x s' f) /\
   exists a', w_arr w' x = Some a' /\
     a_al a' = (if c_pocca c then if ptr_eqb (a_base a) (a_base b) then a_al a else a_al b else a_al a).
Proof.
  intros Hw Hxy Ea Eb Hc. cbn [step]. rewrite (get_ok w y b Eb), (get_ok w x a Ea). cbn [bind].
  apply (copied_put w x y a b _ (fun a' => a_al a' = (if c_pocca c then if ptr_eqb (a_base a) (a_base b) then a_al a else a_al b else a_al a))); auto.
  intros f Hff. destruct (copy_assign_spec c x y (w_heap w) a b f) as [h' [a' [E [H1 [H2 [H3 [H4 H5]]]]]]]; auto;
    [apply Hw|apply inv_valid; auto|apply inv_valid; auto|apply (inv_apart w x y); auto|].
  exists h', a'. tauto.
Qed.
Lemma assign_copy_world w x y a b : Inv w -> x <> y -> w_arr w x = Some a -> w_arr w y = Some b -> copyable c b ->
  exists w', step c w (AssignCopy x y) = Ok w' /\ Inv w' /\ unchanged w w' [x] /\ w_next w' = w_next w /\
   (forall s f, denotes w y s f -> exists s', refines s' s /\ denotes w' x s' f) /\
   exists a', w_arr w' x = Some a' /\ a_al a' = a_al a.
Proof.
  intros Hw Hxy Ea Eb Hc. cbn [step]. rewrite (get_ok w y b Eb), (get_ok w x a Ea). cbn [bind].
  apply (copied_put w x y a b _ (fun a' => a_al a' = a_al a)); auto.
  intros f Hff. apply (assign_copy_spec c x y); auto;
    [apply Hw|apply inv_valid; auto|apply inv_valid; auto|apply (inv_apart w x y); auto].
Qed.

(** An operation of an array on itself changes nothing *)
Lemma inv_same w x a : Inv w -> w_arr w x = Some a ->
  Inv (wput w x (w_heap w) a) /\ unchanged w (wput w x (w_heap w) a) [].
Proof.
  intros Hw Ea.
  assert (E : forall z, w_arr w z = put (w_arr w) x (Some a) z) by (intros z; symmetry; apply put_id; auto).
  split.
  - apply (inv_ext _ (w_arr w)); auto.
  - apply (unchanged_ext w (w_heap w) (w_arr w) _ (w_next w)); [exact E|]. destruct w; apply unchanged_refl.
Qed.
Lemma inv_same2 w x a : Inv w -> w_arr w x = Some a ->
  Inv (wput2 w x x (w_heap w) a a) /\ unchanged w (wput2 w x x (w_heap w) a a) [].
Proof.
  intros Hw Ea.
  assert (E : forall z, w_arr w z = put (put (w_arr w) x (Some a)) x (Some a) z).
  { intros z. rewrite put_id; [symmetry; apply put_id; auto|apply put_same]. }
  split.
  - apply (inv_ext _ (w_arr w)); auto.
  - apply (unchanged_ext w (w_heap w) (w_arr w) _ (w_next w)); [exact E|]. destruct w; apply unchanged_refl.
Qed.
Lemma self_world w o x a : Inv w -> w_arr w x = Some a ->
  o = CopyAssign x x \/ o = AssignCopy x x \/ o = AssignMove x x \/ o = MoveAssign x x ->
  exists w', step c w o = Ok w' /\ Inv w' /\ unchanged w w' [] /\ w_next w' = w_next w /\ w_heap w' = w_heap w.
Proof.
  intros Hw Ea Ho. pose proof (inv_valid w x a Hw Ea) as Hv. destruct (inv_same w x a Hw Ea) as [I U].
  destruct Ho as [->|[->|[->| ->]]]; cbn [step]; unfold do_move_assign; rewrite ?(get_ok w x a Ea); cbn [bind].
  - rewrite copy_assign_self by auto. eexists. split; [reflexivity|]. auto.
  - rewrite assign_copy_self by auto. eexists. split; [reflexivity|]. auto.
  - rewrite assign_move_self by auto. eexists. split; [reflexivity|]. auto.
  - rewrite move_assign_self by auto. eexists. split; [reflexivity|]. destruct (inv_same2 w x a Hw Ea). auto.
Qed.

(** Moves *)
Definition taken w' y : Prop := exists b', w_arr w' y = Some b' /\ no_memory b' /\ a_shape b' = c_shape0 c.

Lemma moved_add w y b r (Q : heap V -> arr -> arr -> Prop) : Inv w -> w_arr w y = Some b ->
  (forall f, has (w_heap w) b f -> exists h' a' b', r = Ok (h', a', b') /\
     moved c (w_next w) y (w_heap w) [0%nat; blk b] b f h' a' b' /\ Q h' a' b') ->
  exists w', add2 w y r = Ok w' /\ Inv w' /\ unchanged w w' [w_next w; y] /\ w_next w' = S (w_next w) /\
   (forall s f, denotes w y s f -> exists s', refines s' s /\ denotes w' (w_next w) s' f) /\
   exists a' b', w_arr w' (w_next w) = Some a' /\ w_arr w' y = Some b' /\ Q (w_heap w') a' b'.
Proof.
  intros Hw Eb Hall. destruct (inv_has w y b Hw Eb) as [f0 Hf0]. pose proof (inv_lt w y b Hw Eb) as Hy.
  destruct (Hall f0 Hf0) as [h' [a' [b' [E [[Hv [Hh [Hv' [Hap [Hl Es]]]]] HQ]]]]]. unfold add2. rewrite E. cbn [bind].
  destruct (inv_add2 w y b h' a' b') as [I U]; auto. exists (wadd2 w y h' a' b'). split; auto. split; auto. split; auto. split; auto. split.
  - intros s f D. destruct (denotes_has w y b s f D Eb) as [-> Hff].
    destruct (Hall f Hff) as [h2 [a2 [b2 [E2 [[_ [Hh2 _]] _]]]]]. rewrite E in E2. inv E2.
    exists (a_shape a2). split; auto. apply has_denotes; auto. apply put_same.
  - exists a', b'. split; [apply put_same|]. split; auto. cbn [wadd2 w_arr]. rewrite put_other by lia. apply put_same.
Qed.
Lemma moved_put w x y a b r (Q : heap V -> arr -> arr -> Prop) : Inv w -> x <> y -> w_arr w x = Some a -> w_arr w y = Some b ->
  (forall f, has (w_heap w) b f -> exists h' a' b', r = Ok (h', a', b') /\
     moved c x y (w_heap w) [blk a; blk b] b f h' a' b' /\ Q h' a' b') ->
  exists w', change2 w x y r = Ok w' /\ Inv w' /\ unchanged w w' [x; y] /\ w_next w' = w_next w /\
   (forall s f, denotes w y s f -> exists s', refines s' s /\ denotes w' x s' f) /\
   exists a' b', w_arr w' x = Some a' /\ w_arr w' y = Some b' /\ Q (w_heap w') a' b'.
Proof.
  intros Hw Hxy Ea Eb Hall. destruct (inv_has w y b Hw Eb) as [f0 Hf0].
  destruct (Hall f0 Hf0) as [h' [a' [b' [E [[Hv [Hh [Hv' [Hap [Hl Es]]]]] HQ]]]]]. unfold change2. rewrite E. cbn [bind].
  destruct (inv_put2 w x y a b h' a' b') as [I U]; auto. exists (wput2 w x y h' a' b'). split; auto. split; auto. split; auto. split; auto. split.
  - intros s f D. destruct (denotes_has w y b s f D Eb) as [-> Hff].
    destruct (Hall f Hff) as [h2 [a2 [b2 [E2 [[_ [Hh2 _]] _]]]]]. rewrite E in E2. inv E2.
    exists (a_shape a2). split; auto. apply has_denotes; auto. apply put_same.
  - exists a', b'. split; [apply put_same|]. split; auto. cbn [wput2 w_arr]. rewrite put_other by auto. apply put_same.
Qed.


Lemma new_move_alloc_world w y b al : Inv w -> w_arr w y = Some b -> copyable c b ->
  exists w', step c w (NewMoveAlloc y al) = Ok w' /\ Inv w' /\ unchanged w w' [w_next w; y] /\ w_next w' = S (w_next w) /\
   (forall s f, denotes w y s f -> exists s', refines s' s /\ denotes w' (w_next w) s' f) /\
   exists a' b', w_arr w' (w_next w) = Some a' /\ w_arr w' y = Some b' /\
   (if negb (a_busy b) && (al =? a_al b)%nat
    then w_heap w' = w_heap w /\ no_memory b' /\ a_shape b' = c_shape0 c /\ a_shape a' = a_shape b /\ a_base a' = a_base b
    else b' = b /\ forall f, has (w_heap w) b f -> has (w_heap w') b (fun i => c_mv c (f i))).
Proof.
  intros Hw Eb Hc. cbn [step]. rewrite (get_ok w y b Eb). cbn [bind].
  apply (moved_add w y b _ (fun h' a' b' => if negb (a_busy b) && (al =? a_al b)%nat
    then h' = w_heap w /\ no_memory b' /\ a_shape b' = c_shape0 c /\ a_shape a' = a_shape b /\ a_base a' = a_base b
    else b' = b /\ forall f, has (w_heap w) b f -> has h' b (fun i => c_mv c (f i)))); auto.
  assert (Hall := fun f => ctor_move_alloc_spec c (w_next w) y (w_heap w) b f al Hf).
  assert (N : w_next w <> y) by (pose proof (inv_lt w y b Hw Eb); lia).
  intros f Hff. destruct (Hall f) as [h' [a' [b' [E [M T]]]]]; auto; [apply Hw|apply inv_valid; auto|].
  exists h', a', b'. split; auto. split; auto. destruct (_ && _); auto. destruct T as [T1 _]. split; auto.
  intros g Hg. destruct (Hall g) as [h2 [a2 [b2 [E2 [_ [_ G]]]]]]; auto; [apply Hw|apply inv_valid; auto|].
  rewrite E in E2. inv E2. auto.
Qed.
Lemma new_move_world w y b : Inv w -> w_arr w y = Some b -> copyable c b ->
  exists w', do_new_move c w y = Ok w' /\ Inv w' /\ unchanged w w' [w_next w; y] /\ w_next w' = S (w_next w) /\
   (forall s f, denotes w y s f -> exists s', refines s' s /\ denotes w' (w_next w) s' f) /\
   exists a' b', w_arr w' (w_next w) = Some a' /\ w_arr w' y = Some b' /\
   (if c_pocma c || (negb (a_busy b) && (c_default c =? a_al b)%nat)
    then w_heap w' = w_heap w /\ no_memory b' /\ a_shape b' = c_shape0 c /\ a_shape a' = a_shape b /\ a_base a' = a_base b
    else b' = b /\ forall f, has (w_heap w) b f -> has (w_heap w') b (fun i => c_mv c (f i))).
Proof.
  intros Hw Eb Hc. unfold do_new_move. rewrite (get_ok w y b Eb). cbn [bind].
  apply (moved_add w y b _ (fun h' a' b' => if c_pocma c || (negb (a_busy b) && (c_default c =? a_al b)%nat)
    then h' = w_heap w /\ no_memory b' /\ a_shape b' = c_shape0 c /\ a_shape a' = a_shape b /\ a_base a' = a_base b
    else b' = b /\ forall f, has (w_heap w) b f -> has h' b (fun i => c_mv c (f i)))); auto.
  assert (Hall := fun f => ctor_move_spec c (w_next w) y (w_heap w) b f Hf).
  assert (N : w_next w <> y) by (pose proof (inv_lt w y b Hw Eb); lia).
  intros f Hff. destruct (Hall f) as [h' [a' [b' [E [M T]]]]]; auto; [apply Hw|apply inv_valid; auto|].
  exists h', a', b'. split; auto. split; auto. destruct (_ || _); auto. destruct T as [T1 _]. split; auto.
  intros g Hg. destruct (Hall g) as [h2 [a2 [b2 [E2 [_ [_ G]]]]]]; auto; [apply Hw|apply inv_valid; auto|].
  rewrite E in E2. inv E2. auto.
Qed.
Lemma move_assign_world w x y a b : Inv w -> x <> y -> w_arr w x = Some a -> w_arr w y = Some b -> copyable c b ->
  exists w', do_move_assign c w x y = Ok w' /\ Inv w' /\ unchanged w w' [x; y] /\ w_next w' = w_next w /\
   (forall s f, denotes w y s f -> exists s', refines s' s /\ denotes w' x s' f) /\
   exists a' b', w_arr w' x = Some a' /\ w_arr w' y = Some b' /\
   (if c_pocma c || negb (a_busy a || a_busy b) && (a_al a =? a_al b)%nat
    then w_heap w' = w_heap w /\ a_shape a' = a_shape b /\ a_base a' = a_base b /\ a_shape b' = a_shape a /\ a_base b' = a_base a
    else (b' = b /\ forall f, has (w_heap w) b f -> has (w_heap w') b (fun i => c_mv c (f i))) \/ (no_memory b /\ no_memory b')).
Proof.
  intros Hw Hxy Ea Eb Hc. unfold do_move_assign. rewrite (get_ok w y b Eb), (get_ok w x a Ea). cbn [bind].
  apply (moved_put w x y a b _ (fun h' a' b' => if c_pocma c || negb (a_busy a || a_busy b) && (a_al a =? a_al b)%nat
    then h' = w_heap w /\ a_shape a' = a_shape b /\ a_base a' = a_base b /\ a_shape b' = a_shape a /\ a_base b' = a_base a
    else (b' = b /\ forall f, has (w_heap w) b f -> has h' b (fun i => c_mv c (f i))) \/ (no_memory b /\ no_memory b'))); auto.
  assert (Hall := fun f => move_assign_spec c x y (w_heap w) a b f Hf).
  intros f Hff. destruct (Hall f) as [h' [a' [b' [E [M T]]]]]; auto; [apply Hw|apply inv_valid; auto|apply inv_valid; auto|apply (inv_apart w x y); auto|].
  exists h', a', b'. split; auto. split; auto. destruct (_ || _); auto. destruct T as [[T1 _]|T]; auto. left. split; auto.
  intros g Hg. destruct (Hall g) as [h2 [a2 [b2 [E2 [_ G]]]]]; auto; [apply Hw|apply inv_valid; auto|apply inv_valid; auto|apply (inv_apart w x y); auto|].
  rewrite E in E2. inv E2. destruct G as [[_ G]|[G1 G2]]; auto. apply (no_memory_has c y); auto. apply M.
Qed.

(** Element-wise moves *)
Lemma assign_move_world w x y a b : Inv w -> x <> y -> w_arr w x = Some a -> w_arr w y = Some b -> copyable c b ->
  exists w', step c w (AssignMove x y) = Ok w' /\ Inv w' /\ unchanged w w' [x; y] /\ w_next w' = w_next w /\
   w_arr w' y = Some b /\
   (forall s f, denotes w y s f -> (exists s', refines s' s /\ denotes w' x s' f) /\ denotes w' y s (fun i => c_mv c (f i))).
Proof.
  intros Hw Hxy Ea Eb Hc. cbn [step]. rewrite (get_ok w y b Eb), (get_ok w x a Ea). cbn [bind].
  assert (Hall := fun f => assign_move_spec c x y (w_heap w) a b f Hf).
  destruct (inv_has w y b Hw Eb) as [f0 Hf0].
  destruct (Hall f0) as [h' [a' [E [V1 [H1 [V2 [H2 [Ap [L [Al Sf]]]]]]]]]]; auto;
    [apply Hw|apply inv_valid; auto|apply inv_valid; auto|apply (inv_apart w x y); auto|].
  unfold change. rewrite E. cbn [bind]. destruct (inv_put_touch w x y a b h' a') as [I U]; auto.
  exists (wput w x h' a'). split; auto. split; auto. split; auto. split; auto.
  assert (Ey : put (w_arr w) x (Some a') y = Some b) by (rewrite put_other; auto). split; auto.
  intros s f D. destruct (denotes_has w y b s f D Eb) as [-> Hff].
  destruct (Hall f) as [h2 [a2 [E2 [_ [G1 [_ [G2 _]]]]]]]; auto;
    [apply Hw|apply inv_valid; auto|apply inv_valid; auto|apply (inv_apart w x y); auto|].
  rewrite E in E2. inv E2. split.
  - exists (a_shape a2). split; auto. apply has_denotes; auto. apply put_same.
  - apply has_denotes; auto.
Qed.
Lemma make_copy_world w y b s al : Inv w -> w_arr w y = Some b -> shape_arg c s -> within (resolve s) (a_shape b) ->
  exists w', step c w (MakeCopy y s al) = Ok w' /\ Inv w' /\ unchanged w w' [w_next w] /\ w_next w' = S (w_next w) /\
   (forall f, denotes w y (a_shape b) f -> denotes w' (w_next w) (resolve s) f).
Proof.
  intros Hw Eb Hs Hwi. cbn [step]. rewrite (get_ok w y b Eb). cbn [bind].
  assert (Hall := fun f => make_copy_spec c (w_next w) y (w_heap w) b f s al).
  destruct (inv_has w y b Hw Eb) as [f0 Hf0].
  destruct (Hall f0) as [h' [a' [E [V1 [H1 [L [Es Ea]]]]]]]; auto; [apply Hw|apply inv_valid; auto|].
  unfold add. rewrite E. cbn [bind]. destruct (inv_add w h' a') as [I U]; auto.
  exists (wadd w h' a'). split; auto. split; auto. split; auto. split; auto.
  intros f D. destruct (denotes_has w y b _ f D Eb) as [_ Hff].
  destruct (Hall f) as [h2 [a2 [E2 [_ [G1 _]]]]]; auto; [apply Hw|apply inv_valid; auto|].
  rewrite E in E2. inv E2. rewrite <- Es. apply has_denotes; auto. apply put_same.
Qed.
Lemma make_move_world w y b s al : Inv w -> w_arr w y = Some b -> shape_arg c s -> within (resolve s) (a_shape b) ->
  exists w', step c w (MakeMove y s al) = Ok w' /\ Inv w' /\ unchanged w w' [w_next w; y] /\ w_next w' = S (w_next w) /\
   (forall f, denotes w y (a_shape b) f -> denotes w' (w_next w) (resolve s) f /\
      exists g, denotes w' y (a_shape b) g /\ (forall i, ~ in_bounds s i -> g i = f i) /\ (forall i, in_bounds s i -> g i = c_mv c (f i))).
Proof.
  intros Hw Eb Hs Hwi. cbn [step]. rewrite (get_ok w y b Eb). cbn [bind].
  assert (Hall := fun f => make_move_spec c (w_next w) y (w_heap w) b f s al).
  destruct (inv_has w y b Hw Eb) as [f0 Hf0].
  destruct (Hall f0) as [h' [a' [g0 [E [V1 [H1 [V2 [_ [_ [_ [Ap [L [Es Ea]]]]]]]]]]]]]; auto; [apply Hw|apply inv_valid; auto|].
  unfold add. rewrite E. cbn [bind]. destruct (inv_add_touch w y b h' a') as [I U]; auto.
  exists (wadd w h' a'). split; auto. split; auto. split; auto. split; auto.
  intros f D. destruct (denotes_has w y b _ f D Eb) as [_ Hff].
  destruct (Hall f) as [h2 [a2 [g [E2 [_ [G1 [_ [G2 [G3 [G4 _]]]]]]]]]]; auto; [apply Hw|apply inv_valid; auto|].
  rewrite E in E2. inv E2. split.
  - rewrite <- Es. apply has_denotes; auto. apply put_same.
  - exists g. split; auto. apply has_denotes; auto. cbn [wadd w_arr]. rewrite put_other; auto.
    pose proof (inv_lt w y b Hw Eb). lia.
Qed.

(** Operations on one array *)
Lemma assign_value_world w x a s v : Inv w -> w_arr w x = Some a -> shape_arg c s ->
  exists w', step c w (AssignValue x s v) = Ok w' /\ Inv w' /\ unchanged w w' [x] /\ w_next w' = w_next w /\
   denotes w' x (resolve s) (fun _ => v) /\ exists a', w_arr w' x = Some a' /\ a_al a' = a_al a.
Proof.
  intros Hw Ea Hs. cbn [step]. rewrite (get_ok w x a Ea). cbn [bind].
  destruct (assign_value_spec c x (w_heap w) a s v) as [h' [a' [E [V1 [H1 [L [Es Eal]]]]]]]; auto; [apply Hw|apply inv_valid; auto|].
  unfold change. rewrite E. cbn [bind]. destruct (inv_put w x a h' a') as [I U]; auto.
  exists (wput w x h' a'). split; auto. split; auto. split; auto. split; auto. split.
  - rewrite <- Es. apply has_denotes; auto. apply put_same.
  - exists a'. split; auto. apply put_same.
Qed.
Lemma clear_world w x a : Inv w -> w_arr w x = Some a ->
  exists w', step c w (Clear x) = Ok w' /\ Inv w' /\ unchanged w w' [x] /\ w_next w' = w_next w /\
   exists a', w_arr w' x = Some a' /\ a_al a' = a_al a /\ a_shape a' = resolve (c_shape0 c).
Proof.
  intros Hw Ea. cbn [step]. rewrite (get_ok w x a Ea). cbn [bind].
  destruct (clear_spec c x (w_heap w) a) as [h' [a' [E [V1 [L [Es Eal]]]]]]; auto; [apply Hw|apply inv_valid; auto|].
  unfold change. rewrite E. cbn [bind]. destruct (inv_put w x a h' a') as [I U]; auto.
  exists (wput w x h' a'). split; auto. split; auto. split; auto. split; auto.
  exists a'. split; auto. apply put_same.
Qed.
Lemma delete_world w x a : Inv w -> w_arr w x = Some a ->
  exists w', do_delete c w x = Ok w' /\ Inv w' /\ unchanged w w' [x] /\ w_next w' = w_next w /\ w_arr w' x = None.
Proof.
  intros Hw Ea. unfold do_delete. rewrite (get_ok w x a Ea). cbn [bind].
  destruct (deallocate_spec c x (w_heap w) a) as [h' [a' [E [V1 [M [L _]]]]]]; auto; [apply Hw|apply inv_valid; auto|].
  rewrite E. cbn [bind]. destruct (inv_del w x a h' a') as [I U]; auto.
  exists (wdel w x h'). split; auto. split; auto. split; auto. split; auto. apply put_same.
Qed.
Lemma write_world w x a i v : Inv w -> w_arr w x = Some a -> in_bounds (a_shape a) i ->
  exists w', step c w (Write x i v) = Ok w' /\ Inv w' /\ unchanged w w' [x] /\ w_next w' = w_next w /\ w_arr w' = w_arr w /\
   (forall f, denotes w x (a_shape a) f -> exists g, denotes w' x (a_shape a) g /\ g i = v /\ forall j, j <> i -> g j = f j).
Proof.
  intros Hw Ea Hi. cbn [step]. rewrite (get_ok w x a Ea). cbn [bind].
  pose proof (inv_valid w x a Hw Ea) as Hv. destruct (inv_has w x a Hw Ea) as [f0 Hf0].
  assert (Ep : ref_ptr (aref_of a) i = elem (a_base a) (a_shape a) i).
  { destruct (repr_base _ _ _ _ _ Hv) as [Hn|Hn]; [|destruct (Hn i Hi)].
    apply elem_ref; auto. }
  assert (Hsp := fun f (Hff : has (w_heap w) a f) => store_spec c x (w_heap w) a i v f (proj1 Hw) Hv Hff Hi).
  destruct (Hsp f0 Hf0) as [h' [E [V1 [H1 L]]]]. rewrite Ep, E. cbn [bind].
  destruct (inv_write w x a h') as [I U]; auto. eexists. split; [reflexivity|]. split; auto. split; auto. split; auto. split; auto.
  intros f D. destruct (denotes_has w x a _ f D Ea) as [_ Hff].
  destruct (Hsp f Hff) as [h2 [E2 [_ [G _]]]]. rewrite E in E2. inv E2.
  eexists. split; [apply has_denotes; [exact Ea|exact G]|]. cbv beta. split.
  - destruct (idx_dec i i); congruence.
  - intros j Hj. destruct (idx_dec j i); congruence.
Qed.

(** ** swap and reshape *)

Lemma refines_copyable b a : shape_arg c (a_shape b) -> refines (a_shape a) (a_shape b) -> copyable c b -> copyable c a.
Proof.
  intros Hs [E|E] [H|H]; unfold copyable; auto; right; rewrite E; auto. apply Hs.
Qed.
Lemma refines_trans s1 s2 s3 : shape_arg c s1 -> refines s2 s1 -> refines s3 s2 -> refines s3 s1.
Proof.
  intros Hs [->| ->] [->| ->]; unfold refines; auto. right. apply resolve_known. apply Hs.
Qed.
Lemma unchanged_temp w w' X : Inv w -> w_arr w' (w_next w) = None -> unchanged w w' (w_next w :: X) -> unchanged w w' X.
Proof.
  intros Hw E H z Hz. destruct (Nat.eq_dec z (w_next w)) as [->|N].
  - rewrite E, (fresh w Hw). split; auto. intros s f [a [Ea _]]. rewrite (fresh w Hw) in Ea. discriminate.
  - apply H. intros [G|G]; auto.
Qed.
Lemma inv_denotes w x a : Inv w -> w_arr w x = Some a -> exists f, denotes w x (a_shape a) f.
Proof. intros Hw Ea. destruct (inv_has w x a Hw Ea) as [f H]. exists f. apply has_denotes; auto. Qed.
Lemma inv_shape w x a : Inv w -> w_arr w x = Some a -> shape_arg c (a_shape a).
Proof. intros Hw Ea. apply (inv_valid w x a Hw Ea). Qed.

Lemma swap_world w x y a b : Inv w -> w_arr w x = Some a -> w_arr w y = Some b -> copyable c a -> copyable c b ->
  exists w', do_swap c w x y = Ok w' /\ Inv w' /\ unchanged w w' [x; y] /\ exists_arr w' x /\ exists_arr w' y /\
   (forall s f, denotes w x s f -> exists s', refines s' s /\ denotes w' y s' f) /\
   (forall s f, denotes w y s f -> exists s', refines s' s /\ denotes w' x s' f).
Proof.
  intros Hw Ea Eb Ca Cb. unfold do_swap. destruct (c_pocs c) eqn:Ep.
  - rewrite (get_ok w x a Ea), (get_ok w y b Eb). cbn [bind].
    assert (Hbz : forall z b0, w_arr w z = Some b0 -> a_busy b0 = false).
    { intros z b0 Hv. apply (not_busy c z (w_heap w)); [apply inv_valid; auto|].
      destruct Hf as [_ [_ [_ [Hc|[_ [_ Hc]]]]]]; [auto|congruence]. }
    unfold swap_allocators. rewrite swap_takes by (cbn [set_al a_busy]; eauto). cbn [set_al a_al].
    change (takes (a_al b) (set_al b (a_al a))) with (takes (a_al b) b).
    change (takes (a_al a) (set_al a (a_al b))) with (takes (a_al a) a).
    unfold change2. cbn [bind]. eexists. split; [reflexivity|].
    destruct (Nat.eq_dec x y) as [<-|N].
    + rewrite Ea in Eb. inv Eb.
      assert (Et : takes (a_al b) b = b) by (destruct b; unfold takes; pose proof (Hbz _ _ Ea) as Q; cbn in *; congruence).
      rewrite Et. destruct (inv_same2 w x b Hw Ea) as [I U]. split; auto.
      split; [apply (unchanged_weaken _ _ []); [intros z []|auto]|].
      assert (Ex : put (put (w_arr w) x (Some b)) x (Some b) x = Some b) by apply put_same.
      split; [exists b; auto|]. split; [exists b; auto|].
      split; intros s f D; exists s; split; try (left; reflexivity); apply U; auto.
    + destruct (inv_put2 w x y a b (w_heap w) (takes (a_al b) b) (takes (a_al a) a)) as [I U]; auto.
      { apply (takes_valid c x y); eauto. apply inv_valid; auto. }
      { apply (takes_valid c y x); eauto. apply inv_valid; auto. }
      { apply (takes_apart _ _ a b). apply (inv_apart w x y); auto. }
      { apply (local_perm (w_heap w) [blk a; blk b] (w_heap w) [blk a; blk b]); [tauto| |apply local_refl; apply Hw].
        intros k. simpl. unfold blk. simpl. tauto. }
      split; auto. split; auto.
      assert (Ex : put (put (w_arr w) y (Some (takes (a_al a) a))) x (Some (takes (a_al b) b)) x = Some (takes (a_al b) b)) by apply put_same.
      assert (Ey : put (put (w_arr w) y (Some (takes (a_al a) a))) x (Some (takes (a_al b) b)) y = Some (takes (a_al a) a))
        by (rewrite put_other; [apply put_same|auto]).
      split; [eexists; exact Ex|]. split; [eexists; exact Ey|].
      split; intros s f D; exists s; (split; [left; reflexivity|]).
      * destruct (denotes_has w x a s f D Ea) as [-> Hh]. eexists. split; [exact Ey|]. auto.
      * destruct (denotes_has w y b s f D Eb) as [-> Hh]. eexists. split; [exact Ex|]. auto.
  - set (n := w_next w). pose proof (inv_lt w x a Hw Ea) as Lx. pose proof (inv_lt w y b Hw Eb) as Ly.
    destruct (new_move_world w y b Hw Eb Cb) as [w1 [-> [I1 [U1 [N1 [M1 [t [b1 [Et [Eb1 _]]]]]]]]]]. cbn [bind].
    fold n in Et, U1, N1, M1, Lx, Ly. destruct (inv_denotes w y b Hw Eb) as [fb Db].
    assert (Ht : refines (a_shape t) (a_shape b)).
    { destruct (M1 _ _ Db) as [s' [R D]]. destruct (denotes_has _ _ _ _ _ D Et) as [-> _]. auto. }
    pose proof (refines_copyable b t (inv_shape w y b Hw Eb) Ht Cb) as Ct.
    destruct (Nat.eq_dec x y) as [<-|N].
    + rewrite Ea in Eb. inv Eb.
      destruct (self_world w1 (MoveAssign x x) x b1 I1 Eb1) as [w2 [E2 [I2 [U2 [N2 _]]]]]; auto.
      cbn [step] in E2. rewrite E2. cbn [bind].
      destruct (U2 n) as [T1 T2]; [intros []|]. destruct (U2 x) as [X1 _]; [intros []|].
      destruct (move_assign_world w2 x n b1 t) as [w3 [-> [I3 [U3 [N3 [M3 [a3 [t3 [Ea3 [Et3 _]]]]]]]]]]; auto; [lia|congruence|congruence|].
      cbn [bind]. destruct (delete_world w3 n t3 I3 Et3) as [w4 [-> [I4 [U4 [N4 E4]]]]].
      exists w4. split; auto. split; auto. split.
      { apply (unchanged_temp w); auto. apply (unchanged_weaken _ _ [n; x]); [simpl; tauto|].
        eapply unchanged_trans; [exact U1|]. eapply unchanged_trans; [apply (unchanged_weaken _ _ []); [intros z []|exact U2]|].
        eapply unchanged_trans; [apply (unchanged_weaken _ _ [x; n]); [simpl; tauto|exact U3]|].
        apply (unchanged_weaken _ _ [n]); [simpl; tauto|exact U4]. }
      destruct (U4 x) as [Q1 Q2]; [simpl; intuition lia|].
      split; [exists a3; congruence|]. split; [exists a3; congruence|].
      assert (G : forall s f, denotes w x s f -> exists s', refines s' s /\ denotes w4 x s' f).
      { intros s f D. destruct (denotes_has _ _ _ _ _ D Ea) as [-> _].
        destruct (M1 _ _ D) as [s1 [R1 D1]]. destruct (M3 _ _ (T2 _ _ D1)) as [s3 [R3 D3]].
        exists s3. split; auto. eapply refines_trans; eauto. apply (inv_shape w x); auto. }
      auto.
    + destruct (U1 x) as [X1 X2]; [simpl; intuition lia|].
      destruct (move_assign_world w1 y x b1 a) as [w2 [-> [I2 [U2 [N2 [M2 [b2 [a2 [Eb2 [Ea2 _]]]]]]]]]]; auto; [congruence|].
      cbn [bind]. destruct (U2 n) as [T1 T2]; [simpl; intuition lia|].
      destruct (move_assign_world w2 x n a2 t) as [w3 [-> [I3 [U3 [N3 [M3 [a3 [t3 [Ea3 [Et3 _]]]]]]]]]]; auto; [lia|congruence|].
      cbn [bind]. destruct (delete_world w3 n t3 I3 Et3) as [w4 [-> [I4 [U4 [N4 E4]]]]].
      exists w4. split; auto. split; auto. split.
      { apply (unchanged_temp w); auto.
        eapply unchanged_trans; [apply (unchanged_weaken _ _ [n; y]); [simpl; tauto|exact U1]|].
        eapply unchanged_trans; [apply (unchanged_weaken _ _ [y; x]); [simpl; tauto|exact U2]|].
        eapply unchanged_trans; [apply (unchanged_weaken _ _ [x; n]); [simpl; tauto|exact U3]|].
        apply (unchanged_weaken _ _ [n]); [simpl; tauto|exact U4]. }
      destruct (U4 x) as [Q1 Q2]; [simpl; intuition lia|].
      destruct (U4 y) as [P1 P2]; [simpl; intuition lia|].
      destruct (U3 y) as [P3 P4]; [simpl; intuition lia|].
      split; [exists a3; congruence|]. split; [exists b2; congruence|]. split.
      * intros s f D. destruct (M2 _ _ (X2 _ _ D)) as [s2 [R2 D2]]. exists s2. split; auto.
      * intros s f D. destruct (denotes_has _ _ _ _ _ D Eb) as [-> _].
        destruct (M1 _ _ D) as [s1 [R1 D1]]. destruct (M3 _ _ (T2 _ _ D1)) as [s3 [R3 D3]].
        exists s3. split; auto. eapply refines_trans; eauto. apply (inv_shape w y); auto.
Qed.

Lemma reshape_world w x a s : Inv w -> w_arr w x = Some a -> shape_arg c s -> Forall2 meets s (a_shape a) ->
  exists w', do_reshape c w x s = Ok w' /\ Inv w' /\ unchanged w w' [x] /\
   (forall f, denotes w x (a_shape a) f -> exists g, denotes w' x (resolve s) g /\
      (forall i, in_bounds (a_shape a) i -> in_bounds s i -> g i = f i) /\
      (forall i, ~ in_bounds (a_shape a) i -> in_bounds s i -> g i = c_dv c)).
Proof.
  intros Hw Ea Hs Hm. unfold do_reshape. rewrite (get_ok w x a Ea). cbn [bind].
  destruct (shape_eqb (a_shape a) (resolve s)) eqn:E.
  - apply shape_eqb_eq in E. exists w. split; auto. split; auto. split; [apply unchanged_refl|].
    intros f D. rewrite E in D. exists f. split; auto. split; auto. intros i H1 H2. exfalso. apply H1. rewrite E.
    apply resolve_in_bounds; auto.
  - set (n := w_next w). pose proof (inv_lt w x a Hw Ea) as Lx. fold n in Lx.
    assert (Hk : known_strides (resolve s)) by apply Hs.
    assert (Hrr : resolve (resolve s) = resolve s) by (apply resolve_known; auto).
    assert (Hs2 : shape_arg c (resolve s)).
    { destruct Hs as [H1 H2]. split; [rewrite resolve_length; auto|]. rewrite Hrr. auto. }
    destruct (new_world w (resolve s) (c_default c) Hw Hs2) as [w1 [-> [I1 [U1 [N1 [D1 [b [Eb Eal]]]]]]]]. cbn [bind].
    fold n in U1, N1, D1, Eb. rewrite (get_ok w1 n b Eb). cbn [bind]. rewrite Hrr in D1.
    destruct (denotes_has _ _ _ _ _ D1 Eb) as [Es Hb]. destruct (U1 x) as [X1 X2]; [simpl; intuition lia|].
    rewrite Ea in X1.
    assert (Hap : apart a b) by (apply (inv_apart w1 x n); auto; lia).
    assert (Hm' : Forall2 meets (a_shape b) (a_shape a)) by (rewrite <- Es; apply meets_resolve; auto).
    assert (Hall := fun f Hff => move_common_spec c x n (w_heap w1) a b f (fun _ => c_dv c) (proj1 I1)
       (inv_valid w1 x a I1 X1) (inv_valid w1 n b I1 Eb) Hff Hb Hap Hm').
    destruct (inv_has w1 x a I1 X1) as [f0 Hf0].
    destruct (Hall f0 Hf0) as [h2 [g0 [E2 [V1 [V2 [_ [_ [_ L2]]]]]]]]. rewrite Es, E2. cbn [bind].
    destruct (inv_two w1 x n a b h2) as [I2 U2]; auto; [lia|].
    set (w2 := mkW h2 (w_arr w1) (w_next w1)) in *.
    assert (Cb : copyable c b) by (right; rewrite <- Es; auto).
    destruct (move_assign_world w2 x n a b) as [w3 [-> [I3 [U3 [N3 [M3 [a3 [b3 [Ea3 [Eb3 _]]]]]]]]]]; auto; [lia|].
    cbn [bind]. destruct (delete_world w3 n b3 I3 Eb3) as [w4 [-> [I4 [U4 [N4 E4]]]]].
    exists w4. split; auto. split; auto. split.
    { apply (unchanged_temp w); auto. fold n.
      eapply unchanged_trans; [apply (unchanged_weaken _ _ [n]); [simpl; tauto|exact U1]|].
      eapply unchanged_trans; [apply (unchanged_weaken _ _ [x; n]); [simpl; tauto|exact U2]|].
      eapply unchanged_trans; [apply (unchanged_weaken _ _ [x; n]); [simpl; tauto|exact U3]|].
      apply (unchanged_weaken _ _ [n]); [simpl; tauto|exact U4]. }
    intros f D. destruct (denotes_has _ _ _ _ _ (X2 _ _ D) X1) as [_ Hff].
    destruct (Hall f Hff) as [h2' [g [E2' [_ [_ [G1 [G2 [G3 _]]]]]]]]. rewrite E2 in E2'. inv E2'.
    assert (Dg : denotes w2 n (a_shape b) g) by (apply has_denotes; auto).
    destruct (M3 _ _ Dg) as [s3 [R3 D3]].
    assert (s3 = resolve s) by (rewrite <- Es in R3; destruct R3; congruence). subst s3.
    destruct (U4 x) as [_ Q2]; [simpl; intuition lia|]. rewrite <- Es.
    exists g. split; auto. rewrite <- Es in G2. split; [intros i H1 H2; apply G2; auto; apply resolve_in_bounds; auto|].
    intros i H1 H2. apply G3; auto.
Qed.

(** ** Programs *)

Lemma inv_empty : Inv empty_world.
Proof.
  split; [split; [auto|split; auto]|]. split; [intros x a E; discriminate|]. split; [intros x y a b _ E; discriminate|].
  intros k Hk. cbn in Hk. congruence.
Qed.
Lemma step_ok w o : Inv w -> legal_op c w o -> exists w', step c w o = Ok w' /\ Inv w'.
Proof.
  intros Hw. destruct o; cbn [legal_op]; intros L.
  - destruct (new_world w s al Hw L) as [w' [E [I _]]]; eauto.
  - destruct (new_value_world w s v al Hw L) as [w' [E [I _]]]; eauto.
  - destruct L as [b [Eb C]]. destruct (new_copy_world w y b Hw Eb C) as [w' [E [I _]]]; eauto.
  - destruct L as [b [Eb C]]. destruct (new_copy_alloc_world w y b al Hw Eb C) as [w' [E [I _]]]; eauto.
  - destruct L as [b [Eb C]]. destruct (new_move_world w y b Hw Eb C) as [w' [E [I _]]]; eauto.
  - destruct L as [b [Eb C]]. destruct (new_move_alloc_world w y b al Hw Eb C) as [w' [E [I _]]]; eauto.
  - destruct L as [Hs [b [Eb C]]]. destruct (make_copy_world w y b s al Hw Eb Hs C) as [w' [E [I _]]]; eauto.
  - destruct L as [Hs [b [Eb C]]]. destruct (make_move_world w y b s al Hw Eb Hs C) as [w' [E [I _]]]; eauto.
  - destruct L as [[a Ea] [b [Eb C]]]. destruct (Nat.eq_dec x y) as [<-|N].
    + destruct (self_world w (CopyAssign x x) x a Hw Ea) as [w' [E [I _]]]; eauto.
    + destruct (copy_assign_world w x y a b Hw N Ea Eb C) as [w' [E [I _]]]; eauto.
  - destruct L as [[a Ea] [b [Eb C]]]. destruct (Nat.eq_dec x y) as [<-|N].
    + destruct (self_world w (MoveAssign x x) x a Hw Ea) as [w' [E [I _]]]; eauto 6.
    + destruct (move_assign_world w x y a b Hw N Ea Eb C) as [w' [E [I _]]]; eauto.
  - destruct L as [[a Ea] [b [Eb C]]]. destruct (Nat.eq_dec x y) as [<-|N].
    + destruct (self_world w (AssignCopy x x) x a Hw Ea) as [w' [E [I _]]]; eauto.
    + destruct (assign_copy_world w x y a b Hw N Ea Eb C) as [w' [E [I _]]]; eauto.
  - destruct L as [[a Ea] [b [Eb C]]]. destruct (Nat.eq_dec x y) as [<-|N].
    + destruct (self_world w (AssignMove x x) x a Hw Ea) as [w' [E [I _]]]; eauto.
    + destruct (assign_move_world w x y a b Hw N Ea Eb C) as [w' [E [I _]]]; eauto.
  - destruct L as [[a Ea] Hs]. destruct (assign_value_world w x a s v Hw Ea Hs) as [w' [E [I _]]]; eauto.
  - destruct L as [a Ea]. destruct (clear_world w x a Hw Ea) as [w' [E [I _]]]; eauto.
  - destruct L as [Hs [a [Ea Hm]]]. destruct (reshape_world w x a s Hw Ea Hs Hm) as [w' [E [I _]]]; eauto.
  - destruct L as [[a [Ea Ca]] [b [Eb Cb]]]. destruct (swap_world w x y a b Hw Ea Eb Ca Cb) as [w' [E [I _]]]; eauto.
  - destruct L as [a [Ea Hi]]. destruct (write_world w x a i v Hw Ea Hi) as [w' [E [I _]]]; eauto.
  - destruct L as [a Ea]. destruct (delete_world w x a Hw Ea) as [w' [E [I _]]]; eauto.
Qed.
Lemma run_ok ops : forall w, Inv w -> legal c w ops -> exists w', run c ops w = Ok w' /\ Inv w'.
Proof.
  induction ops as [|o ops IH]; intros w Hw L; unfold run in *; cbn [foldM].
  - eauto.
  - destruct L as [L1 L2]. destruct (step_ok w o Hw L1) as [w1 [E I]]. rewrite E. cbn [bind]. apply IH; auto.
Qed.
Lemma reachable_inv w : reachable c w -> Inv w.
Proof.
  intros [ops [L R]]. destruct (run_ok ops empty_world inv_empty L) as [w' [E I]]. congruence.
Qed.

End World.
