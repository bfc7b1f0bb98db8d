(** Proofs about programs over arrays of a trivial type: an invariant of the world, and what each statement does. *)
From Coq Require Import ZArith List Bool Lia Arith.
From Verif Require Import Base Interval Shape Traverse Memory Ref Container Program Trivial Spec SpecMem SpecContainer
  SpecProgram SpecTrivial Tac ShapeFacts ResolveFacts MemFacts RefFacts SliceFacts ContainerFacts ContainerWorld TrivialFacts.
Import ListNotations.
Open Scope Z_scope.

Section World.
Context {V : Type}.
Variable skip : bool.
Variable c : config V.
Implicit Types w : world V.

Definition TInv w : Prop :=
  heap_ok (w_heap w) /\
  (forall x a, w_arr w x = Some a -> (x < w_next w)%nat /\ tvalid c x (w_heap w) a) /\
  (forall x y a b, x <> y -> w_arr w x = Some a -> w_arr w y = Some b -> apart a b) /\
  (forall k, h_blk (w_heap w) k <> None -> exists x a, w_arr w x = Some a /\ blk a = k).

Lemma t_inv_update w h' arr' n' X K K' : TInv w -> local (w_heap w) K h' K' -> (w_next w <= n')%nat ->
  (forall x, ~ In x X -> arr' x = w_arr w x) ->
  (forall k, In k K -> k = 0%nat \/ exists x a, In x X /\ w_arr w x = Some a /\ blk a = k) ->
  (forall x a, In x X -> w_arr w x = Some a -> blk a = 0%nat \/ In (blk a) K) ->
  (forall x a, In x X -> arr' x = Some a -> (x < n')%nat /\ tvalid c x h' a /\ (blk a = 0%nat \/ In (blk a) K')) ->
  (forall k, In k K' -> k = 0%nat \/ exists x a, In x X /\ arr' x = Some a /\ blk a = k) ->
  (forall x y a b, In x X -> In y X -> x <> y -> arr' x = Some a -> arr' y = Some b -> apart a b) ->
  TInv (mkW h' arr' n') /\ kept w (mkW h' arr' n') X.
Proof.
  intros [Hh [Hv [Hap Hb]]] Hl Hn Ho HK HX HX' HK' Hap'.
  assert (Hout : forall z a, ~ In z X -> w_arr w z = Some a ->
     tvalid c z h' a /\ (forall f, t_has (w_heap w) a f -> t_has h' a f) /\ (In (blk a) K' -> blk a = 0%nat)).
  { intros z a Hz Ea. destruct (Hv z a Ea) as [_ Hva].
    destruct (t_frame_local c z _ h' K K' a Hh Hl Hva) as [F1 [F2 [F3 _]]]; auto.
    intros I. destruct (HK _ I) as [?|[x [b [Ix [Eb E]]]]]; auto. apply (Hap z x a b); auto. intros ->; auto. }
  split.
  - split; [apply Hl|]. cbn [w_heap w_arr w_next]. split; [|split].
    + intros x a E. destruct (in_dec Nat.eq_dec x X) as [I|I].
      * destruct (HX' x a I E) as [? [? _]]; auto.
      * rewrite Ho in E by auto. split; [destruct (Hv x a E); lia|apply Hout; auto].
    + intros x y a b Hxy Ea Eb. destruct (in_dec Nat.eq_dec x X) as [I|I], (in_dec Nat.eq_dec y X) as [J|J].
      * apply (Hap' x y); auto.
      * rewrite Ho in Eb by auto. destruct (HX' x a I Ea) as [_ [_ [Z|Z]]]; [intros _; auto|].
        intros E. rewrite E in Z |- *. apply (Hout y b); auto.
      * rewrite Ho in Ea by auto. destruct (HX' y b J Eb) as [_ [_ [Z|Z]]]; [intros E; congruence|].
        intros E. rewrite <- E in Z. apply (Hout x a); auto.
      * rewrite Ho in Ea, Eb by auto. apply (Hap x y); auto.
    + intros k Hk. destruct (in_dec Nat.eq_dec k K') as [I|I].
      * destruct (HK' k I) as [->|[x [a [_ [E1 E2]]]]]; [|exists x, a; auto].
        exfalso. apply Hk. destruct Hl as [[_ [Z _]] _]. exact Z.
      * destruct (in_dec Nat.eq_dec k K) as [J|J].
        -- exfalso. apply Hk. destruct Hl as [_ [_ [_ [Z _]]]]. apply Z; auto.
        -- assert (Hk0 : h_blk (w_heap w) k <> None).
           { destruct Hl as [_ [_ [Z _]]]. rewrite <- Z by auto. auto. }
           destruct (Hb k Hk0) as [x [a [Ea Eb]]]. exists x, a. split; auto. rewrite Ho; auto.
           intros Ix. destruct (HX x a Ix Ea) as [Z|Z]; rewrite Eb in Z; [|auto].
           subst k. rewrite Z in Hk0. destruct Hh as [_ [Q _]]. auto.
  - intros z Hz. cbn [w_arr]. rewrite (Ho z Hz). split; auto.
    intros s f [a [Ea [Es Hf]]]. exists a. cbn [w_arr w_heap]. rewrite (Ho z Hz). split; auto. split; auto. subst s.
    apply (Hout z a); auto.
Qed.

Lemma t_fresh w : TInv w -> w_arr w (w_next w) = None.
Proof.
  intros [_ [H _]]. destruct (w_arr w (w_next w)) as [a|] eqn:E; auto. destruct (H _ _ E). lia.
Qed.

Lemma t_inv_add w h' a' : TInv w -> tvalid c (w_next w) h' a' -> local (w_heap w) [0%nat] h' [blk a'] ->
  TInv (wadd w h' a') /\ kept w (wadd w h' a') [w_next w].
Proof.
  intros Hw Hv Hl. apply (t_inv_update w _ _ _ [w_next w] [0%nat] [blk a']); auto.
  - intros x Hx. apply put_other. simpl in Hx. intuition.
  - intros k [<-|[]]. auto.
  - intros x a [<-|[]] E. rewrite t_fresh in E by auto. discriminate.
  - intros x a [<-|[]] E. rewrite put_same in E. inv E. split; [lia|]. split; auto. right; left; auto.
  - intros k [<-|[]]. right. exists (w_next w), a'. split; [left; auto|]. rewrite put_same. auto.
  - intros x y a b [<-|[]] [<-|[]]; congruence.
Qed.
Lemma t_inv_put w x a h' a' : TInv w -> w_arr w x = Some a -> tvalid c x h' a' -> local (w_heap w) [blk a] h' [blk a'] ->
  TInv (wput w x h' a') /\ kept w (wput w x h' a') [x].
Proof.
  intros Hw Ea Hv Hl. apply (t_inv_update w _ _ _ [x] [blk a] [blk a']); auto.
  - intros z Hz. apply put_other. simpl in Hz. intuition.
  - intros k [<-|[]]. right. exists x, a. simpl; auto.
  - intros z b [<-|[]] E. right. left. congruence.
  - intros z b [<-|[]] E. rewrite put_same in E. inv E. destruct Hw as [_ [H _]]. split; [apply (H _ _ Ea)|]. split; auto. right; left; auto.
  - intros k [<-|[]]. right. exists x, a'. split; [left; auto|]. rewrite put_same. auto.
  - intros z y d b [<-|[]] [<-|[]]; congruence.
Qed.
Lemma t_inv_del w x a h' a' : TInv w -> w_arr w x = Some a -> no_memory a' -> local (w_heap w) [blk a] h' [blk a'] ->
  TInv (wdel w x h') /\ kept w (wdel w x h') [x].
Proof.
  intros Hw Ea Hm Hl. apply (t_inv_update w _ _ _ [x] [blk a] [blk a']); auto.
  - intros z Hz. apply put_other. simpl in Hz. intuition.
  - intros k [<-|[]]. right. exists x, a. simpl; auto.
  - intros z b [<-|[]] E. right. left. congruence.
  - intros z b [<-|[]] E. rewrite put_same in E. discriminate.
  - intros k [<-|[]]. left. apply no_memory_blk; auto.
  - intros z y d b [<-|[]] [<-|[]]; congruence.
Qed.
Lemma t_inv_add2 w y b h' a' b' : TInv w -> w_arr w y = Some b -> tvalid c (w_next w) h' a' -> tvalid c y h' b' ->
  apart a' b' -> local (w_heap w) [0%nat; blk b] h' [blk a'; blk b'] ->
  TInv (wadd2 w y h' a' b') /\ kept w (wadd2 w y h' a' b') [w_next w; y].
Proof.
  intros Hw Eb Hv Hv' Hap Hl. pose proof (proj1 (proj2 Hw) _ _ Eb) as [Hy _].
  apply (t_inv_update w _ _ _ [w_next w; y] [0%nat; blk b] [blk a'; blk b']); auto.
  - intros z Hz. simpl in Hz. rewrite !put_other; intuition.
  - intros k [<-|[<-|[]]]; auto. right. exists y, b. simpl; auto.
  - intros z d [<-|[<-|[]]] E; [rewrite t_fresh in E by auto; discriminate|]. right. right. left. congruence.
  - intros z d [<-|[<-|[]]] E.
    + rewrite put_same in E. inv E. split; [lia|]. split; auto. right; left; auto.
    + rewrite put_other, put_same in E by lia. inv E. split; [lia|]. split; auto. right; right; left; auto.
  - intros k [<-|[<-|[]]]; right.
    + exists (w_next w), a'. split; [left; auto|]. rewrite put_same. auto.
    + exists y, b'. split; [right; left; auto|]. rewrite put_other, put_same by lia. auto.
  - intros z z' d e [<-|[<-|[]]] [<-|[<-|[]]] N E E'; try congruence.
    + rewrite put_same in E. rewrite put_other, put_same in E' by lia. inv E. inv E'. auto.
    + rewrite put_same in E'. rewrite put_other, put_same in E by lia. inv E. inv E'. apply apart_sym. auto.
Qed.
Lemma t_inv_put2 w x y a b h' a' b' : TInv w -> x <> y -> w_arr w x = Some a -> w_arr w y = Some b ->
  tvalid c x h' a' -> tvalid c y h' b' ->
  apart a' b' -> local (w_heap w) [blk a; blk b] h' [blk a'; blk b'] ->
  TInv (wput2 w x y h' a' b') /\ kept w (wput2 w x y h' a' b') [x; y].
Proof.
  intros Hw Hxy Ea Eb Hv Hv' Hap Hl. pose proof (proj1 (proj2 Hw) _ _ Eb) as [Hy _].
  pose proof (proj1 (proj2 Hw) _ _ Ea) as [Hx _].
  apply (t_inv_update w _ _ _ [x; y] [blk a; blk b] [blk a'; blk b']); auto.
  - intros z Hz. simpl in Hz. rewrite !put_other; intuition.
  - intros k [<-|[<-|[]]]; right; [exists x, a|exists y, b]; simpl; auto.
  - intros z d [<-|[<-|[]]] E; right; [left|right; left]; congruence.
  - intros z d [<-|[<-|[]]] E.
    + rewrite put_same in E. inv E. split; [lia|]. split; auto. right; left; auto.
    + rewrite put_other, put_same in E by auto. inv E. split; [lia|]. split; auto. right; right; left; auto.
  - intros k [<-|[<-|[]]]; right.
    + exists x, a'. split; [left; auto|]. rewrite put_same. auto.
    + exists y, b'. split; [right; left; auto|]. rewrite put_other, put_same by auto. auto.
  - intros z z' d e [<-|[<-|[]]] [<-|[<-|[]]] N E E'; try congruence.
    + rewrite put_same in E. rewrite put_other, put_same in E' by auto. inv E. inv E'. auto.
    + rewrite put_same in E'. rewrite put_other, put_same in E by auto. inv E. inv E'. apply apart_sym. auto.
Qed.

Lemma t_inv_ext h arr1 arr2 n : (forall z, arr1 z = arr2 z) -> TInv (mkW h arr1 n) -> TInv (mkW h arr2 n).
Proof.
  intros E [H1 [H2 [H3 H4]]]. split; [exact H1|]. cbn [w_heap w_arr w_next] in *. split; [|split].
  - intros x a. rewrite <- E. apply H2.
  - intros x y a b N. rewrite <- !E. apply H3; auto.
  - intros k Hk. destruct (H4 k Hk) as [x [a [E1 E2]]]. exists x, a. rewrite <- E. auto.
Qed.
Lemma t_unchanged_ext w h arr1 arr2 n X : (forall z, arr1 z = arr2 z) -> kept w (mkW h arr1 n) X -> kept w (mkW h arr2 n) X.
Proof.
  intros E H z Hz. destruct (H z Hz) as [H1 H2]. cbn [w_arr] in *. split; [rewrite <- E; auto|].
  intros s f D. destruct (H2 s f D) as [a [E1 E2]]. exists a. cbn [w_arr w_heap] in *. rewrite <- E. auto.
Qed.
Lemma t_inv_write w x a h' : TInv w -> w_arr w x = Some a -> tvalid c x h' a -> local (w_heap w) [blk a] h' [blk a] ->
  TInv (mkW h' (w_arr w) (w_next w)) /\ kept w (mkW h' (w_arr w) (w_next w)) [x].
Proof.
  intros Hw Ea H1 H2. destruct (t_inv_put w x a h' a) as [I U]; auto.
  assert (E : forall z, put (w_arr w) x (Some a) z = w_arr w z) by (intros z; apply put_id; auto).
  split; [eapply t_inv_ext; eauto|eapply t_unchanged_ext; eauto].
Qed.

Lemma t_inv_valid w x a : TInv w -> w_arr w x = Some a -> tvalid c x (w_heap w) a.
Proof. intros [_ [H _]] E. apply (H x a E). Qed.
Lemma t_inv_lt w x a : TInv w -> w_arr w x = Some a -> (x < w_next w)%nat.
Proof. intros [_ [H _]] E. apply (H x a E). Qed.
Lemma t_inv_apart w x y a b : TInv w -> x <> y -> w_arr w x = Some a -> w_arr w y = Some b -> apart a b.
Proof. intros [_ [_ [H _]]]. apply H. Qed.
Lemma t_inv_has w x a : TInv w -> w_arr w x = Some a -> exists f, t_has (w_heap w) a f.
Proof. intros H E. apply (tvalid_has c x). apply t_inv_valid; auto. Qed.
Lemma t_denotes_has w x a s f : contains w x s f -> w_arr w x = Some a -> s = a_shape a /\ t_has (w_heap w) a f.
Proof. intros [a' [E [Es H]]] E'. rewrite E in E'. inv E'. auto. Qed.
Lemma t_has_denotes w x a f : w_arr w x = Some a -> t_has (w_heap w) a f -> contains w x (a_shape a) f.
Proof. intros E H. exists a. auto. Qed.
Lemma t_unchanged_refl w X : kept w w X.
Proof. intros z Hz. auto. Qed.
Lemma t_unchanged_trans w w1 w2 X : kept w w1 X -> kept w1 w2 X -> kept w w2 X.
Proof.
  intros H G z Hz. destruct (H z Hz) as [H1 H2], (G z Hz) as [G1 G2]. split; [congruence|auto].
Qed.
Lemma t_unchanged_weaken w w' X Y : (forall z, In z X -> In z Y) -> kept w w' X -> kept w w' Y.
Proof. intros H G z Hz. apply G. auto. Qed.

Hypothesis Hf : plain_fair c.

Definition done w w' X : Prop := TInv w' /\ kept w w' X.
Definition transfer w w' x y : Prop := forall s f, contains w y s f -> exists s', refines s' s /\ contains w' x s' f.

Lemma done_trans w w1 w2 X Y Z : done w w1 X -> done w1 w2 Y -> (forall z, In z X \/ In z Y -> In z Z) -> done w w2 Z.
Proof.
  intros [_ K1] [I2 K2] H. split; auto.
  apply (t_unchanged_trans w w1 w2); [apply (t_unchanged_weaken w w1 X)|apply (t_unchanged_weaken w1 w2 Y)]; auto.
Qed.
Lemma done_weaken w w' X Y : (forall z, In z X -> In z Y) -> done w w' X -> done w w' Y.
Proof. intros H [I K]. split; auto. eapply t_unchanged_weaken; eauto. Qed.
Lemma add_done w h' a' : TInv w -> tvalid c (w_next w) h' a' -> local (w_heap w) [0%nat] h' [blk a'] ->
  exists w', add w (Ok (h', a')) = Ok w' /\ done w w' [w_next w] /\ w_arr w' (w_next w) = Some a' /\ w_heap w' = h' /\
    w_next w' = S (w_next w).
Proof.
  intros Hw V1 L1. exists (wadd w h' a'). split; auto. split; [apply t_inv_add; auto|]. split; [apply put_same|auto].
Qed.
Lemma put_done w x a h' a' : TInv w -> w_arr w x = Some a -> tvalid c x h' a' -> local (w_heap w) [blk a] h' [blk a'] ->
  exists w', change w x (Ok (h', a')) = Ok w' /\ done w w' [x] /\ w_arr w' x = Some a' /\ w_heap w' = h' /\ w_next w' = w_next w.
Proof.
  intros Hw Ea V1 L1. exists (wput w x h' a'). split; auto. split; [eapply t_inv_put; eauto|]. split; [apply put_same|auto].
Qed.
Lemma write_done w x a h' : TInv w -> w_arr w x = Some a -> tvalid c x h' a -> local (w_heap w) [blk a] h' [blk a] ->
  done w (mkW h' (w_arr w) (w_next w)) [x].
Proof. intros Hw Ea V1 L1. eapply t_inv_write; eauto. Qed.

Lemma t_new_world w s al : TInv w -> plain_arg c s ->
  exists w', t_do_new skip c w s al = Ok w' /\ done w w' [w_next w] /\ w_next w' = S (w_next w) /\
   (exists a, w_arr w' (w_next w) = Some a /\ a_shape a = resolve s) /\
   (skip = false -> contains w' (w_next w) (resolve s) (fun _ => Live (c_dv c))).
Proof.
  intros Hw Hs. unfold t_do_new.
  destruct (t_ctor_shape_spec skip c (w_next w) (w_heap w) al s) as [h' [a' [-> [V1 [L1 [Es [_ [_ Hd]]]]]]]]; auto; [apply Hw|].
  destruct (add_done w h' a') as [w' [E [D [Ea [Eh En]]]]]; auto. exists w'. split; auto. split; auto. split; auto.
  split; [exists a'; auto|]. intros Sk. exists a'. rewrite Eh, <- Es. split; auto. split; auto. apply Hd; auto.
Qed.
Lemma t_new_value_world w s v al : TInv w -> plain_arg c s ->
  exists w', t_step skip c w (NewValue s v al) = Ok w' /\ done w w' [w_next w] /\
   contains w' (w_next w) (resolve s) (fun _ => Live v).
Proof.
  intros Hw Hs. cbn [t_step].
  destruct (t_ctor_value_spec skip c Hf (w_next w) (w_heap w) al s v) as [h' [a' [-> [V1 [H1 [L1 [Es _]]]]]]]; auto; [apply Hw|].
  destruct (add_done w h' a') as [w' [E [D [Ea [Eh _]]]]]; auto. exists w'. split; auto. split; auto.
  exists a'. rewrite Eh, <- Es. auto.
Qed.
(** Functions that make or change one array from array [y] *)
Lemma t_copied_add w y b r : TInv w -> w_arr w y = Some b ->
  (forall f, t_has (w_heap w) b f -> exists h' a', r = Ok (h', a') /\ tvalid c (w_next w) h' a' /\ t_has h' a' f /\
     local (w_heap w) [0%nat] h' [blk a'] /\ shape_from a' b) ->
  exists w', add w r = Ok w' /\ done w w' [w_next w] /\ transfer w w' (w_next w) y.
Proof.
  intros Hw Eb Hall. destruct (t_inv_has w y b Hw Eb) as [f0 Hf0].
  destruct (Hall f0 Hf0) as [h' [a' [E [V1 [_ [L1 S1]]]]]]. rewrite E.
  destruct (add_done w h' a') as [w' [E1 [D [Ea [Eh _]]]]]; auto. exists w'. split; auto. split; auto.
  intros s f C. destruct (t_denotes_has w y b s f C Eb) as [-> Hff].
  destruct (Hall f Hff) as [h2 [a2 [E2 [_ [H2 _]]]]]. rewrite E in E2. inv E2.
  exists (a_shape a2). split; auto. apply t_has_denotes; auto.
Qed.
Lemma t_copied_put w x y a b r : TInv w -> w_arr w x = Some a -> w_arr w y = Some b ->
  (forall f, t_has (w_heap w) b f -> exists h' a', r = Ok (h', a') /\ tvalid c x h' a' /\ t_has h' a' f /\
     local (w_heap w) [blk a] h' [blk a'] /\ shape_from a' b) ->
  exists w', change w x r = Ok w' /\ done w w' [x] /\ transfer w w' x y.
Proof.
  intros Hw Ea Eb Hall. destruct (t_inv_has w y b Hw Eb) as [f0 Hf0].
  destruct (Hall f0 Hf0) as [h' [a' [E [V1 [_ [L1 S1]]]]]]. rewrite E.
  destruct (put_done w x a h' a') as [w' [E1 [D [Ea' [Eh _]]]]]; auto. exists w'. split; auto. split; auto.
  intros s f C. destruct (t_denotes_has w y b s f C Eb) as [-> Hff].
  destruct (Hall f Hff) as [h2 [a2 [E2 [_ [H2 _]]]]]. rewrite E in E2. inv E2.
  exists (a_shape a2). split; auto. apply t_has_denotes; auto.
Qed.
Lemma t_moved_add w y b r : TInv w -> w_arr w y = Some b ->
  (forall f, t_has (w_heap w) b f -> exists h' a' b', r = Ok (h', a', b') /\
     t_moved c (w_next w) y (w_heap w) [0%nat; blk b] b f h' a' b') ->
  exists w', add2 w y r = Ok w' /\ done w w' [w_next w; y] /\ transfer w w' (w_next w) y /\ w_next w' = S (w_next w) /\
   exists a' b', w_arr w' (w_next w) = Some a' /\ w_arr w' y = Some b'.
Proof.
  intros Hw Eb Hall. destruct (t_inv_has w y b Hw Eb) as [f0 Hf0]. pose proof (t_inv_lt w y b Hw Eb) as Hy.
  destruct (Hall f0 Hf0) as [h' [a' [b' [E [Hv [Hh [Hv' [Hap [Hl Es]]]]]]]]]. unfold add2. rewrite E. cbn [bind].
  exists (wadd2 w y h' a' b'). split; auto. split; [apply (t_inv_add2 w y b); auto|]. split; [|split; auto].
  - intros s f D. destruct (t_denotes_has w y b s f D Eb) as [-> Hff].
    destruct (Hall f Hff) as [h2 [a2 [b2 [E2 [_ [Hh2 _]]]]]]. rewrite E in E2. inv E2.
    exists (a_shape a2). split; auto. apply t_has_denotes; auto. apply put_same.
  - exists a', b'. split; [apply put_same|]. cbn [wadd2 w_arr]. rewrite put_other by lia. apply put_same.
Qed.
Lemma t_moved_put w x y a b r : TInv w -> x <> y -> w_arr w x = Some a -> w_arr w y = Some b ->
  (forall f, t_has (w_heap w) b f -> exists h' a' b', r = Ok (h', a', b') /\
     t_moved c x y (w_heap w) [blk a; blk b] b f h' a' b') ->
  exists w', change2 w x y r = Ok w' /\ done w w' [x; y] /\ transfer w w' x y /\ w_next w' = w_next w /\
   exists a' b', w_arr w' x = Some a' /\ w_arr w' y = Some b'.
Proof.
  intros Hw Hxy Ea Eb Hall. destruct (t_inv_has w y b Hw Eb) as [f0 Hf0].
  destruct (Hall f0 Hf0) as [h' [a' [b' [E [Hv [Hh [Hv' [Hap [Hl Es]]]]]]]]]. unfold change2. rewrite E. cbn [bind].
  exists (wput2 w x y h' a' b'). split; auto. split; [apply (t_inv_put2 w x y a b); auto|]. split; [|split; auto].
  - intros s f D. destruct (t_denotes_has w y b s f D Eb) as [-> Hff].
    destruct (Hall f Hff) as [h2 [a2 [b2 [E2 [_ [Hh2 _]]]]]]. rewrite E in E2. inv E2.
    exists (a_shape a2). split; auto. apply t_has_denotes; auto. apply put_same.
  - exists a', b'. split; [apply put_same|]. cbn [wput2 w_arr]. rewrite put_other by auto. apply put_same.
Qed.
Lemma t_new_copy_world w y b : TInv w -> w_arr w y = Some b -> copyable c b ->
  exists w', t_step skip c w (NewCopy y) = Ok w' /\ done w w' [w_next w] /\ transfer w w' (w_next w) y.
Proof.
  intros Hw Eb Hc. cbn [t_step]. rewrite (get_ok w y b Eb). cbn [bind]. apply (t_copied_add w y b); auto. intros f Hff.
  destruct (t_ctor_copy_spec c Hf (w_next w) y (w_heap w) b f) as [h' [a' [E [H1 [H2 [H3 [_ H4]]]]]]]; auto; [apply Hw|apply t_inv_valid; auto|].
  exists h', a'. auto.
Qed.
Lemma t_new_copy_alloc_world w y b al : TInv w -> w_arr w y = Some b -> copyable c b ->
  exists w', t_step skip c w (NewCopyAlloc y al) = Ok w' /\ done w w' [w_next w] /\ transfer w w' (w_next w) y.
Proof.
  intros Hw Eb Hc. cbn [t_step]. rewrite (get_ok w y b Eb). cbn [bind]. apply (t_copied_add w y b); auto. intros f Hff.
  destruct (t_ctor_copy_alloc_spec skip c Hf (w_next w) y (w_heap w) b f al) as [h' [a' [E [H1 [H2 [H3 [_ H4]]]]]]]; auto; [apply Hw|apply t_inv_valid; auto|].
  exists h', a'. auto.
Qed.
Lemma t_new_move_world w y b : TInv w -> w_arr w y = Some b -> copyable c b ->
  exists w', t_do_new_move c w y = Ok w' /\ done w w' [w_next w; y] /\ transfer w w' (w_next w) y /\ w_next w' = S (w_next w) /\
   exists a' b', w_arr w' (w_next w) = Some a' /\ w_arr w' y = Some b'.
Proof.
  intros Hw Eb Hc. unfold t_do_new_move. rewrite (get_ok w y b Eb). cbn [bind]. apply (t_moved_add w y b); auto. intros f Hff.
  pose proof (t_inv_lt w y b Hw Eb). apply (t_ctor_move_spec c Hf); auto; [apply Hw|lia|apply t_inv_valid; auto].
Qed.
Lemma t_new_move_alloc_world w y b al : TInv w -> w_arr w y = Some b -> copyable c b ->
  exists w', t_step skip c w (NewMoveAlloc y al) = Ok w' /\ done w w' [w_next w; y] /\ transfer w w' (w_next w) y.
Proof.
  intros Hw Eb Hc. cbn [t_step]. rewrite (get_ok w y b Eb). cbn [bind].
  destruct (t_moved_add w y b (t_ctor_move_alloc c (w_next w) (w_heap w) y b al)) as [w' [E [D [T _]]]]; auto; [|exists w'; auto]. intros f Hff.
  pose proof (t_inv_lt w y b Hw Eb).
  destruct (t_ctor_move_alloc_spec c Hf (w_next w) y (w_heap w) b f al) as [h' [a' [b' [E [M _]]]]]; auto; [apply Hw|lia|apply t_inv_valid; auto|].
  exists h', a', b'. auto.
Qed.
Lemma t_self_world w x a : TInv w -> w_arr w x = Some a ->
  done w (wput w x (w_heap w) a) [] /\ done w (wput2 w x x (w_heap w) a a) [].
Proof.
  intros Hw Ea.
  assert (E : forall z, w_arr w z = put (w_arr w) x (Some a) z) by (intros z; symmetry; apply put_id; auto).
  assert (E' : forall z, w_arr w z = put (put (w_arr w) x (Some a)) x (Some a) z).
  { intros z. rewrite put_id; [symmetry; apply put_id; auto|apply put_same]. }
  split; (split; [apply (t_inv_ext _ (w_arr w)); auto|]);
    (apply (t_unchanged_ext w (w_heap w) (w_arr w) _ (w_next w)); [assumption|]; destruct w; apply t_unchanged_refl).
Qed.
Lemma done_transfer w w' x : done w w' [] -> transfer w w' x x.
Proof. intros [_ K] s f C. exists s. split; [left; auto|]. apply (K x); auto. Qed.
Lemma t_copy_assign_world w x y a b : TInv w -> w_arr w x = Some a -> w_arr w y = Some b -> copyable c b ->
  exists w', t_step skip c w (CopyAssign x y) = Ok w' /\ done w w' [x] /\ transfer w w' x y.
Proof.
  intros Hw Ea Eb Hc. cbn [t_step]. rewrite (get_ok w y b Eb), (get_ok w x a Ea). cbn [bind].
  destruct (Nat.eq_dec x y) as [<-|N].
  - rewrite Ea in Eb. inv Eb. rewrite (t_copy_assign_self c) by (apply t_inv_valid; auto).
    destruct (t_self_world w x b Hw Ea) as [D _]. eexists. split; [reflexivity|].
    split; [apply (done_weaken _ _ []); auto; intros z []|apply done_transfer; auto].
  - apply (t_copied_put w x y a b); auto. intros f Hff.
    apply (t_copy_assign_spec c Hf x y); auto; [apply Hw|apply t_inv_valid; auto|apply t_inv_valid; auto|apply (t_inv_apart w x y); auto].
Qed.
Lemma t_assign_copy_world w x y a b : TInv w -> w_arr w x = Some a -> w_arr w y = Some b -> copyable c b ->
  exists w', change w x (t_assign_copy c x (w_heap w) a b) = Ok w' /\ done w w' [x] /\ transfer w w' x y.
Proof.
  intros Hw Ea Eb Hc. destruct (Nat.eq_dec x y) as [<-|N].
  - rewrite Ea in Eb. inv Eb. rewrite (t_assign_copy_self c) by (apply t_inv_valid; auto).
    destruct (t_self_world w x b Hw Ea) as [D _]. eexists. split; [reflexivity|].
    split; [apply (done_weaken _ _ []); auto; intros z []|apply done_transfer; auto].
  - apply (t_copied_put w x y a b); auto. intros f Hff.
    destruct (t_assign_copy_spec c Hf x y (w_heap w) a b f) as [h' [a' [E [H1 [H2 [H3 [_ H4]]]]]]]; auto;
      [apply Hw|apply t_inv_valid; auto|apply t_inv_valid; auto|apply (t_inv_apart w x y); auto|].
    exists h', a'. auto.
Qed.
Lemma t_move_assign_world w x y a b : TInv w -> w_arr w x = Some a -> w_arr w y = Some b -> copyable c b ->
  exists w', t_do_move_assign c w x y = Ok w' /\ done w w' [x; y] /\ transfer w w' x y /\ w_next w' = w_next w /\
    exists a' b', w_arr w' x = Some a' /\ w_arr w' y = Some b'.
Proof.
  intros Hw Ea Eb Hc. unfold t_do_move_assign. rewrite (get_ok w y b Eb), (get_ok w x a Ea). cbn [bind].
  destruct (Nat.eq_dec x y) as [<-|N].
  - rewrite Ea in Eb. inv Eb. rewrite (t_move_assign_self c) by (apply t_inv_valid; auto).
    destruct (t_self_world w x b Hw Ea) as [_ D]. eexists. split; [reflexivity|].
    split; [apply (done_weaken _ _ []); auto; intros z []|]. split; [apply done_transfer; auto|]. split; auto.
    exists b, b. split; apply put_same.
  - apply (t_moved_put w x y a b); auto. intros f Hff.
    apply (t_move_assign_spec c Hf x y); auto; [apply Hw|apply t_inv_valid; auto|apply t_inv_valid; auto|apply (t_inv_apart w x y); auto].
Qed.
Lemma t_make_copy_world w y b s al : TInv w -> w_arr w y = Some b -> plain_arg c s -> within (resolve s) (a_shape b) ->
  exists w', add w (t_make_copy skip c (w_next w) (w_heap w) (aref_of b) s al) = Ok w' /\ done w w' [w_next w] /\
    (injective_layout (resolve s) -> forall f, contains w y (a_shape b) f -> contains w' (w_next w) (resolve s) f).
Proof.
  intros Hw Eb Hs Hi.
  destruct (t_make_copy_spec skip c (w_next w) y (w_heap w) b s al) as [h' [a' [-> [V1 [L1 [Es [_ H1]]]]]]]; auto; [apply Hw|apply t_inv_valid; auto|].
  destruct (add_done w h' a') as [w' [E [D [Ea [Eh _]]]]]; auto. exists w'. split; auto. split; auto.
  intros Hinj f C. destruct (t_denotes_has w y b _ f C Eb) as [_ Hff]. rewrite <- Es. apply t_has_denotes; auto. rewrite Eh.
  apply H1; auto. intros i j I J Q. f_equal. rewrite Es in *. apply Hinj; auto. apply (elem_inj (a_base a')); auto.
Qed.
Lemma t_assign_value_world w x a s init v : TInv w -> w_arr w x = Some a -> plain_arg c s ->
  (forall h', kept_outside (blk a) (w_heap w) h' -> (exists i, in_bounds s i) -> init h' = Ok v) ->
  exists w', change w x (t_assign_value c x (w_heap w) a s init) = Ok w' /\ done w w' [x] /\ contains w' x (resolve s) (fun _ => v).
Proof.
  intros Hw Ea Hs Hi.
  destruct (t_assign_value_spec c Hf x (w_heap w) a s init v) as [h' [a' [-> [V1 [H1 [L1 [Es _]]]]]]]; auto; [apply Hw|apply t_inv_valid; auto|].
  destruct (put_done w x a h' a') as [w' [E [D [Ea' [Eh _]]]]]; auto. exists w'. split; auto. split; auto.
  exists a'. rewrite Eh, <- Es. auto.
Qed.
Lemma t_clear_world w x a : TInv w -> w_arr w x = Some a ->
  exists w', t_step skip c w (Clear x) = Ok w' /\ done w w' [x] /\
    exists a', w_arr w' x = Some a' /\ a_shape a' = resolve (c_shape0 c) /\ no_memory a'.
Proof.
  intros Hw Ea. cbn [t_step]. rewrite (get_ok w x a Ea). cbn [bind].
  destruct (t_clear_spec skip c Hf x (w_heap w) a) as [h' [a' [-> [V1 [L1 [E1 [_ N1]]]]]]]; auto; [apply Hw|apply t_inv_valid; auto|].
  destruct (put_done w x a h' a') as [w' [E [D [Ea' _]]]]; auto. exists w'. split; auto. split; auto. exists a'. auto.
Qed.
Lemma t_delete_world w x a : TInv w -> w_arr w x = Some a ->
  exists w', t_do_delete c w x = Ok w' /\ done w w' [x] /\ w_arr w' x = None.
Proof.
  intros Hw Ea. unfold t_do_delete. rewrite (get_ok w x a Ea). cbn [bind].
  destruct (t_deallocate_spec c Hf x (w_heap w) a) as [h' [a' [-> [_ [M1 [L1 _]]]]]]; auto; [apply Hw|apply t_inv_valid; auto|].
  cbn [bind]. eexists. split; [reflexivity|]. split; [apply (t_inv_del w x a h' a'); auto|]. apply put_same.
Qed.
Lemma t_write_world w x a i v : TInv w -> w_arr w x = Some a -> in_bounds (a_shape a) i ->
  exists w', t_step skip c w (Write x i v) = Ok w' /\ done w w' [x] /\ w_arr w' = w_arr w /\
    peek (w_heap w') (elem (a_base a) (a_shape a) i) = Some (Live v) /\
    forall p, p <> elem (a_base a) (a_shape a) i -> peek (w_heap w') p = peek (w_heap w) p.
Proof.
  intros Hw Ea Hi. cbn [t_step]. rewrite (get_ok w x a Ea). cbn [bind]. rewrite elem_ref. cbn [aref_of r_base r_shape].
  pose proof (t_inv_valid w x a Hw Ea) as Va. pose proof (tvalid_peek c x _ a i Va Hi) as P.
  rewrite t_store_ok by auto. cbn [bind]. eexists. split; [reflexivity|].
  destruct (t_written c x (w_heap w) a [(elem (a_base a) (a_shape a) i, Live v)]) as [V1 L1]; auto; [apply Hw| |].
  { intros p [<-|[]]. exists i. auto. }
  split; [apply (write_done w x a); auto|]. cbn [w_arr w_heap]. split; auto. split; [apply peek_upd_same; auto|].
  intros p Np. apply peek_upd_other. auto.
Qed.
Lemma t_refines_copyable b a : plain_arg c (a_shape b) -> refines (a_shape a) (a_shape b) -> copyable c b -> copyable c a.
Proof.
  intros Hs [E|E] [H|H]; unfold copyable; auto; right; rewrite E; auto. apply Hs.
Qed.
Lemma t_refines_trans s1 s2 s3 : plain_arg c s1 -> refines s2 s1 -> refines s3 s2 -> refines s3 s1.
Proof.
  intros Hs [->| ->] [->| ->]; unfold refines; auto. right. apply resolve_known. apply Hs.
Qed.
Lemma done_temp w w' X : TInv w -> w_arr w' (w_next w) = None -> done w w' (w_next w :: X) -> done w w' X.
Proof.
  intros Hw E [I H]. split; auto. intros z Hz. destruct (Nat.eq_dec z (w_next w)) as [->|N].
  - rewrite E, (t_fresh w Hw). split; auto. intros s f [a [Ea _]]. rewrite (t_fresh w Hw) in Ea. discriminate.
  - apply H. intros [G|G]; auto.
Qed.
Lemma t_inv_contains w x a : TInv w -> w_arr w x = Some a -> exists f, contains w x (a_shape a) f.
Proof. intros Hw Ea. destruct (t_inv_has w x a Hw Ea) as [f H]. exists f. apply t_has_denotes; auto. Qed.
Lemma t_inv_shape w x a : TInv w -> w_arr w x = Some a -> plain_arg c (a_shape a).
Proof. intros Hw Ea. apply (t_inv_valid w x a Hw Ea). Qed.
Lemma transfer_copyable w w' x y a b : TInv w -> w_arr w y = Some b -> w_arr w' x = Some a -> transfer w w' x y -> copyable c b -> copyable c a.
Proof.
  intros Hw Eb Ea T C. destruct (t_inv_contains w y b Hw Eb) as [f D]. destruct (T _ _ D) as [s' [R D']].
  destruct (t_denotes_has _ _ _ _ _ D' Ea) as [-> _]. apply (t_refines_copyable b); auto. apply (t_inv_shape w y); auto.
Qed.
Lemma transfer_trans w w1 w2 x y z : TInv w -> transfer w w1 y x -> transfer w1 w2 z y -> transfer w w2 z x.
Proof.
  intros Hw T1 T2 s f D. destruct (T1 _ _ D) as [s1 [R1 D1]]. destruct (T2 _ _ D1) as [s2 [R2 D2]]. exists s2. split; auto.
  eapply t_refines_trans; eauto. destruct D as [a [Ea [<- _]]]. apply (t_inv_shape w x); auto.
Qed.
Lemma kept_transfer w w' X x : done w w' X -> ~ In x X -> transfer w w' x x.
Proof. intros [_ K] N s f C. exists s. split; [left; auto|]. apply (K x); auto. Qed.

Lemma t_swap_world w x y a b : TInv w -> w_arr w x = Some a -> w_arr w y = Some b -> copyable c a -> copyable c b ->
  exists w', t_do_swap c w x y = Ok w' /\ done w w' [x; y] /\ transfer w w' x y /\ transfer w w' y x.
Proof.
  intros Hw Ea Eb Ca Cb. unfold t_do_swap. destruct (c_pocs c) eqn:Ep.
  - rewrite (get_ok w x a Ea), (get_ok w y b Eb). cbn [bind].
    assert (Hbz : forall z b0, w_arr w z = Some b0 -> a_busy b0 = false).
    { intros z b0 Hv. apply (t_not_busy c z (w_heap w)); [apply t_inv_valid; auto|apply fair_pocs; auto]. }
    unfold swap_allocators. rewrite swap_takes by (cbn [set_al a_busy]; eauto). cbn [set_al a_al].
    change (takes (a_al b) (set_al b (a_al a))) with (takes (a_al b) b).
    change (takes (a_al a) (set_al a (a_al b))) with (takes (a_al a) a).
    destruct (Nat.eq_dec x y) as [<-|N].
    + rewrite Ea in Eb. inv Eb.
      assert (Et : takes (a_al b) b = b) by (destruct b; unfold takes; pose proof (Hbz _ _ Ea) as Q; cbn in *; congruence).
      rewrite Et. destruct (t_self_world w x b Hw Ea) as [_ D]. eexists. split; [reflexivity|].
      split; [apply (done_weaken _ _ []); auto; intros z []|]. split; apply done_transfer; auto.
    + destruct (t_moved_put w x y a b (Ok (w_heap w, takes (a_al b) b, takes (a_al a) a))) as [w' [E [D [T [_ [a' [b' [Ea' Eb']]]]]]]]; auto.
      { intros f Hff. eexists _, _, _. split; [reflexivity|]. apply swapped; eauto; [apply Hw|apply t_inv_valid; auto|apply t_inv_valid; auto|apply (t_inv_apart w x y); auto]. }
      unfold change2 in E. cbn [bind] in E. inv E. eexists. split; [reflexivity|]. split; auto. split; auto.
      intros s f C. destruct (t_denotes_has w x a s f C Ea) as [-> Hh]. exists (a_shape a). split; [left; auto|].
      exists (takes (a_al a) a). cbn [w_arr w_heap]. rewrite put_other, put_same by auto. auto.
  - set (n := w_next w). pose proof (t_inv_lt w x a Hw Ea) as Lx. pose proof (t_inv_lt w y b Hw Eb) as Ly.
    destruct (t_new_move_world w y b Hw Eb Cb) as [w1 [-> [D1 [T1 [_ [t [b1 [Et Eb1]]]]]]]]. cbn [bind].
    fold n in Et, D1, T1, Lx, Ly. pose proof (transfer_copyable w w1 n y t b Hw Eb Et T1 Cb) as Ct.
    assert (X1 : exists a1, w_arr w1 x = Some a1 /\ (x = y \/ a1 = a)).
    { destruct (Nat.eq_dec x y) as [<-|N]; [exists b1; auto|]. destruct (proj2 D1 x) as [E _]; [simpl; intuition lia|].
      exists a. split; auto. congruence. }
    destruct X1 as [a1 [Ea1 X1]].
    assert (Hstep : exists w2, t_do_move_assign c w1 y x = Ok w2 /\ done w1 w2 [y; x] /\
      (exists a2, w_arr w2 x = Some a2) /\ (x <> y -> transfer w1 w2 y x)).
    { destruct (Nat.eq_dec x y) as [<-|N].
      - rewrite Eb1 in Ea1. inv Ea1. unfold t_do_move_assign. rewrite (get_ok w1 x a1 Eb1). cbn [bind].
        rewrite (t_move_assign_self c) by (apply t_inv_valid; auto; apply D1).
        destruct (t_self_world w1 x a1 (proj1 D1) Eb1) as [_ D]. eexists. split; [reflexivity|].
        split; [apply (done_weaken _ _ []); auto; intros z []|]. split; [exists a1; apply put_same|congruence].
      - destruct X1 as [?| ->]; [congruence|].
        destruct (t_move_assign_world w1 y x b1 a (proj1 D1) Eb1 Ea1 Ca) as [w2 [E2 [D2 [T2 [_ [b2 [a2 [_ Ea2]]]]]]]].
        exists w2. split; auto. split; auto. split; eauto. }
    destruct Hstep as [w2 [-> [D2 [[a2 Ea2] T2]]]]. cbn [bind].
    assert (Nn : ~ In n [y; x]) by (simpl; intuition lia).
    destruct (proj2 D2 n Nn) as [En _]. rewrite Et in En.
    destruct (t_move_assign_world w2 x n a2 t (proj1 D2) Ea2 En Ct) as [w3 [-> [D3 [T3 [_ [a3 [t3 [Ea3 Et3]]]]]]]]. cbn [bind].
    destruct (t_delete_world w3 n t3 (proj1 D3) Et3) as [w4 [-> [D4 E4]]].
    assert (Nx : ~ In x [n]) by (simpl; intuition lia). assert (Ny : ~ In y [n]) by (simpl; intuition lia).
    assert (Txy : transfer w w4 x y).
    { eapply (transfer_trans w w1); [auto|exact T1|]. eapply (transfer_trans w1 w2); [apply D1|exact (kept_transfer _ _ _ _ D2 Nn)|].
      eapply (transfer_trans w2 w3); [apply D2|exact T3|]. exact (kept_transfer _ _ _ _ D4 Nx). }
    exists w4. split; auto. split; [|split; auto].
    + apply done_temp; auto. fold n.
      apply (done_trans w w1 w4 [n; y] [x; y; n]); auto; [|simpl; tauto].
      apply (done_trans w1 w2 w4 [y; x] [x; n]); auto; [|simpl; tauto].
      apply (done_trans w2 w3 w4 [x; n] [n]); auto. simpl; tauto.
    + destruct (Nat.eq_dec x y) as [<-|N]; [exact Txy|].
      eapply (transfer_trans w w1); [auto|apply (kept_transfer _ _ _ _ D1); simpl; intuition lia|].
      eapply (transfer_trans w1 w2); [apply D1|exact (T2 N)|].
      eapply (transfer_trans w2 w3); [apply D2|apply (kept_transfer _ _ _ _ D3); simpl; intuition lia|].
      exact (kept_transfer _ _ _ _ D4 Ny).
Qed.

Lemma t_reshape_world w x a s : TInv w -> w_arr w x = Some a -> plain_arg c s -> Forall2 meets s (a_shape a) ->
  exists w', t_do_reshape skip c w x s = Ok w' /\ done w w' [x] /\
   (injective_layout (resolve s) -> forall f, contains w x (a_shape a) f -> exists g, contains w' x (resolve s) g /\
      (forall i, in_bounds (a_shape a) i -> in_bounds s i -> g i = f i) /\
      (skip = false -> forall i, ~ in_bounds (a_shape a) i -> in_bounds s i -> g i = Live (c_dv c))).
Proof.
  intros Hw Ea Hs Hm. unfold t_do_reshape. rewrite (get_ok w x a Ea). cbn [bind].
  destruct (shape_eqb (a_shape a) (resolve s)) eqn:E.
  - apply shape_eqb_eq in E. exists w. split; auto. split; [split; auto; apply t_unchanged_refl|].
    intros _ f D. rewrite E in D. exists f. split; auto. split; auto. intros _ i H1 H2. exfalso. apply H1. rewrite E.
    apply resolve_in_bounds; auto.
  - set (n := w_next w). pose proof (t_inv_lt w x a Hw Ea) as Lx. fold n in Lx.
    assert (Hk : known_strides (resolve s)) by apply Hs.
    assert (Hrr : resolve (resolve s) = resolve s) by (apply resolve_known; auto).
    destruct (t_new_world w (resolve s) (c_default c) Hw (plain_arg_resolve c s Hs)) as [w1 [-> [D1 [_ [[b [Eb Es]] Dv]]]]]. cbn [bind].
    fold n in D1, Eb, Dv. rewrite (get_ok w1 n b Eb). cbn [bind]. rewrite Hrr in Es, Dv.
    destruct (proj2 D1 x) as [X1 X2]; [simpl; intuition lia|]. rewrite Ea in X1.
    assert (Hap : apart a b) by (apply (t_inv_apart w1 x n); auto; [apply D1|lia]).
    assert (Hm' : Forall2 meets (a_shape b) (a_shape a)) by (rewrite Es; apply meets_resolve; auto).
    destruct (t_move_common_spec c x n (w_heap w1) a b) as [h2 [E2 [V2 [L2 G2]]]]; auto;
      [apply D1|apply t_inv_valid; auto; apply D1|apply t_inv_valid; auto; apply D1|].
    rewrite Es in E2. rewrite E2. cbn [bind].
    pose proof (write_done w1 n b h2 (proj1 D1) Eb V2 L2) as D2. set (w2 := mkW h2 (w_arr w1) (w_next w1)) in *.
    assert (Cb : copyable c b) by (right; rewrite Es; auto).
    destruct (t_move_assign_world w2 x n a b (proj1 D2) X1 Eb Cb) as [w3 [-> [D3 [T3 [_ [a3 [b3 [Ea3 Eb3]]]]]]]]. cbn [bind].
    destruct (t_delete_world w3 n b3 (proj1 D3) Eb3) as [w4 [-> [D4 E4]]].
    exists w4. split; auto. split.
    { apply done_temp; auto. fold n.
      apply (done_trans w w1 w4 [n] [x; n]); auto; [|simpl; tauto].
      apply (done_trans w1 w2 w4 [n] [x; n]); auto; [|simpl; tauto].
      apply (done_trans w2 w3 w4 [x; n] [n]); auto. simpl; tauto. }
    intros Hinj f D. destruct (t_denotes_has _ _ _ _ _ (X2 _ _ D) X1) as [_ Hff].
    destruct (t_inv_has w1 n b (proj1 D1) Eb) as [g0 Hg0].
    set (g := if skip then g0 else fun _ => Live (c_dv c)).
    assert (Hg : t_has (w_heap w1) b g).
    { unfold g. destruct skip; auto. destruct (t_denotes_has _ _ _ _ _ (Dv eq_refl) Eb) as [_ H]. exact H. }
    rewrite Es in G2. destruct (G2 Hap Hinj f g Hff Hg) as [g' [H1 [H2 H3]]].
    assert (Dg : contains w2 n (resolve s) g') by (rewrite <- Es; apply t_has_denotes; auto).
    destruct (T3 _ _ Dg) as [s3 [R3 D3']].
    assert (s3 = resolve s) by (destruct R3; congruence). subst s3.
    destruct (proj2 D4 x) as [_ Q2]; [simpl; intuition lia|].
    exists g'. split; auto. split; [intros i I1 I2; apply H2; auto; apply resolve_in_bounds; auto|].
    intros Sk i I1 I2. rewrite H3; auto; [unfold g; rewrite Sk; auto|]. apply resolve_in_bounds; auto.
Qed.

(** ** Algorithms *)

Lemma t_fill_world w x a v : TInv w -> w_arr w x = Some a ->
  exists h', t_fill (c_ndebug c) (w_heap w) (aref_of a) v = Ok h' /\ done w (mkW h' (w_arr w) (w_next w)) [x] /\
    contains (mkW h' (w_arr w) (w_next w)) x (a_shape a) (fun _ => v).
Proof.
  intros Hw Ea. destruct (t_fill_spec c x (w_heap w) a v) as [h' [E [V1 [H1 L1]]]]; [apply Hw|apply t_inv_valid; auto|].
  exists h'. split; auto. split; [apply (write_done w x a); auto|]. apply (t_has_denotes (mkW h' (w_arr w) (w_next w))); auto.
Qed.
Lemma t_elem_value w y b i s f : TInv w -> w_arr w y = Some b -> in_bounds (a_shape b) i -> contains w y s f ->
  t_ref_at (w_heap w) (aref_of b) i = Ok (f i).
Proof.
  intros Hw Eb Hi D. destruct (t_denotes_has w y b _ f D Eb) as [_ H]. unfold t_ref_at. apply t_load_ok.
  rewrite elem_ref by auto. apply H; auto.
Qed.
Lemma t_copy_world w x a y b : TInv w -> w_arr w x = Some a -> w_arr w y = Some b -> within (a_shape a) (a_shape b) ->
  exists h', t_copy (c_ndebug c) (w_heap w) (aref_of b) (aref_of a) = Ok h' /\ done w (mkW h' (w_arr w) (w_next w)) [x] /\
    (x <> y -> injective_layout (a_shape a) -> forall f, contains w y (a_shape b) f ->
       contains (mkW h' (w_arr w) (w_next w)) x (a_shape a) f).
Proof.
  intros Hw Ea Eb Hi.
  destruct (t_copy_spec c x y (w_heap w) a b) as [h' [E [V1 [L1 H1]]]]; auto; [apply Hw|apply t_inv_valid; auto|apply t_inv_valid; auto|].
  exists h'. split; auto. split; [apply (write_done w x a); auto|]. intros N Hinj f C.
  destruct (t_denotes_has w y b _ f C Eb) as [_ Hff]. apply (t_has_denotes (mkW h' (w_arr w) (w_next w))); auto. cbn [w_heap].
  apply H1; auto; [apply (t_inv_apart w x y); auto|].
  intros i j I J Q. f_equal. apply Hinj; auto. apply (elem_inj (a_base a)); auto.
Qed.
Lemma t_kept_elem w x y a b i s f : TInv w -> y <> x -> w_arr w x = Some a -> w_arr w y = Some b -> in_bounds (a_shape b) i ->
  contains w y s f -> forall h', kept_outside (blk a) (w_heap w) h' -> t_ref_at h' (aref_of b) i = Ok (f i).
Proof.
  intros Hw N Ea Eb Hi D h' K. destruct (t_denotes_has w y b _ f D Eb) as [_ H]. unfold t_ref_at. apply t_load_ok.
  rewrite elem_ref. cbn [aref_of r_base r_shape].
  destruct (t_elem_block c y _ b i (t_inv_valid w y b Hw Eb) Hi) as [E1 [E2 E3]].
  rewrite K; auto. rewrite E1. intros C. apply E2. apply (t_inv_apart w y x b a Hw N Eb Ea). auto.
Qed.
Lemma may_copy_get w y : may_copy c w y -> exists b, w_arr w y = Some b /\ copyable c b.
Proof. intros [b [E H]]. exists b. auto. Qed.

(** What a statement of Program.v does *)
Lemma t_act_spec w o : TInv w -> plain_act c w o ->
  exists w', t_astep skip c w o = Ok w' /\ done w w' (changes (w_next w) (Plain o)) /\
   (forall x y, transfers (w_next w) o x y -> transfer w w' x y) /\
   (forall x s y, copies_elements (w_next w) w o x s y -> injective_layout s ->
      forall t f, contains w y t f -> contains w' x s f) /\
   (forall x s v, sets_all skip (c_dv c) (w_next w) w o x s v -> contains w' x s (fun _ => v)).
Proof.
  intros Hw L.
  destruct o as [o|x v|x y i|y x|y x|y x|x g|x fn|x s y i]; cbn [t_astep plain_act changes] in *.
  - destruct o as [s al|s v al|y|y al|y|y al|y s al|y s al|x y|x y|x y|x y|x s v|x|x s|x y|x i v|x]; cbn [plain_op changes_op] in *.
    + destruct (t_new_world w s al Hw L) as [w' [E [D [_ [_ Dv]]]]]. exists w'. split; auto. split; auto.
      split; [intros x y T; inversion T|]. split; [intros x t y T; inversion T|].
      intros x t v T. inversion T; subst. auto.
    + destruct (t_new_value_world w s v al Hw L) as [w' [E [D Dv]]]. exists w'. split; auto. split; auto.
      split; [intros x y T; inversion T|]. split; [intros x t y T; inversion T|].
      intros x t u T. inversion T; subst. auto.
    + destruct (may_copy_get w y L) as [b [Eb Cb]]. destruct (t_new_copy_world w y b Hw Eb Cb) as [w' [E [D T0]]].
      exists w'. split; auto. split; auto. split; [intros x z T; inversion T; subst; auto|]. split; [intros x t z T; inversion T|intros x t u T; inversion T].
    + destruct (may_copy_get w y L) as [b [Eb Cb]]. destruct (t_new_copy_alloc_world w y b al Hw Eb Cb) as [w' [E [D T0]]].
      exists w'. split; auto. split; auto. split; [intros x z T; inversion T; subst; auto|]. split; [intros x t z T; inversion T|intros x t u T; inversion T].
    + destruct (may_copy_get w y L) as [b [Eb Cb]]. destruct (t_new_move_world w y b Hw Eb Cb) as [w' [E [D [T0 _]]]].
      exists w'. split; auto. split; auto. split; [intros x z T; inversion T; subst; auto|]. split; [intros x t z T; inversion T|intros x t u T; inversion T].
    + destruct (may_copy_get w y L) as [b [Eb Cb]]. destruct (t_new_move_alloc_world w y b al Hw Eb Cb) as [w' [E [D T0]]].
      exists w'. split; auto. split; auto. split; [intros x z T; inversion T; subst; auto|]. split; [intros x t z T; inversion T|intros x t u T; inversion T].
    + destruct L as [Hs [b [Eb Hi]]]. destruct (t_make_copy_world w y b s al Hw Eb Hs Hi) as [w' [E [D C]]].
      exists w'. cbn [t_step]. rewrite (get_ok w y b Eb). cbn [bind]. split; auto. split; auto.
      split; [intros x z T; inversion T|]. split; [|intros x t u T; inversion T].
      intros x t z T Hinj t' f Cf. inversion T; subst. apply C; auto. destruct (t_denotes_has _ _ _ _ _ Cf Eb) as [<- _]. auto.
    + destruct L as [Hs [b [Eb Hi]]]. destruct (t_make_copy_world w y b s al Hw Eb Hs Hi) as [w' [E [D C]]].
      exists w'. cbn [t_step]. rewrite (get_ok w y b Eb). cbn [bind]. split; auto. split; auto.
      split; [intros x z T; inversion T|]. split; [|intros x t u T; inversion T].
      intros x t z T Hinj t' f Cf. inversion T; subst. apply C; auto. destruct (t_denotes_has _ _ _ _ _ Cf Eb) as [<- _]. auto.
    + destruct L as [[a Ea] L]. destruct (may_copy_get w y L) as [b [Eb Cb]].
      destruct (t_copy_assign_world w x y a b Hw Ea Eb Cb) as [w' [E [D T0]]].
      exists w'. split; auto. split; auto. split; [intros u z T; inversion T; subst; auto|]. split; [intros u t z T; inversion T|intros u t v T; inversion T].
    + destruct L as [[a Ea] L]. destruct (may_copy_get w y L) as [b [Eb Cb]].
      destruct (t_move_assign_world w x y a b Hw Ea Eb Cb) as [w' [E [D [T0 _]]]].
      exists w'. split; auto. split; auto. split; [intros u z T; inversion T; subst; auto|]. split; [intros u t z T; inversion T|intros u t v T; inversion T].
    + destruct L as [[a Ea] L]. destruct (may_copy_get w y L) as [b [Eb Cb]].
      destruct (t_assign_copy_world w x y a b Hw Ea Eb Cb) as [w' [E [D T0]]].
      exists w'. cbn [t_step]. rewrite (get_ok w x a Ea), (get_ok w y b Eb). cbn [bind].
      split; auto. split; auto. split; [intros u z T; inversion T; subst; auto|]. split; [intros u t z T; inversion T|intros u t v T; inversion T].
    + destruct L as [[a Ea] L]. destruct (may_copy_get w y L) as [b [Eb Cb]].
      destruct (t_assign_copy_world w x y a b Hw Ea Eb Cb) as [w' [E [D T0]]].
      exists w'. cbn [t_step]. rewrite (get_ok w x a Ea), (get_ok w y b Eb). cbn [bind]. rewrite t_assign_move_eq.
      split; auto. split; auto. split; [intros u z T; inversion T; subst; auto|]. split; [intros u t z T; inversion T|intros u t v T; inversion T].
    + destruct L as [[a Ea] Hs]. destruct (t_assign_value_world w x a s (fun _ => Ok (Live v)) (Live v) Hw Ea Hs) as [w' [E [D C]]]; auto.
      exists w'. cbn [t_step]. rewrite (get_ok w x a Ea). cbn [bind].
      split; auto. split; auto. split; [intros u z T; inversion T|]. split; [intros u t z T; inversion T|].
      intros u t v' T. inversion T; subst. auto.
    + destruct L as [a Ea]. destruct (t_clear_world w x a Hw Ea) as [w' [E [D _]]]. exists w'.
      split; auto. split; auto. split; [intros u z T; inversion T|]. split; [intros u t z T; inversion T|intros u t v T; inversion T].
    + destruct L as [Hs [a [Ea Hm]]]. destruct (t_reshape_world w x a s Hw Ea Hs Hm) as [w' [E [D _]]]. exists w'.
      split; auto. split; auto. split; [intros u z T; inversion T|]. split; [intros u t z T; inversion T|intros u t v T; inversion T].
    + destruct L as [L1 L2]. destruct (may_copy_get w x L1) as [a [Ea Ca]]. destruct (may_copy_get w y L2) as [b [Eb Cb]].
      destruct (t_swap_world w x y a b Hw Ea Eb Ca Cb) as [w' [E [D [T1 T2]]]]. exists w'.
      split; auto. split; auto. split; [intros u z T; inversion T; subst; auto|]. split; [intros u t z T; inversion T|intros u t v T; inversion T].
    + destruct L as [a [Ea Hi]]. destruct (t_write_world w x a i v Hw Ea Hi) as [w' [E [D _]]]. exists w'.
      split; auto. split; auto. split; [intros u z T; inversion T|]. split; [intros u t z T; inversion T|intros u t v' T; inversion T].
    + destruct L as [a Ea]. destruct (t_delete_world w x a Hw Ea) as [w' [E [D _]]]. exists w'.
      split; auto. split; auto. split; [intros u z T; inversion T|]. split; [intros u t z T; inversion T|intros u t v T; inversion T].
  - destruct L as [a Ea]. rewrite (get_ok w x a Ea). cbn [bind].
    destruct (t_fill_world w x a (Live v) Hw Ea) as [h' [-> [D C]]]. cbn [bind]. eexists. split; [reflexivity|]. split; auto.
    split; [intros u z T; inversion T|]. split; [intros u t z T; inversion T|].
    intros u t v' T. inversion T; subst. replace a0 with a in * by congruence. auto.
  - destruct L as [[a Ea] [b [Eb Hi]]]. rewrite (get_ok w x a Ea), (get_ok w y b Eb). cbn [bind].
    destruct (t_inv_contains w y b Hw Eb) as [f0 C0]. rewrite (t_elem_value w y b i (a_shape b) f0) by auto. cbn [bind].
    destruct (t_fill_world w x a (f0 i) Hw Ea) as [h' [-> [D C]]]. cbn [bind]. eexists. split; [reflexivity|]. split; auto.
    split; [intros u z T; inversion T|]. split; [intros u t z T; inversion T|].
    intros u t v' T. inversion T; subst. replace a0 with a in * by congruence.
    pose proof (t_elem_value w y b i _ _ Hw Eb Hi C0) as Q1. match goal with H : contains w y _ f |- _ => rewrite (t_elem_value w y b i _ f Hw Eb Hi H) in Q1 end.
    injection Q1 as Q1. rewrite Q1. auto.
  - destruct L as [a [b [Ea [Eb Hi]]]]. rewrite (get_ok w x a Ea), (get_ok w y b Eb). cbn [bind].
    destruct (t_copy_world w x a y b Hw Ea Eb Hi) as [h' [-> [D C]]]. cbn [bind]. eexists. split; [reflexivity|]. split; auto.
    split; [intros u z T; inversion T|]. split; [|intros u t v T; inversion T].
    intros u t z T Hinj t' f Cf. inversion T; subst. replace a0 with a in * by congruence. apply C; auto.
    destruct (t_denotes_has _ _ _ _ _ Cf Eb) as [<- _]. auto.
  - destruct L as [a [b [Ea [Eb Hi]]]]. rewrite (get_ok w x a Ea), (get_ok w y b Eb). cbn [bind]. rewrite t_move_eq.
    destruct (t_copy_world w x a y b Hw Ea Eb Hi) as [h' [-> [D C]]]. cbn [bind]. eexists. split; [reflexivity|]. split; auto.
    split; [intros u z T; inversion T|]. split; [|intros u t v T; inversion T].
    intros u t z T Hinj t' f Cf. inversion T; subst. replace a0 with a in * by congruence. apply C; auto.
    destruct (t_denotes_has _ _ _ _ _ Cf Eb) as [<- _]. auto.
  - destruct L as [[a Ea] L]. destruct (may_copy_get w y L) as [b [Eb Cb]].
    destruct (t_move_assign_world w x y a b Hw Ea Eb Cb) as [w' [E [D [T0 _]]]].
    exists w'. split; auto. split; auto. split; [intros u z T; inversion T; subst; auto|]. split; [intros u t z T; inversion T|intros u t v T; inversion T].
  - destruct L as [a Ea]. rewrite (get_ok w x a Ea). cbn [bind].
    destruct (t_generate_spec c x (w_heap w) a g) as [r [-> [V1 L1]]]; [apply Hw|apply t_inv_valid; auto|]. cbn [bind].
    eexists. split; [reflexivity|]. split; [apply (write_done w x a); auto|].
    split; [intros u z T; inversion T|]. split; [intros u t z T; inversion T|intros u t v T; inversion T].
  - destruct L as [a Ea]. rewrite (get_ok w x a Ea). cbn [bind].
    destruct (t_transform_spec c x (w_heap w) a fn) as [h' [-> [V1 [L1 _]]]]; [apply Hw|apply t_inv_valid; auto|]. cbn [bind].
    eexists. split; [reflexivity|]. split; [apply (write_done w x a); auto|].
    split; [intros u z T; inversion T|]. split; [intros u t z T; inversion T|intros u t v T; inversion T].
  - destruct L as [[a Ea] [Hs [N [b [Eb Hi]]]]]. rewrite (get_ok w x a Ea), (get_ok w y b Eb). cbn [bind].
    destruct (t_inv_contains w y b Hw Eb) as [f0 C0].
    destruct (t_assign_value_world w x a s (fun h' => t_ref_at h' (aref_of b) i) (f0 i) Hw Ea Hs) as [w' [E [D C]]].
    { intros h' K _. apply (t_kept_elem w x y a b i _ f0 Hw N Ea Eb Hi C0 h' K). }
    exists w'. split; auto. split; auto. split; [intros u z T; inversion T|]. split; [intros u t z T; inversion T|].
    intros u t v' T. inversion T; subst.
    pose proof (t_elem_value w y b i _ _ Hw Eb Hi C0) as Q1. match goal with H : contains w y _ f |- _ => rewrite (t_elem_value w y b i _ f Hw Eb Hi H) in Q1 end.
    injection Q1 as Q1. rewrite Q1. auto.
Qed.
(** ** Statements that change the layout of the elements in place *)

(** The elements after the statement are where the elements of [f] are, [off] further on *)
Definition relocated (t s : list dim) (off : Z) (f g : list Z -> cell V) : Prop :=
  forall i j, in_bounds s i -> in_bounds t j -> offset t j = off + offset s i -> g i = f j.
Lemma t_set_shape_world w x a s off : TInv w -> legal_tact c w (SetShape x s off) -> w_arr w x = Some a ->
  (exists w', tstep skip c w (SetShape x s off) = Ok w' /\ done w w' [x] /\ w_heap w' = w_heap w /\
    w_arr w' x = Some (set_base (with_shape a s) (pointer_add (a_base a) off))) \/
  (c_ndebug c = false /\ tstep skip c w (SetShape x s off) = AssertFail /\ ~ in_span s (a_shape a) off).
Proof.
  intros Hw [Hl [Hp [a0 [Ea0 Hd]]]] Ea. replace a0 with a in * by congruence. cbn [tstep]. rewrite (get_ok w x a Ea). cbn [bind].
  destruct (t_set_shape_spec c x (w_heap w) a s off (t_inv_valid w x a Hw Ea) Hl Hp Hd) as [[a' [-> [E V1]]]|[Hn [-> H]]];
    [left|right; auto]. cbn [bind].
  assert (Eb : blk a' = blk a) by (rewrite E; reflexivity).
  destruct (put_done w x a (w_heap w) a' Hw Ea V1) as [w' [E1 [D [Ea' [Eh _]]]]].
  { rewrite Eb. apply local_refl. apply Hw. }
  unfold change in E1. cbn [bind] in E1. inv E1. eexists. split; [reflexivity|]. split; auto.
Qed.
Lemma t_move_shape_world w y b s off : TInv w -> legal_tact c w (MoveShape y s off) -> w_arr w y = Some b ->
  (exists w' a' b', tstep skip c w (MoveShape y s off) = Ok w' /\ done w w' [w_next w; y] /\
    (forall p, peek (w_heap w) p <> None -> peek (w_heap w') p = peek (w_heap w) p) /\
    w_arr w' (w_next w) = Some a' /\ w_arr w' y = Some b' /\ no_memory b' /\ a_shape b' = c_shape0 c /\
    a_buf a' = a_buf b /\ a_shape a' = s /\ a_base a' = ptr_off (a_base b) off) \/
  (c_ndebug c = false /\ tstep skip c w (MoveShape y s off) = AssertFail /\ is_subset_of s (a_shape b) off = false).
Proof.
  intros Hw [Hl [Hp [b0 [Eb0 [H0 [Hd Hal]]]]]] Eb. replace b0 with b in * by congruence. cbn [tstep].
  rewrite (get_ok w y b Eb). cbn [bind].
  assert (Hip : in_place c (w_heap w) b s off) by (unfold in_place; destruct (c_ndebug c); auto).
  destruct (t_move_shape_spec skip c Hf (w_next w) y (w_heap w) b s off (proj1 Hw) (t_inv_valid w y b Hw Eb) Hl Hp H0 Hip Hal)
    as [[h' [a' [b' [-> [Va [Vb [L [Mb [Sb [Bf [Sa Ba]]]]]]]]]]]|[Hn [-> H]]]; [left|right; auto].
  unfold add2. cbn [bind]. pose proof (t_inv_lt w y b Hw Eb) as Hy.
  assert (E1 : blk b' = 0%nat) by (apply no_memory_blk; auto).
  assert (E2 : blk a' = blk b) by (unfold blk; rewrite Bf; auto).
  exists (wadd2 w y h' a' b'), a', b'. split; [reflexivity|]. split.
  { apply (t_inv_add2 w y b); auto; [intros E; congruence|].
    rewrite E1, E2. apply (local_perm (w_heap w) [0%nat; blk b] h' [0%nat; blk b]); [tauto|simpl; tauto|].
      apply local_keep. exact L. }
  split.
  { intros p Hn. cbn [wadd2 w_heap]. apply (local_outside (w_heap w) 0 h' 0 (proj1 Hw) L); auto.
    intros C. apply Hn. unfold peek. rewrite C. auto. }
  split; [apply put_same|]. split; [cbn [wadd2 w_arr]; rewrite put_other by lia; apply put_same|]. auto 10.
Qed.
End World.
