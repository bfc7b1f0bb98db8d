(** Programs in which allocations fail: an invariant, and what each operation does. *)
From Coq Require Import ZArith List Bool Lia Permutation Arith.
From Verif Require Import Base Interval Shape Traverse Memory Ref Container Throw Spec SpecMem SpecContainer
  SpecThrow Tac ShapeFacts ResolveFacts MemFacts RefFacts SliceFacts ContainerFacts ContainerWorld ThrowFacts.
Import ListNotations.
Open Scope Z_scope.

Section World.
Context {V : Type}.
Variable c : config V.
Implicit Types w : world V.
Hypothesis Hfair : fair c.

(** An array that lost its storage, with the default shape *)
Definition normal (a : arr) : arr :=
  if is_null (a_base a) && negb (empty (a_shape a)) then with_shape a (c_shape0 c) else a.
Definition norm w : world V := mkW (w_heap w) (fun x => option_map normal (w_arr w x)) (w_next w).
Definition XInv w : Prop := Inv c (norm w) /\ forall x a, w_arr w x = Some a -> extents_ge 0 (a_shape a).

Lemma blk_normal a : blk (normal a) = blk a.
Proof. unfold normal. destruct (_ && _); auto. Qed.
Lemma base_normal a : a_base (normal a) = a_base a.
Proof. unfold normal. destruct (_ && _); auto. Qed.
Lemma valid_normal x h a : valid c x h a -> normal a = a.
Proof.
  intros H. unfold normal. destruct (repr_base _ _ _ _ _ H) as [E|E]; [rewrite E; auto|].
  rewrite (proj2 (empty_iff _ (repr_extents _ _ _ _ _ H)) E), andb_false_r. auto.
Qed.
Lemma shape0_empty : empty (c_shape0 c) = true.
Proof. destruct Hfair as [_ [H1 [H2 _]]]. exact (proj2 (empty_iff _ H1) H2). Qed.
Lemma normal_normal a : normal (normal a) = normal a.
Proof.
  unfold normal at 2 3. destruct (is_null (a_base a) && negb (empty (a_shape a))) eqn:E.
  - unfold normal. cbn [with_shape a_base a_shape]. rewrite shape0_empty, andb_false_r. auto.
  - unfold normal. rewrite E. auto.
Qed.
Lemma arg_extents s : shape_arg c s -> extents_ge 0 s.
Proof. intros [_ [H _]]. apply resolve_extents; auto. Qed.
Lemma failed_valid x h a : no_memory a -> shape_arg c (a_shape a) -> valid c x h (normal a).
Proof.
  intros Hn Hs. unfold normal. rewrite (no_memory_null a Hn). cbn [andb].
  destruct Hfair as [F1 [F2 [F3 _]]].
  destruct (empty (a_shape a)) eqn:E; cbn [negb].
  - split; auto. left. split; auto. split; [exact (proj1 (empty_iff _ (arg_extents _ Hs)) E)|apply arg_extents; auto].
  - apply no_memory_valid; auto.
Qed.
Lemma inv_xinv w : Inv c w -> XInv w.
Proof.
  intros H. unfold XInv, norm. destruct w as [h g n]. split.
  - apply (inv_ext c h g); auto.
    intros z. cbn [w_arr]. destruct (g z) as [a|] eqn:E; auto. cbn [option_map].
    rewrite (valid_normal z h); auto. apply (inv_valid c (mkW h g n) z); auto.
  - intros x a E. eapply repr_extents. apply (inv_valid c _ x a H E).
Qed.
Lemma norm_arr w x a : w_arr w x = Some a -> w_arr (norm w) x = Some (normal a).
Proof. intros E. cbn. rewrite E. auto. Qed.

(** [unchanged] seen through [norm] *)
Lemma xinv_failed w x a : XInv w -> w_arr w x = Some a -> normal a = a \/ no_memory a.
Proof.
  intros [Hw _] E. pose proof (inv_valid c _ _ _ Hw (norm_arr _ _ _ E)) as Hv.
  unfold normal in *. destruct (is_null (a_base a)) eqn:N; [|left; auto]. cbn [andb] in *.
  destruct (empty (a_shape a)); cbn [negb] in *; auto. right.
  destruct (valid_memory c _ _ _ Hv) as [[H _]|[_ [_ [H _]]]].
  - destruct a; exact H.
  - cbn in H. congruence.
Qed.
Lemma denotes_norm w z s f : XInv w -> denotes w z s f -> denotes (norm w) z s f \/
  exists a, w_arr w z = Some a /\ no_memory a /\ a_shape a = s /\ no_index s.
Proof.
  intros Hw [a [Ea [Es Hf]]]. destruct (xinv_failed w z a Hw Ea) as [N|N].
  - left. exists a. split; [cbn; rewrite Ea; cbn; congruence|]. auto.
  - right. exists a. split; auto. split; auto. split; auto. intros i Hi. specialize (Hf i Hi).
    destruct N as [_ [N _]]. unfold holds, elem in Hf. rewrite N in Hf. cbn in Hf. discriminate.
Qed.
Lemma norm_denotes w z s f : denotes (norm w) z s f -> forall a, w_arr w z = Some a -> a_shape a = s -> denotes w z s f.
Proof.
  intros [a' [Ea' [Es Hf]]] a Ea E. exists a. split; auto. split; auto. intros i Hi. specialize (Hf i Hi).
  cbn in Ea'. rewrite Ea in Ea'. cbn in Ea'. injection Ea' as <-. rewrite base_normal in Hf. exact Hf.
Qed.
Lemma norm_unchanged w w' X : XInv w -> (forall z, ~ In z X -> w_arr w' z = w_arr w z) ->
  unchanged (norm w) (norm w') X -> unchanged w w' X.
Proof.
  intros Hw Ho H z Hz. split; [auto|]. intros s f D. pose proof D as [a [Ea [Es Hf]]].
  destruct (denotes_norm w z s f Hw D) as [D'|[a' [Ea' [N [Es' Hn]]]]].
  - destruct (H z Hz) as [_ H2]. apply H2 in D'. apply (norm_denotes w' z s f D' a); auto. rewrite Ho; auto.
  - exists a. rewrite Ho by auto. split; auto. split; auto. intros i Hi. destruct (Hn i Hi).
Qed.

Lemma put_norm (g : nat -> option arr) x o z :
  option_map normal (put g x o z) = put (fun y => option_map normal (g y)) x (option_map normal o) z.
Proof. unfold put. destruct (z =? x)%nat; auto. Qed.
(** One array changes *)
Lemma xinv_put w x a h' a' : XInv w -> w_arr w x = Some a -> extents_ge 0 (a_shape a') -> valid c x h' (normal a') -> local (w_heap w) [blk a] h' [blk a'] ->
  XInv (wput w x h' a') /\ unchanged w (wput w x h' a') [x].
Proof.
  intros Hw Ea Hx Hv Hl.
  destruct (inv_put c (norm w) x (normal a) h' (normal a')) as [I U]; auto.
  { apply Hw. }
  { apply norm_arr; auto. }
  { rewrite !blk_normal. auto. }
  assert (E : forall z, put (w_arr (norm w)) x (Some (normal a')) z = w_arr (norm (wput w x h' a')) z).
  { intros z. cbn. rewrite put_norm. auto. }
  split.
  - split; [apply (inv_ext c _ _ _ _ E I)|]. intros z b. cbn. unfold put. destruct (z =? x)%nat; [|apply Hw].
    intros H. inv H. auto.
  - apply norm_unchanged; auto.
    + intros z Hz. cbn. apply put_other. intros ->. apply Hz. left; auto.
    + apply (unchanged_ext _ _ _ _ _ _ E U).
Qed.
(** Nothing changes but the heap, and a name is used up *)
Lemma xinv_heap w h' n' : XInv w -> local (w_heap w) [0%nat] h' [0%nat] -> (w_next w <= n')%nat ->
  XInv (mkW h' (w_arr w) n') /\ unchanged w (mkW h' (w_arr w) n') [].
Proof.
  intros Hw Hl Hn.
  destruct (inv_update c (norm w) h' (w_arr (norm w)) n' [] [0%nat] [0%nat]) as [I U]; auto.
  { apply Hw. }
  { intros k [E|[]]. auto. }
  { intros x a []. }
  { intros x a []. }
  { intros k [E|[]]; auto. }
  { intros x y a b []. }
  split; [split; [exact I|apply Hw]|]. apply norm_unchanged; auto.
Qed.
(** An array is destroyed *)
Lemma xdelete w x a : XInv w -> w_arr w x = Some a ->
  exists w', do_delete c w x = Ok w' /\ XInv w' /\ unchanged w w' [x] /\ w_next w' = w_next w /\ w_arr w' x = None.
Proof.
  intros Hw Ea. destruct (delete_world c Hfair (norm w) x (normal a) (proj1 Hw) (norm_arr _ _ _ Ea)) as [w' [E [I [U [N X]]]]].
  unfold do_delete in *. rewrite (get_ok _ _ _ Ea). rewrite (get_ok _ _ _ (norm_arr _ _ _ Ea)) in E. cbn [bind norm w_heap] in *.
  assert (D : exists h' a1, deallocate c x (w_heap w) a = Ok (h', a1) /\ w' = mkW h' (put (w_arr (norm w)) x None) (w_next w)).
  { destruct (deallocate c x (w_heap w) (normal a)) as [[h' a1]| |] eqn:D; cbn [bind] in E; [|discriminate|discriminate].
    inv E. destruct (xinv_failed w x a Hw Ea) as [F|F]; [rewrite F in D; eauto|].
    rewrite (deallocate_nothing c x _ a) by (apply no_memory_null; auto).
    rewrite deallocate_nothing in D; [inv D; eauto|]. unfold normal. destruct (_ && _); apply no_memory_null; auto. }
  destruct D as [h' [a1 [D ->]]]. rewrite D. cbn [bind]. eexists. split; [reflexivity|].
  assert (Ez : forall z, put (w_arr (norm w)) x None z = w_arr (norm (mkW h' (put (w_arr w) x None) (w_next w))) z).
  { intros z. cbn. rewrite put_norm. auto. }
  split; [split; [apply (inv_ext c _ _ _ _ Ez I)|]|split].
  - intros z b. cbn. unfold put. destruct (z =? x)%nat; [discriminate|apply Hw].
  - apply norm_unchanged; auto.
    + intros z Hz. cbn. apply put_other. intros ->. apply Hz. left; auto.
    + apply (unchanged_ext _ _ _ _ _ _ Ez U).
  - split; auto. cbn. apply put_same.
Qed.

(** ** Failed operations on a world in which all arrays are usable *)

Lemma let_go_local x h a s ha : heap_ok h -> valid c x h a -> shape_arg c s -> let_go_al c x h a s ha ->
  no_memory (snd ha) /\ extents_ge 0 (a_shape (snd ha)) /\ valid c x (fst ha) (normal (snd ha)) /\ local h [blk a] (fst ha) [blk (snd ha)].
Proof.
  intros Hh Hv Hs [h1 [a1 [al [E ->]]]]. cbn [fst snd].
  destruct (deallocate_raw c x h a Hh Hv) as [h' [a' [E' [N [L _]]]]]. rewrite E in E'. inv E'.
  assert (N' : no_memory (failed (set_al a' al) s)) by (destruct a'; exact N).
  split; auto. split; [apply arg_extents, shape_arg_resolve; auto|].
  split; [apply failed_valid; auto; apply shape_arg_resolve; auto|]. exact L.
Qed.
Lemma undone_local x h al h' : heap_ok h -> undone c x h al h' -> local h [0%nat] h' [0%nat].
Proof.
  intros Hh [->|[h1 [a [a2 [E1 E2]]]]]; [apply local_refl; auto|].
  destruct (ctor_shape_spec c x h al (c_shape0 c) Hh) as [h1' [a' [E1' [Hv [_ [L1 _]]]]]]; [apply Hfair|].
  rewrite E1 in E1'. inv E1'.
  destruct (deallocate_raw c x h1' a') as [h2 [a3 [E3 [N [L2 _]]]]]; auto; [apply L1|].
  rewrite E2 in E3. inv E3. rewrite (no_memory_blk _ N) in L2.
  eapply local_trans; eauto.
Qed.

(** What is proved of [xstep]: it returns or throws; when it returns, it did what [step] does;
    when it throws, only the targets changed. *)
Definition good w (o : op V) (r : outcome (xres (world V) (world V))) (r0 : outcome (world V)) : Prop :=
  match r with
  | Ok (Done w' f) => r0 = Ok w' /\ b_elems f = None
  | Ok (Threw w') => XInv w' /\ unchanged w w' (targets o) /\ same_arrays w w'
  | _ => False
  end.
Lemma same_put w h' x a a' n : w_arr w x = Some a -> same_arrays w (mkW h' (put (w_arr w) x (Some a')) n).
Proof.
  intros E z. cbn. unfold put. destruct (Nat.eqb_spec z x) as [->|]; [|reflexivity]. rewrite E. split; discriminate.
Qed.
Lemma good_add w o r r0 f : Inv c w -> targets o = [] -> b_elems f = None ->
  tracks (fun h' => local (w_heap w) [0%nat] h' [0%nat]) r r0 ->
  (exists w', add w r0 = Ok w') -> good w o (add_x w r) (add w r0).
Proof.
  intros Hw Ht Hf Tr [w' E]. destruct r as [[[h' a'] f'|h']| |]; cbn [tracks] in Tr.
  - destruct Tr as [-> Hf']. split; [reflexivity|exact Hf'].
  - cbn [add_x xbind bind good]. rewrite Ht.
    destruct (xinv_heap w h' (S (w_next w)) (inv_xinv w Hw) Tr) as [I U]; [lia|]. split; auto. split; auto. intros z; reflexivity.
  - rewrite Tr in E. discriminate.
  - rewrite Tr in E. discriminate.
Qed.
Lemma good_add2 w o y r r0 f : Inv c w -> targets o = [] -> b_elems f = None ->
  tracks (fun h' => local (w_heap w) [0%nat] h' [0%nat]) r r0 ->
  (exists w', add2 w y r0 = Ok w') -> good w o (add2_x w y r) (add2 w y r0).
Proof.
  intros Hw Ht Hf Tr [w' E]. destruct r as [[[[h' a'] b'] f'|h']| |]; cbn [tracks] in Tr.
  - destruct Tr as [-> Hf']. split; [reflexivity|exact Hf'].
  - cbn [add2_x xbind bind good]. rewrite Ht.
    destruct (xinv_heap w h' (S (w_next w)) (inv_xinv w Hw) Tr) as [I U]; [lia|]. split; auto. split; auto. intros z; reflexivity.
  - rewrite Tr in E. discriminate.
  - rewrite Tr in E. discriminate.
Qed.
Lemma good_change w o x a s r r0 f : Inv c w -> targets o = [x] -> w_arr w x = Some a -> shape_arg c s -> b_elems f = None ->
  tracks (let_go_al c x (w_heap w) a s) r r0 ->
  (exists w', change w x r0 = Ok w') -> good w o (change_x w x r) (change w x r0).
Proof.
  intros Hw Ht Ea Hs Hf Tr [w' E]. destruct r as [[[h' a'] f'|ha]| |]; cbn [tracks] in Tr.
  - destruct Tr as [-> Hf']. split; [reflexivity|exact Hf'].
  - cbn [change_x xbind bind good]. rewrite Ht.
    destruct (let_go_local x _ a s ha (proj1 Hw) (inv_valid c w x a Hw Ea) Hs Tr) as [N [Hx [Hv L]]].
    destruct (xinv_put w x a (fst ha) (snd ha) (inv_xinv w Hw) Ea Hx Hv L) as [I U]. split; auto. split; auto.
    apply (same_put w _ x a); auto.
  - rewrite Tr in E. discriminate.
  - rewrite Tr in E. discriminate.
Qed.
Lemma good_move_assign w o x y a b f : Inv c w -> targets o = [x] -> w_arr w x = Some a -> w_arr w y = Some b -> b_elems f = None ->
  (exists w', do_move_assign c w x y = Ok w') -> good w o (do_move_assign_x c w x y f) (do_move_assign c w x y).
Proof.
  intros Hw Ht Ea Eb Hf [w' E]. unfold do_move_assign_x, do_move_assign in *.
  rewrite (get_ok _ _ _ Ea), (get_ok _ _ _ Eb) in *. cbn [bind] in *.
  pose proof (move_assign_tracks c x (w_heap w) a y b f Hf) as Tr.
  destruct (move_assign_op_x c x (w_heap w) a y b f) as [[[[h' a'] b'] f'|ha]| |]; cbn [tracks] in Tr.
  - destruct Tr as [-> Hf']. split; [reflexivity|exact Hf'].
  - cbn [xbind bind good]. rewrite Ht. apply let_go_is in Tr.
    destruct (let_go_local x _ a _ ha (proj1 Hw) (inv_valid c w x a Hw Ea) (inv_shape c w y b Hw Eb) Tr) as [N [Hx [Hv L]]].
    destruct (xinv_put w x a (fst ha) (snd ha) (inv_xinv w Hw) Ea Hx Hv L) as [I U]. split; auto. split; auto.
    apply (same_put w _ x a); auto.
  - rewrite Tr in E. discriminate.
  - rewrite Tr in E. discriminate.
Qed.

Lemma good_done w o w' f : b_elems f = None -> good w o (Ok (Done w' f)) (Ok w').
Proof. intros H. split; auto. Qed.
Lemma good_nothrow w o r f : b_elems f = None -> (exists w', r = Ok w') -> good w o (nothrow r f) r.
Proof. intros H [w' ->]. split; auto. Qed.
Lemma same_trans w w1 w2 : same_arrays w w1 -> same_arrays w1 w2 -> same_arrays w w2.
Proof. intros H1 H2 z. rewrite (H2 z). apply H1. Qed.
Lemma good_new w s al f : Inv c w -> shape_arg c s -> b_elems f = None ->
  good w (New s al) (do_new_x c w s al f) (do_new c w s al).
Proof.
  intros Hw Hs Hf. unfold do_new_x, do_new. apply good_add with (f := f); auto.
  - eapply tracks_weaken; [|apply ctor_shape_tracks; auto]. intros h' ->. apply local_refl. apply Hw.
  - destruct (new_world c w s al Hw Hs) as [w' [E _]]. unfold do_new in E. eauto.
Qed.
Lemma good_new_move w y b f : Inv c w -> w_arr w y = Some b -> copyable c b -> b_elems f = None ->
  good w (NewMove y) (do_new_move_x c w y f) (do_new_move c w y).
Proof.
  intros Hw Eb Cb Hf. destruct (new_move_world c Hfair w y b Hw Eb Cb) as [w' [E _]].
  unfold do_new_move_x, do_new_move in *. rewrite (get_ok _ _ _ Eb) in *. cbn [bind] in *.
  apply good_add2 with (f := f); eauto.
  eapply tracks_weaken; [|apply ctor_move_tracks; auto]. intros h' ->. apply local_refl. apply Hw.
Qed.

Lemma good_reshape w x a s f : Inv c w -> w_arr w x = Some a -> shape_arg c s -> Forall2 meets s (a_shape a) ->
  b_elems f = None -> good w (Reshape x s) (do_reshape_x c w x s f) (do_reshape c w x s).
Proof.
  intros Hw Ea Hs Hm Hf. unfold do_reshape, do_reshape_x. rewrite (get_ok w x a Ea). cbn [bind].
  destruct (shape_eqb (a_shape a) (resolve s)) eqn:E; [apply good_done; auto|].
  set (n := w_next w). pose proof (inv_lt c w x a Hw Ea) as Lx. fold n in Lx.
  assert (Hk : known_strides (resolve s)) by apply Hs.
  assert (Hrr : resolve (resolve s) = resolve s) by (apply resolve_known; auto).
  assert (Hs2 : shape_arg c (resolve s)).
  { destruct Hs as [H1 H2]. split; [rewrite resolve_length; auto|]. rewrite Hrr. auto. }
  pose proof (good_new w (resolve s) (c_default c) f Hw Hs2 Hf) as G1.
  destruct (new_world c w (resolve s) (c_default c) Hw Hs2) as [w1 [E1 [I1 [U1 [N1 [D1 [b [Eb Eal]]]]]]]].
  rewrite E1 in *. cbn [bind].
  fold n in U1, N1, D1, Eb.
  destruct (do_new_x c w (resolve s) (c_default c) f) as [[w1' f1|w1']| |]; cbn [good] in G1; try tauto; cbn [xbind bind].
  2:{ cbn [good targets]. destruct G1 as [? [U ?]]. split; auto. split; auto.
      apply (unchanged_weaken _ _ _ [x]) in U; auto. intros z []. }
  destruct G1 as [G1 Hf1]. inv G1. rewrite (get_ok w1' n b Eb). cbn [bind]. rewrite Hrr in D1.
  destruct (denotes_has _ _ _ _ _ D1 Eb) as [Es Hb]. destruct (U1 x) as [X1 X2]; [simpl; intuition lia|].
  rewrite Ea in X1.
  assert (Hap : apart a b) by (apply (inv_apart c w1' x n); auto; lia).
  assert (Hm' : Forall2 meets (a_shape b) (a_shape a)) by (rewrite <- Es; apply meets_resolve; auto).
  destruct (inv_has c w1' x a I1 X1) as [f0 Hf0].
  destruct (move_common_spec c x n (w_heap w1') a b f0 (fun _ => c_dv c) (proj1 I1)
     (inv_valid c w1' x a I1 X1) (inv_valid c w1' n b I1 Eb) Hf0 Hb Hap Hm') as [h2 [g0 [E2 [V1 [V2 [_ [_ [_ L2]]]]]]]].
  rewrite Es, E2. cbn [bind].
  destruct (inv_two c w1' x n a b h2) as [I2 U2]; auto; [lia|].
  set (w2 := mkW h2 (w_arr w1') (w_next w1')) in *.
  assert (Cb : copyable c b) by (right; rewrite <- Es; auto).
  destruct (move_assign_world c Hfair w2 x n a b) as [w3 [E3 [I3 [U3 [N3 [M3 [a3 [b3 [Ea3 [Eb3 _]]]]]]]]]]; auto; [lia|].
  pose proof (good_move_assign w2 (MoveAssign x n) x n a b f1 I2 eq_refl X1 Eb Hf1 (ex_intro _ w3 E3)) as G3.
  rewrite E3 in *. cbn [bind].
  destruct (do_move_assign_x c w2 x n f1) as [[w3' f3|w3']| |]; cbn [good] in G3; try tauto; cbn [xbind bind].
  - destruct G3 as [G3 Hf3]. inv G3. destruct (delete_world c Hfair w3' n b3 I3 Eb3) as [w4 [-> _]]. cbn [bind]. split; auto.
  - destruct G3 as [I3' [U3' S3]]. cbn [targets] in U3'. destruct (U3' n) as [B1 _]; [simpl; intuition lia|].
    cbn [w2 w_arr] in B1. rewrite Eb in B1.
    destruct (xdelete w3' n b I3' B1) as [w4 [-> [I4 [U4 [N4 E4]]]]]. cbn [bind good]. split; auto.
    assert (U : unchanged w w4 [x]).
    { apply (unchanged_temp c w); auto. fold n.
      eapply unchanged_trans; [apply (unchanged_weaken _ _ [n]); [simpl; tauto|exact U1]|].
      eapply unchanged_trans; [apply (unchanged_weaken _ _ [x; n]); [simpl; tauto|exact U2]|].
      eapply unchanged_trans; [apply (unchanged_weaken _ _ [x]); [simpl; tauto|exact U3']|].
      apply (unchanged_weaken _ _ [n]); [simpl; tauto|exact U4]. }
    split; auto. intros z. destruct (Nat.eq_dec z x) as [->|Nz].
    + rewrite Ea. destruct (U4 x) as [Q _]; [simpl; intuition lia|]. rewrite Q. rewrite (S3 x). cbn [w2 w_arr]. rewrite X1.
      split; discriminate.
    + destruct (U z) as [Q _]; [simpl; intuition|]. rewrite Q. reflexivity.
Qed.
(** The temporary [n] of [swap] and [reshape] is destroyed on the way out *)
Lemma unwind w w1 w2 n X t : Inv c w -> n = w_next w -> unchanged w w1 (n :: X) -> (forall z, z <> n -> (w_arr w1 z = None <-> w_arr w z = None)) ->
  XInv w2 -> unchanged w1 w2 X -> same_arrays w1 w2 -> w_arr w2 n = Some t ->
  exists w4, do_delete c w2 n = Ok w4 /\ XInv w4 /\ unchanged w w4 X /\ same_arrays w w4.
Proof.
  intros Hw -> U1 S1 I2 U2 S2 Et. destruct (xdelete w2 _ t I2 Et) as [w4 [E [I4 [U4 [N4 E4]]]]].
  exists w4. split; auto. split; auto. split.
  - apply (unchanged_temp c w); auto. eapply unchanged_trans; [exact U1|].
    eapply unchanged_trans; [apply (unchanged_weaken _ _ X); [simpl; tauto|exact U2]|].
    apply (unchanged_weaken _ _ [w_next w]); [simpl; tauto|exact U4].
  - intros z. destruct (Nat.eq_dec z (w_next w)) as [->|Nz].
    + rewrite E4, (fresh c w Hw). tauto.
    + destruct (U4 z) as [-> _]; [simpl; intuition|]. rewrite (S2 z). auto.
Qed.

Lemma good_swap w x y a b f : Inv c w -> w_arr w x = Some a -> w_arr w y = Some b -> copyable c a -> copyable c b ->
  b_elems f = None -> good w (Swap x y) (do_swap_x c w x y f) (do_swap c w x y).
Proof.
  intros Hw Ea Eb Ca Cb Hf. unfold do_swap_x.
  destruct (swap_world c Hfair w x y a b Hw Ea Eb Ca Cb) as [wf [Ef _]].
  destruct (c_pocs c) eqn:Ep; [apply good_nothrow; eauto|].
  unfold do_swap in *. rewrite Ep in *. set (n := w_next w) in *.
  pose proof (inv_lt c w x a Hw Ea) as Lx. pose proof (inv_lt c w y b Hw Eb) as Ly. fold n in Lx, Ly.
  pose proof (good_new_move w y b f Hw Eb Cb Hf) as G1.
  destruct (new_move_world c Hfair w y b Hw Eb Cb) as [w1 [E1 [I1 [U1 [N1 [M1 [t [b1 [Et [Eb1 _]]]]]]]]]].
  rewrite E1 in *. cbn [bind] in *. fold n in Et, U1, N1, M1.
  destruct (do_new_move_x c w y f) as [[w1' f1|w1']| |]; cbn [good] in G1; try tauto; cbn [xbind bind].
  2:{ cbn [good targets]. destruct G1 as [? [U ?]]. split; auto. split; auto.
      apply (unchanged_weaken _ _ _ [x; y]) in U; auto. intros z []. }
  destruct G1 as [G1 Hf1]. injection G1 as ->.
  assert (Ht : refines (a_shape t) (a_shape b)).
  { destruct (inv_denotes c w y b Hw Eb) as [fb Db]. destruct (M1 _ _ Db) as [s' [R D]].
    destruct (denotes_has _ _ _ _ _ D Et) as [-> _]. auto. }
  pose proof (refines_copyable c b t (inv_shape c w y b Hw Eb) Ht Cb) as Ct.
  assert (S1 : forall z, z <> n -> (w_arr w1' z = None <-> w_arr w z = None)).
  { intros z Hz. destruct (Nat.eq_dec z y) as [->|Nz]; [rewrite Eb, Eb1; split; discriminate|].
    destruct (U1 z) as [-> _]; [simpl; intuition|]. tauto. }
  assert (U1' : unchanged w w1' (n :: [x; y])) by (apply (unchanged_weaken _ _ [n; y]); [simpl; tauto|exact U1]).
  assert (Ex1 : exists a1, w_arr w1' x = Some a1).
  { destruct (w_arr w1' x) as [a1|] eqn:Z; eauto. apply S1 in Z; [congruence|lia]. }
  destruct Ex1 as [a1 Ea1].
  (* the second move *)
  assert (W2 : exists w2 a2 b2, do_move_assign c w1' y x = Ok w2 /\ Inv c w2 /\ unchanged w1' w2 [y; x] /\
     w_arr w2 x = Some a2 /\ w_arr w2 y = Some b2).
  { destruct (Nat.eq_dec x y) as [<-|N].
    - destruct (self_world c w1' (MoveAssign x x) x b1 I1 Eb1) as [w2 [E2 [I2 [U2 _]]]]; auto.
      destruct (U2 x) as [Q _]; [intros []|]. exists w2, b1, b1. split; [exact E2|]. split; auto.
      split; [apply (unchanged_weaken _ _ []); [intros z []|exact U2]|]. split; congruence.
    - assert (Ca1 : copyable c a1). { destruct (U1 x) as [Q _]; [simpl; intuition lia|]. congruence. }
      destruct (move_assign_world c Hfair w1' y x b1 a1) as [w2 [E2 [I2 [U2 [_ [_ [b2 [a2 [Eb2 [Ea2 _]]]]]]]]]]; auto.
      exists w2, a2, b2. auto. }
  destruct W2 as [w2 [a2 [b2 [E2 [I2 [U2 [Ea2 Eb2]]]]]]].
  pose proof (good_move_assign w1' (MoveAssign y x) y x b1 a1 f1 I1 eq_refl Eb1 Ea1 Hf1 (ex_intro _ w2 E2)) as G2.
  rewrite E2 in *. cbn [bind] in *.
  destruct (U2 n) as [T1 _]; [simpl; intuition lia|].
  destruct (do_move_assign_x c w1' y x f1) as [[w2' f2|w2']| |]; cbn [good] in G2; try tauto; cbn [xbind bind].
  2:{ destruct G2 as [I2' [U2' S2]]. cbn [targets] in U2'.
      destruct (U2' n) as [T1' _]; [simpl; intuition lia|]. rewrite Et in T1'.
      destruct (unwind w w1' w2' n [x; y] t Hw eq_refl U1' S1 I2') as [w4 [-> [I4 [U4 S4]]]]; auto;
        [apply (unchanged_weaken _ _ [y]); [simpl; tauto|exact U2']|].
      cbn [bind good targets]. auto. }
  destruct G2 as [G2 Hf2]. injection G2 as ->. rewrite Et in T1.
  destruct (move_assign_world c Hfair w2' x n a2 t) as [w3 [E3 [I3 [U3 [N3 [M3 [a3 [t3 [Ea3 [Et3 _]]]]]]]]]]; auto; [lia|].
  pose proof (good_move_assign w2' (MoveAssign x n) x n a2 t f2 I2 eq_refl Ea2 T1 Hf2 (ex_intro _ w3 E3)) as G3.
  rewrite E3 in *. cbn [bind] in *.
  destruct (do_move_assign_x c w2' x n f2) as [[w3' f3|w3']| |]; cbn [good] in G3; try tauto; cbn [xbind bind].
  2:{ destruct G3 as [I3' [U3' S3]]. cbn [targets] in U3'.
      destruct (U3' n) as [T1' _]; [simpl; intuition lia|]. rewrite T1 in T1'.
      destruct (unwind w w2' w3' n [x; y] t Hw eq_refl) as [w4 [-> [I4 [U4 S4]]]]; auto.
      - eapply unchanged_trans; [exact U1'|]. apply (unchanged_weaken _ _ [y; x]); [simpl; tauto|exact U2].
      - intros z Hz. rewrite <- (S1 z Hz). destruct (Nat.eq_dec z x) as [->|Nx]; [rewrite Ea2, Ea1; split; discriminate|].
        destruct (Nat.eq_dec z y) as [->|Ny]; [rewrite Eb2, Eb1; split; discriminate|].
        destruct (U2 z) as [-> _]; [simpl; intuition|]. tauto.
      - apply (unchanged_weaken _ _ [x]); [simpl; tauto|exact U3'].
      - cbn [bind good targets]. auto. }
  destruct G3 as [G3 Hf3]. injection G3 as ->. rewrite Ef. cbn [bind]. split; auto.
Qed.

Lemma copyable_may w y : may_copy c w y -> exists b, w_arr w y = Some b /\ copyable c b.
Proof. intros [b [E H]]. exists b. auto. Qed.
(** Every operation *)
Lemma xstep_inv w o f : Inv c w -> legal_op c w o -> b_elems f = None -> good w o (xstep c w o f) (step c w o).
Proof.
  intros Hw L Hf. destruct (step_ok c Hfair w o Hw L) as [w0 [E0 _]].
  pose proof (local_refl (w_heap w) [0%nat] (proj1 Hw)) as Lr.
  destruct o; cbn [legal_op] in L; cbn [xstep]; cbn [step] in E0 |- *.
  - apply good_new; auto.
  - apply good_add with (f := f); eauto. eapply tracks_weaken; [|apply ctor_value_tracks; auto].
    intros h' U. eapply undone_local; eauto. apply Hw.
  - destruct L as [b [Eb C]]. rewrite (get_ok _ _ _ Eb) in *. cbn [bind] in *.
    apply good_add with (f := f); eauto. eapply tracks_weaken; [|apply ctor_copy_tracks; auto]. intros h' ->; auto.
  - destruct L as [b [Eb C]]. rewrite (get_ok _ _ _ Eb) in *. cbn [bind] in *.
    apply good_add with (f := f); eauto. eapply tracks_weaken; [|apply ctor_copy_alloc_tracks; auto].
    intros h' U. eapply undone_local; eauto. apply Hw.
  - destruct L as [b [Eb C]]. apply (good_new_move w y b); auto.
  - destruct L as [b [Eb C]]. rewrite (get_ok _ _ _ Eb) in *. cbn [bind] in *.
    apply good_add2 with (f := f); eauto. eapply tracks_weaken; [|apply ctor_move_alloc_tracks; auto]. intros h' ->; auto.
  - destruct L as [_ [b [Eb C]]]. rewrite (get_ok _ _ _ Eb) in *. cbn [bind] in *.
    apply good_add with (f := f); eauto. eapply tracks_weaken; [|apply make_copy_tracks; auto]. intros h' ->; auto.
  - destruct L as [_ [b [Eb C]]]. rewrite (get_ok _ _ _ Eb) in *. cbn [bind] in *.
    apply good_add with (f := f); eauto. eapply tracks_weaken; [|apply make_move_tracks; auto]. intros h' ->; auto.
  - destruct L as [[a Ea] [b [Eb C]]]. rewrite (get_ok _ _ _ Ea), (get_ok _ _ _ Eb) in *. cbn [bind] in *.
    apply good_change with (f := f) (a := a) (s := a_shape b); eauto; [apply (inv_shape c w y); auto|].
    apply copy_assign_tracks; auto. intros ->. congruence.
  - destruct L as [[a Ea] [b [Eb C]]]. apply (good_move_assign w _ x y a b); eauto.
  - destruct L as [[a Ea] [b [Eb C]]]. rewrite (get_ok _ _ _ Ea), (get_ok _ _ _ Eb) in *. cbn [bind] in *.
    apply good_change with (f := f) (a := a) (s := a_shape b); eauto; [apply (inv_shape c w y); auto|].
    eapply tracks_weaken; [|apply assign_copy_tracks; auto]. apply let_go_is.
  - destruct L as [[a Ea] [b [Eb C]]]. rewrite (get_ok _ _ _ Ea), (get_ok _ _ _ Eb) in *. cbn [bind] in *.
    apply good_change with (f := f) (a := a) (s := a_shape b); eauto; [apply (inv_shape c w y); auto|].
    eapply tracks_weaken; [|apply assign_move_tracks; auto]. apply let_go_is.
  - destruct L as [[a Ea] Hs]. rewrite (get_ok _ _ _ Ea) in *. cbn [bind] in *.
    apply good_change with (f := f) (a := a) (s := resolve s); eauto; [apply shape_arg_resolve; auto|].
    eapply tracks_weaken; [|apply assign_value_tracks; auto]. apply let_go_is.
  - destruct L as [a Ea]. rewrite (get_ok _ _ _ Ea) in *. cbn [bind] in *.
    apply good_change with (f := f) (a := a) (s := c_shape0 c); eauto; [apply Hfair|].
    eapply tracks_weaken; [|apply clear_tracks; auto]. apply let_go_is.
  - destruct L as [Hs [a [Ea Hm]]]. apply (good_reshape w x a); auto.
  - destruct L as [[a [Ea Ca]] [b [Eb Cb]]]. apply (good_swap w x y a b); auto.
  - apply good_nothrow; eauto.
  - apply good_nothrow; eauto.
Qed.
End World.
