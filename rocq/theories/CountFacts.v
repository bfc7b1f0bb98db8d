(** Facts about counting: it changes nothing, and what is counted matches the objects and blocks that exist. *)
From Coq Require Import ZArith List Bool Lia.
From Verif Require Import Base Interval Shape Traverse Memory Ref Container Program Count.
From Verif Require Import Spec SpecMem SpecContainer Tac ShapeFacts MemFacts ContainerFacts.
Import ListNotations.
Open Scope Z_scope.

(** ** Counting changes nothing *)

Definition strip {A} (m : counted A) : outcome A := a <- m ;; Ok (fst a).
Lemma bind_ext {A B} (m : outcome A) (f g : A -> outcome B) : (forall a, f a = g a) -> bind m f = bind m g.
Proof. intros H. destruct m; cbn [bind]; auto. Qed.
Lemma bind_cong {A B} (m n : outcome A) (f g : A -> outcome B) : m = n -> (forall a, f a = g a) -> bind m f = bind n g.
Proof. intros -> H. apply bind_ext. exact H. Qed.
Lemma strip_quiet {A} (m : outcome A) : strip (quiet m) = m.
Proof. destruct m; reflexivity. Qed.
Lemma strip_doing {A} t (m : outcome A) : strip (doing t m) = m.
Proof. destruct m; reflexivity. Qed.
Lemma strip_cbind {A B} (m : counted A) (f : A -> counted B) : strip (cbind m f) = (x <- strip m ;; strip (f x)).
Proof. destruct m as [[a t]| |]; try reflexivity. unfold strip, cbind. cbn [bind fst]. destruct (f a) as [[b u]| |]; reflexivity. Qed.
Lemma strip_foldC {A S} (f : S -> A -> counted S) g l : (forall s a, strip (f s a) = g s a) ->
  forall s, strip (foldC f l s) = foldM g l s.
Proof.
  intros H. induction l as [|a l IH]; intros s; [reflexivity|]. cbn [foldC foldM].
  rewrite strip_cbind, H. apply bind_ext. auto.
Qed.
Ltac stripped :=
  repeat first
    [ rewrite strip_cbind | rewrite strip_quiet | rewrite strip_doing
    | apply bind_ext; intros
    | apply bind_cong; [|intros]
    | match goal with
      | |- strip (if ?b then _ else _) = _ => destruct b
      | |- strip (let '(_, _) := ?p in _) = _ => destruct p
      | |- strip (foldC _ _ _) = _ => apply strip_foldC; intros
      | |- context [match ?p with (_, _) => _ end] => is_var p; destruct p
      end
    | reflexivity ].

Section Strip.
Context {V : Type}.
Variable c : config V.
Lemma strip_copy h src dst : strip (n_copy_to c h src dst) = copy (c_ndebug c) h src dst.
Proof. unfold n_copy_to, copy. stripped. Qed.
Lemma strip_move h src dst : strip (n_move_to c h src dst) = move (c_ndebug c) (c_mv c) h src dst.
Proof. unfold n_move_to, move. stripped. Qed.
Lemma strip_fill h dst v : strip (n_fill c h dst v) = fill (c_ndebug c) h dst v.
Proof. unfold n_fill, fill. stripped. Qed.
Lemma strip_generate h dst g : strip (n_generate c h dst g) = generate (c_ndebug c) h dst g.
Proof. unfold n_generate, generate, assign_each. stripped. Qed.
Lemma strip_transform h dst fn : strip (n_transform_index h dst fn) = @transform_index V h dst fn.
Proof. unfold n_transform_index, transform_index. stripped. Qed.
Lemma strip_allocate x h a : strip (n_allocate c x h a) = allocate c x h a.
Proof.
  unfold n_allocate, allocate. rewrite strip_cbind, strip_quiet. apply bind_ext; intros _. cbv zeta.
  rewrite strip_cbind. destruct (0 <? _); [|rewrite strip_quiet; reflexivity].
  unfold n_alloc_get, alloc_get. destruct (negb _ && _); reflexivity.
Qed.
Lemma strip_put x h a p n : strip (n_alloc_put c x h a p n) = alloc_put c x h a p n.
Proof. unfold n_alloc_put, alloc_put. destruct (inline_block x h p); stripped. Qed.
Lemma strip_construct t h a init : strip (n_construct c t h a init) = construct c h a init.
Proof. unfold n_construct, construct. stripped. Qed.
Lemma strip_copy_construct h a b : strip (n_copy_construct c h a b) = copy_construct c h a b.
Proof. unfold n_copy_construct, copy_construct. stripped. Qed.
Lemma strip_move_construct h a b : strip (n_move_construct c h a b) = move_construct c h a b.
Proof. unfold n_move_construct, move_construct. stripped. Qed.
Lemma strip_destruct h a : strip (n_destruct c h a) = destroy c h a.
Proof. unfold n_destruct, destroy. stripped. Qed.
Lemma strip_deallocate x h a : strip (n_deallocate c x h a) = deallocate c x h a.
Proof.
  unfold n_deallocate, deallocate. destruct (is_null _); [apply strip_quiet|].
  rewrite strip_cbind, strip_destruct. apply bind_ext; intros h1. cbv zeta.
  rewrite strip_cbind, strip_put. stripped.
Qed.
Ltac more := repeat first
  [ progress stripped
  | rewrite strip_allocate | rewrite strip_construct | rewrite strip_deallocate | rewrite strip_destruct
  | rewrite strip_copy_construct | rewrite strip_move_construct | rewrite strip_copy | rewrite strip_move
  | rewrite strip_fill | rewrite strip_generate | rewrite strip_transform ].
Lemma strip_ctor_shape x h al s : strip (n_ctor_shape c x h al s) = ctor_shape c x h al s.
Proof. unfold n_ctor_shape, ctor_shape, n_construct_default, construct_default. more. Qed.
Lemma strip_assign_value x h a s init : strip (n_assign_value c x h a s init) = assign_value c x h a s init.
Proof.
  unfold n_assign_value, assign_value. cbv zeta. rewrite strip_cbind. destruct (shape_eqb _ _); more.
Qed.
Lemma strip_storage x h a b : strip (n_storage c x h a b) =
  (if negb (is_null (a_base a)) && shape_eqb (a_shape a) (a_shape b)
   then h' <- destroy c h a ;; Ok (h', a)
   else ' (h', a') <- deallocate c x h a ;; allocate c x h' (with_shape a' (a_shape b))).
Proof. unfold n_storage. destruct (negb _ && _); more. Qed.
Lemma strip_assign_copy x h a b : strip (n_assign_copy c x h a b) = assign_copy c x h a b.
Proof.
  unfold n_assign_copy, assign_copy. destruct (ptr_eqb _ _); [destruct (negb _); more|].
  rewrite strip_cbind, strip_storage. more.
Qed.
Lemma strip_assign_move x h a b : strip (n_assign_move c x h a b) = assign_move c x h a b.
Proof.
  unfold n_assign_move, assign_move. destruct (ptr_eqb _ _); [destruct (negb _); more|].
  rewrite strip_cbind, strip_storage. more.
Qed.
Lemma strip_ctor_value x h al s v : strip (n_ctor_value c x h al s v) = ctor_value c x h al s v.
Proof. unfold n_ctor_value, ctor_value. rewrite strip_cbind, strip_ctor_shape. apply bind_ext. intros [h1 a]. apply strip_assign_value. Qed.
Lemma strip_ctor_copy_alloc x h b al : strip (n_ctor_copy_alloc c x h b al) = ctor_copy_alloc c x h b al.
Proof. unfold n_ctor_copy_alloc, ctor_copy_alloc. rewrite strip_cbind, strip_ctor_shape. apply bind_ext. intros [h1 a]. apply strip_assign_copy. Qed.
Lemma strip_ctor_move x h y b : strip (n_ctor_move c x h y b) = ctor_move c x h y b.
Proof. unfold n_ctor_move, ctor_move. cbv zeta. destruct (_ || _); more. Qed.
Lemma strip_ctor_move_alloc x h y b al : strip (n_ctor_move_alloc c x h y b al) = ctor_move_alloc c x h y b al.
Proof. unfold n_ctor_move_alloc, ctor_move_alloc. cbv zeta. destruct (alloc_eq _ _ _ _); more. Qed.
Lemma strip_copy_assign x h a y b : strip (n_copy_assign_op c x h a y b) = copy_assign_op c x h a y b.
Proof.
  unfold n_copy_assign_op, copy_assign_op. destruct (ptr_eqb _ _); [destruct (negb _); more|].
  rewrite strip_cbind. destruct (c_pocca c); [|rewrite strip_quiet; apply strip_assign_copy].
  rewrite strip_cbind. destruct (negb _).
  - rewrite strip_deallocate. destruct (deallocate c x h a) as [[h' a']| |]; auto. cbn [bind]. rewrite strip_quiet.
    cbn [bind]. apply strip_assign_copy.
  - rewrite strip_quiet. cbn [bind]. rewrite strip_quiet. cbn [bind]. apply strip_assign_copy.
Qed.
Lemma strip_move_assign x h a y b : strip (n_move_assign_op c x h a y b) = move_assign_op c x h a y b.
Proof.
  unfold n_move_assign_op, move_assign_op. destruct (ptr_eqb _ _); [destruct (negb _); more|].
  destruct (c_pocma c); [reflexivity|]. destruct (alloc_eq _ _ _ _); [reflexivity|].
  rewrite strip_cbind, strip_assign_move. more.
Qed.
Lemma strip_clear x h a : strip (n_clear c x h a) = clear c x h a.
Proof. unfold n_clear, clear, n_construct_default, construct_default. more. Qed.
Lemma strip_make_copy x h src s al : strip (n_make_copy c x h src s al) = make_copy c x h src s al.
Proof. unfold n_make_copy, make_copy. rewrite strip_cbind, strip_ctor_shape. more. Qed.
Lemma strip_make_move x h src s al : strip (n_make_move c x h src s al) = make_move c x h src s al.
Proof. unfold n_make_move, make_move. rewrite strip_cbind, strip_ctor_shape. more. Qed.
Lemma strip_do_new w s al : strip (n_do_new c w s al) = do_new c w s al.
Proof. unfold n_do_new, do_new, n_add, add. rewrite strip_cbind, strip_ctor_shape. more. Qed.
Lemma strip_do_new_move w y : strip (n_do_new_move c w y) = do_new_move c w y.
Proof. unfold n_do_new_move, do_new_move, n_add2, add2. more. rewrite strip_ctor_move. more. Qed.
Lemma strip_do_move_assign w x y : strip (n_do_move_assign c w x y) = do_move_assign c w x y.
Proof. unfold n_do_move_assign, do_move_assign, n_change2, change2. more. rewrite strip_move_assign. more. Qed.
Lemma strip_do_delete w x : strip (n_do_delete c w x) = do_delete c w x.
Proof. unfold n_do_delete, do_delete. more. Qed.
Lemma strip_move_common h a b s : strip (n_move_common c h a b s) = move_common c h a b s.
Proof. unfold n_move_common, move_common. cbv zeta. more. Qed.
Lemma strip_do_reshape w x s : strip (n_do_reshape c w x s) = do_reshape c w x s.
Proof.
  unfold n_do_reshape, do_reshape. rewrite strip_cbind, strip_quiet. apply bind_ext; intros a. cbv zeta.
  destruct (shape_eqb _ _); [apply strip_quiet|].
  rewrite strip_cbind, strip_do_new. apply bind_ext; intros w1.
  rewrite strip_cbind, strip_quiet. apply bind_ext; intros b.
  rewrite strip_cbind, strip_move_common. apply bind_ext; intros h2.
  rewrite strip_cbind, strip_do_move_assign. apply bind_ext; intros w3. apply strip_do_delete.
Qed.
Lemma strip_do_swap w x y : strip (n_do_swap c w x y) = do_swap c w x y.
Proof.
  unfold n_do_swap, do_swap. destruct (c_pocs c).
  - rewrite strip_cbind, strip_quiet. apply bind_ext; intros a. rewrite strip_cbind, strip_quiet. apply bind_ext; intros b.
    reflexivity.
  - cbv zeta. rewrite strip_cbind, strip_do_new_move. apply bind_ext; intros w1.
    rewrite strip_cbind, strip_do_move_assign. apply bind_ext; intros w2.
    rewrite strip_cbind, strip_do_move_assign. apply bind_ext; intros w3. apply strip_do_delete.
Qed.
Ltac lift := unfold n_change, change, n_add, add, n_add2, add2, n_on_heap;
  repeat (first [rewrite strip_cbind | rewrite strip_quiet | rewrite strip_doing]; try (apply bind_ext; intros)).
Lemma strip_step w o : strip (n_step c w o) = step c w o.
Proof.
  destruct o; cbn [n_step step].
  - apply strip_do_new.
  - lift. rewrite strip_ctor_value. more.
  - lift. unfold n_ctor_copy, ctor_copy. rewrite strip_assign_copy. more.
  - lift. rewrite strip_ctor_copy_alloc. more.
  - apply strip_do_new_move.
  - lift. rewrite strip_ctor_move_alloc. more.
  - lift. rewrite strip_make_copy. more.
  - lift. rewrite strip_make_move. more.
  - lift. rewrite strip_copy_assign. more.
  - apply strip_do_move_assign.
  - lift. rewrite strip_assign_copy. more.
  - lift. rewrite strip_assign_move. more.
  - lift. rewrite strip_assign_value. more.
  - lift. rewrite strip_clear. more.
  - apply strip_do_reshape.
  - apply strip_do_swap.
  - lift. reflexivity.
  - apply strip_do_delete.
Qed.
Lemma strip_astep w o : strip (n_astep c w o) = astep c w o.
Proof.
  destruct o; cbn [n_astep astep].
  - apply strip_step.
  - lift. more.
  - lift. more.
  - lift. more.
  - lift. more.
  - apply strip_step.
  - lift. rewrite strip_generate. destruct (generate _ _ _ _) as [r| |]; reflexivity.
  - lift. more.
  - lift. rewrite strip_assign_value. more.
Qed.
Lemma strip_run ops w : strip (n_run c ops w) = arun c ops w.
Proof. apply strip_foldC. apply strip_astep. Qed.
End Strip.

(** ** What is counted matches what exists *)

Section Balance.
Context {V : Type}.
Implicit Types h : heap V.

Definition based h (k : nat) : Prop := exists b a, h_blk h k = Some b /\ b_owner b = Base a.
Definition counts h (n k : Z) : Prop := heap_ok h /\ has_count (alive h) n /\ has_count (based h) k.
Definition made (t : tally) : Z := n_default t + n_copy t + n_move t - n_destroy t.
Definition kept_blocks (t : tally) : Z := n_alloc t - n_free t.
Definition grows h (t : tally) h' : Prop :=
  forall n k, counts h n k -> counts h' (n + made t) (k + kept_blocks t).

Lemma grows_refl h : grows h nothing h.
Proof. intros n k H. unfold made, kept_blocks, nothing. cbn [n_default n_copy n_move n_destroy n_alloc n_free]. rewrite !Z.add_0_r. exact H. Qed.
Lemma grows_plus h t h1 u h2 : grows h t h1 -> grows h1 u h2 -> grows h (plus t u) h2.
Proof.
  intros H1 H2 n k H. specialize (H2 _ _ (H1 _ _ H)).
  replace (n + made (plus t u)) with (n + made t + made u) by (unfold made, plus; cbn; lia).
  replace (k + kept_blocks (plus t u)) with (k + kept_blocks t + kept_blocks u) by (unfold kept_blocks, plus; cbn; lia).
  exact H2.
Qed.

Lemma count_iff {A} (P Q : A -> Prop) n : (forall a, P a <-> Q a) -> has_count P n -> has_count Q n.
Proof. intros H [l [[N E] L]]. exists l. split; [split; auto|auto]. intros a. rewrite <- H. apply E. Qed.
Lemma count_add {A} (P Q : A -> Prop) p n : ~ P p -> (forall a, Q a <-> P a \/ a = p) -> has_count P n -> has_count Q (n + 1).
Proof.
  intros Hp H [l [[N E] L]]. exists (p :: l). split.
  - split; [constructor; auto; rewrite E; auto|]. intros a. cbn [In]. rewrite E, H. intuition.
  - cbn [length]. lia.
Qed.
Lemma remove_length {A} (dec : forall a b : A, {a = b} + {a <> b}) p l : NoDup l -> In p l ->
  S (length (remove dec p l)) = length l.
Proof.
  induction l as [|a l IH]; intros N I; [destruct I|]. inversion N as [|? ? N1 N2]; subst. cbn [remove].
  destruct (dec p a) as [->|D].
  - rewrite notin_remove by auto. reflexivity.
  - cbn [length]. f_equal. apply IH; auto. destruct I as [->|I]; [congruence|auto].
Qed.
Lemma NoDup_remove_dec {A} (dec : forall a b : A, {a = b} + {a <> b}) p l : NoDup l -> NoDup (remove dec p l).
Proof.
  induction l as [|a l IH]; intros N; [constructor|]. inversion N as [|? ? N1 N2]; subst. cbn [remove].
  destruct (dec p a); auto. constructor; auto. intros I. apply in_remove in I. tauto.
Qed.
Lemma count_remove {A} (dec : forall a b : A, {a = b} + {a <> b}) (P Q : A -> Prop) p n :
  P p -> (forall a, Q a <-> P a /\ a <> p) -> has_count P n -> has_count Q (n - 1).
Proof.
  intros Hp H [l [[N E] L]]. exists (remove dec p l). split.
  - split; [apply NoDup_remove_dec; auto|]. intros a. rewrite H, <- E. split; [apply in_remove|].
    intros [I D]. apply in_in_remove; auto.
  - assert (I : In p l) by (apply E; auto). pose proof (remove_length dec p l N I). lia.
Qed.
Definition ptr_dec (p q : ptr) : {p = q} + {p <> q}.
Proof. decide equality; [apply Z.eq_dec|apply Nat.eq_dec]. Defined.

Lemma upd_based h p (v : cell V) k : based (upd h p v) k <-> based h k.
Proof.
  unfold based, upd. cbn [h_blk]. destruct (k =? fst p)%nat; [|tauto].
  destruct (h_blk h k) as [b|]; [|tauto]. split.
  - intros (b' & a & E & O). inversion E; subst. cbn [b_owner] in O. eauto.
  - intros (b' & a & E & O). inversion E; subst. eexists _, a. split; [reflexivity|]. auto.
Qed.
Lemma store_grows h p v h' t : store h p v = Ok h' -> made t = 0 -> kept_blocks t = 0 -> grows h t h'.
Proof.
  intros E T T' n k (Ho & Hn & Hk). rewrite T, T', !Z.add_0_r. unfold store in E.
  destruct (peek h p) as [[|v0]|] eqn:Ep; try discriminate. inversion E; subst.
  split; [apply upd_ok; auto|]. split.
  - apply (count_iff (alive h)); auto. intros q. unfold alive, holds. destruct (ptr_dec p q) as [<-|D].
    + rewrite peek_upd_same by congruence. rewrite Ep. split; eauto.
    + rewrite peek_upd_other by auto. tauto.
  - apply (count_iff (based h)); auto. intros q. rewrite upd_based. tauto.
Qed.
Lemma construct_grows h p v h' t : construct_at h p v = Ok h' -> made t = 1 -> kept_blocks t = 0 -> grows h t h'.
Proof.
  intros E T T' n k (Ho & Hn & Hk). rewrite T, T', Z.add_0_r. unfold construct_at in E.
  destruct (peek h p) as [[|v0]|] eqn:Ep; try discriminate. inversion E; subst.
  split; [apply upd_ok; auto|]. split.
  - apply (count_add (alive h) _ p); auto.
    + intros [v0 H]. unfold holds in H. congruence.
    + intros q. unfold alive, holds. destruct (ptr_dec p q) as [<-|D].
      * rewrite peek_upd_same by congruence. split; eauto.
      * rewrite peek_upd_other by auto. split; [auto|]. intros [H|H]; auto. congruence.
  - apply (count_iff (based h)); auto. intros q. rewrite upd_based. tauto.
Qed.
Lemma destroy_grows h p h' t : destroy_at h p = Ok h' -> made t = -1 -> kept_blocks t = 0 -> grows h t h'.
Proof.
  intros E T T' n k (Ho & Hn & Hk). rewrite T, T', Z.add_0_r. unfold destroy_at in E.
  destruct (peek h p) as [[|v0]|] eqn:Ep; try discriminate. inversion E; subst.
  split; [apply upd_ok; auto|]. split.
  - apply (count_remove ptr_dec (alive h) _ p); auto.
    + exists v0. exact Ep.
    + intros q. unfold alive, holds. destruct (ptr_dec p q) as [<-|D].
      * rewrite peek_upd_same by congruence. split; [intros [? ?]; discriminate|tauto].
      * rewrite peek_upd_other by auto. split; [|tauto]. intros H. split; auto.
  - apply (count_iff (based h)); auto. intros q. rewrite upd_based. tauto.
Qed.
Lemma alloc_grows h o z t : made t = 0 -> kept_blocks t = (match o with Base _ => 1 | Inline _ => 0 end) ->
  grows h t (fst (alloc_block h o z)).
Proof.
  intros T T' n k (Ho & Hn & Hk). rewrite T, T', Z.add_0_r. pose proof Ho as (O1 & O2 & O3).
  cbn [alloc_block fst]. split; [|split].
  - split; [|split]; cbn [h_next h_blk]; [lia| |].
    + destruct (Nat.eqb_spec 0 (h_next h)); [lia|auto].
    + intros j Hj. destruct (Nat.eqb_spec j (h_next h)); [lia|]. apply O3. lia.
  - apply (count_iff (alive h)); auto. intros [q z']. unfold alive, holds, peek. cbn [fst snd h_blk].
    destruct q as [|q]; [tauto|]. destruct (Nat.eqb_spec (S q) (h_next h)) as [E|E]; [|tauto].
    rewrite E, O3 by lia. cbn [b_size b_cell]. split; intros [v H]; exfalso; [discriminate|].
    destruct ((0 <=? z') && (z' <? z)); discriminate.
  - assert (H0 : ~ based h (h_next h)) by (intros (b & a & H & _); rewrite O3 in H by lia; discriminate).
    destruct o as [a|x].
    + apply (count_add (based h) _ (h_next h)); auto. intros j. unfold based. cbn [h_blk].
      destruct (Nat.eqb_spec j (h_next h)) as [E|E].
      * split; [auto|]. intros _. eexists _, a. split; reflexivity.
      * split; [auto|]. intros [H|H]; [auto|congruence].
    + rewrite Z.add_0_r. apply (count_iff (based h)); auto. intros j. unfold based. cbn [h_blk].
      destruct (Nat.eqb_spec j (h_next h)) as [E|E]; [|tauto]. subst j. split; [intros H; contradiction|].
      intros (b & a & H & Hb). inversion H; subst. discriminate.
Qed.
Lemma free_grows h o p z h' t : free_block h o p z = Ok h' -> made t = 0 ->
  kept_blocks t = (match o with Base _ => -1 | Inline _ => 0 end) -> grows h t h'.
Proof.
  intros E T T' n k (Ho & Hn & Hk). rewrite T, T', Z.add_0_r. pose proof Ho as (O1 & O2 & O3). unfold free_block in E.
  destruct (fst p) as [|q] eqn:Ep; [discriminate|]. destruct (h_blk h (S q)) as [b|] eqn:Eb; [|discriminate].
  destruct (snd p =? 0) eqn:E1; [|discriminate]. destruct (b_size b =? z); [|discriminate].
  destruct (owner_eqb (b_owner b) o) eqn:Eo; [|discriminate]. destruct (no_live b) eqn:El; [|discriminate].
  cbn [andb] in E. injection E as <-.
  split; [|split].
  - split; [|split]; cbn [h_next h_blk]; auto.
    intros j Hj. destruct (j =? S q)%nat; auto.
  - apply (count_iff (alive h)); auto. intros [j z']. unfold alive, holds, peek. cbn [fst snd h_blk].
    destruct j as [|j]; [tauto|]. destruct (Nat.eqb_spec (S j) (S q)) as [E|E]; [|tauto].
    rewrite E, Eb. split; intros [v H]; exfalso; [|discriminate].
    destruct (Z.leb_spec 0 z') as [L1|L1]; [|discriminate]. destruct (Z.ltb_spec z' (b_size b)) as [L2|L2]; [|discriminate].
    cbn [andb] in H. unfold no_live in El. rewrite forallb_forall in El.
    assert (I : In z' (zseq 0 (Z.to_nat (b_size b)))) by (apply zseq_In; lia).
    specialize (El z' I). inversion H as [H']. rewrite H' in El. discriminate.
  - destruct o as [a|x].
    + apply (count_remove Nat.eq_dec (based h) _ (S q)); auto.
      * destruct (b_owner b) as [a'|] eqn:Ob; [|discriminate]. exists b, a'. auto.
      * intros j. unfold based. cbn [h_blk]. destruct (Nat.eqb_spec j (S q)) as [E|E]; [|tauto].
        split; [intros (?&?&?&?); discriminate|tauto].
    + rewrite Z.add_0_r. apply (count_iff (based h)); auto. intros j. unfold based. cbn [h_blk].
      destruct (Nat.eqb_spec j (S q)) as [E|E]; [|tauto]. subst j. rewrite Eb. split.
      * intros (b' & a & H & Hb). inversion H; subst. rewrite Hb in Eo. discriminate.
      * intros (?&?&?&?); discriminate.
Qed.
End Balance.

(** *** Through the functions *)

Class HeapOf (V A : Type) := heap_of : A -> heap V.
#[global] Instance heap_of_heap V : HeapOf V (heap V) := fun h => h.
#[global] Instance heap_of_pair V A B (H : HeapOf V A) : HeapOf V (A * B) := fun p => heap_of (fst p).
#[global] Instance heap_of_world V : HeapOf V (world V) := @w_heap V.

Section Grow.
Context {V : Type}.
Implicit Types h : heap V.
Definition growing {A} {H : HeapOf V A} h (m : counted A) : Prop :=
  forall a t, m = Ok (a, t) -> grows h t (heap_of a).
Lemma growing_bind {A B} {H : HeapOf V A} {H' : HeapOf V B} h (m : counted A) (f : A -> counted B) :
  growing h m -> (forall a, growing (heap_of a) (f a)) -> growing h (cbind m f).
Proof.
  intros Hm Hf b t E. unfold cbind in E. destruct m as [[a t1]| |]; try discriminate. cbn [bind] in E.
  destruct (f a) as [[b' u]| |] eqn:Ef; try discriminate. cbn [bind] in E. injection E as -> <-.
  eapply grows_plus; [apply Hm; reflexivity|]. apply (Hf a); auto.
Qed.
Lemma growing_quiet {A B} {H : HeapOf V B} h (m : outcome A) (f : A -> counted B) :
  (forall a, m = Ok a -> growing h (f a)) -> growing h (cbind (quiet m) f).
Proof.
  intros Hf b t E. destruct m as [a| |]; try discriminate. unfold cbind, quiet in E. cbn [bind] in E.
  destruct (f a) as [[b' u]| |] eqn:Ef; try discriminate. cbn [bind] in E. injection E as -> <-.
  eapply grows_plus; [apply grows_refl|]. apply (Hf a); auto.
Qed.
Lemma growing_ok {A} {H : HeapOf V A} h (a : A) : heap_of a = h -> growing h (quiet (Ok a)).
Proof. intros <- b t E. injection E as <- <-. apply grows_refl. Qed.
Lemma growing_fold {A S} {H : HeapOf V S} (f : S -> A -> counted S) l :
  (forall s a, growing (heap_of s) (f s a)) -> forall s, growing (heap_of s) (foldC f l s).
Proof.
  intros Hf. induction l as [|a l IH]; intros s; cbn [foldC].
  - apply growing_ok. reflexivity.
  - apply (growing_bind (H := H)); auto.
Qed.
Lemma growing_fold_heap {A} (f : heap V -> A -> counted (heap V)) l h :
  (forall h a, growing h (f h a)) -> growing h (foldC f l h).
Proof. intros Hf. exact (growing_fold f l Hf h). Qed.
Lemma growing_store h p v t : made t = 0 -> kept_blocks t = 0 -> growing h (doing t (store h p v)).
Proof.
  intros H H' h' u E. destruct (store h p v) eqn:Es; try discriminate. injection E as <- <-.
  eapply store_grows; eauto.
Qed.
Lemma growing_copy h ab t : made t = 0 -> kept_blocks t = 0 -> growing h (doing t (copy_assign h ab)).
Proof.
  intros H H' h' u E. unfold copy_assign in E. destruct (load h (fst ab)); try discriminate. cbn [bind] in E.
  eapply growing_store; eauto.
Qed.
Lemma growing_move mv h ab t : made t = 0 -> kept_blocks t = 0 -> growing h (doing t (move_assign mv h ab)).
Proof.
  intros H H' h' u E. unfold move_assign in E. destruct (load h (fst ab)) as [v| |]; try discriminate. cbn [bind] in E.
  destruct (store h (snd ab) v) as [h1| |] eqn:E1; try discriminate. cbn [bind] in E.
  unfold doing in E. destruct (store h1 (fst ab) (mv v)) as [h2| |] eqn:E2; try discriminate. injection E as <- <-.
  intros n k Hc. change (heap_of h2) with h2.
  pose proof (store_grows _ _ _ _ nothing E1 eq_refl eq_refl _ _ Hc) as Hc1.
  pose proof (store_grows _ _ _ _ nothing E2 eq_refl eq_refl _ _ Hc1) as Hc2.
  change (made nothing) with 0 in Hc2. change (kept_blocks nothing) with 0 in Hc2.
  rewrite H, H'. rewrite !Z.add_0_r in *. exact Hc2.
Qed.
Lemma growing_construct h p v t : made t = 1 -> kept_blocks t = 0 -> growing h (doing t (construct_at h p v)).
Proof.
  intros H H' h' u E. destruct (construct_at h p v) eqn:Es; try discriminate. injection E as <- <-.
  eapply construct_grows; eauto.
Qed.
Lemma growing_destroy h p t : made t = -1 -> kept_blocks t = 0 -> growing h (doing t (destroy_at h p)).
Proof.
  intros H H' h' u E. destruct (destroy_at h p) eqn:Es; try discriminate. injection E as <- <-.
  eapply destroy_grows; eauto.
Qed.

Variable c : config V.
Ltac grow :=
  repeat match goal with
    | |- growing _ (if ?b then _ else _) => destruct b
    | |- growing _ (let '(_, _) := ?p in _) => destruct p
    | |- growing _ (quiet (Ok _)) => apply growing_ok; reflexivity
    | |- growing _ (cbind (quiet _) _) => apply growing_quiet; intros
    | |- growing _ (foldC _ _ _) => apply growing_fold_heap; intros
    | |- growing _ (doing _ (copy_assign _ _)) => apply growing_copy; reflexivity
    | |- growing _ (doing _ (move_assign _ _ _)) => apply growing_move; reflexivity
    | |- growing _ (doing _ (store _ _ _)) => apply growing_store; reflexivity
    | |- growing _ (doing _ (construct_at _ _ _)) => apply growing_construct; [assumption || reflexivity|assumption || reflexivity]
    | |- growing _ (doing _ (destroy_at _ _)) => apply growing_destroy; reflexivity
    end.
Lemma growing_copy_to h src dst : growing h (n_copy_to c h src dst).
Proof. unfold n_copy_to. grow. Qed.
Lemma growing_move_to h src dst : growing h (n_move_to c h src dst).
Proof. unfold n_move_to. grow. Qed.
Lemma growing_fill h dst v : growing h (n_fill c h dst v).
Proof. unfold n_fill. grow. Qed.
Lemma growing_generate h dst g : growing h (n_generate c h dst g).
Proof.
  unfold n_generate. grow. change h with (heap_of (h, 0%nat)) at 1. apply growing_fold. intros [h1 k] p.
  change (heap_of (h1, k)) with h1. cbn [fst snd].
  eapply growing_bind; [apply growing_store; reflexivity|]. intros. grow.
Qed.
Lemma growing_transform h dst fn : growing h (n_transform_index h dst fn).
Proof. unfold n_transform_index. grow. Qed.
Lemma growing_get x h a n : growing h (n_alloc_get c x h a n).
Proof.
  unfold n_alloc_get. destruct (negb _ && _).
  - intros r t E. injection E as <- <-. exact (alloc_grows h (Inline x) n nothing eq_refl eq_refl).
  - intros r t E. injection E as <- <-. exact (alloc_grows h (Base (a_al a)) n one_alloc eq_refl eq_refl).
Qed.
Lemma growing_put x h a p n : growing h (n_alloc_put c x h a p n).
Proof.
  unfold n_alloc_put. destruct (inline_block x h p).
  - grow. apply (free_grows _ _ _ _ _ nothing) in H0; [|reflexivity|reflexivity].
    intros r t E. injection E as <- <-. exact H0.
  - eapply growing_bind; [|intros; grow]. intros r t E.
    destruct (free_block h (Base (a_al a)) p n) eqn:Ef; try discriminate. injection E as <- <-.
    eapply free_grows; [exact Ef| |]; reflexivity.
Qed.
Lemma growing_allocate x h a : growing h (n_allocate c x h a).
Proof.
  unfold n_allocate. grow. cbv zeta.
  eapply growing_bind.
  - destruct (0 <? _); [|grow]. eapply growing_bind; [apply growing_get|]. intros [[h1 b] p]. grow.
  - intros [h1 a1]. grow.
Qed.
Lemma growing_new t h a init : made t = 1 -> kept_blocks t = 0 -> growing h (n_construct c t h a init).
Proof. intros H H'. unfold n_construct. grow. Qed.
Lemma growing_copy_construct h a b : growing h (n_copy_construct c h a b).
Proof. unfold n_copy_construct. grow. Qed.
Lemma growing_move_construct h a b : growing h (n_move_construct c h a b).
Proof.
  unfold n_move_construct. grow. eapply growing_bind; [apply growing_construct; reflexivity|].
  intros h1. change (heap_of h1) with h1. intros r t E. apply (growing_store h1 (fst a3) (c_mv c a4) nothing eq_refl eq_refl r t).
  exact E.
Qed.
Lemma growing_destruct h a : growing h (n_destruct c h a).
Proof. unfold n_destruct. grow. Qed.
Lemma growing_deallocate x h a : growing h (n_deallocate c x h a).
Proof.
  unfold n_deallocate. grow. eapply growing_bind; [apply growing_destruct|]. intros h1. cbv zeta.
  eapply growing_bind; [apply growing_put|]. intros [h2 b]. grow.
Qed.
Ltac next := eapply growing_bind; [solve
  [ apply growing_destruct | apply growing_deallocate | apply growing_allocate | apply growing_new; reflexivity
  | apply growing_copy_construct | apply growing_move_construct | apply growing_copy_to | apply growing_move_to
  | eauto with growing ] |];
  repeat match goal with |- forall _ : _ * _, _ => let h := fresh "h" in let a := fresh "a" in intros [h a] | |- forall _, _ => intros ? end;
  repeat match goal with |- context [match ?p with (_, _) => _ end] => is_var p; destruct p end;
  grow.
Lemma growing_ctor_shape x h al s : growing h (n_ctor_shape c x h al s).
Proof. unfold n_ctor_shape, n_construct_default. next. next. Qed.
Lemma growing_assign_value x h a s init : growing h (n_assign_value c x h a s init).
Proof.
  unfold n_assign_value. cbv zeta. eapply growing_bind.
  - destruct (shape_eqb _ _); [next|]. next. apply growing_allocate.
  - intros [h1 a1]. next.
Qed.
Lemma growing_storage x h a b : growing h (n_storage c x h a b).
Proof. unfold n_storage. destruct (negb _ && _); [next|]. next. apply growing_allocate. Qed.
Hint Resolve growing_ctor_shape growing_assign_value growing_storage : growing.
Lemma growing_assign_copy x h a b : growing h (n_assign_copy c x h a b).
Proof. unfold n_assign_copy. destruct (ptr_eqb _ _); [cbv zeta; grow|]. next. next. Qed.
Lemma growing_assign_move x h a b : growing h (n_assign_move c x h a b).
Proof. unfold n_assign_move. destruct (ptr_eqb _ _); [cbv zeta; grow|]. next. next. Qed.
Hint Resolve growing_assign_copy growing_assign_move : growing.
Lemma growing_ctor_value x h al s v : growing h (n_ctor_value c x h al s v).
Proof. unfold n_ctor_value. next. apply growing_assign_value. Qed.
Lemma growing_ctor_copy_alloc x h b al : growing h (n_ctor_copy_alloc c x h b al).
Proof. unfold n_ctor_copy_alloc. next. apply growing_assign_copy. Qed.
Lemma growing_ctor_move x h y b : growing h (n_ctor_move c x h y b).
Proof. unfold n_ctor_move. cbv zeta. destruct (_ || _); [grow|]. next. next. Qed.
Lemma growing_ctor_move_alloc x h y b al : growing h (n_ctor_move_alloc c x h y b al).
Proof. unfold n_ctor_move_alloc. cbv zeta. destruct (alloc_eq _ _ _ _); [grow|]. next. next. Qed.
Lemma growing_copy_assign x h a y b : growing h (n_copy_assign_op c x h a y b).
Proof.
  unfold n_copy_assign_op. destruct (ptr_eqb _ _); [cbv zeta; grow|]. eapply growing_bind.
  - destruct (c_pocca c); [|grow]. destruct (negb _); [next|]. apply growing_quiet.
    intros r E. injection E as <-. grow.
  - intros [h1 a1]. apply growing_assign_copy.
Qed.
Lemma growing_move_assign x h a y b : growing h (n_move_assign_op c x h a y b).
Proof. unfold n_move_assign_op. destruct (ptr_eqb _ _); [cbv zeta; grow|]. grow. next. Qed.
Lemma growing_clear x h a : growing h (n_clear c x h a).
Proof. unfold n_clear, n_construct_default. next. next. next. Qed.
Lemma growing_make_copy x h src s al : growing h (n_make_copy c x h src s al).
Proof. unfold n_make_copy. next. next. Qed.
Lemma growing_make_move x h src s al : growing h (n_make_move c x h src s al).
Proof. unfold n_make_move. next. next. Qed.
Hint Resolve growing_ctor_value growing_ctor_copy_alloc growing_ctor_move growing_ctor_move_alloc growing_copy_assign
  growing_move_assign growing_clear growing_make_copy growing_make_move growing_fill growing_generate growing_transform
  growing_copy_to growing_move_to growing_deallocate : growing.
Lemma growing_add w r : growing (w_heap w) r -> growing (w_heap w) (n_add w r).
Proof. intros H. unfold n_add. next. Qed.
Lemma growing_add2 w y r : growing (w_heap w) r -> growing (w_heap w) (n_add2 w y r).
Proof. intros H. unfold n_add2. next. Qed.
Lemma growing_change w x r : growing (w_heap w) r -> growing (w_heap w) (n_change w x r).
Proof. intros H. unfold n_change. next. Qed.
Lemma growing_change2 w x y r : growing (w_heap w) r -> growing (w_heap w) (n_change2 w x y r).
Proof. intros H. unfold n_change2. next. Qed.
Lemma growing_on_heap w r : growing (w_heap w) r -> growing (w_heap w) (n_on_heap w r).
Proof. intros H. unfold n_on_heap. next. Qed.
Hint Resolve growing_add growing_add2 growing_change growing_change2 growing_on_heap : growing.
Lemma growing_do_new w s al : growing (w_heap w) (n_do_new c w s al).
Proof. unfold n_do_new. auto with growing. Qed.
Lemma growing_do_new_move w y : growing (w_heap w) (n_do_new_move c w y).
Proof. unfold n_do_new_move. grow. auto with growing. Qed.
Lemma growing_do_move_assign w x y : growing (w_heap w) (n_do_move_assign c w x y).
Proof. unfold n_do_move_assign. grow. auto with growing. Qed.
Lemma growing_do_delete w x : growing (w_heap w) (n_do_delete c w x).
Proof. unfold n_do_delete. grow. next. Qed.
Lemma growing_move_common h a b s : growing h (n_move_common c h a b s).
Proof. unfold n_move_common. cbv zeta. grow. Qed.
Hint Resolve growing_do_new growing_do_new_move growing_do_move_assign growing_do_delete growing_move_common : growing.
Lemma growing_do_reshape w x s : growing (w_heap w) (n_do_reshape c w x s).
Proof.
  unfold n_do_reshape. cbv zeta. grow.
  eapply growing_bind; [apply growing_do_new|]. intros w1. grow.
  eapply growing_bind; [apply growing_move_common|]. intros h2.
  eapply growing_bind; [apply (growing_do_move_assign (mkW h2 (w_arr w1) (w_next w1)))|]. intros w3. apply growing_do_delete.
Qed.
Lemma growing_do_swap w x y : growing (w_heap w) (n_do_swap c w x y).
Proof.
  unfold n_do_swap. destruct (c_pocs c).
  - grow. unfold swap_allocators, swap_except_allocator. apply growing_change2. grow.
  - cbv zeta. eapply growing_bind; [apply growing_do_new_move|]. intros w1.
    eapply growing_bind; [apply growing_do_move_assign|]. intros w2.
    eapply growing_bind; [apply growing_do_move_assign|]. intros w3. apply growing_do_delete.
Qed.
Hint Resolve growing_do_reshape growing_do_swap : growing.
Lemma growing_step w o : growing (w_heap w) (n_step c w o).
Proof.
  destruct o; cbn [n_step]; grow; auto with growing.
  - apply growing_add. unfold n_ctor_copy. auto with growing.
  - apply growing_on_heap. grow.
Qed.
Lemma growing_astep w o : growing (w_heap w) (n_astep c w o).
Proof.
  destruct o; cbn [n_astep]; grow; auto using growing_step with growing.
  - apply growing_on_heap. next.
Qed.
Lemma growing_run ops w : growing (w_heap w) (n_run c ops w).
Proof. exact (growing_fold (n_astep c) ops growing_astep w). Qed.
End Grow.
