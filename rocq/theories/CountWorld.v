(** Proofs about how much work the statements of programs with arrays do. *)
From Coq Require Import ZArith List Bool Lia Arith.
From Verif Require TraverseFacts.
From Verif Require Import Base Interval Shape Traverse Memory Ref Container Program Count.
From Verif Require Import Spec SpecMem SpecContainer SpecProgram SpecViews SpecCount.
From Verif Require Import Tac ShapeFacts ResolveFacts MemFacts RefFacts SliceFacts ContainerFacts ContainerWorld ProgramFacts CountFacts.
Import ListNotations.
Open Scope Z_scope.

(** ** Tallies *)

Ltac tally := unfold making, unmaking, redoing, plus, times, nothing, one_default, one_copy, one_move, one_copy_assign,
  one_move_assign, one_destroy, one_alloc, one_free;
  cbn [n_default n_copy n_move n_copy_assign n_move_assign n_destroy n_alloc n_free]; f_equal; try ring.
Lemma plus_l t : plus nothing t = t.
Proof. destruct t. tally. Qed.
Lemma plus_r t : plus t nothing = t.
Proof. destruct t. tally. Qed.
Lemma plus_assoc t u v : plus t (plus u v) = plus (plus t u) v.
Proof. tally. Qed.
Lemma times_0 t : times 0 t = nothing.
Proof. reflexivity. Qed.
Lemma times_1 t : times 1 t = t.
Proof. destruct t. tally. Qed.
Lemma times_S n t : times (Z.of_nat (S n)) t = plus t (times (Z.of_nat n) t).
Proof. rewrite Nat2Z.inj_succ. unfold Z.succ. tally. Qed.

Definition gives {A} (m : counted A) (t : tally) : Prop := forall a u, m = Ok (a, u) -> u = t.
Lemma gives_bind {A B} (m : counted A) (f : A -> counted B) t u : gives m t ->
  (forall a, strip m = Ok a -> gives (f a) u) -> gives (cbind m f) (plus t u).
Proof.
  intros Hm Hf b v E. unfold cbind in E. destruct m as [[a t1]| |]; try discriminate. cbn [bind] in E.
  destruct (f a) as [[b' u1]| |] eqn:Ef; try discriminate. cbn [bind] in E. injection E as <- <-.
  rewrite (Hm a t1 eq_refl). rewrite (Hf a eq_refl b' u1 Ef). reflexivity.
Qed.
Lemma gives_quiet {A} (m : outcome A) : gives (quiet m) nothing.
Proof. intros a u E. destruct m; try discriminate. injection E as <- <-. reflexivity. Qed.
Lemma gives_doing {A} t (m : outcome A) : gives (doing t m) t.
Proof. intros a u E. destruct m; try discriminate. injection E as <- <-. reflexivity. Qed.
Lemma gives_eq {A} (m : counted A) t u : gives m t -> t = u -> gives m u.
Proof. intros H <-. exact H. Qed.
Lemma gives_first {A B} (m : outcome A) (f : A -> counted B) u : (forall a, m = Ok a -> gives (f a) u) ->
  gives (cbind (quiet m) f) u.
Proof.
  intros H. eapply gives_eq; [eapply gives_bind; [apply gives_quiet|]|apply plus_l].
  intros a E. apply H. rewrite strip_quiet in E. exact E.
Qed.
Lemma gives_last {A B} (m : counted A) (f : A -> outcome B) t : gives m t -> gives (cbind m (fun a => quiet (f a))) t.
Proof. intros H. eapply gives_eq; [eapply gives_bind; [exact H|]|apply plus_r]. intros a _. apply gives_quiet. Qed.
Lemma gives_last' {A B C} (m : counted (A * B)) (f : A -> B -> outcome C) t : gives m t ->
  gives (cbind m (fun '(a, b) => quiet (f a b))) t.
Proof. intros H. eapply gives_eq; [eapply gives_bind; [exact H|]|apply plus_r]. intros [a b] _. apply gives_quiet. Qed.
Lemma gives_fold {A S} (f : S -> A -> counted S) l t : (forall s a, gives (f s a) t) ->
  forall s, gives (foldC f l s) (times (Z.of_nat (length l)) t).
Proof.
  intros H. induction l as [|a l IH]; intros s.
  - apply gives_quiet.
  - cbn [foldC length]. rewrite times_S. apply gives_bind; auto.
Qed.

(** ** Numbers of elements *)

Lemma elements_box s : extents_ge 0 s -> elements s = Z.of_nat (length (box s)).
Proof.
  induction 1 as [|d s Hd Hs IH]; [reflexivity|]. rewrite box_length_cons. cbn [elements fold_right]. 
  fold (elements s). rewrite IH. lia.
Qed.
Lemma elements_enum s l : extents_ge 0 s -> enumerates (in_bounds s) l -> Z.of_nat (length l) = elements s.
Proof. intros H E. rewrite elements_box by auto. f_equal. eapply enumerates_length; [exact E|apply box_enumerates]. Qed.
Lemma elements_none s : extents_ge 0 s -> no_index s -> elements s = 0.
Proof.
  intros H N. rewrite <- (elements_enum s []); auto. split; [constructor|]. intros i. split; [intros []|apply N].
Qed.
Lemma elements_resolve s : elements (resolve s) = elements s.
Proof.
  induction (resolve_ranges s) as [|d d' s0 s1 [_ E] _ IH]; [reflexivity|].
  cbn [elements fold_right]. fold (elements s0). fold (elements s1). rewrite IH, E. reflexivity.
Qed.
Lemma elements_count s : extents_ge 0 s -> has_count (in_bounds s) (elements s).
Proof. intros H. exists (box s). split; [apply box_enumerates|]. symmetry. apply elements_box; auto. Qed.
Lemma shared_clamp s : forall t, Forall2 meets s t -> elements (clamp_dims s t) = shared s t.
Proof.
  intros t H. induction H as [|d e s t Hd _ IH]; [reflexivity|].
  change (clamp_dims (d :: s) (e :: t)) with (clamp_dim d e :: clamp_dims s t).
  cbn [elements fold_right shared]. fold (elements (clamp_dims s t)). rewrite IH. f_equal.
  unfold meets in Hd. unfold overlap, clamp_dim, dmax. cbn [dext dmin dstr]. cbv zeta. rewrite cmax_max, cmin_min. lia.
Qed.
Lemma shared_ranges s s' : Forall2 same_range s s' -> forall t, shared s' t = shared s t.
Proof.
  induction 1 as [|d d' s s' [E1 E2] _ IH]; intros t; [reflexivity|]. destruct t as [|e t]; [reflexivity|].
  cbn [shared]. rewrite IH. unfold overlap. rewrite E1, E2. reflexivity.
Qed.
Lemma shared_resolve s t : shared (resolve s) t = shared s t.
Proof. apply shared_ranges, resolve_ranges. Qed.

Section Work.
Context {V : Type}.
Variable c : config V.
Implicit Types (h : heap V) (w : world V).
Definition hold (a : arr) : held := mkHeld (a_shape a) (negb (is_null (a_buf a))) (a_busy a).

(** ** One array *)

Lemma construct_gives t cells x h a init : repr c cells x h a ->
  gives (n_construct c t h a init) (times (elements (a_shape a)) t).
Proof.
  intros H. unfold n_construct. apply gives_first; intros _ _. apply gives_first; intros l E.
  destruct (values_spec (c_ndebug c) (a_shape a) (a_base a) (repr_extents _ _ _ _ _ H) (repr_base _ _ _ _ _ H)) as [l' [Hl E']].
  rewrite E' in E. injection E as <-. rewrite <- (elements_enum _ l') by (auto; eapply repr_extents; eauto).
  rewrite <- (map_length (elem (a_base a) (a_shape a)) l'). apply gives_fold. intros h' p.
  apply gives_first; intros v _. apply gives_doing.
Qed.
Lemma destruct_gives cells x h a : repr c cells x h a ->
  gives (n_destruct c h a) (times (elements (a_shape a)) one_destroy).
Proof.
  intros H. unfold n_destruct. apply gives_first; intros _ _. apply gives_first; intros l E.
  destruct (values_spec (c_ndebug c) (a_shape a) (a_base a) (repr_extents _ _ _ _ _ H) (repr_base _ _ _ _ _ H)) as [l' [Hl E']].
  rewrite E' in E. injection E as <-. rewrite <- (elements_enum _ l') by (auto; eapply repr_extents; eauto).
  rewrite <- (map_length (elem (a_base a) (a_shape a)) l'). apply gives_fold. intros h' p. apply gives_doing.
Qed.
Lemma copied_gives {S} (step : S -> ptr * ptr -> counted S) t ss sb ds db l s : (forall s ab, gives (step s ab) t) ->
  length ss = length ds -> extents_ge 0 ds -> (is_null sb = false /\ is_null db = false) \/ no_index ds ->
  values_copy (c_ndebug c) ss sb ds db = Ok l -> gives (foldC step l s) (times (elements ds) t).
Proof.
  intros Hs Hl He Hb E.
  destruct (values_copy_spec (c_ndebug c) ss sb ds db Hl He Hb) as [l' [Hl' E']].
  rewrite E' in E. injection E as <-. rewrite <- (elements_enum _ l') by auto.
  rewrite <- (map_length (fun i => (elem sb ss i, elem db ds i)) l'). apply gives_fold. auto.
Qed.
Lemma copy_construct_gives cells cells' x y h a b : repr c cells x h a -> repr c cells' y h b -> a_shape a = resolve (a_shape b) ->
  gives (n_copy_construct c h a b) (times (elements (a_shape b)) one_copy).
Proof.
  intros Ha Hb Es. unfold n_copy_construct. do 2 (apply gives_first; intros _ _). apply gives_first; intros l E.
  rewrite <- elements_resolve, <- Es. eapply copied_gives; [| | | |exact E].
  - intros h' ab. apply gives_first; intros v _. apply gives_doing.
  - rewrite Es, resolve_length; auto.
  - eapply repr_extents; eauto.
  - eapply pair_base; eauto.
Qed.
Lemma move_construct_gives cells cells' x y h a b : repr c cells x h a -> repr c cells' y h b -> a_shape a = resolve (a_shape b) ->
  gives (n_move_construct c h a b) (times (elements (a_shape b)) one_move).
Proof.
  intros Ha Hb Es. unfold n_move_construct. do 2 (apply gives_first; intros _ _). apply gives_first; intros l E.
  rewrite <- elements_resolve, <- Es. eapply copied_gives; [| | | |exact E].
  - intros h' ab. apply gives_first; intros v _. apply (gives_last _ (fun h1 => store h1 (fst ab) (c_mv c v))). apply gives_doing.
  - rewrite Es, resolve_length; auto.
  - eapply repr_extents; eauto.
  - eapply pair_base; eauto.
Qed.
Lemma allocate_gives x h a : a_busy a = false ->
  gives (n_allocate c x h a) (times (blocks (new_held c (a_shape a))) one_alloc).
Proof.
  intros Hb. unfold n_allocate. apply gives_first; intros _ _. cbv zeta.
  apply (gives_last' _ (fun h1 a1 => Ok (h1, set_base a1 (ptr_off (a_buf a1) (- flat_min (resolve (a_shape a))))))).
  unfold new_held, blocks. cbn [hd_mem hd_inline]. destruct (0 <? flat_extent (resolve (a_shape a))).
  - cbn [andb].
    eapply gives_eq; [eapply gives_bind; [|intros [[h' b] p] _; apply gives_quiet]|apply plus_r].
    unfold n_alloc_get. rewrite Hb. cbn [negb andb]. destruct (_ <=? c_cap c); cbn [negb].
    + apply gives_quiet.
    + rewrite times_1. apply gives_doing.
  - apply gives_quiet.
Qed.
Lemma allocate_hold x h a h' a' : heap_ok h -> a_buf a = null -> a_busy a = false -> allocate c x h a = Ok (h', a') ->
  hold a' = new_held c (a_shape a).
Proof.
  intros Hh Hb Hz E. unfold allocate in E. rewrite Hb in E. cbn [is_null ptr_eqb null fst snd Nat.eqb Z.eqb andb assert_ bind] in E.
  assert (Hn : is_null (h_next h, 0) = false) by (apply is_null_block; destruct Hh; cbn [fst]; lia).
  unfold new_held. destruct (0 <? flat_extent (resolve (a_shape a))) eqn:Ef.
  - unfold alloc_get in E. rewrite Hz in E. cbn [negb andb] in E.
    destruct (flat_extent (resolve (a_shape a)) <=? c_cap c); cbn [alloc_block] in E; injection E as <- <-;
      unfold hold, set_base; cbn [a_shape a_buf a_busy]; rewrite Hn; reflexivity.
  - injection E as <- <-. unfold hold, set_base, with_shape. cbn [a_shape a_buf a_busy]. rewrite Hb, Hz. reflexivity.
Qed.
Lemma no_memory_hold a : no_memory a -> hold a = mkHeld (a_shape a) false false.
Proof. intros (H1 & _ & H2). unfold hold. rewrite H1, H2. reflexivity. Qed.
Lemma memory_hold cells x h a : repr c cells x h a -> hd_mem (hold a) = negb (is_null (a_base a)).
Proof.
  intros [_ [[(H1 & H2 & H3) _]|(_ & k & b & _ & Hin & _)]]; unfold hold; cbn [hd_mem].
  - rewrite H1, H2. reflexivity.
  - destruct Hin as (Hk & E1 & E2 & _). rewrite E1, E2. rewrite !is_null_block by auto. reflexivity.
Qed.
Lemma unmaking_none cells x h a : repr c cells x h a -> hd_mem (hold a) = false -> unmaking (hold a) = nothing.
Proof.
  intros H Hm. pose proof (memory_hold _ _ _ _ H) as E. rewrite Hm in E. symmetry in E. apply negb_false_iff in E.
  unfold unmaking, blocks. rewrite Hm. cbn [andb]. unfold hold; cbn [hd_shape].
  destruct (repr_base _ _ _ _ _ H) as [E'|N]; [congruence|].
  rewrite (elements_none (a_shape a)); auto. eapply repr_extents; eauto.
Qed.
Lemma deallocate_gives x h a : heap_ok h -> valid c x h a -> gives (n_deallocate c x h a) (unmaking (hold a)).
Proof.
  intros Hh H. unfold n_deallocate. destruct (is_null (a_base a)) eqn:En.
  - rewrite (unmaking_none _ _ _ _ H); [apply gives_quiet|]. rewrite (memory_hold _ _ _ _ H), En. reflexivity.
  - unfold unmaking. apply gives_bind; [eapply destruct_gives; eauto|]. intros h1 E. cbv zeta.
    rewrite strip_destruct in E. destruct (destroy_spec c x h a Hh H) as (h1' & E' & Hr & _).
    rewrite E' in E. injection E as ->.
    unfold set_base, with_shape; cbn [a_buf a_al a_busy a_bufsize a_base a_shape].
    destruct Hr as [_ [[(_ & Hm & _) _]|(_ & k & b & Hk & Hin & _)]]; [rewrite Hm in En; discriminate|].
    destruct Hin as (Hk0 & E1 & _ & _ & _ & _ & Eo & _). unfold blocks, hold. cbn [hd_mem hd_inline].
    rewrite E1. rewrite is_null_block by auto. cbn [negb andb].
    eapply gives_eq; [eapply gives_bind; [|intros [h2 bz] _; apply gives_quiet]|apply plus_r].
    unfold n_alloc_put, inline_block. cbn [fst snd]. rewrite Hk, Eo. destruct (a_busy a); cbn [owner_eqb negb].
    + rewrite Nat.eqb_refl. cbn [andb Z.eqb]. apply gives_first; intros _ _. apply gives_first; intros h2 _. apply gives_quiet.
    + cbn [andb]. rewrite times_1. apply (gives_last _ (fun h' => Ok (h', _))). apply gives_doing.
Qed.

Lemma ctor_shape_gives x h al s : heap_ok h -> shape_arg c s ->
  gives (n_ctor_shape c x h al s) (making one_default (new_held c s)).
Proof.
  intros Hh Hs. unfold n_ctor_shape, making. apply gives_bind; [apply allocate_gives; reflexivity|].
  intros [h1 a] E. rewrite strip_allocate in E.
  destruct (allocate_spec c x h (blank al s) Hh eq_refl eq_refl Hs) as (h1' & a' & E' & Hr & _ & Es & _).
  rewrite E' in E. injection E as -> ->.
  eapply gives_eq; [apply (gives_last _ (fun h2 => Ok (h2, a))); eapply construct_gives; eauto|].
  rewrite Es. reflexivity.
Qed.
Lemma ctor_shape_hold x h al s h' a' : heap_ok h -> ctor_shape c x h al s = Ok (h', a') -> hold a' = new_held c s.
Proof.
  intros Hh E. unfold ctor_shape in E. destruct (allocate c x h (blank al s)) as [[h1 a1]| |] eqn:Ea; try discriminate.
  cbn [bind] in E. destruct (construct_default c h1 a1); try discriminate. injection E as _ <-.
  eapply (allocate_hold x h (blank al s)); eauto.
Qed.
(** deallocate, then allocate for another shape *)
Lemma refit_gives x h a s : heap_ok h -> valid c x h a ->
  gives (' (h', a') <~ n_deallocate c x h a ;; n_allocate c x h' (with_shape a' s))
    (plus (unmaking (hold a)) (times (blocks (new_held c s)) one_alloc)).
Proof.
  intros Hh Ha. apply gives_bind; [apply deallocate_gives; auto|]. intros [h1 a1] E. rewrite strip_deallocate in E.
  destruct (deallocate_raw c x h a Hh Ha) as (h1' & a1' & E' & Hm & _). rewrite E' in E. injection E as -> ->.
  apply (allocate_gives x h1 (with_shape a1 s)). apply Hm.
Qed.
Lemma assign_value_gives x h a s init : heap_ok h -> valid c x h a -> shape_arg c s ->
  gives (n_assign_value c x h a s init) (valuing c (hold a) s).
Proof.
  intros Hh Ha Hs. unfold n_assign_value, valuing. cbv zeta. cbn [hold hd_shape].
  destruct (shape_dec (a_shape a) (resolve s)) as [Es|Es].
  - rewrite (proj2 (shape_eqb_eq _ _) Es). unfold redoing. cbn [hold hd_shape]. apply gives_bind.
    + apply (gives_last _ (fun h' => Ok (h', a))). eapply destruct_gives; eauto.
    + intros [h1 a1] E. rewrite strip_cbind, strip_destruct in E.
      destruct (destroy_spec c x h a Hh Ha) as (h1' & E' & Hr & _). rewrite E' in E. cbn [bind] in E.
      rewrite strip_quiet in E. injection E as -> <-.
      apply (gives_last _ (fun h2 => Ok (h2, a))). eapply construct_gives; eauto.
  - destruct (shape_eqb (a_shape a) (resolve s)) eqn:Eb; [apply shape_eqb_eq in Eb; contradiction|].
    assert (Hr2 : resolve (resolve s) = resolve s) by (apply proper_resolve2; apply Hs).
    unfold making. rewrite plus_assoc. apply gives_bind.
    + eapply gives_eq; [apply refit_gives; auto|]. unfold new_held. rewrite Hr2. reflexivity.
    + intros [h1 a1] E. rewrite strip_cbind, strip_deallocate in E.
      destruct (refit_spec c x h a (resolve s) Hh Ha (shape_arg_resolve c _ Hs)) as (h1' & a1' & E' & Hr & _ & Es' & _).
      assert (E2 : (' (h', a') <- deallocate c x h a ;; allocate c x h' (with_shape a' (resolve s))) = Ok (h1, a1)).
      { destruct (deallocate c x h a) as [[h' a']| |]; try discriminate. cbn [bind] in E |- *.
        rewrite strip_allocate in E. exact E. }
      rewrite E' in E2. injection E2 as -> ->.
      apply (gives_last _ (fun h2 => Ok (h2, a1))). eapply gives_eq; [eapply construct_gives; eauto|].
      rewrite Es', Hr2. reflexivity.
Qed.
Lemma storage_gives x h a b : heap_ok h -> valid c x h a ->
  gives (n_storage c x h a b)
    (if hd_mem (hold a) && (if shape_dec (a_shape a) (a_shape b) then true else false)
     then times (elements (a_shape a)) one_destroy
     else plus (unmaking (hold a)) (times (blocks (new_held c (a_shape b))) one_alloc)).
Proof.
  intros Hh Ha. unfold n_storage. rewrite <- (memory_hold _ _ _ _ Ha).
  replace (shape_eqb (a_shape a) (a_shape b)) with (if shape_dec (a_shape a) (a_shape b) then true else false).
  2: { destruct (shape_dec (a_shape a) (a_shape b)) as [E|E]; [rewrite (proj2 (shape_eqb_eq _ _) E); auto|].
       destruct (shape_eqb _ _) eqn:Eb; [apply shape_eqb_eq in Eb; contradiction|auto]. }
  destruct (hd_mem (hold a) && _).
  - apply (gives_last _ (fun h' => Ok (h', a))). eapply destruct_gives; eauto.
  - apply refit_gives; auto.
Qed.
Lemma bases_hold x y h a b : valid c x h a -> valid c y h b -> apart a b ->
  ptr_eqb (a_base a) (a_base b) = negb (hd_mem (hold a)) && negb (hd_mem (hold b)).
Proof.
  intros Ha Hb Hap. rewrite (memory_hold _ _ _ _ Ha), (memory_hold _ _ _ _ Hb), !negb_involutive.
  destruct (ptr_eqb (a_base a) (a_base b)) eqn:E.
  - destruct (bases_equal c _ _ _ _ _ Ha Hb Hap E) as [M1 M2]. rewrite !no_memory_null by auto. reflexivity.
  - destruct (is_null (a_base a)) eqn:E1; [|reflexivity]. destruct (is_null (a_base b)) eqn:E2; [|reflexivity].
    apply ptr_eqb_eq in E1. apply ptr_eqb_eq in E2. rewrite E1, E2 in E. discriminate.
Qed.
Lemma assign_gives k (fill_in : heap V -> arr -> arr -> counted (heap V)) (whole : counted (heap V * arr)) x y h a b :
  (whole = if ptr_eqb (a_base a) (a_base b) then
      if negb (is_null (a_base a)) then
        _ <~ quiet (assert_ (c_ndebug c) (shape_eqb (a_shape a) (a_shape b))) ;; quiet (Ok (h, a))
      else
        let a1 := with_shape a (a_shape b) in
        _ <~ quiet (assert_ (c_ndebug c) (empty (a_shape a1))) ;; quiet (Ok (h, a1))
    else
      ' (h1, a1) <~ n_storage c x h a b ;; h2 <~ fill_in h1 a1 b ;; quiet (Ok (h2, a1))) ->
  (forall h a b, repr c raw_cells x h a -> valid c y h b -> a_shape a = resolve (a_shape b) ->
     gives (fill_in h a b) (times (elements (a_shape b)) k)) ->
  fair c -> heap_ok h -> valid c x h a -> valid c y h b -> apart a b ->
  gives whole (replacing c k (hold a) (hold b)).
Proof.
  intros -> Hk Hf Hh Ha Hb Hap. unfold replacing. rewrite (bases_hold x y h a b Ha Hb Hap).
  destruct (negb (hd_mem (hold a)) && negb (hd_mem (hold b))) eqn:Em.
  - destruct (negb (is_null (a_base a))); cbv zeta; apply gives_first; intros _ _; apply gives_quiet.
  - eapply gives_eq; [eapply (gives_bind _ _ _ (times (elements (a_shape b)) k)); [apply storage_gives; auto|]|].
    + intros [h1 a1] E. rewrite strip_storage in E.
      destruct (assign_storage c x y h a b Hf Hh Ha Hb) as (h1' & a1' & E' & Hr & Hl & Es & _).
      rewrite E' in E. injection E as -> ->.
      destruct (frame_local c _ y h h1 _ _ b Hh Hl Hb) as [Hb1 _].
      { intros [I|[]]. rewrite <- I. apply Hap. auto. }
      apply (gives_last _ (fun h2 => Ok (h2, a1))). apply Hk; auto.
    + cbn [hold hd_shape]. fold (hold a). destruct (hd_mem (hold a)); cbn [andb].
      * destruct (shape_dec (a_shape a) (a_shape b)) as [E|E].
        -- unfold redoing. cbn [hold hd_shape]. rewrite E. reflexivity.
        -- unfold making. cbn [new_held hd_shape]. rewrite elements_resolve, plus_assoc. reflexivity.
      * unfold making. cbn [new_held hd_shape]. rewrite elements_resolve, plus_assoc. reflexivity.
Qed.
Lemma assign_copy_gives x y h a b : fair c -> heap_ok h -> valid c x h a -> valid c y h b -> apart a b ->
  gives (n_assign_copy c x h a b) (replacing c one_copy (hold a) (hold b)).
Proof.
  intros Hf Hh Ha Hb Hap. apply (assign_gives one_copy (n_copy_construct c) _ x y h a b eq_refl); auto.
  intros h' a' b' Ha' Hb' Es. eapply copy_construct_gives; eauto.
Qed.
Lemma assign_move_gives x y h a b : fair c -> heap_ok h -> valid c x h a -> valid c y h b -> apart a b ->
  gives (n_assign_move c x h a b) (replacing c one_move (hold a) (hold b)).
Proof.
  intros Hf Hh Ha Hb Hap. apply (assign_gives one_move (n_move_construct c) _ x y h a b eq_refl); auto.
  intros h' a' b' Ha' Hb' Es. eapply move_construct_gives; eauto.
Qed.

(** ** Programs *)

Hypothesis Hf : fair c.
Lemma held_hold w x a : w_arr w x = Some a -> held_by w x = hold a.
Proof. intros E. unfold held_by. rewrite E. reflexivity. Qed.
Lemma shape_hold w x a : w_arr w x = Some a -> shape_of w x = a_shape a.
Proof. intros E. unfold shape_of. rewrite E. reflexivity. Qed.
Lemma gives_get w x a B (f : arr -> counted B) u : w_arr w x = Some a -> gives (f a) u -> gives (cbind (quiet (get w x)) f) u.
Proof. intros E H. apply gives_first. intros a' E'. rewrite (get_ok w x a E) in E'. injection E' as <-. exact H. Qed.
Lemma blank_hold al : hold (blank al (c_shape0 c)) = bare c.
Proof. reflexivity. Qed.
Lemma blank_apart al b : apart (blank al (c_shape0 c)) b.
Proof. intros _. reflexivity. Qed.
Lemma alloc_eq_same w x y a b : w_arr w x = Some a -> w_arr w y = Some b -> x <> y ->
  alloc_eq x a y b = same_allocator w x y.
Proof.
  intros Ea Eb N. unfold alloc_eq, same_allocator, is_inline, allocator_of. rewrite Ea, Eb.
  destruct (a_busy a), (a_busy b); cbn [orb negb andb]; auto; apply Nat.eqb_neq; auto.
Qed.
Lemma alloc_eq_new w x y b al s : w_arr w y = Some b -> x <> y -> alloc_eq x (blank al s) y b = could_take w y al.
Proof.
  intros Eb N. unfold alloc_eq, could_take, is_inline, allocator_of, blank. rewrite Eb. cbn [a_busy a_al orb].
  destruct (a_busy b); cbn [negb andb]; [apply Nat.eqb_neq; auto|apply Nat.eqb_sym].
Qed.
Lemma do_new_gives w s al : Inv c w -> shape_arg c s -> gives (n_do_new c w s al) (making one_default (new_held c s)).
Proof.
  intros Hw Hs. unfold n_do_new, n_add.
  apply (gives_last' _ (fun h' a' => Ok (mkW h' (put (w_arr w) (w_next w) (Some a')) (S (w_next w))))).
  apply ctor_shape_gives; auto. apply Hw.
Qed.
Lemma move_in_gives x y h al b : heap_ok h -> valid c y h b ->
  gives (' (h1, a1) <~ n_allocate c x h (with_shape (blank al (c_shape0 c)) (a_shape b)) ;;
         h2 <~ n_move_construct c h1 a1 b ;; quiet (Ok (h2, a1, b)))
    (making one_move (new_held c (a_shape b))).
Proof.
  intros Hh Hb. unfold making. apply gives_bind; [apply (allocate_gives x h (with_shape _ _)); reflexivity|].
  intros [h1 a1] E. rewrite strip_allocate in E.
  destruct (allocate_spec c x h (with_shape (blank al (c_shape0 c)) (a_shape b)) Hh eq_refl eq_refl (proj1 Hb))
    as (h1' & a1' & E' & Hr & Hl & Es & _).
  rewrite E' in E. injection E as -> ->. change (a_shape (with_shape _ _)) with (a_shape b) in Es.
  change (blk (with_shape _ _)) with 0%nat in Hl.
  destruct (frame_local c _ y h h1 _ _ b Hh Hl Hb) as [Hb1 _]; [intros [I|[]]; auto|].
  apply (gives_last _ (fun h2 => Ok (h2, a1, b))). cbn [new_held hd_shape]. rewrite elements_resolve.
  eapply move_construct_gives; eauto.
Qed.
Lemma gives_add2 w y (r : counted (heap V * arr * arr)) t : gives r t -> gives (n_add2 w y r) t.
Proof.
  intros H. eapply gives_eq; [eapply gives_bind; [exact H|]|apply plus_r]. intros [[h' a'] b'] _. apply gives_quiet.
Qed.
Lemma gives_change2 w x y (r : counted (heap V * arr * arr)) t : gives r t -> gives (n_change2 w x y r) t.
Proof.
  intros H. eapply gives_eq; [eapply gives_bind; [exact H|]|apply plus_r]. intros [[h' a'] b'] _. apply gives_quiet.
Qed.
Lemma gives_add w (r : counted (heap V * arr)) t : gives r t -> gives (n_add w r) t.
Proof. intros H. eapply gives_eq; [eapply gives_bind; [exact H|]|apply plus_r]. intros [h' a'] _. apply gives_quiet. Qed.
Lemma gives_change w x (r : counted (heap V * arr)) t : gives r t -> gives (n_change w x r) t.
Proof. intros H. eapply gives_eq; [eapply gives_bind; [exact H|]|apply plus_r]. intros [h' a'] _. apply gives_quiet. Qed.
Lemma gives_on_heap w (r : counted (heap V)) t : gives r t -> gives (n_on_heap w r) t.
Proof. intros H. eapply gives_eq; [eapply gives_bind; [exact H|]|apply plus_r]. intros h' _. apply gives_quiet. Qed.
Lemma do_new_move_gives w y b : Inv c w -> w_arr w y = Some b ->
  gives (n_do_new_move c w y) (work_op c w (NewMove y)).
Proof.
  intros Hw Eb. unfold n_do_new_move. apply (gives_get w y b); auto. apply gives_add2.
  pose proof (inv_lt c w y b Hw Eb) as Ly. cbn [work_op]. unfold n_ctor_move. cbv zeta. destruct (c_pocma c) eqn:Ep.
  - cbn [orb]. apply gives_quiet.
  - cbn [orb]. rewrite (alloc_eq_new w) by (auto; lia). destruct (could_take w y (c_default c)); [apply gives_quiet|].
    rewrite (shape_hold w y b Eb). apply (move_in_gives (w_next w) y); [apply Hw|]. apply inv_valid; auto.
Qed.
Lemma new_move_alloc_gives w y b al : Inv c w -> w_arr w y = Some b ->
  gives (n_step c w (NewMoveAlloc y al)) (work_op c w (NewMoveAlloc y al)).
Proof.
  intros Hw Eb. cbn [n_step]. apply (gives_get w y b); auto. apply gives_add2.
  pose proof (inv_lt c w y b Hw Eb) as Ly. cbn [work_op]. unfold n_ctor_move_alloc. cbv zeta.
  rewrite (alloc_eq_new w) by (auto; lia). destruct (could_take w y al); [apply gives_quiet|].
  rewrite (shape_hold w y b Eb). apply (move_in_gives (w_next w) y); [apply Hw|]. apply inv_valid; auto.
Qed.
Lemma do_move_assign_gives w x y a b : Inv c w -> w_arr w x = Some a -> w_arr w y = Some b ->
  gives (n_do_move_assign c w x y) (work_op c w (MoveAssign x y)).
Proof.
  intros Hw Ea Eb. unfold n_do_move_assign. apply (gives_get w x a); auto. apply (gives_get w y b); auto.
  apply gives_change2. cbn [work_op]. unfold n_move_assign_op. destruct (Nat.eqb_spec x y) as [<-|N].
  - cbn [orb]. rewrite Ea in Eb. injection Eb as <-. rewrite (proj2 (ptr_eqb_eq _ _) eq_refl).
    destruct (negb _); cbv zeta; apply gives_first; intros _ _; apply gives_quiet.
  - cbn [orb]. pose proof (inv_valid c w x a Hw Ea) as Ha. pose proof (inv_valid c w y b Hw Eb) as Hb.
    pose proof (inv_apart c w x y a b Hw N Ea Eb) as Hap.
    rewrite (held_hold w x a Ea), (held_hold w y b Eb), (alloc_eq_same w) by auto.
    pose proof (bases_hold x y _ a b Ha Hb Hap) as Eh.
    destruct (ptr_eqb (a_base a) (a_base b)) eqn:Ep.
    + assert (G : gives (if negb (is_null (a_base a))
        then _ <~ quiet (assert_ (c_ndebug c) (shape_eqb (a_shape a) (a_shape b))) ;; quiet (Ok (w_heap w, a, b))
        else let a1 := with_shape a (a_shape b) in let b1 := with_shape b (a_shape a) in
             _ <~ quiet (assert_ (c_ndebug c) (empty (a_shape a1))) ;; quiet (Ok (w_heap w, a1, b1))) nothing).
      { destruct (negb (is_null (a_base a))); cbv zeta; apply gives_first; intros _ _; apply gives_quiet. }
      destruct (c_pocma c || same_allocator w x y); [exact G|].
      unfold replacing. rewrite <- Eh. exact G.
    + destruct (c_pocma c); [apply gives_quiet|]. cbn [orb]. destruct (same_allocator w x y); [apply gives_quiet|].
      apply (gives_last' _ (fun h1 a1 => Ok (h1, a1, b))). apply (assign_move_gives x y); auto. apply Hw.
Qed.
Lemma do_delete_gives w x a : Inv c w -> w_arr w x = Some a -> gives (n_do_delete c w x) (unmaking (held_by w x)).
Proof.
  intros Hw Ea. unfold n_do_delete. apply (gives_get w x a); auto. rewrite (held_hold w x a Ea).
  apply (gives_last' _ (fun h' (_ : arr) => Ok (mkW h' (put (w_arr w) x None) (w_next w)))).
  apply deallocate_gives; [apply Hw|apply inv_valid; auto].
Qed.
Lemma copy_assign_gives w x y a b : Inv c w -> w_arr w x = Some a -> w_arr w y = Some b ->
  gives (n_step c w (CopyAssign x y)) (work_op c w (CopyAssign x y)).
Proof.
  intros Hw Ea Eb. cbn [n_step]. apply (gives_get w x a); auto. apply (gives_get w y b); auto. apply gives_change.
  cbn [work_op]. unfold n_copy_assign_op. destruct (Nat.eqb_spec x y) as [<-|N].
  - cbn [orb]. rewrite Ea in Eb. injection Eb as <-. rewrite (proj2 (ptr_eqb_eq _ _) eq_refl).
    destruct (negb _); cbv zeta; apply gives_first; intros _ _; apply gives_quiet.
  - cbn [orb]. pose proof (inv_valid c w x a Hw Ea) as Ha. pose proof (inv_valid c w y b Hw Eb) as Hb.
    pose proof (inv_apart c w x y a b Hw N Ea Eb) as Hap. assert (Hh : heap_ok (w_heap w)) by apply Hw.
    rewrite (held_hold w x a Ea), (held_hold w y b Eb), (alloc_eq_same w) by auto.
    pose proof (bases_hold x y _ a b Ha Hb Hap) as Eh. rewrite <- Eh.
    destruct (ptr_eqb (a_base a) (a_base b)) eqn:Ep.
    + destruct (negb (is_null (a_base a))); cbv zeta; apply gives_first; intros _ _; apply gives_quiet.
    + destruct (c_pocca c) eqn:Epc; cbn [andb].
      2: { apply gives_first. intros r E. injection E as <-. apply (assign_copy_gives x y); auto. }
      destruct (same_allocator w x y) eqn:Es; cbn [negb].
      * eapply gives_eq; [eapply gives_bind|apply plus_l].
        -- apply gives_first. intros r E. injection E as <-. apply gives_quiet.
        -- intros [h1 a1] E. rewrite strip_cbind, strip_quiet in E. cbn [bind] in E. rewrite strip_quiet in E. injection E as <- <-.
           assert (Eal : set_al a (a_al b) = a).
           { unfold same_allocator, is_inline, allocator_of in Es. rewrite Ea, Eb in Es.
             apply andb_true_iff in Es. destruct Es as [_ Es]. apply Nat.eqb_eq in Es.
             unfold set_al. rewrite <- Es. destruct a; reflexivity. }
           rewrite Eal. apply (assign_copy_gives x y); auto.
      * eapply gives_bind.
        -- apply (gives_last' _ (fun h' a' => Ok (h', set_al a' (a_al b)))). apply deallocate_gives; auto.
        -- intros [h1 a1] E. rewrite strip_cbind, strip_deallocate in E.
           destruct (deallocate_spec c x (w_heap w) a Hf Hh Ha) as (h1' & a1' & E' & Hv & Hm & Hl & _).
           rewrite E' in E. cbn [bind] in E. rewrite strip_quiet in E. injection E as -> <-.
           destruct (frame_local c _ y _ h1 _ _ b Hh Hl Hb) as [Hb1 _].
           { intros [I|[]]. rewrite <- I. apply Hap. auto. }
           assert (Hv1 : valid c x h1 (set_al a1' (a_al b))).
           { destruct Hv as [Hs1 [[_ Hn]|(_ & k & bb & _ & (Hk & Eb1 & _) & _)]].
             - split; [exact Hs1|]. left. split; [exact Hm|exact Hn].
             - exfalso. destruct Hm as [Hm _]. rewrite Hm in Eb1. injection Eb1 as Eb1. congruence. }
           eapply gives_eq; [apply (assign_copy_gives x y); auto; [apply Hl|]|].
           ++ intros _. change (blk (set_al a1' (a_al b))) with (blk a1'). apply no_memory_blk; auto.
           ++ assert (Hm' : hd_mem (hold (set_al a1' (a_al b))) = false).
              { destruct Hm as [Hm _]. unfold hold, set_al. cbn [hd_mem a_buf]. rewrite Hm. reflexivity. }
              unfold replacing. rewrite Hm'. cbn [bare hd_mem negb andb].
              rewrite (unmaking_none _ _ _ _ Hv1 Hm').
              assert (Hub : unmaking (bare c) = nothing).
              { unfold unmaking, bare, blocks. cbn [hd_mem andb hd_shape]. rewrite elements_none by apply Hf. reflexivity. }
              rewrite Hub. reflexivity.
Qed.
Lemma copies_gives k t (step : heap V -> ptr * ptr -> counted (heap V)) h src dst :
  (forall h ab, gives (step h ab) t) -> length (r_shape src) = length (r_shape dst) ->
  extents_ge 0 (r_shape dst) -> (is_null (r_base src) = false /\ is_null (r_base dst) = false) \/ no_index (r_shape dst) ->
  k = elements (r_shape dst) ->
  gives (if empty (r_shape dst) then quiet (Ok h)
         else
           _ <~ quiet (assert_ (c_ndebug c) (index_in_range (r_shape src) (mins (r_shape dst)) &&
                            index_in_range (r_shape src) (maxs (r_shape dst)))) ;;
           l <~ quiet (values_copy (c_ndebug c) (r_shape src) (r_base src) (r_shape dst) (r_base dst)) ;;
           foldC step l h) (times k t).
Proof.
  intros Hs Hl He Hb ->. destruct (empty (r_shape dst)) eqn:E.
  - rewrite elements_none; auto; [apply gives_quiet|]. exact (proj1 (empty_iff _ He) E).
  - apply gives_first; intros _ _. apply gives_first; intros l El. eapply copied_gives; eauto.
Qed.
Lemma within_base x y h a b : valid c x h a -> valid c y h b -> within (a_shape a) (a_shape b) ->
  (is_null (a_base b) = false /\ is_null (a_base a) = false) \/ no_index (a_shape a).
Proof.
  intros Ha Hb Hw. destruct (repr_base _ _ _ _ _ Ha) as [H1|H1]; auto. destruct (repr_base _ _ _ _ _ Hb) as [H2|H2]; auto.
  right. intros i Hi. exact (H2 i (Hw i Hi)).
Qed.
Lemma same_rank x y h a b : valid c x h a -> valid c y h b -> length (a_shape b) = length (a_shape a).
Proof. intros [[H1 _] _] [[H2 _] _]. congruence. Qed.
Lemma make_gives k kind (fill_in : heap V -> aref -> aref -> counted (heap V)) w y b s al : Inv c w -> w_arr w y = Some b ->
  shape_arg c s -> within (resolve s) (a_shape b) -> k = times (elements s) kind ->
  (forall h a x, valid c x h a -> valid c y h b -> within (a_shape a) (a_shape b) ->
     gives (fill_in h (aref_of b) (aref_of a)) (times (elements (a_shape a)) kind)) ->
  gives (' (h1, a) <~ n_ctor_shape c (w_next w) (w_heap w) al s ;; h2 <~ fill_in h1 (aref_of b) (aref_of a) ;; quiet (Ok (h2, a)))
    (plus (making one_default (new_held c s)) k).
Proof.
  intros Hw Eb Hs Hin -> Hk. assert (Hh : heap_ok (w_heap w)) by apply Hw. apply gives_bind; [apply ctor_shape_gives; auto|].
  intros [h1 a] E. rewrite strip_ctor_shape in E.
  destruct (ctor_shape_spec c (w_next w) (w_heap w) al s Hh Hs) as (h1' & a' & E' & Hv & _ & Hl & Es & _).
  rewrite E' in E. injection E as -> ->. pose proof (inv_valid c w y b Hw Eb) as Hb.
  destruct (frame_local c _ y _ h1 _ _ b Hh Hl Hb) as [Hb1 _]; [intros [I|[]]; auto|].
  apply (gives_last _ (fun h2 => Ok (h2, a))). rewrite <- (elements_resolve s), <- Es. eapply Hk; eauto. rewrite Es. auto.
Qed.
Lemma copy_to_gives x y h a b : valid c x h a -> valid c y h b -> within (a_shape a) (a_shape b) ->
  gives (n_copy_to c h (aref_of b) (aref_of a)) (times (elements (a_shape a)) one_copy_assign).
Proof.
  intros Ha Hb Hw. apply copies_gives.
  - intros h' ab. apply gives_doing.
  - eapply same_rank; eauto.
  - eapply repr_extents; eauto.
  - eapply within_base; eauto.
  - reflexivity.
Qed.
Lemma move_to_gives x y h a b : valid c x h a -> valid c y h b -> within (a_shape a) (a_shape b) ->
  gives (n_move_to c h (aref_of b) (aref_of a)) (times (elements (a_shape a)) one_move_assign).
Proof.
  intros Ha Hb Hw. apply copies_gives.
  - intros h' ab. apply gives_doing.
  - eapply same_rank; eauto.
  - eapply repr_extents; eauto.
  - eapply within_base; eauto.
  - reflexivity.
Qed.
Lemma move_common_gives x y h a b : valid c x h a -> valid c y h b -> Forall2 meets (a_shape b) (a_shape a) ->
  gives (n_move_common c h a b (a_shape b)) (times (shared (a_shape b) (a_shape a)) one_move_assign).
Proof.
  intros Ha Hb Hm. unfold n_move_common. cbv zeta. apply gives_first; intros l E.
  rewrite <- shared_clamp by auto. pose proof (same_rank x y h a b Ha Hb) as Hlen.
  assert (HI : forall i, in_bounds (clamp_dims (a_shape b) (a_shape a)) i <-> in_bounds (a_shape b) i /\ in_bounds (a_shape a) i)
    by (intros i; apply clamp_in_bounds; auto).
  eapply copied_gives; [| | | |exact E].
  - intros h' ab. apply gives_doing.
  - unfold clamp_dims. rewrite map2_length; auto.
  - apply clamp_extents; auto.
  - destruct (repr_base _ _ _ _ _ Ha) as [H1|H1]; [|right; intros i Hi; apply HI in Hi; destruct Hi as [_ Hi]; exact (H1 i Hi)].
    destruct (valid_memory c _ _ _ Hb) as [[_ [H2 _]]|[_ [H2 [H3 H4]]]]; [right; intros i Hi; apply HI in Hi; destruct Hi as [Hi _]; exact (H2 i Hi)|].
    left. split; auto. unfold pointer_add. rewrite H3. apply is_null_block. cbn [ptr_off fst]. congruence.
Qed.
Lemma reshape_gives w x a s : Inv c w -> w_arr w x = Some a -> shape_arg c s -> Forall2 meets s (a_shape a) ->
  gives (n_do_reshape c w x s) (work_op c w (Reshape x s)).
Proof.
  intros Hw Ea Hs Hm. unfold n_do_reshape. apply (gives_get w x a); auto. cbn [work_op].
  rewrite (shape_hold w x a Ea). cbv zeta.
  destruct (shape_dec (a_shape a) (resolve s)) as [E|E].
  - rewrite (proj2 (shape_eqb_eq _ _) E). apply gives_quiet.
  - destruct (shape_eqb (a_shape a) (resolve s)) eqn:Eq; [apply shape_eqb_eq in Eq; contradiction|].
    set (n := w_next w). pose proof (inv_lt c w x a Hw Ea) as Lx. fold n in Lx.
    assert (Hk : known_strides (resolve s)) by apply Hs.
    assert (Hrr : resolve (resolve s) = resolve s) by (apply resolve_known; auto).
    assert (Hs2 : shape_arg c (resolve s)) by (apply shape_arg_resolve; auto).
    assert (Hn : new_held c (resolve s) = new_held c s) by (unfold new_held; rewrite Hrr; reflexivity).
    rewrite <- Hn. apply gives_bind; [apply do_new_gives; auto|]. intros w1 E1. rewrite strip_do_new in E1.
    destruct (new_world c w (resolve s) (c_default c) Hw Hs2) as [w1' [E1' [I1 [U1 [N1 [D1 [b [Eb Eal]]]]]]]].
    change (step c w (New (resolve s) (c_default c))) with (do_new c w (resolve s) (c_default c)) in E1'.
    rewrite E1' in E1. injection E1 as ->.
    fold n in U1, N1, D1, Eb. apply (gives_get w1 n b); auto. rewrite Hrr in D1.
    destruct (denotes_has _ _ _ _ _ D1 Eb) as [Es Hbh]. destruct (U1 x) as [X1 X2]; [simpl; intuition lia|].
    rewrite Ea in X1.
    assert (Hbhold : hold b = new_held c (resolve s)).
    { unfold do_new, add in E1'. destruct (ctor_shape c (w_next w) (w_heap w) (c_default c) (resolve s)) as [[h' a']| |] eqn:Ec; try discriminate.
      cbn [bind] in E1'. injection E1' as E1'. rewrite <- E1' in Eb. cbn [w_arr] in Eb. unfold n in Eb. rewrite put_same in Eb. injection Eb as <-.
      eapply ctor_shape_hold; [|exact Ec]. apply Hw. }
    assert (Hap : apart a b) by (apply (inv_apart c w1 x n); auto; lia).
    pose proof (inv_valid c w1 x a I1 X1) as Ha1. pose proof (inv_valid c w1 n b I1 Eb) as Hb1.
    assert (Hm' : Forall2 meets (a_shape b) (a_shape a)) by (rewrite <- Es; apply meets_resolve; auto).
    apply gives_bind.
    { rewrite <- (shared_resolve s), Es. apply (move_common_gives x n); auto. }
    intros h2 E2. rewrite strip_move_common in E2.
    destruct (inv_has c w1 x a I1 X1) as [f0 Hf0].
    destruct (move_common_spec c x n (w_heap w1) a b f0 (fun _ => c_dv c) (proj1 I1) Ha1 Hb1 Hf0 Hbh Hap Hm')
      as [h2' [g0 [E2' [V1 [V2 [_ [_ [_ L2]]]]]]]]. rewrite Es in E2. rewrite E2' in E2. injection E2 as ->.
    destruct (inv_two c w1 x n a b h2) as [I2 U2]; auto; [lia|].
    set (w2 := mkW h2 (w_arr w1) (w_next w1)) in *.
    assert (Cb : copyable c b) by (right; rewrite <- Es; auto).
    destruct (move_assign_world c Hf w2 x n a b) as [w3 [E3 [I3 [U3 [N3 [M3 [a3 [b3 [Ea3 [Eb3 H3]]]]]]]]]]; auto; [lia|].
    assert (Hcond : c_pocma c || same_allocator w2 x n =
                    c_pocma c || could_take w x (c_default c) && negb (hd_inline (new_held c (resolve s)))).
    { rewrite <- Hbhold. unfold same_allocator, could_take, is_inline, allocator_of. unfold w2. cbn [w_arr]. rewrite X1, Ea, Eb.
      cbn [hold hd_inline]. rewrite Eal. destruct (a_busy a), (a_busy b), (a_al a =? c_default c)%nat; reflexivity. }
    eapply gives_eq; [eapply gives_bind; [apply (do_move_assign_gives w2 x n a b); auto|]|].
    + intros w3' E3'. rewrite strip_do_move_assign in E3'. rewrite E3 in E3'. injection E3' as <-.
      apply (do_delete_gives w3 n b3); auto.
    + cbn [work_op]. replace (x =? n)%nat with false by (symmetry; apply Nat.eqb_neq; lia). cbn [orb]. rewrite Hcond.
      rewrite (held_hold w2 x a X1), (held_hold w2 n b Eb), (held_hold w x a Ea), (held_hold w3 n b3 Eb3), Hbhold.
      assert (E4 : do_move_assign c w2 x n = change2 w2 x n (move_assign_op c x h2 a n b)).
      { unfold do_move_assign. rewrite (get_ok w2 x a X1), (get_ok w2 n b Eb). reflexivity. }
      rewrite E3 in E4. unfold change2 in E4.
      destruct (move_assign_op c x h2 a n b) as [[[h3 a3'] b3']| |] eqn:Em; try discriminate. cbn [bind] in E4.
      injection E4 as E4. rewrite E4 in Ea3, Eb3. cbn [w_arr] in Ea3, Eb3. rewrite put_same in Ea3.
      rewrite put_other, put_same in Eb3 by lia. injection Ea3 as ->. injection Eb3 as ->.
      assert (Hxn : x <> n) by lia.
      pose proof (alloc_eq_same w2 x n a b X1 Eb Hxn) as Hae.
      unfold move_assign_op in Em. rewrite Hae in Em.
      destruct (ptr_eqb (a_base a) (a_base b)) eqn:Ep.
      * destruct (bases_equal c _ _ _ _ _ Ha1 Hb1 Hap Ep) as [M1 M2].
        rewrite (no_memory_null _ M1) in Em. cbn [negb] in Em.
        destruct (assert_ _ _) in Em; try discriminate. cbn [bind] in Em. injection Em as _ _ <-.
        assert (Hu1 : unmaking (hold a) = nothing)
          by (apply (unmaking_none _ _ _ _ Ha1); rewrite no_memory_hold by auto; reflexivity).
        assert (Hu2 : unmaking (new_held c (resolve s)) = nothing)
          by (rewrite <- Hbhold; apply (unmaking_none _ _ _ _ Hb1); rewrite no_memory_hold by auto; reflexivity).
        assert (Hu3 : unmaking (hold (with_shape b (a_shape a))) = nothing).
        { assert (Hsh : hold (with_shape b (a_shape a)) = hold a).
          { rewrite (no_memory_hold a M1). destruct M2 as (Q1 & _ & Q3). unfold hold, with_shape. cbn [a_shape a_buf a_busy].
            rewrite Q1, Q3. reflexivity. }
          rewrite Hsh. exact Hu1. }
        assert (Hr : replacing c one_move (hold a) (new_held c (resolve s)) = nothing).
        { rewrite <- Hbhold. unfold replacing. rewrite !no_memory_hold by auto. reflexivity. }
        rewrite Hu1, Hu2, Hu3, Hr. destruct (c_pocma c || could_take w x (c_default c) && negb (hd_inline (new_held c (resolve s)))); reflexivity.
      * rewrite <- Hcond. destruct (c_pocma c) eqn:Epm.
        -- cbn [orb]. unfold swap_allocators, swap_except_allocator in Em. injection Em as _ _ <-.
           rewrite plus_l. unfold hold, set_al. cbn [a_shape a_buf a_busy].
           assert (Hbz : a_busy b = a_busy a).
           { assert (Hcap : c_cap c < 0) by (destruct Hf as (_ & _ & _ & [?|(_ & Q & _)]); [auto|congruence]).
             rewrite (not_busy c _ _ _ Ha1 Hcap), (not_busy c _ _ _ Hb1 Hcap). reflexivity. }
           rewrite Hbz. reflexivity.
        -- cbn [orb] in Em |- *. destruct (same_allocator w2 x n) eqn:Es2.
           ++ unfold swap_except_allocator in Em. injection Em as _ _ <-. rewrite plus_l. unfold hold. cbn [a_shape a_buf a_busy].
              unfold same_allocator, is_inline in Es2. unfold w2 in Es2. cbn [w_arr] in Es2. rewrite X1, Eb in Es2.
              destruct (a_busy a), (a_busy b); try discriminate. reflexivity.
           ++ destruct (assign_move c x h2 a b) as [[h4 a4]| |]; try discriminate. cbn [bind] in Em. injection Em as _ _ <-.
              rewrite Hbhold. reflexivity.
Qed.
Lemma op_gives w o : Inv c w -> legal_op c w o -> (forall x y, o <> Swap x y) -> gives (n_step c w o) (work_op c w o).
Proof.
  intros Hw. assert (Hh : heap_ok (w_heap w)) by apply Hw. destruct o; cbn [legal_op]; intros L NS.
  - apply do_new_gives; auto.
  - apply gives_add. unfold n_ctor_value. cbn [work_op].
    assert (H0 : shape_arg c (c_shape0 c)) by apply Hf.
    apply gives_bind; [apply ctor_shape_gives; auto|]. intros [h1 a] E. rewrite strip_ctor_shape in E.
    destruct (ctor_shape_spec c (w_next w) (w_heap w) al (c_shape0 c) Hh H0) as (h1' & a' & E' & Hv & _ & Hl & Es & _).
    rewrite <- (ctor_shape_hold _ _ _ _ _ _ Hh E). rewrite E' in E. injection E as -> ->.
    apply assign_value_gives; auto. apply Hl.
  - destruct L as [b [Eb C]]. cbn [n_step work_op]. apply (gives_get w y b); auto. apply gives_add. unfold n_ctor_copy.
    rewrite (held_hold w y b Eb), <- (blank_hold (c_select c (a_al b))).
    apply (assign_copy_gives (w_next w) y); auto; [apply blank_default; auto|apply inv_valid; auto|apply blank_apart].
  - destruct L as [b [Eb C]]. cbn [n_step work_op]. apply (gives_get w y b); auto. apply gives_add. unfold n_ctor_copy_alloc.
    assert (H0 : shape_arg c (c_shape0 c)) by apply Hf.
    apply gives_bind; [apply ctor_shape_gives; auto|]. intros [h1 a] E. rewrite strip_ctor_shape in E.
    destruct (ctor_shape_spec c (w_next w) (w_heap w) al (c_shape0 c) Hh H0) as (h1' & a' & E' & Hv & _ & Hl & Es & _).
    rewrite <- (ctor_shape_hold _ _ _ _ _ _ Hh E). rewrite E' in E. injection E as -> ->.
    pose proof (inv_valid c w y b Hw Eb) as Hb.
    destruct (frame_local c _ y _ h1 _ _ b Hh Hl Hb) as [Hb1 [_ [Hk1 _]]]; [intros [I|[]]; auto|].
    rewrite (held_hold w y b Eb). apply (assign_copy_gives (w_next w) y); auto; [apply Hl|].
    intros I. rewrite I. apply Hk1. left; auto.
  - destruct L as [b [Eb C]]. apply (do_new_move_gives w y b); auto.
  - destruct L as [b [Eb C]]. apply (new_move_alloc_gives w y b); auto.
  - destruct L as [Hs [b [Eb C]]]. cbn [n_step work_op]. apply (gives_get w y b); auto. apply gives_add.
    apply (make_gives _ one_copy_assign (n_copy_to c) w y b); auto. intros. eapply copy_to_gives; eauto.
  - destruct L as [Hs [b [Eb C]]]. cbn [n_step work_op]. apply (gives_get w y b); auto. apply gives_add.
    apply (make_gives _ one_move_assign (n_move_to c) w y b); auto. intros. eapply move_to_gives; eauto.
  - destruct L as [[a Ea] [b [Eb C]]]. apply (copy_assign_gives w x y a b); auto.
  - destruct L as [[a Ea] [b [Eb C]]]. apply (do_move_assign_gives w x y a b); auto.
  - destruct L as [[a Ea] [b [Eb C]]]. cbn [n_step work_op]. apply (gives_get w x a); auto. apply (gives_get w y b); auto.
    apply gives_change. destruct (Nat.eqb_spec x y) as [<-|N].
    + rewrite Ea in Eb. injection Eb as <-. unfold n_assign_copy. rewrite (proj2 (ptr_eqb_eq _ _) eq_refl).
      destruct (negb _); cbv zeta; apply gives_first; intros _ _; apply gives_quiet.
    + rewrite (held_hold w x a Ea), (held_hold w y b Eb).
      apply (assign_copy_gives x y); auto; [apply inv_valid; auto|apply inv_valid; auto|apply (inv_apart c w x y); auto].
  - destruct L as [[a Ea] [b [Eb C]]]. cbn [n_step work_op]. apply (gives_get w x a); auto. apply (gives_get w y b); auto.
    apply gives_change. destruct (Nat.eqb_spec x y) as [<-|N].
    + rewrite Ea in Eb. injection Eb as <-. unfold n_assign_move. rewrite (proj2 (ptr_eqb_eq _ _) eq_refl).
      destruct (negb _); cbv zeta; apply gives_first; intros _ _; apply gives_quiet.
    + rewrite (held_hold w x a Ea), (held_hold w y b Eb).
      apply (assign_move_gives x y); auto; [apply inv_valid; auto|apply inv_valid; auto|apply (inv_apart c w x y); auto].
  - destruct L as [[a Ea] Hs]. cbn [n_step work_op]. apply (gives_get w x a); auto. apply gives_change.
    rewrite (held_hold w x a Ea). apply assign_value_gives; auto. apply inv_valid; auto.
  - destruct L as [a Ea]. cbn [n_step work_op]. apply (gives_get w x a); auto. apply gives_change.
    rewrite (held_hold w x a Ea). pose proof (inv_valid c w x a Hw Ea) as Ha. unfold n_clear, n_construct_default.
    apply gives_bind; [apply deallocate_gives; auto|]. intros [h1 a1] E. rewrite strip_deallocate in E.
    destruct (deallocate_raw c x (w_heap w) a Hh Ha) as (h1' & a1' & E' & Hm & Hl & _). rewrite E' in E. injection E as -> ->.
    unfold making. apply gives_bind; [apply (allocate_gives x h1 (with_shape a1 (c_shape0 c))); apply Hm|].
    intros [h2 a2] E2. rewrite strip_allocate in E2.
    destruct (allocate_spec c x h1 (with_shape a1 (c_shape0 c))) as (h2' & a2' & E2' & Hr & _ & Es & _);
      [apply Hl|apply Hm|apply Hm|apply Hf|].
    rewrite E2' in E2. injection E2 as -> ->. apply (gives_last _ (fun h3 => Ok (h3, a2))).
    cbn [new_held hd_shape]. change (a_shape (with_shape a1 (c_shape0 c))) with (c_shape0 c) in Es. rewrite <- Es.
    eapply construct_gives; eauto.
  - destruct L as [Hs [a [Ea Hm]]]. apply (reshape_gives w x a s); auto.
  - exfalso. exact (NS x y eq_refl).
  - destruct L as [a [Ea Hi]]. cbn [n_step work_op]. apply (gives_get w x a); auto. apply gives_on_heap. apply gives_doing.
  - destruct L as [a Ea]. apply (do_delete_gives w x a); auto.
Qed.

Lemma swap_gives w x y a b : Inv c w -> w_arr w x = Some a -> w_arr w y = Some b -> copyable c a -> copyable c b ->
  gives (n_do_swap c w x y) (work c w (Run (Swap x y))).
Proof.
  intros Hw Ea Eb Ca Cb. unfold n_do_swap. cbn [work]. destruct (c_pocs c) eqn:Ep.
  - apply (gives_get w x a); auto. apply (gives_get w y b); auto. unfold swap_allocators, swap_except_allocator.
    apply gives_change2. apply gives_quiet.
  - set (n := w_next w). pose proof (inv_lt c w x a Hw Ea) as Lx. pose proof (inv_lt c w y b Hw Eb) as Ly.
    unfold swap_ops. cbn [work_ops]. apply gives_bind; [apply (do_new_move_gives w y b); auto|].
    intros w1 E1. rewrite strip_do_new_move in E1. cbn [step]. rewrite E1.
    destruct (new_move_world c Hf w y b Hw Eb Cb) as [w1' [E1' [I1 [U1 [N1 [M1 [t [b1 [Et [Eb1 _]]]]]]]]]].
    rewrite E1' in E1. injection E1 as ->.
    fold n in Et, U1, N1, M1, Lx, Ly |- *. destruct (inv_denotes c w y b Hw Eb) as [fb Db].
    assert (Ht : refines (a_shape t) (a_shape b)).
    { destruct (M1 _ _ Db) as [s' [R D]]. destruct (denotes_has _ _ _ _ _ D Et) as [-> _]. auto. }
    pose proof (refines_copyable c b t (inv_shape c w y b Hw Eb) Ht Cb) as Ct.
    destruct (Nat.eq_dec x y) as [<-|N].
    + rewrite Ea in Eb. injection Eb as <-.
      destruct (self_world c w1 (MoveAssign x x) x b1 I1 Eb1) as [w2 [E2 [I2 [U2 [N2 _]]]]]; auto. cbn [step] in E2.
      apply gives_bind; [apply (do_move_assign_gives w1 x x b1 b1); auto|].
      intros w2' E2'. rewrite strip_do_move_assign in E2'. rewrite E2'. rewrite E2 in E2'. injection E2' as <-.
      destruct (U2 n) as [T1 T2]; [intros []|]. destruct (U2 x) as [X1 _]; [intros []|].
      rewrite Et in T1. rewrite Eb1 in X1.
      destruct (move_assign_world c Hf w2 x n b1 t) as [w3 [E3 [I3 [U3 [N3 [M3 [a3 [t3 [Ea3 [Et3 _]]]]]]]]]]; auto; [lia|].
      apply gives_bind; [apply (do_move_assign_gives w2 x n b1 t); auto|].
      intros w3' E3'. rewrite strip_do_move_assign in E3'. rewrite E3'. rewrite E3 in E3'. injection E3' as <-.
      cbn [work_op]. eapply gives_eq; [apply (do_delete_gives w3 n t3); auto|].
      destruct (do_delete c w3 n); rewrite plus_r; reflexivity.
    + destruct (U1 x) as [X1 X2]; [simpl; intuition lia|]. rewrite Ea in X1.
      destruct (move_assign_world c Hf w1 y x b1 a) as [w2 [E2 [I2 [U2 [N2 [M2 [b2 [a2 [Eb2 [Ea2 _]]]]]]]]]]; auto.
      apply gives_bind; [apply (do_move_assign_gives w1 y x b1 a); auto|].
      intros w2' E2'. rewrite strip_do_move_assign in E2'. rewrite E2'. rewrite E2 in E2'. injection E2' as <-.
      destruct (U2 n) as [T1 T2]; [simpl; intuition lia|]. rewrite Et in T1.
      destruct (move_assign_world c Hf w2 x n a2 t) as [w3 [E3 [I3 [U3 [N3 [M3 [a3 [t3 [Ea3 [Et3 _]]]]]]]]]]; auto; [lia|].
      apply gives_bind; [apply (do_move_assign_gives w2 x n a2 t); auto|].
      intros w3' E3'. rewrite strip_do_move_assign in E3'. rewrite E3'. rewrite E3 in E3'. injection E3' as <-.
      cbn [work_op]. eapply gives_eq; [apply (do_delete_gives w3 n t3); auto|].
      destruct (do_delete c w3 n); rewrite plus_r; reflexivity.
Qed.
Lemma values_gives {S} (step : S -> ptr -> counted S) t w x a l s : (forall s p, gives (step s p) t) ->
  Inv c w -> w_arr w x = Some a -> values (c_ndebug c) (a_shape a) (a_base a) = Ok l ->
  gives (foldC step l s) (times (elements (a_shape a)) t).
Proof.
  intros Hs Hw Ea E. pose proof (inv_valid c w x a Hw Ea) as H.
  destruct (values_spec (c_ndebug c) (a_shape a) (a_base a) (repr_extents _ _ _ _ _ H) (repr_base _ _ _ _ _ H)) as [l' [Hl E']].
  rewrite E' in E. injection E as <-. rewrite <- (elements_enum _ l') by (auto; eapply repr_extents; eauto).
  rewrite <- (map_length (elem (a_base a) (a_shape a)) l'). apply gives_fold. auto.
Qed.
Lemma work_gives w o : Inv c w -> legal_act c w o -> gives (n_astep c w o) (work c w o).
Proof.
  intros Hw. assert (Hh : heap_ok (w_heap w)) by apply Hw. destruct o; cbn [legal_act n_astep]; intros L.
  - assert (D : (exists x y, o = Swap x y) \/ (forall x y, o <> Swap x y))
      by (destruct o; try (right; intros; discriminate); left; eauto).
    destruct D as [[x [y ->]]|D].
    + destruct L as [[a [Ea Ca]] [b [Eb Cb]]]. apply (swap_gives w x y a b); auto.
    + eapply gives_eq; [apply op_gives; auto|]. destruct o; try reflexivity. exfalso. eapply D; eauto.
  - destruct L as [a Ea]. cbn [work]. apply (gives_get w x a); auto. apply gives_on_heap. rewrite (shape_hold w x a Ea).
    unfold n_fill. apply gives_first; intros l E. eapply values_gives; eauto. intros. apply gives_doing.
  - destruct L as [[a Ea] [b [Eb Hi]]]. cbn [work]. apply (gives_get w x a); auto. apply (gives_get w y b); auto.
    apply gives_first; intros v _. apply gives_on_heap. rewrite (shape_hold w x a Ea).
    unfold n_fill. apply gives_first; intros l E. eapply values_gives; eauto. intros. apply gives_doing.
  - destruct L as [a [b [Ea [Eb Hi]]]]. cbn [work]. apply (gives_get w y b); auto. apply (gives_get w x a); auto.
    apply gives_on_heap. rewrite (shape_hold w x a Ea). apply (copy_to_gives x y); auto; apply inv_valid; auto.
  - destruct L as [N [a [b [Ea [Eb Hi]]]]]. cbn [work]. apply (gives_get w y b); auto. apply (gives_get w x a); auto.
    apply gives_on_heap. rewrite (shape_hold w x a Ea). apply (move_to_gives x y); auto; apply inv_valid; auto.
  - destruct L as [[a Ea] [b [Eb C]]]. apply (do_move_assign_gives w x y a b); auto.
  - destruct L as [a Ea]. cbn [work]. apply (gives_get w x a); auto. apply gives_on_heap. rewrite (shape_hold w x a Ea).
    apply (gives_last _ (fun r => Ok (fst r))). unfold n_generate. apply gives_first; intros l E. eapply values_gives; eauto.
    intros st p. apply (gives_last _ (fun h' => Ok (h', S (snd st)))). apply gives_doing.
  - destruct L as [a Ea]. cbn [work]. apply (gives_get w x a); auto. apply gives_on_heap. rewrite (shape_hold w x a Ea).
    unfold n_transform_index. apply gives_first; intros l E.
    assert (He : extents_ge 0 (a_shape a)) by (eapply repr_extents; apply (inv_valid c w x a Hw Ea)).
    destruct (TraverseFacts.for_each_index_visits (a_shape a) He) as [l' [E' [Hl _]]]. cbn [aref_of r_shape] in E. rewrite E' in E. injection E as <-.
    rewrite <- (elements_enum _ l') by auto. apply gives_fold. intros. apply gives_doing.
  - destruct L as [[a Ea] [Hs [N [b [Eb Hi]]]]]. cbn [work]. apply (gives_get w x a); auto. apply (gives_get w y b); auto.
    apply gives_change. rewrite (held_hold w x a Ea). apply assign_value_gives; auto. apply inv_valid; auto.
Qed.
(** A counted run succeeds with the world of the run and the counts of the specification *)
Lemma strip_some {A} (m : counted A) a t : strip m = Ok a -> gives m t -> m = Ok (a, t).
Proof.
  destruct m as [[a' u]| |]; cbn [strip]; intros E G; try discriminate. injection E as ->. f_equal. f_equal. eapply G. reflexivity.
Qed.
Lemma step_work w o : Inv c w -> legal_act c w o -> exists w', astep c w o = Ok w' /\ n_astep c w o = Ok (w', work c w o).
Proof.
  intros Hw L. destruct (astep_ok c Hf w o Hw L) as [w' [E _]]. exists w'. split; auto.
  apply strip_some; [rewrite strip_astep; auto|apply work_gives; auto].
Qed.
Lemma run_work ops : forall w, Inv c w -> alegal c w ops ->
  exists w', arun c ops w = Ok w' /\ n_run c ops w = Ok (w', work_run c w ops).
Proof.
  induction ops as [|o ops IH]; intros w Hw L.
  - exists w. split; reflexivity.
  - destruct L as [L1 L2]. destruct (step_work w o Hw L1) as [w1 [E1 N1]].
    assert (I1 : Inv c w1) by (destruct (astep_ok c Hf w o Hw L1) as [w1' [E1' I]]; congruence).
    destruct (IH w1 I1 (L2 w1 E1)) as [w2 [E2 N2]]. exists w2. unfold arun, n_run in *. cbn [foldM foldC work_run].
    rewrite E1, N1. cbn [bind]. split; auto. unfold cbind. cbn [bind]. rewrite N2. reflexivity.
Qed.
End Work.
