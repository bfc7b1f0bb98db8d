(** Proofs about the allocator, the shape and the memory of arrays after each operation. *)
From Coq Require Import ZArith List Bool Lia Arith.
From Verif Require Import Base Interval Shape Traverse Memory Ref Container Program Count.
From Verif Require Import Spec SpecMem SpecContainer SpecProgram SpecViews SpecCount SpecInterp.
From Verif Require Import Tac ShapeFacts ResolveFacts MemFacts RefFacts SliceFacts ContainerFacts ContainerWorld ProgramFacts CountFacts CountWorld.
Import ListNotations.
Open Scope Z_scope.

Section Forms.
Context {V : Type}.
Variable c : config V.
Hypothesis Hf : fair c.
Implicit Types (h : heap V) (w : world V) (v va vb : value V).

Definition sig (a : arr) v : Prop :=
  a_al a = v_al v /\ negb (is_null (a_buf a)) = v_mem v /\ a_shape a = v_shape v.

Lemma sig_hold a v : sig a v -> hd_mem (hold a) = v_mem v /\ hd_shape (hold a) = v_shape v.
Proof. intros (_ & H2 & H3). split; auto. Qed.
Lemma sig_busy cells x h a v : repr c cells x h a -> sig a v -> a_busy a = v_inline c v.
Proof.
  intros [_ [[(H1 & H2 & H3) _]|(_ & k & b & _ & Hin & _)]] (_ & S2 & S3); unfold v_inline; rewrite <- S2, <- S3.
  - rewrite H1, H3. reflexivity.
  - destruct Hin as (Hk & E1 & _ & E3 & E4 & _ & _ & Hc). rewrite E1, is_null_block by auto. cbn [negb andb].
    rewrite <- E4, <- E3. apply eq_true_iff_eq. rewrite Hc, Z.leb_le. reflexivity.
Qed.
Lemma sig_null cells x h a v : repr c cells x h a -> sig a v -> is_null (a_base a) = negb (v_mem v).
Proof.
  intros H S. pose proof (memory_hold c _ _ _ _ H) as E. destruct (sig_hold a v S) as [E2 _].
  rewrite <- E2, E, negb_involutive. reflexivity.
Qed.
Lemma sig_no_memory a v : no_memory a -> sig a v -> v_mem v = false.
Proof. intros (H & _) (_ & S & _). rewrite <- S, H. reflexivity. Qed.
Lemma sig_bases x y h a b va vb : valid c x h a -> valid c y h b -> apart a b -> sig a va -> sig b vb ->
  ptr_eqb (a_base a) (a_base b) = negb (v_mem va) && negb (v_mem vb).
Proof.
  intros Ha Hb Hap Sa Sb. rewrite (bases_hold c x y h) by auto.
  destruct (sig_hold a va Sa) as [-> _]. destruct (sig_hold b vb Sb) as [-> _]. reflexivity.
Qed.
Lemma sig_filled a v f : sig a v -> sig a (filled v f).
Proof. intros H. exact H. Qed.
Lemma sig_trans a a' v : a_al a' = a_al a -> a_buf a' = a_buf a -> a_shape a' = a_shape a -> sig a v -> sig a' v.
Proof. unfold sig. intros -> -> ->. auto. Qed.
Lemma shape_dec_eqb s t : shape_eqb s t = if shape_dec s t then true else false.
Proof.
  destruct (shape_dec s t) as [E|E]; [apply shape_eqb_eq; auto|].
  destruct (shape_eqb s t) eqn:Eb; [apply shape_eqb_eq in Eb; contradiction|auto].
Qed.

Lemma allocate_sig x h a h' a' f : heap_ok h -> a_buf a = null -> a_busy a = false -> allocate c x h a = Ok (h', a') ->
  sig a' (built (a_al a) (a_shape a) f).
Proof.
  intros Hh Hb Hz E. pose proof (allocate_hold c x h a h' a' Hh Hb Hz E) as Hd.
  unfold hold, new_held in Hd. injection Hd as D1 D2 _. unfold sig, built. cbn [v_al v_mem v_shape].
  split; [|auto]. unfold allocate in E. destruct (assert_ _ _); try discriminate. cbn [bind] in E.
  destruct (0 <? _); [|injection E as _ <-; reflexivity]. unfold alloc_get in E.
  destruct (negb _ && _); cbn in E; injection E as _ <-; reflexivity.
Qed.
Lemma ctor_shape_sig x h al s h' a' f : heap_ok h -> ctor_shape c x h al s = Ok (h', a') -> sig a' (built al s f).
Proof.
  intros Hh E. unfold ctor_shape in E. destruct (allocate c x h (blank al s)) as [[h1 a1]| |] eqn:Ea; try discriminate.
  cbn [bind] in E. destruct (construct_default c h1 a1); try discriminate. injection E as _ <-.
  apply (allocate_sig x h (blank al s) h1 a1 f); auto.
Qed.
Lemma refit_sig x h a s h' a' va f : heap_ok h -> valid c x h a -> sig a va ->
  (' (h', a') <- deallocate c x h a ;; allocate c x h' (with_shape a' s)) = Ok (h', a') -> sig a' (built (v_al va) s f).
Proof.
  intros Hh Ha Sa E. destruct (deallocate_spec c x h a Hf Hh Ha) as (h1 & a1 & E1 & _ & Hm & Hl & Eal & _).
  rewrite E1 in E. cbn [bind] in E. destruct Sa as [<- _]. rewrite <- Eal.
  change (a_al a1) with (a_al (with_shape a1 s)). change s with (a_shape (with_shape a1 s)) at 2.
  apply (allocate_sig x h1 (with_shape a1 s) h' a' f); auto; [apply Hl|apply Hm|apply Hm].
Qed.
Lemma storage_sig x h a b va vb h' a' f : heap_ok h -> valid c x h a -> sig a va -> sig b vb ->
  (if negb (is_null (a_base a)) && shape_eqb (a_shape a) (a_shape b)
   then h' <- destroy c h a ;; Ok (h', a)
   else ' (h', a') <- deallocate c x h a ;; allocate c x h' (with_shape a' (a_shape b))) = Ok (h', a') ->
  sig a' (if v_mem va && (if shape_dec (v_shape va) (v_shape vb) then true else false) then filled va f
          else built (v_al va) (v_shape vb) f).
Proof.
  intros Hh Ha Sa Sb E. rewrite (sig_null _ _ _ _ _ Ha Sa), negb_involutive, shape_dec_eqb in E.
  pose proof Sa as (_ & _ & <-). pose proof Sb as (_ & _ & <-).
  destruct (v_mem va && _).
  - destruct (destroy c h a); try discriminate. cbn [bind] in E. injection E as _ <-. apply sig_filled; auto.
  - apply (refit_sig x h a (a_shape b) h' a' va f); auto.
Qed.
Lemma replaced_eq (va vb : value V) : replaced va vb =
  if negb (v_mem va) && negb (v_mem vb) then mkVal (v_al va) false (v_shape vb) (v_at vb)
  else (if v_mem va && (if shape_dec (v_shape va) (v_shape vb) then true else false) then filled va (v_at vb)
          else built (v_al va) (v_shape vb) (v_at vb)).
Proof. reflexivity. Qed.
Lemma null_shape_sig a s va f : sig a va -> v_mem va = false -> sig (with_shape a s) (mkVal (v_al va) false s f).
Proof. intros (S1 & S2 & S3) H. unfold sig, with_shape. cbn [a_al a_buf a_shape v_al v_mem v_shape]. split; auto. split; congruence. Qed.
Lemma assign_copy_sig x y h a b va vb h' a' : heap_ok h -> valid c x h a -> valid c y h b -> apart a b -> sig a va -> sig b vb ->
  assign_copy c x h a b = Ok (h', a') -> sig a' (replaced va vb).
Proof.
  intros Hh Ha Hb Hap Sa Sb E. unfold assign_copy in E. rewrite replaced_eq.
  rewrite (sig_bases x y h a b va vb) in E by auto. destruct (negb (v_mem va) && negb (v_mem vb)) eqn:En.
  - apply andb_true_iff in En. destruct En as [En _]. rewrite (sig_null _ _ _ _ _ Ha Sa), En in E. cbn [negb] in E. cbv zeta in E.
    destruct (assert_ _ _); try discriminate. cbn [bind] in E. injection E as _ <-.
    destruct Sb as (_ & _ & <-). apply null_shape_sig; auto. apply negb_true_iff; auto.
  - match type of E with bind ?m _ = _ => destruct m as [[h1 a1]| |] eqn:Em; try discriminate end. cbn [bind] in E.
    destruct (copy_construct c h1 a1 b); try discriminate. injection E as _ <-. exact (storage_sig x h a b va vb h1 a1 _ Hh Ha Sa Sb Em).
Qed.
Lemma assign_move_sig x y h a b va vb h' a' : heap_ok h -> valid c x h a -> valid c y h b -> apart a b -> sig a va -> sig b vb ->
  assign_move c x h a b = Ok (h', a') -> sig a' (replaced va vb).
Proof.
  intros Hh Ha Hb Hap Sa Sb E. unfold assign_move in E. rewrite replaced_eq.
  rewrite (sig_bases x y h a b va vb) in E by auto. destruct (negb (v_mem va) && negb (v_mem vb)) eqn:En.
  - apply andb_true_iff in En. destruct En as [En _]. rewrite (sig_null _ _ _ _ _ Ha Sa), En in E. cbn [negb] in E. cbv zeta in E.
    destruct (assert_ _ _); try discriminate. cbn [bind] in E. injection E as _ <-.
    destruct Sb as (_ & _ & <-). apply null_shape_sig; auto. apply negb_true_iff; auto.
  - match type of E with bind ?m _ = _ => destruct m as [[h1 a1]| |] eqn:Em; try discriminate end. cbn [bind] in E.
    destruct (move_construct c h1 a1 b); try discriminate. injection E as _ <-. exact (storage_sig x h a b va vb h1 a1 _ Hh Ha Sa Sb Em).
Qed.
Lemma assign_value_sig x h a va s init (v : V) h' a' : heap_ok h -> valid c x h a -> shape_arg c s -> sig a va ->
  assign_value c x h a s init = Ok (h', a') -> sig a' (revalued va s v).
Proof.
  intros Hh Ha Hs Sa E. unfold assign_value in E. cbv zeta in E. unfold revalued.
  pose proof Sa as (_ & _ & <-). rewrite shape_dec_eqb in E.
  destruct (shape_dec (a_shape a) (resolve s)) as [Es|Es].
  - destruct (destroy c h a); try discriminate. cbn [bind] in E. destruct (construct c _ a init); try discriminate.
    injection E as _ <-. apply sig_filled; auto.
  - match type of E with bind ?m _ = _ => destruct m as [[h1 a1]| |] eqn:Em; try discriminate end. cbn [bind] in E.
    destruct (construct c h1 a1 init); try discriminate. injection E as _ <-.
    pose proof (refit_sig x h a (resolve s) h1 a1 va (fun _ => v) Hh Ha Sa Em) as G.
    unfold built in G |- *. rewrite proper_resolve2 in G by apply Hs. exact G.
Qed.
Lemma ctor_value_sig x h al s (v : V) h' a' : heap_ok h -> shape_arg c s -> ctor_value c x h al s v = Ok (h', a') ->
  sig a' (built al s (fun _ => v)).
Proof.
  intros Hh Hs E. unfold ctor_value in E.
  destruct (ctor_shape_spec c x h al (c_shape0 c) Hh (proj1 Hf)) as (h1 & a1 & E1 & Hv & _ & Hl & _). rewrite E1 in E. cbn [bind] in E.
  pose proof (ctor_shape_sig x h al (c_shape0 c) h1 a1 (fun _ => v) Hh E1) as S1.
  pose proof (assign_value_sig x h1 a1 _ s _ v h' a' (proj1 Hl) Hv Hs S1 E) as S2.
  unfold revalued in S2. destruct (shape_dec _ _) as [Es|Es]; [|exact S2].
  unfold built in Es. cbn [v_shape] in Es. unfold built. rewrite <- Es. exact S2.
Qed.
Lemma blank_sig al : sig (blank al (c_shape0 c)) (bare c al).
Proof. unfold sig, blank, bare. cbn. auto. Qed.
Lemma ctor_copy_sig x y h b vb h' a' : heap_ok h -> valid c y h b -> sig b vb -> ctor_copy c x h b = Ok (h', a') ->
  sig a' (replaced (bare c (c_select c (v_al vb))) vb).
Proof.
  intros Hh Hb Sb E. unfold ctor_copy in E. pose proof Sb as (<- & _).
  apply (assign_copy_sig x y h (blank (c_select c (a_al b)) (c_shape0 c)) b _ _ h' a'); auto.
  - apply blank_default; auto.
  - apply blank_apart.
  - apply blank_sig.
Qed.
Lemma ctor_copy_alloc_sig x y h b vb al h' a' : heap_ok h -> valid c y h b -> sig b vb ->
  ctor_copy_alloc c x h b al = Ok (h', a') -> sig a' (replaced (built al (c_shape0 c) (fun _ => c_dv c)) vb).
Proof.
  intros Hh Hb Sb E. unfold ctor_copy_alloc in E.
  destruct (ctor_shape_spec c x h al (c_shape0 c) Hh (proj1 Hf)) as (h1 & a1 & E1 & Hv & _ & Hl & _). rewrite E1 in E. cbn [bind] in E.
  pose proof (ctor_shape_sig x h al (c_shape0 c) h1 a1 (fun _ => c_dv c) Hh E1) as S1.
  destruct (frame_local c _ y _ h1 _ _ b Hh Hl Hb) as (Hb1 & _ & Hd & _).
  { intros [I|[]]. auto. }
  apply (assign_copy_sig x y h1 a1 b _ _ h' a'); auto; [apply Hl|].
  intros I. rewrite I. apply Hd. left. auto.
Qed.

(** ** Two arrays *)

Lemma alloc_eq_exchange x y h a b va vb : x <> y -> valid c x h a -> valid c y h b -> sig a va -> sig b vb ->
  alloc_eq x a y b = exchange c va vb.
Proof.
  intros N Ha Hb Sa Sb. unfold alloc_eq, exchange. rewrite (sig_busy _ _ _ _ _ Ha Sa), (sig_busy _ _ _ _ _ Hb Sb).
  destruct Sa as [-> _], Sb as [-> _]. rewrite (proj2 (Nat.eqb_neq x y) N).
  destruct (v_inline c va), (v_inline c vb); reflexivity.
Qed.
Lemma alloc_eq_takes x y h al s b vb : x <> y -> valid c y h b -> sig b vb -> alloc_eq x (blank al s) y b = takes_over c al vb.
Proof.
  intros N Hb Sb. unfold alloc_eq, takes_over. rewrite (sig_busy _ _ _ _ _ Hb Sb). cbn [blank a_busy a_al orb].
  destruct Sb as [-> _]. rewrite (proj2 (Nat.eqb_neq x y) N), (Nat.eqb_sym (v_al vb)). destruct (v_inline c vb); reflexivity.
Qed.
Lemma move_in_sig x h al b vb (take : bool) h' a' b' : heap_ok h -> sig b vb ->
  (if take then let '(a', b') := swap_except_allocator (blank al (c_shape0 c)) b in Ok (h, a', b')
   else ' (h1, a1) <- allocate c x h (with_shape (blank al (c_shape0 c)) (a_shape b)) ;;
        h2 <- move_construct c h1 a1 b ;; Ok (h2, a1, b)) = Ok (h', a', b') ->
  sig a' (fst (move_new c take al vb)) /\ sig b' (snd (move_new c take al vb)).
Proof.
  intros Hh Sb E. unfold move_new. destruct take.
  - unfold swap_except_allocator in E. injection E as _ <- <-. destruct Sb as (S1 & S2 & S3).
    unfold sig, blank, bare. cbn. auto.
  - destruct (allocate c x h _) as [[h1 a1]| |] eqn:Ea; try discriminate. cbn [bind] in E.
    destruct (move_construct c h1 a1 b); try discriminate. injection E as _ <- <-. cbn [fst snd]. split; [|exact Sb].
    pose proof Sb as (_ & _ & <-).
    apply (allocate_sig x h (with_shape (blank al (c_shape0 c)) (a_shape b)) h1 a1 (v_at vb)); auto.
Qed.
Lemma ctor_move_sig x y h b vb h' a' b' : x <> y -> heap_ok h -> valid c y h b -> sig b vb ->
  ctor_move c x h y b = Ok (h', a', b') ->
  let r := move_new c (c_pocma c || takes_over c (c_default c) vb) (if c_pocma c then v_al vb else c_default c) vb in
  sig a' (fst r) /\ sig b' (snd r).
Proof.
  intros N Hh Hb Sb E. unfold ctor_move in E. rewrite (alloc_eq_takes x y h _ _ b vb) in E by auto.
  pose proof Sb as (S1 & _). rewrite S1 in E. cbv zeta.
  replace (c_pocma c || takes_over c (c_default c) vb) with
    (c_pocma c || takes_over c (if c_pocma c then v_al vb else c_default c) vb) by (destruct (c_pocma c); reflexivity).
  eapply move_in_sig; [exact Hh|exact Sb|exact E].
Qed.
Lemma ctor_move_alloc_sig x y h b vb al h' a' b' : x <> y -> heap_ok h -> valid c y h b -> sig b vb ->
  ctor_move_alloc c x h y b al = Ok (h', a', b') ->
  let r := move_new c (takes_over c al vb) al vb in sig a' (fst r) /\ sig b' (snd r).
Proof.
  intros N Hh Hb Sb E. unfold ctor_move_alloc in E. rewrite (alloc_eq_takes x y h _ _ b vb) in E by auto.
  eapply move_in_sig; [exact Hh|exact Sb|exact E].
Qed.
Lemma copy_assign_sig x y h a b va vb h' a' : x <> y -> heap_ok h -> valid c x h a -> valid c y h b -> apart a b ->
  sig a va -> sig b vb -> copy_assign_op c x h a y b = Ok (h', a') -> sig a' (copy_into c va vb).
Proof.
  intros N Hh Ha Hb Hap Sa Sb E. unfold copy_assign_op in E. unfold copy_into.
  rewrite (sig_bases x y h a b va vb) in E by auto. destruct (negb (v_mem va) && negb (v_mem vb)) eqn:En.
  - rewrite replaced_eq, En.
    apply andb_true_iff in En. destruct En as [En _]. rewrite (sig_null _ _ _ _ _ Ha Sa), En in E. cbn [negb] in E. cbv zeta in E.
    destruct (assert_ _ _); try discriminate. cbn [bind] in E. injection E as _ <-.
    destruct Sb as (_ & _ & <-). apply null_shape_sig; auto. apply negb_true_iff; auto.
  - destruct (c_pocca c) eqn:Ep.
    2: { cbn [bind] in E. apply (assign_copy_sig x y h a b _ _ h' a'); auto. }
    rewrite (alloc_eq_exchange x y h a b va vb) in E by auto. destruct (exchange c va vb) eqn:Ex; cbn [negb bind] in E.
    + assert (Eal : set_al a (a_al b) = a).
      { unfold exchange in Ex. apply andb_true_iff in Ex. destruct Ex as [_ Ex]. apply Nat.eqb_eq in Ex.
        destruct Sa as [Sa _], Sb as [Sb _]. unfold set_al. rewrite Sb, <- Ex, <- Sa. destruct a; reflexivity. }
      rewrite Eal in E. apply (assign_copy_sig x y h a b _ _ h' a'); auto.
    + destruct (deallocate_spec c x h a Hf Hh Ha) as (h1 & a1 & E1 & Hv & Hm & Hl & _).
      rewrite E1 in E. cbn [bind] in E.
      destruct (frame_local c _ y _ h1 _ _ b Hh Hl Hb) as [Hb1 _].
      { intros [I|[]]. rewrite <- I. apply Hap. auto. }
      assert (Hv1 : valid c x h1 (set_al a1 (a_al b))).
      { destruct Hv as [Hs1 [[_ Hn]|(_ & k & bb & _ & (Hk & Eb1 & _) & _)]].
        - split; [exact Hs1|]. left. split; [exact Hm|exact Hn].
        - exfalso. destruct Hm as [Hm _]. rewrite Hm in Eb1. injection Eb1 as Eb1. congruence. }
      assert (Sa1 : sig (set_al a1 (a_al b)) (mkVal (v_al vb) false (a_shape a1) (v_at va))).
      { destruct Hm as [Hm _]. destruct Sb as [Sb _]. unfold sig, set_al. cbn. rewrite Hm. auto. }
      assert (Hap1 : apart (set_al a1 (a_al b)) b).
      { intros _. change (blk (set_al a1 (a_al b))) with (blk a1). apply no_memory_blk; auto. }
      exact (assign_copy_sig x y h1 _ b _ _ h' a' (proj1 Hl) Hv1 Hb1 Hap1 Sa1 Sb E).
Qed.
Lemma move_assign_sig x y h a b va vb h' a' b' : x <> y -> heap_ok h -> valid c x h a -> valid c y h b -> apart a b ->
  sig a va -> sig b vb -> move_assign_op c x h a y b = Ok (h', a', b') ->
  sig a' (fst (move_into c va vb)) /\ sig b' (snd (move_into c va vb)).
Proof.
  intros N Hh Ha Hb Hap Sa Sb E. unfold move_assign_op in E. unfold move_into.
  rewrite (sig_bases x y h a b va vb) in E by auto. destruct (negb (v_mem va) && negb (v_mem vb)) eqn:En.
  - apply andb_true_iff in En. destruct En as [En1 En2]. rewrite (sig_null _ _ _ _ _ Ha Sa), En1 in E. cbn [negb] in E. cbv zeta in E.
    destruct (assert_ _ _); try discriminate. cbn [bind] in E. injection E as _ <- <-. cbn [fst snd].
    pose proof Sa as (_ & _ & <-). pose proof Sb as (_ & _ & <-).
    apply negb_true_iff in En1, En2. split; apply null_shape_sig; auto.
  - rewrite (alloc_eq_exchange x y h a b va vb) in E by auto. destruct (c_pocma c); cbn [orb].
    + unfold swap_allocators, swap_except_allocator in E. injection E as _ <- <-. cbn [fst snd]. split; [exact Sb|exact Sa].
    + destruct (exchange c va vb) eqn:Ex.
      * unfold swap_except_allocator in E. injection E as _ <- <-. cbn [fst snd].
        unfold exchange in Ex. apply andb_true_iff in Ex. destruct Ex as [_ Ex]. apply Nat.eqb_eq in Ex.
        destruct Sa as (A1 & A2 & A3), Sb as (B1 & B2 & B3). unfold sig. cbn. repeat split; congruence.
      * destruct (assign_move c x h a b) as [[h1 a1]| |] eqn:Em; try discriminate. cbn [bind] in E. injection E as _ <- <-.
        cbn [fst snd]. split; [|exact Sb]. apply (assign_move_sig x y h a b _ _ h1 a1); auto.
Qed.
End Forms.
