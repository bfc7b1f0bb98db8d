(** Proofs that programs with arrays compute what the interpreter computes. *)
From Coq Require Import ZArith List Bool Lia Arith.
From Verif Require TraverseFacts.
From Verif Require Import Base Interval Shape Traverse Memory Ref Container Program.
From Verif Require Import Spec SpecMem SpecContainer SpecProgram SpecViews SpecInterp.
From Verif Require Import Tac ShapeFacts ResolveFacts MemFacts RefFacts SliceFacts ContainerFacts ContainerWorld ProgramFacts InterpForms.
Import ListNotations.
Open Scope Z_scope.

Lemma inside_iff s : forall i, inside s i = true <-> in_bounds s i.
Proof.
  unfold in_bounds. induction s as [|d s IH]; intros [|z i]; cbn [inside].
  - split; auto.
  - split; [discriminate|]. intros H; inversion H.
  - split; [discriminate|]. intros H; inversion H.
  - rewrite !andb_true_iff, IH, Z.leb_le, Z.ltb_lt. split.
    + intros [[H1 H2] H3]. constructor; auto. unfold in_dim. lia.
    + intros H. inversion H as [|? ? ? ? Hd Hr]; subst. unfold in_dim in Hd. split; auto; lia.
Qed.
Lemma inside_not s i : inside s i = false <-> ~ in_bounds s i.
Proof. rewrite <- inside_iff. destruct (inside s i); split; congruence. Qed.

(** ** The order of generate *)

Fixpoint place (z : Z) (l : list Z) : nat := match l with [] => 0%nat | y :: l' => if z =? y then 0%nat else S (place z l') end.
Definition visits (s : list dim) (i : list Z) : nat := place (offset s i) (concat (for_each_value s 0)).
Lemma place_nth z l : forall k, NoDup l -> nth_error l k = Some z -> place z l = k.
Proof.
  induction l as [|y l IH]; intros [|k] N E; cbn in *; try discriminate; inversion N as [|? ? N1 N2]; subst.
  - injection E as ->. rewrite Z.eqb_refl. reflexivity.
  - destruct (Z.eqb_spec z y) as [->|_]; [|f_equal; auto]. exfalso. apply N1. eapply nth_error_In; eauto.
Qed.
Lemma concat_singles {A} (f : A -> Z) l : concat (map (fun i => [f i]) l) = map f l.
Proof. induction l; cbn; congruence. Qed.
Lemma shifted s b : for_each_value s b = map (map (fun z => b + z)) (for_each_value s 0).
Proof.
  unfold for_each_value. rewrite !TraverseFacts.fev_in_order_spec, map_map. apply map_ext. intros i. cbn. repeat f_equal.
Qed.
Lemma shifted_list s b l : extents_ge 0 s -> for_each_value s b = map (fun i => [b + offset s i]) l ->
  concat (for_each_value s 0) = map (offset s) l.
Proof.
  intros _ E. rewrite shifted in E. rewrite <- (concat_singles (offset s)). f_equal.
  apply (f_equal (map (map (fun z => z - b)))) in E. rewrite !map_map in E.
  transitivity (map (fun x : list Z => map (fun z => z - b) (map (fun z => b + z) x)) (for_each_value s 0)).
  - rewrite <- (map_id (for_each_value s 0)) at 1. apply map_ext. intros x. rewrite map_map.
    rewrite <- (map_id x) at 1. apply map_ext. intros z. lia.
  - rewrite E. apply map_ext. intros i. cbn. f_equal. lia.
Qed.
Lemma visits_place s b l k i : extents_ge 0 s -> injective_layout s -> enumerates (in_bounds s) l ->
  for_each_value s b = map (fun i => [b + offset s i]) l -> nth_error l k = Some i -> visits s i = k.
Proof.
  intros He Hi [Hn Hl] E Hk. unfold visits. rewrite (shifted_list s b l He E). apply place_nth.
  - clear E Hk. assert (H : forall x, In x l -> in_bounds s x) by (intros x; apply Hl). clear Hl. induction Hn as [|x l Hx Hn IH]; cbn; constructor.
    + intros I. apply in_map_iff in I. destruct I as (y & Ey & Iy). apply Hx.
      rewrite <- (Hi y x); auto; apply H; cbn; auto.
    + apply IH. intros y Iy. apply H. right; auto.
  - rewrite nth_error_map, Hk. reflexivity.
Qed.
Lemma visits_numbering : numbering visits.
Proof.
  intros s He Hi. destruct (TraverseFacts.for_each_value_visits s 0 He) as (l & Hl & E). exists l. split; auto.
  intros k i Hk. apply (visits_place s 0 l k i); auto. rewrite E. apply map_ext. intros j. rewrite flat_offset_spec. reflexivity.
Qed.

Section Interp.
Context {V : Type}.
Variable c : config V.
Hypothesis Hf : fair c.
Implicit Types (h : heap V) (w : world V) (vs : valuation V).
Notation Inv := (Inv c).
Notation shows := (shows_values c).
Notation run1 := (interp c visits).

(** ** Worlds and values *)

Lemma is_value_sig h a v : is_value c h a v -> sig a v.
Proof. intros (H1 & H2 & _ & H4 & _). split; auto. Qed.
Lemma sig_is_value x h a v : valid c x h a -> sig a v -> has h a (v_at v) -> is_value c h a v.
Proof.
  intros Hv S H. pose proof (sig_busy c _ x h a v Hv S) as Hb. destruct S as (S1 & S2 & S3). unfold is_value.
  split; auto. split; auto. split; auto. split; auto. intros i. rewrite <- S3. apply H.
Qed.
Lemma is_value_has h a v : is_value c h a v -> has h a (v_at v).
Proof. intros (_ & _ & _ & H4 & H) i. rewrite H4. apply H. Qed.
Lemma shows_some w vs x a : shows w vs -> w_arr w x = Some a -> exists v, vs_arr vs x = Some v /\ is_value c (w_heap w) a v.
Proof. intros [_ H] E. specialize (H x). rewrite E in H. destruct (vs_arr vs x) as [v|]; [eauto|contradiction]. Qed.
Lemma shows_val w vs x v : shows w vs -> vs_arr vs x = Some v -> exists a, w_arr w x = Some a /\ is_value c (w_heap w) a v.
Proof. intros [_ H] E. specialize (H x). rewrite E in H. destruct (w_arr w x) as [a|]; [eauto|contradiction]. Qed.
Lemma shows_none w vs x : shows w vs -> w_arr w x = None -> vs_arr vs x = None.
Proof. intros [_ H] E. specialize (H x). rewrite E in H. destruct (vs_arr vs x); [contradiction|auto]. Qed.
Lemma shows_next w vs : shows w vs -> w_next w = vs_next vs.
Proof. intros [H _]; auto. Qed.
Lemma shows_denotes w vs x a v : w_arr w x = Some a -> is_value c (w_heap w) a v -> denotes w x (a_shape a) (v_at v).
Proof. intros E H. apply has_denotes; auto. apply is_value_has; auto. Qed.
Lemma denotes_ext w x s f g : denotes w x s f -> (forall i, in_bounds s i -> f i = g i) -> denotes w x s g.
Proof. intros (a & E & Es & H) G. exists a. split; auto. split; auto. intros i Hi. rewrite <- G by auto. auto. Qed.

(** What must be shown of an array that changed *)
Definition good w' x (o : option (value V)) : Prop :=
  match w_arr w' x, o with
  | Some a, Some v => sig a v /\ exists s, denotes w' x s (v_at v)
  | None, None => True
  | _, _ => False
  end.
Lemma good_some w' x a v s : w_arr w' x = Some a -> sig a v -> denotes w' x s (v_at v) -> good w' x (Some v).
Proof. intros E S D. unfold good. rewrite E. eauto. Qed.
Lemma finish w w' vs vs' X : Inv w' -> shows w vs -> unchanged w w' X -> w_next w' = vs_next vs' ->
  (forall z, ~ In z X -> vs_arr vs' z = vs_arr vs z) -> (forall x, In x X -> good w' x (vs_arr vs' x)) -> shows w' vs'.
Proof.
  intros I [_ Hs] U N E G. split; auto. intros x. destruct (in_dec Nat.eq_dec x X) as [Ix|Ix].
  - specialize (G x Ix). unfold good in G. destruct (w_arr w' x) as [a|] eqn:Ea, (vs_arr vs' x) as [v|]; auto.
    destruct G as (S & s & D). apply (sig_is_value x); auto; [apply (inv_valid c w' x); auto|].
    destruct (denotes_has _ _ _ _ _ D Ea) as [-> H]. exact H.
  - rewrite (E x Ix). destruct (U x Ix) as [U1 U2]. rewrite U1. specialize (Hs x).
    destruct (w_arr w x) as [a|] eqn:Ea, (vs_arr vs x) as [v|]; auto.
    apply (sig_is_value x); [apply (inv_valid c w' x); auto; congruence|apply is_value_sig with (w_heap w); auto|].
    assert (Ea' : w_arr w' x = Some a) by congruence.
    destruct (denotes_has _ _ _ _ _ (U2 _ _ (shows_denotes w vs x a v Ea Hs)) Ea') as [_ H]. exact H.
Qed.
(** The same arrays *)
Definition same_value (a b : value V) : Prop :=
  v_al a = v_al b /\ v_mem a = v_mem b /\ v_shape a = v_shape b /\ forall i, in_bounds (v_shape a) i -> v_at a i = v_at b i.
Lemma shows_ext w vs vs' : shows w vs -> vs_next vs' = vs_next vs ->
  (forall x, match vs_arr vs x, vs_arr vs' x with Some a, Some b => same_value a b | None, None => True | _, _ => False end) ->
  shows w vs'.
Proof.
  intros [N H] N' G. split; [congruence|]. intros x. specialize (H x). specialize (G x).
  destruct (w_arr w x) as [a|], (vs_arr vs x) as [v|], (vs_arr vs' x) as [v'|]; try contradiction; auto.
  destruct H as (H1 & H2 & H3 & H4 & H5), G as (G1 & G2 & G3 & G4). unfold is_value, v_inline in *. rewrite <- G1, <- G2, <- G3.
  split; auto. split; auto. split; auto. split; auto. intros i Hi. rewrite <- G4 by auto. auto.
Qed.
Lemma same_value_refl a : same_value a a.
Proof. repeat split. Qed.

Lemma add_eq w r w' : add w r = Ok w' -> exists h' a', r = Ok (h', a') /\ w_arr w' (w_next w) = Some a'.
Proof.
  unfold add. destruct r as [[h' a']| |]; try discriminate. cbn [bind]. intros E. injection E as <-. exists h', a'.
  split; auto. cbn [w_arr]. apply put_same.
Qed.
Lemma change_eq w x r w' : change w x r = Ok w' -> exists h' a', r = Ok (h', a') /\ w_arr w' x = Some a'.
Proof.
  unfold change. destruct r as [[h' a']| |]; try discriminate. cbn [bind]. intros E. injection E as <-. exists h', a'.
  split; auto. cbn [w_arr]. apply put_same.
Qed.
Lemma add2_eq w y r w' : y <> w_next w -> add2 w y r = Ok w' ->
  exists h' a' b', r = Ok (h', a', b') /\ w_arr w' (w_next w) = Some a' /\ w_arr w' y = Some b'.
Proof.
  intros N. unfold add2. destruct r as [[[h' a'] b']| |]; try discriminate. cbn [bind]. intros E. injection E as <-. exists h', a', b'.
  split; auto. cbn [w_arr]. split; [apply put_same|]. rewrite put_other by auto. apply put_same.
Qed.
Lemma change2_eq w x y r w' : y <> x -> change2 w x y r = Ok w' ->
  exists h' a' b', r = Ok (h', a', b') /\ w_arr w' x = Some a' /\ w_arr w' y = Some b'.
Proof.
  intros N. unfold change2. destruct r as [[[h' a'] b']| |]; try discriminate. cbn [bind]. intros E. injection E as <-. exists h', a', b'.
  split; auto. cbn [w_arr]. split; [apply put_same|]. rewrite put_other by auto. apply put_same.
Qed.
Lemma on_eq vs x v f : vs_arr vs x = Some v -> on vs x f = f v.
Proof. unfold on. intros ->. reflexivity. Qed.
Lemma on2_eq vs x y a b f : vs_arr vs x = Some a -> vs_arr vs y = Some b -> on2 vs x y f = f a b.
Proof. unfold on2, on. intros -> ->. reflexivity. Qed.

(** ** Single statements *)

(** A new array, nothing else *)
Lemma finish_new w w' vs v : Inv w' -> shows w vs -> unchanged w w' [w_next w] -> w_next w' = S (w_next w) ->
  good w' (w_next w) (Some v) -> shows w' (new_value vs v).
Proof.
  intros I S U N G. pose proof (shows_next _ _ S) as Nx. eapply finish; eauto.
  - cbn [new_value vs_next]. congruence.
  - intros z Hz. cbn [new_value vs_arr]. rewrite (proj2 (Nat.eqb_neq z (vs_next vs))); auto. rewrite <- Nx. intros ->. apply Hz; cbn; auto.
  - intros x [<-|[]]. cbn [new_value vs_arr]. rewrite Nx, Nat.eqb_refl, <- Nx. exact G.
Qed.
Lemma finish_one w w' vs x v : Inv w' -> shows w vs -> unchanged w w' [x] -> w_next w' = w_next w ->
  good w' x v -> shows w' (set_value vs x v).
Proof.
  intros I S U N G. pose proof (shows_next _ _ S) as Nx. eapply finish; eauto.
  - cbn [set_value vs_next]. congruence.
  - intros z Hz. cbn [set_value vs_arr]. rewrite (proj2 (Nat.eqb_neq z x)); auto. intros ->. apply Hz; cbn; auto.
  - intros z [<-|[]]. cbn [set_value vs_arr]. rewrite Nat.eqb_refl. exact G.
Qed.
Lemma finish_two w w' vs x y v u : x <> y -> Inv w' -> shows w vs -> unchanged w w' [x; y] -> w_next w' = w_next w ->
  good w' x v -> good w' y u -> shows w' (set_value (set_value vs y u) x v).
Proof.
  intros D I S U N G1 G2. pose proof (shows_next _ _ S) as Nx. eapply finish; eauto.
  - cbn [set_value vs_next]. congruence.
  - intros z Hz. cbn [set_value vs_arr]. rewrite !(proj2 (Nat.eqb_neq z _)); auto; intros ->; apply Hz; cbn; auto.
  - intros z [<-|[<-|[]]]; cbn [set_value vs_arr]; rewrite ?Nat.eqb_refl; auto.
    rewrite (proj2 (Nat.eqb_neq y x)) by auto. exact G2.
Qed.
Lemma finish_new2 w w' vs y v u : y <> w_next w -> Inv w' -> shows w vs -> unchanged w w' [w_next w; y] -> w_next w' = S (w_next w) ->
  good w' (w_next w) (Some v) -> good w' y u -> shows w' (new_value (set_value vs y u) v).
Proof.
  intros D I S U N G1 G2. pose proof (shows_next _ _ S) as Nx. eapply finish; eauto.
  - cbn [set_value new_value vs_next]. congruence.
  - intros z Hz. cbn [set_value new_value vs_next vs_arr]. rewrite !(proj2 (Nat.eqb_neq z _)); auto; intros ->; apply Hz; cbn; auto.
  - intros z [<-|[<-|[]]]; cbn [set_value new_value vs_next vs_arr].
    + rewrite <- Nx, Nat.eqb_refl. exact G1.
    + rewrite <- Nx, Nat.eqb_refl. rewrite (proj2 (Nat.eqb_neq y (w_next w))) by auto. exact G2.
Qed.
Lemma unchanged_shows w w' vs : Inv w' -> shows w vs -> unchanged w w' [] -> w_next w' = w_next w -> shows w' vs.
Proof.
  intros I S U N. eapply finish; eauto. { rewrite N. apply shows_next; auto. } intros x [].
Qed.

Definition follows (r : outcome (world V)) vs' : Prop := exists w', r = Ok w' /\ Inv w' /\ shows w' vs'.

Lemma run_new w vs s al : Inv w -> shows w vs -> shape_arg c s ->
  follows (do_new c w s al) (new_value vs (built al s (fun _ => c_dv c))).
Proof.
  intros I S Hs. destruct (new_world c w s al I Hs) as (w' & E & I' & U & N & D & _). exists w'. split; auto. split; auto.
  destruct (add_eq _ _ _ E) as (h' & a' & E' & Ea). apply (finish_new w); auto.
  eapply good_some; [exact Ea| |exact D]. eapply ctor_shape_sig; [|exact E']. apply I.
Qed.
Lemma run_new_value w vs s v al : Inv w -> shows w vs -> shape_arg c s ->
  follows (step c w (NewValue s v al)) (new_value vs (built al s (fun _ => v))).
Proof.
  intros I S Hs. destruct (new_value_world c Hf w s v al I Hs) as (w' & E & I' & U & N & D). exists w'. split; auto. split; auto.
  destruct (add_eq _ _ _ E) as (h' & a' & E' & Ea). apply (finish_new w); auto.
  eapply good_some; [exact Ea| |exact D]. apply (ctor_value_sig c Hf _ _ _ _ _ _ _ (proj1 I) Hs E').
Qed.
Lemma replaced_at (va vb : value V) : v_at (replaced va vb) = v_at vb.
Proof. unfold replaced. destruct (negb _ && negb _); auto. destruct (_ && _); auto. Qed.
Lemma copy_into_at (va vb : value V) : v_at (copy_into c va vb) = v_at vb.
Proof. unfold copy_into. destruct (negb _ && negb _); [|destruct (c_pocca c)]; apply replaced_at. Qed.
Lemma run_new_copy w vs y b vb : Inv w -> shows w vs -> w_arr w y = Some b -> vs_arr vs y = Some vb -> is_value c (w_heap w) b vb ->
  copyable c b -> follows (step c w (NewCopy y)) (new_value vs (replaced (bare c (c_select c (v_al vb))) vb)).
Proof.
  intros I S Eb Ev Hv Cb. destruct (new_copy_world c Hf w y b I Eb Cb) as (w' & E & I' & U & N & M & _). exists w'. split; auto. split; auto.
  cbn [step] in E. rewrite (get_ok w y b Eb) in E. cbn [bind] in E.
  destruct (add_eq _ _ _ E) as (h' & a' & E' & Ea). apply (finish_new w); auto.
  destruct (M _ _ (shows_denotes w vs y b vb Eb Hv)) as (s' & _ & D).
  eapply good_some; [exact Ea| |rewrite replaced_at; exact D].
  apply (ctor_copy_sig c Hf (w_next w) y (w_heap w) b vb h' a' (proj1 I) (inv_valid c w y b I Eb) (is_value_sig _ _ _ Hv) E').
Qed.
Lemma run_new_copy_alloc w vs y b vb al : Inv w -> shows w vs -> w_arr w y = Some b -> vs_arr vs y = Some vb -> is_value c (w_heap w) b vb ->
  copyable c b -> follows (step c w (NewCopyAlloc y al)) (new_value vs (replaced (built al (c_shape0 c) (fun _ => c_dv c)) vb)).
Proof.
  intros I S Eb Ev Hv Cb. destruct (new_copy_alloc_world c Hf w y b al I Eb Cb) as (w' & E & I' & U & N & M & _). exists w'. split; auto. split; auto.
  cbn [step] in E. rewrite (get_ok w y b Eb) in E. cbn [bind] in E.
  destruct (add_eq _ _ _ E) as (h' & a' & E' & Ea). apply (finish_new w); auto.
  destruct (M _ _ (shows_denotes w vs y b vb Eb Hv)) as (s' & _ & D).
  eapply good_some; [exact Ea| |rewrite replaced_at; exact D].
  apply (ctor_copy_alloc_sig c Hf (w_next w) y (w_heap w) b vb al h' a' (proj1 I) (inv_valid c w y b I Eb) (is_value_sig _ _ _ Hv) E').
Qed.
Lemma move_new_at take al (vb : value V) : v_at (fst (move_new c take al vb)) = v_at vb.
Proof. unfold move_new. destruct take; reflexivity. Qed.
Lemma no_memory_denotes w y b f : Inv w -> w_arr w y = Some b -> no_memory b -> denotes w y (a_shape b) f.
Proof. intros I E H. apply has_denotes; auto. eapply no_memory_has; eauto. apply (inv_valid c w y b); auto. Qed.
Lemma moved_denotes w y b (vb : value V) s : w_arr w y = Some b -> a_shape b = v_shape vb ->
  has (w_heap w) b (fun i => c_mv c (v_at vb i)) -> s = v_shape vb -> denotes w y (a_shape b) (v_at (moved_from c vb s)).
Proof.
  intros E Es H ->. apply (denotes_ext w y _ (fun i => c_mv c (v_at vb i))); [apply has_denotes; auto|].
  intros i Hi. cbn [moved_from filled v_at]. rewrite (proj2 (inside_iff (v_shape vb) i)); auto. rewrite <- Es. auto.
Qed.
Lemma move_new_good w w' y b (vb : value V) take al a' b' s' : Inv w' -> is_value c (w_heap w) b vb ->
  w_arr w' (w_next w) = Some a' -> w_arr w' y = Some b' ->
  denotes w' (w_next w) s' (v_at vb) ->
  sig a' (fst (move_new c take al vb)) -> sig b' (snd (move_new c take al vb)) ->
  (if take then no_memory b' else b' = b /\ forall f, has (w_heap w) b f -> has (w_heap w') b (fun i => c_mv c (f i))) ->
  good w' (w_next w) (Some (fst (move_new c take al vb))) /\ good w' y (Some (snd (move_new c take al vb))).
Proof.
  intros I' Hv Ea Eb D S1 S2 H. split.
  - eapply good_some; [exact Ea|exact S1|]. rewrite move_new_at. exact D.
  - destruct take.
    + eapply good_some; [exact Eb|exact S2|]. apply (no_memory_denotes w' y b'); auto.
    + destruct H as [-> H]. eapply good_some; [exact Eb|exact S2|]. apply (moved_denotes w' y b vb); auto; [apply Hv|].
      apply H. apply is_value_has; auto.
Qed.
Lemma run_new_move_alloc w vs y b vb al : Inv w -> shows w vs -> w_arr w y = Some b -> vs_arr vs y = Some vb -> is_value c (w_heap w) b vb ->
  copyable c b -> follows (step c w (NewMoveAlloc y al)) (run_move_new c vs y (fun _ => al) (takes_over c al)).
Proof.
  intros I S Eb Ev Hv Cb. destruct (new_move_alloc_world c Hf w y b al I Eb Cb) as (w' & E & I' & U & N & M & a' & b' & Ea & Eb' & H).
  exists w'. split; auto. split; auto. pose proof (inv_lt c w y b I Eb) as Ly. assert (Ny : y <> w_next w) by lia.
  cbn [step] in E. rewrite (get_ok w y b Eb) in E. cbn [bind] in E.
  destruct (add2_eq _ _ _ _ Ny E) as (h1 & a1 & b1 & E1 & Ea1 & Eb1). rewrite Ea in Ea1. rewrite Eb' in Eb1. injection Ea1 as <-. injection Eb1 as <-.
  pose proof (is_value_sig _ _ _ Hv) as Sb.
  destruct (ctor_move_alloc_sig c (w_next w) y (w_heap w) b vb al h1 a' b' (not_eq_sym Ny) (proj1 I) (inv_valid c w y b I Eb) Sb E1) as [S1 S2].
  destruct (M _ _ (shows_denotes w vs y b vb Eb Hv)) as (s' & _ & D).
  unfold run_move_new. rewrite (on_eq vs y vb) by auto.
  assert (Ec : negb (a_busy b) && (al =? a_al b)%nat = takes_over c al vb).
  { unfold takes_over. rewrite (sig_busy c _ y (w_heap w) b vb (inv_valid c w y b I Eb) Sb). destruct Sb as [-> _]. rewrite Nat.eqb_sym. reflexivity. }
  rewrite Ec in H.
  destruct (move_new_good w w' y b vb (takes_over c al vb) al a' b' s') as [G1 G2]; auto.
  { destruct (takes_over c al vb); [apply H|exact H]. }
  destruct (move_new c (takes_over c al vb) al vb) as [na nb]. apply (finish_new2 w); auto.
Qed.
Lemma run_do_new_move w vs y b vb : Inv w -> shows w vs -> w_arr w y = Some b -> vs_arr vs y = Some vb -> is_value c (w_heap w) b vb ->
  copyable c b -> follows (do_new_move c w y) (run1 vs (Run (NewMove y))).
Proof.
  intros I S Eb Ev Hv Cb. destruct (new_move_world c Hf w y b I Eb Cb) as (w' & E & I' & U & N & M & a' & b' & Ea & Eb' & H).
  exists w'. split; auto. split; auto. pose proof (inv_lt c w y b I Eb) as Ly. assert (Ny : y <> w_next w) by lia.
  unfold do_new_move in E. rewrite (get_ok w y b Eb) in E. cbn [bind] in E.
  destruct (add2_eq _ _ _ _ Ny E) as (h1 & a1 & b1 & E1 & Ea1 & Eb1). rewrite Ea in Ea1. rewrite Eb' in Eb1. injection Ea1 as <-. injection Eb1 as <-.
  pose proof (is_value_sig _ _ _ Hv) as Sb.
  destruct (ctor_move_sig c (w_next w) y (w_heap w) b vb h1 a' b' (not_eq_sym Ny) (proj1 I) (inv_valid c w y b I Eb) Sb E1) as [S1 S2].
  destruct (M _ _ (shows_denotes w vs y b vb Eb Hv)) as (s' & _ & D).
  cbn [interp interp_op]. unfold run_move_new. rewrite (on_eq vs y vb) by auto.
  assert (Ec : negb (a_busy b) && (c_default c =? a_al b)%nat = takes_over c (c_default c) vb).
  { unfold takes_over. rewrite (sig_busy c _ y (w_heap w) b vb (inv_valid c w y b I Eb) Sb). destruct Sb as [-> _]. rewrite Nat.eqb_sym. reflexivity. }
  rewrite Ec in H. set (take := c_pocma c || takes_over c (c_default c) vb) in *. set (al := if c_pocma c then v_al vb else c_default c) in *.
  destruct (move_new_good w w' y b vb take al a' b' s') as [G1 G2]; auto.
  { destruct take; [apply H|exact H]. }
  destruct (move_new c take al vb) as [na nb]. apply (finish_new2 w); auto.
Qed.
Lemma run_make_copy w vs y b vb s al : Inv w -> shows w vs -> w_arr w y = Some b -> vs_arr vs y = Some vb -> is_value c (w_heap w) b vb ->
  shape_arg c s -> within (resolve s) (a_shape b) -> follows (step c w (MakeCopy y s al)) (new_value vs (built al s (v_at vb))).
Proof.
  intros I S Eb Ev Hv Hs Hw. destruct (make_copy_world c w y b s al I Eb Hs Hw) as (w' & E & I' & U & N & D). exists w'. split; auto. split; auto.
  cbn [step] in E. rewrite (get_ok w y b Eb) in E. cbn [bind] in E.
  destruct (add_eq _ _ _ E) as (h' & a' & E' & Ea). apply (finish_new w); auto.
  eapply good_some; [exact Ea| |exact (D _ (shows_denotes w vs y b vb Eb Hv))].
  unfold make_copy in E'. destruct (ctor_shape c (w_next w) (w_heap w) al s) as [[h1 a1]| |] eqn:Ec; try discriminate. cbn [bind] in E'.
  destruct (copy _ _ _ _); try discriminate. injection E' as _ <-. eapply ctor_shape_sig; [|exact Ec]. apply I.
Qed.
Lemma run_make_move w vs y b vb s al : Inv w -> shows w vs -> w_arr w y = Some b -> vs_arr vs y = Some vb -> is_value c (w_heap w) b vb ->
  shape_arg c s -> within (resolve s) (a_shape b) ->
  follows (step c w (MakeMove y s al)) (new_value (set_value vs y (Some (moved_from c vb s))) (built al s (v_at vb))).
Proof.
  intros I S Eb Ev Hv Hs Hw. destruct (make_move_world c w y b s al I Eb Hs Hw) as (w' & E & I' & U & N & D). exists w'. split; auto. split; auto.
  cbn [step] in E. rewrite (get_ok w y b Eb) in E. cbn [bind] in E. pose proof (inv_lt c w y b I Eb) as Ly. assert (Ny : y <> w_next w) by lia.
  assert (Ey : w_arr w' y = Some b).
  { unfold add in E. destruct (make_move _ _ _ _ _ _) as [[h1 a1]| |]; try discriminate. injection E as <-. cbn [w_arr]. rewrite put_other; auto. }
  destruct (add_eq _ _ _ E) as (h' & a' & E' & Ea).
  destruct (D _ (shows_denotes w vs y b vb Eb Hv)) as (D1 & g & D2 & D3 & D4). apply (finish_new2 w); auto.
  - eapply good_some; [exact Ea| |exact D1].
    unfold make_move in E'. destruct (ctor_shape c (w_next w) (w_heap w) al s) as [[h1 a1]| |] eqn:Ec; try discriminate. cbn [bind] in E'.
    destruct (move _ _ _ _ _); try discriminate. injection E' as _ <-. eapply ctor_shape_sig; [|exact Ec]. apply I.
  - eapply good_some; [exact Ey|apply sig_filled, (is_value_sig _ _ _ Hv)|].
    apply (denotes_ext w' y _ g); [exact D2|]. intros i Hi. cbn [moved_from filled v_at]. destruct (inside s i) eqn:Ei.
    + apply D4. apply inside_iff; auto.
    + apply D3. apply inside_not; auto.
Qed.
Lemma run_assign w vs x y a b va vb o : Inv w -> shows w vs -> w_arr w x = Some a -> vs_arr vs x = Some va -> is_value c (w_heap w) a va ->
  w_arr w y = Some b -> vs_arr vs y = Some vb -> is_value c (w_heap w) b vb -> copyable c b -> x <> y ->
  o = CopyAssign x y \/ o = AssignCopy x y \/ o = AssignMove x y ->
  follows (step c w o) (run1 vs (Run o)).
Proof.
  intros I S Ea Eva Ha Eb Evb Hb Cb N O.
  pose proof (inv_valid c w x a I Ea) as Va. pose proof (inv_valid c w y b I Eb) as Vb. pose proof (inv_apart c w x y a b I N Ea Eb) as Hap.
  pose proof (is_value_sig _ _ _ Ha) as Sa. pose proof (is_value_sig _ _ _ Hb) as Sb. pose proof (shows_denotes w vs y b vb Eb Hb) as Db.
  destruct O as [->|[->| ->]]; cbn [interp interp_op]; rewrite (on2_eq vs x y va vb) by auto; rewrite (proj2 (Nat.eqb_neq x y) N).
  - destruct (copy_assign_world c Hf w x y a b I N Ea Eb Cb) as (w' & E & I' & U & Nx & M & _). exists w'. split; auto. split; auto.
    cbn [step] in E. rewrite (get_ok w x a Ea), (get_ok w y b Eb) in E. cbn [bind] in E.
    destruct (change_eq _ _ _ _ E) as (h' & a' & E' & Ea'). apply (finish_one w); auto. destruct (M _ _ Db) as (s' & _ & D).
    eapply good_some; [exact Ea'| |rewrite copy_into_at; exact D].
    apply (copy_assign_sig c Hf x y (w_heap w) a b va vb h' a'); auto. apply I.
  - destruct (assign_copy_world c Hf w x y a b I N Ea Eb Cb) as (w' & E & I' & U & Nx & M & _). exists w'. split; auto. split; auto.
    cbn [step] in E. rewrite (get_ok w x a Ea), (get_ok w y b Eb) in E. cbn [bind] in E.
    destruct (change_eq _ _ _ _ E) as (h' & a' & E' & Ea'). apply (finish_one w); auto. destruct (M _ _ Db) as (s' & _ & D).
    eapply good_some; [exact Ea'| |rewrite replaced_at; exact D].
    apply (assign_copy_sig c Hf x y (w_heap w) a b va vb h' a'); auto. apply I.
  - destruct (assign_move_world c Hf w x y a b I N Ea Eb Cb) as (w' & E & I' & U & Nx & Eb' & M). exists w'. split; auto. split; auto.
    cbn [step] in E. rewrite (get_ok w x a Ea), (get_ok w y b Eb) in E. cbn [bind] in E.
    destruct (change_eq _ _ _ _ E) as (h' & a' & E' & Ea'). destruct (M _ _ Db) as ((s' & _ & D1) & D2). apply (finish_two w); auto.
    + eapply good_some; [exact Ea'| |rewrite replaced_at; exact D1].
      apply (assign_move_sig c Hf x y (w_heap w) a b va vb h' a'); auto. apply I.
    + eapply good_some; [exact Eb'|apply sig_filled; exact Sb|]. apply (denotes_ext w' y _ _ _ D2).
      intros i Hi. cbn [moved_from filled v_at]. rewrite (proj2 (inside_iff (v_shape vb) i)); auto. destruct Sb as (_ & _ & <-). auto.
Qed.
Lemma run_self w vs x va o : Inv w -> shows w vs -> vs_arr vs x = Some va ->
  o = CopyAssign x x \/ o = AssignCopy x x \/ o = AssignMove x x \/ o = MoveAssign x x ->
  follows (step c w o) (run1 vs (Run o)).
Proof.
  intros I S Eva O. destruct (shows_val _ _ _ _ S Eva) as (a & Ea & Ha).
  destruct (self_world c w o x a I Ea O) as (w' & E & I' & U & N & _). exists w'. split; auto. split; auto.
  replace (run1 vs (Run o)) with vs; [apply (unchanged_shows w); auto|].
  destruct O as [->|[->|[->| ->]]]; cbn [interp interp_op]; unfold run_move; rewrite (on2_eq vs x x va va), Nat.eqb_refl by auto; reflexivity.
Qed.
Lemma move_into_at (va vb : value V) : v_at (fst (move_into c va vb)) = v_at vb.
Proof. unfold move_into. destruct (negb _ && negb _); auto. destruct (_ || _); auto. apply replaced_at. Qed.
Lemma run_move_assign w vs x y a b va vb : Inv w -> shows w vs -> w_arr w x = Some a -> vs_arr vs x = Some va -> is_value c (w_heap w) a va ->
  w_arr w y = Some b -> vs_arr vs y = Some vb -> is_value c (w_heap w) b vb -> copyable c b -> x <> y ->
  follows (do_move_assign c w x y) (run_move c vs x y).
Proof.
  intros I S Ea Eva Ha Eb Evb Hb Cb N.
  pose proof (inv_valid c w x a I Ea) as Va. pose proof (inv_valid c w y b I Eb) as Vb. pose proof (inv_apart c w x y a b I N Ea Eb) as Hap.
  pose proof (is_value_sig _ _ _ Ha) as Sa. pose proof (is_value_sig _ _ _ Hb) as Sb. pose proof (shows_denotes w vs y b vb Eb Hb) as Db.
  unfold run_move. rewrite (on2_eq vs x y va vb), (proj2 (Nat.eqb_neq x y) N) by auto.
  destruct (move_assign_world c Hf w x y a b I N Ea Eb Cb) as (w' & E & I' & U & Nx & M & a' & b' & Ea' & Eb' & H). exists w'. split; auto. split; auto.
  unfold do_move_assign in E. rewrite (get_ok w x a Ea), (get_ok w y b Eb) in E. cbn [bind] in E.
  destruct (change2_eq _ _ _ _ _ (not_eq_sym N) E) as (h1 & a1 & b1 & E1 & Ea1 & Eb1). rewrite Ea' in Ea1. rewrite Eb' in Eb1.
  injection Ea1 as <-. injection Eb1 as <-. destruct (M _ _ Db) as (s' & _ & D).
  destruct (move_assign_sig c Hf x y (w_heap w) a b va vb h1 a' b') as [S1 S2]; auto; [apply I|].
  assert (G1 : good w' x (Some (fst (move_into c va vb)))).
  { eapply good_some; [exact Ea'|exact S1|]. rewrite move_into_at. exact D. }
  assert (G2 : good w' y (Some (snd (move_into c va vb)))).
  { eapply good_some; [exact Eb'|exact S2|].
    assert (Ec : c_pocma c || negb (a_busy a || a_busy b) && (a_al a =? a_al b)%nat = c_pocma c || exchange c va vb).
    { unfold exchange. rewrite (sig_busy c _ _ _ _ _ Va Sa), (sig_busy c _ _ _ _ _ Vb Sb), negb_orb. destruct Sa as [-> _], Sb as [-> _]. reflexivity. }
    rewrite Ec in H. unfold move_into in S2 |- *. destruct (negb (v_mem va) && negb (v_mem vb)) eqn:En.
    - cbn [snd] in S2 |- *. assert (Hnb : no_memory b').
      { apply andb_true_iff in En. destruct En as [En1 En2]. apply negb_true_iff in En1.
        destruct (valid_memory c y (w_heap w') b' (inv_valid c w' y b' I' Eb')) as [[Q _]|(_ & Q & _)]; auto.
        exfalso. destruct S2 as (_ & S2 & _). cbn [v_mem] in S2. apply negb_false_iff in S2. unfold is_null in S2.
        apply ptr_eqb_eq in S2. apply Q. unfold blk. rewrite S2. reflexivity. }
      apply (no_memory_denotes w' y b'); auto.
    - destruct (c_pocma c || exchange c va vb) eqn:Et; cbn [snd] in S2 |- *.
      + destruct H as (Hh & _ & _ & Hs' & Hb'). apply has_denotes with (a := b'); auto.
        intros i. rewrite Hs', Hb', Hh. apply is_value_has; auto.
      + assert (Hcase : (b' = b /\ forall f, has (w_heap w) b f -> has (w_heap w') b (fun i => c_mv c (f i))) \/ no_memory b').
        { destruct H as [H|[_ H]]; auto. }
        destruct Hcase as [[-> Hm]|Hn]; [|apply (no_memory_denotes w' y b'); auto].
        apply (moved_denotes w' y b vb); auto; [apply Hb|]. apply Hm. apply is_value_has; auto. }
  destruct (move_into c va vb) as [na nb]. apply (finish_two w); auto.
Qed.
Lemma run_assign_value w vs x a va s v : Inv w -> shows w vs -> w_arr w x = Some a -> vs_arr vs x = Some va -> is_value c (w_heap w) a va ->
  shape_arg c s -> follows (step c w (AssignValue x s v)) (set_value vs x (Some (revalued va s v))).
Proof.
  intros I S Ea Eva Ha Hs. destruct (assign_value_world c w x a s v I Ea Hs) as (w' & E & I' & U & N & D & _). exists w'. split; auto. split; auto.
  cbn [step] in E. rewrite (get_ok w x a Ea) in E. cbn [bind] in E. destruct (change_eq _ _ _ _ E) as (h' & a' & E' & Ea'). apply (finish_one w); auto.
  eapply good_some; [exact Ea'| |unfold revalued; destruct (shape_dec _ _); exact D].
  apply (assign_value_sig c Hf x (w_heap w) a va s _ v h' a' (proj1 I) (inv_valid c w x a I Ea) Hs (is_value_sig _ _ _ Ha) E').
Qed.
Lemma run_clear w vs x a va : Inv w -> shows w vs -> w_arr w x = Some a -> vs_arr vs x = Some va -> is_value c (w_heap w) a va ->
  follows (step c w (Clear x)) (set_value vs x (Some (built (v_al va) (c_shape0 c) (fun _ => c_dv c)))).
Proof.
  intros I S Ea Eva Ha. destruct (clear_world c Hf w x a I Ea) as (w' & E & I' & U & N & a' & Ea' & _ & Es). exists w'. split; auto. split; auto.
  cbn [step] in E. rewrite (get_ok w x a Ea) in E. cbn [bind] in E. destruct (change_eq _ _ _ _ E) as (h' & a1 & E' & Ea1). apply (finish_one w); auto.
  rewrite Ea' in Ea1. injection Ea1 as <-. eapply good_some; [exact Ea'| |].
  - unfold clear in E'. pose proof (refit_sig c Hf x (w_heap w) a (c_shape0 c)) as R.
    destruct (deallocate c x (w_heap w) a) as [[h1 a1]| |]; try discriminate. cbn [bind] in E', R.
    destruct (allocate c x h1 (with_shape a1 (c_shape0 c))) as [[h2 a2]| |]; try discriminate. cbn [bind] in E'.
    destruct (construct_default c h2 a2); try discriminate. injection E' as _ <-.
    apply (R h2 a2 va _ (proj1 I) (inv_valid c w x a I Ea) (is_value_sig _ _ _ Ha) eq_refl).
  - apply has_denotes with (a := a'); [exact Ea'|]. intros i Hi. exfalso. rewrite Es in Hi. destruct Hf as (_ & _ & Hn & _).
    apply (Hn i). apply resolve_in_bounds; auto.
Qed.
Lemma run_delete w vs x a : Inv w -> shows w vs -> w_arr w x = Some a -> follows (do_delete c w x) (set_value vs x None).
Proof.
  intros I S Ea. destruct (delete_world c Hf w x a I Ea) as (w' & E & I' & U & N & En). exists w'. split; auto. split; auto.
  apply (finish_one w); auto. unfold good. rewrite En. exact Logic.I.
Qed.
Lemma same_index_iff i j : same_index i j = true <-> i = j.
Proof. unfold same_index. destruct (list_eq_dec Z.eq_dec i j); split; congruence. Qed.
Lemma run_write w vs x a va i v : Inv w -> shows w vs -> w_arr w x = Some a -> vs_arr vs x = Some va -> is_value c (w_heap w) a va ->
  in_bounds (a_shape a) i ->
  follows (step c w (Write x i v)) (set_value vs x (Some (filled va (fun j => if same_index j i then v else v_at va j)))).
Proof.
  intros I S Ea Eva Ha Hi. destruct (write_world c w x a i v I Ea Hi) as (w' & E & I' & U & N & Ew & D). exists w'. split; auto. split; auto.
  apply (finish_one w); auto. destruct (D _ (shows_denotes w vs x a va Ea Ha)) as (g & Dg & G1 & G2).
  assert (Ea' : w_arr w' x = Some a) by congruence.
  eapply good_some; [exact Ea'|apply sig_filled, (is_value_sig _ _ _ Ha)|]. apply (denotes_ext w' x _ g); [exact Dg|].
  intros j _. cbn [filled v_at]. destruct (same_index j i) eqn:Ej.
  - apply same_index_iff in Ej. congruence.
  - apply G2. intros ->. rewrite (proj2 (same_index_iff i i) eq_refl) in Ej. discriminate.
Qed.

(** ** Statements that call others *)

Lemma value_copyable w b (vb : value V) : is_value c (w_heap w) b vb -> c_ndebug c = true \/ known_strides (v_shape vb) -> copyable c b.
Proof. intros (_ & _ & _ & <- & _) H. exact H. Qed.
Lemma run_move_ok w vs x y va vb : Inv w -> shows w vs -> vs_arr vs x = Some va -> vs_arr vs y = Some vb ->
  (x <> y -> c_ndebug c = true \/ known_strides (v_shape vb)) -> follows (do_move_assign c w x y) (run_move c vs x y).
Proof.
  intros I S Ea Eb C. destruct (Nat.eq_dec x y) as [<-|N].
  - rewrite Ea in Eb. injection Eb as <-. apply (run_self w vs x va (MoveAssign x x)); auto.
  - destruct (shows_val _ _ _ _ S Ea) as (a & Ea' & Ha). destruct (shows_val _ _ _ _ S Eb) as (b & Eb' & Hb).
    apply (run_move_assign w vs x y a b va vb); auto. apply (value_copyable w b vb); auto.
Qed.
Lemma get_set_same vs x o : vs_arr (set_value vs x o) x = o.
Proof. cbn [set_value vs_arr]. rewrite Nat.eqb_refl. reflexivity. Qed.
Lemma get_set_other vs x o z : z <> x -> vs_arr (set_value vs x o) z = vs_arr vs z.
Proof. intros N. cbn [set_value vs_arr]. rewrite (proj2 (Nat.eqb_neq z x) N). reflexivity. Qed.
Lemma get_new_same vs a : vs_arr (new_value vs a) (vs_next vs) = Some a.
Proof. cbn [new_value vs_arr]. rewrite Nat.eqb_refl. reflexivity. Qed.
Lemma get_new_other vs a z : z <> vs_next vs -> vs_arr (new_value vs a) z = vs_arr vs z.
Proof. intros N. cbn [new_value vs_arr]. rewrite (proj2 (Nat.eqb_neq z _) N). reflexivity. Qed.
Lemma move_into_form (va va' vb vb' : value V) : v_al va = v_al va' -> v_mem va = v_mem va' -> v_shape va = v_shape va' ->
  v_al vb = v_al vb' -> v_mem vb = v_mem vb' -> v_shape vb = v_shape vb' -> (forall i, in_bounds (v_shape vb) i -> v_at vb i = v_at vb' i) ->
  same_value (fst (move_into c va vb)) (fst (move_into c va' vb')).
Proof.
  destruct va as [a1 a2 a3 a4], va' as [a1' a2' a3' a4'], vb as [b1 b2 b3 b4], vb' as [b1' b2' b3' b4'].
  cbn [v_al v_mem v_shape v_at]. intros <- <- <- <- <- <- H. unfold move_into, exchange, v_inline, replaced, filled, built.
  cbn [v_al v_mem v_shape v_at].
  destruct (negb a2 && negb b2); cbn [fst]; [unfold same_value; cbn; auto|].
  destruct (c_pocma c || _); cbn [fst]; [unfold same_value; cbn; auto|].
  destruct (a2 && _) eqn:Ed; unfold same_value; cbn [v_al v_mem v_shape v_at]; (split; [auto|split; [auto|split; [auto|]]]).
  - apply andb_true_iff in Ed. destruct Ed as [_ Ed]. destruct (shape_dec a3 b3); [|discriminate]. subst. auto.
  - intros i Hi. apply H. apply resolve_in_bounds. auto.
Qed.
Lemma run_reshape w vs x a va s : Inv w -> shows w vs -> w_arr w x = Some a -> vs_arr vs x = Some va -> is_value c (w_heap w) a va ->
  shape_arg c s -> Forall2 meets s (a_shape a) -> follows (do_reshape c w x s) (run1 vs (Run (Reshape x s))).
Proof.
  intros I S Ea Eva Ha Hs Hm. cbn [interp interp_op]. rewrite (on_eq vs x va) by auto.
  unfold do_reshape. rewrite (get_ok w x a Ea). cbn [bind]. pose proof (is_value_sig _ _ _ Ha) as Sa.
  pose proof Sa as (_ & _ & Esa). rewrite <- Esa, (shape_dec_eqb (a_shape a)).
  destruct (shape_dec (a_shape a) (resolve s)) as [Eq|Eq].
  - exists w. auto.
  - set (n := w_next w). pose proof (inv_lt c w x a I Ea) as Lx. fold n in Lx.
    assert (Nn : vs_next vs = n) by (symmetry; apply shows_next; auto).
    assert (Hrr : resolve (resolve s) = resolve s) by (apply proper_resolve2; apply Hs).
    assert (Hs2 : shape_arg c (resolve s)) by (apply shape_arg_resolve; auto).
    destruct (run_new w vs (resolve s) (c_default c) I S Hs2) as (w1 & E1 & I1 & S1).
    assert (Exa : w_arr w1 x = Some a).
    { unfold do_new, add in E1. destruct (ctor_shape _ _ _ _ _) as [[h1 a1]| |]; try discriminate. injection E1 as <-. cbn [w_arr].
      rewrite put_other; auto. fold n. lia. }
    rewrite E1. cbn [bind].
    set (vn := built (c_default c) (resolve s) (fun _ => c_dv c)) in *. set (vs1 := new_value vs vn) in *.
    assert (Evn : vs_arr vs1 n = Some vn) by (unfold vs1; rewrite <- Nn; apply get_new_same).
    assert (Ev1 : vs_arr vs1 x = Some va) by (unfold vs1; rewrite get_new_other by lia; auto).
    destruct (shows_val _ _ _ _ S1 Evn) as (b & Eb & Hb). destruct (shows_val _ _ _ _ S1 Ev1) as (a1 & Ea1 & Ha1).
    rewrite Exa in Ea1. injection Ea1 as <-. rewrite (get_ok w1 n b Eb). cbn [bind].
    pose proof (is_value_sig _ _ _ Hb) as Sb. assert (Esb : a_shape b = resolve s) by (destruct Sb as (_ & _ & ->); cbn; auto).
    assert (Nxn : x <> n) by lia.
    pose proof (inv_apart c w1 x n a b I1 Nxn Exa Eb) as Hap.
    assert (Hm' : Forall2 meets (a_shape b) (a_shape a)) by (rewrite Esb; apply meets_resolve; auto).
    destruct (move_common_spec c x n (w_heap w1) a b (v_at va) (v_at vn) (proj1 I1) (inv_valid c w1 x a I1 Exa) (inv_valid c w1 n b I1 Eb)
      (is_value_has _ _ _ Ha1) (is_value_has _ _ _ Hb) Hap Hm') as (h2 & g & E2 & V1 & V2 & Hg & G1 & G2 & L2).
    rewrite <- Esb, E2. cbn [bind].
    destruct (inv_two c w1 x n a b h2) as [I2 U2]; auto.
    set (w2 := mkW h2 (w_arr w1) (w_next w1)) in *.
    destruct (inv_denotes c w2 x a I2 Exa) as (f2 & D2).
    set (va2 := filled va f2). set (vn2 := filled vn g).
    assert (S2 : shows w2 (set_value (set_value vs1 n (Some vn2)) x (Some va2))).
    { apply (finish_two w1); auto.
      - eapply good_some; [exact Exa|apply sig_filled; exact Sa|exact D2].
      - eapply good_some; [exact Eb|apply sig_filled; exact Sb|]. apply has_denotes with (a := b); auto. }
    set (vs2 := set_value (set_value vs1 n (Some vn2)) x (Some va2)) in *.
    assert (F1 : vs_arr vs2 x = Some va2) by apply get_set_same.
    assert (F2 : vs_arr vs2 n = Some vn2) by (unfold vs2; rewrite get_set_other, get_set_same by lia; auto).
    destruct (run_move_ok w2 vs2 x n va2 vn2 I2 S2 F1 F2) as (w3 & E3 & I3 & S3).
    { intros _. right. cbn. rewrite Hrr. apply Hs. }
    rewrite E3. cbn [bind].
    unfold run_move in S3. rewrite (on2_eq vs2 x n va2 vn2), (proj2 (Nat.eqb_neq x n) Nxn) in S3 by auto.
    pose proof (move_into_form va2 va vn2 (built (c_default c) s (fun i => if inside (a_shape a) i then v_at va i else c_dv c))) as Sm.
    destruct (move_into c va2 vn2) as [ra rb] eqn:Emi. cbn [fst] in Sm.
    assert (F3 : exists b3, w_arr w3 n = Some b3).
    { destruct (shows_val _ _ n rb S3) as (b3 & E & _); [rewrite get_set_other, get_set_same by lia; auto|eauto]. }
    destruct F3 as (b3 & Eb3). destruct (run_delete w3 _ n b3 I3 S3 Eb3) as (w4 & E4 & I4 & S4).
    exists w4. split; auto. split; auto. eapply shows_ext; [exact S4| |].
    + cbn. reflexivity.
    + intros z. cbn [skip_name vs_arr]. destruct (Nat.eq_dec z n) as [->|Nz].
      * rewrite get_set_same, get_set_other by lia. rewrite (shows_none w vs n); auto. apply (fresh c w I).
      * rewrite (get_set_other _ n) by auto. destruct (Nat.eq_dec z x) as [->|Nx].
        -- rewrite !get_set_same. apply Sm; auto.
           ++ cbn. rewrite Hrr. reflexivity.
           ++ intros i Hi. cbn [vn2 filled v_at v_shape] in Hi |- *. cbn [vn built v_shape] in Hi. rewrite Hrr in Hi. cbn [built v_at].
              destruct (inside (a_shape a) i) eqn:Ei.
              ** apply G1; [apply inside_iff; auto|rewrite Esb; auto].
              ** rewrite G2 by (apply inside_not; auto). reflexivity.
        -- rewrite !(get_set_other _ x) by auto. rewrite (get_set_other _ n) by auto. unfold vs2. rewrite get_set_other, get_set_other by auto.
           unfold vs1. rewrite get_new_other by congruence. destruct (vs_arr vs z); auto. apply same_value_refl.
Qed.
Lemma run_swap w vs x y va vb : Inv w -> shows w vs -> vs_arr vs x = Some va -> vs_arr vs y = Some vb ->
  c_ndebug c = true \/ known_strides (v_shape va) -> c_ndebug c = true \/ known_strides (v_shape vb) ->
  follows (do_swap c w x y) (run1 vs (Run (Swap x y))).
Proof.
  intros I S Eva Evb Ca Cb. destruct (shows_val _ _ _ _ S Eva) as (a & Ea & Ha). destruct (shows_val _ _ _ _ S Evb) as (b & Eb & Hb).
  cbn [interp interp_op]. destruct (c_pocs c) eqn:Ep.
  - rewrite (on2_eq vs x y va vb) by auto.
    destruct (swap_world c Hf w x y a b I Ea Eb (value_copyable w a va Ha Ca) (value_copyable w b vb Hb Cb)) as (w' & E & I' & U & _ & _ & M1 & M2).
    exists w'. split; auto. split; auto.
    destruct (M1 _ _ (shows_denotes w vs x a va Ea Ha)) as (s1 & _ & D1). destruct (M2 _ _ (shows_denotes w vs y b vb Eb Hb)) as (s2 & _ & D2).
    unfold do_swap in E. rewrite Ep, (get_ok w x a Ea), (get_ok w y b Eb) in E. cbn [bind swap_allocators swap_except_allocator change2] in E.
    injection E as E. pose proof (is_value_sig _ _ _ Ha) as Sa. pose proof (is_value_sig _ _ _ Hb) as Sb.
    assert (Nx : w_next w' = w_next w) by (rewrite <- E; reflexivity).
    assert (Gx : good w' x (Some vb)).
    { eapply good_some; [rewrite <- E; cbn [w_arr]; apply put_same| |exact D2]. exact Sb. }
    destruct (Nat.eq_dec x y) as [<-|N].
    + rewrite Eva in Evb. injection Evb as <-. eapply finish; eauto.
      * cbn [set_value vs_next]. rewrite Nx. apply shows_next; auto.
      * intros z Hz. rewrite !get_set_other; auto; intros ->; apply Hz; cbn; auto.
      * intros z [<-|[<-|[]]]; rewrite get_set_same; auto.
    + apply (finish_two w); auto. eapply good_some; [rewrite <- E; cbn [w_arr]; rewrite put_other by auto; apply put_same| |exact D1]. exact Sa.
  - unfold do_swap. rewrite Ep. set (n := w_next w). pose proof (inv_lt c w x a I Ea) as Lx. pose proof (inv_lt c w y b I Eb) as Ly. fold n in Lx, Ly.
    assert (Nn : vs_next vs = n) by (symmetry; apply shows_next; auto).
    rewrite (on2_eq vs x y va vb) by auto.
    destruct (run_do_new_move w vs y b vb I S Eb Evb Hb (value_copyable w b vb Hb Cb)) as (w1 & -> & I1 & S1). cbn [bind].
    cbn [interp interp_op] in S1. unfold run_move_new in S1. rewrite (on_eq vs y vb) in S1 by auto.
    assert (K : forall take al, c_ndebug c = true \/ known_strides (v_shape (fst (move_new c take al vb)))).
    { intros take al. destruct Cb as [Cb|Cb]; auto. right. unfold move_new. destruct take; cbn; auto.
      rewrite resolve_known by exact Cb. exact Cb. }
    specialize (K (c_pocma c || takes_over c (c_default c) vb) (if c_pocma c then v_al vb else c_default c)).
    destruct (move_new _ _ _ _) as [na nb]. cbn [fst] in K.
    set (vs1 := new_value (set_value vs y (Some nb)) na) in *.
    assert (F1 : vs_arr vs1 n = Some na) by (unfold vs1; rewrite <- Nn; apply (get_new_same (set_value vs y (Some nb)))).
    assert (F2 : vs_arr vs1 y = Some nb) by (unfold vs1; rewrite get_new_other by (cbn; lia); apply get_set_same).
    assert (F0 : vs_arr vs n = None) by (apply (shows_none w); auto; apply (fresh c w I)).
    destruct (Nat.eqb_spec x y) as [<-|N].
    + destruct (run_move_ok w1 vs1 x x nb nb I1 S1 F2 F2) as (w2 & -> & I2 & S2). { congruence. }
      cbn [bind]. unfold run_move in S2. rewrite (on2_eq vs1 x x nb nb), Nat.eqb_refl in S2 by auto.
      destruct (run_move_ok w2 vs1 x n nb na I2 S2 F2 F1) as (w3 & -> & I3 & S3); auto.
      cbn [bind]. unfold run_move in S3. rewrite (on2_eq vs1 x n nb na), (proj2 (Nat.eqb_neq x n)) in S3 by (auto; lia).
      destruct (move_into c nb na) as [ra rb].
      assert (F3 : exists b3, w_arr w3 n = Some b3).
      { destruct (shows_val _ _ n rb S3) as (b3 & E & _); [rewrite get_set_other, get_set_same by lia; auto|eauto]. }
      destruct F3 as (b3 & Eb3). destruct (run_delete w3 _ n b3 I3 S3 Eb3) as (w4 & E4 & I4 & S4).
      exists w4. split; auto. split; auto. eapply shows_ext; [exact S4|reflexivity|].
      intros z. cbn [skip_name vs_arr fst]. destruct (Nat.eq_dec z n) as [->|Nz].
      * rewrite get_set_same, get_set_other by lia. rewrite F0. exact Logic.I.
      * rewrite (get_set_other _ n) by auto. destruct (Nat.eq_dec z x) as [->|Nx].
        -- rewrite !get_set_same. apply same_value_refl.
        -- rewrite !(get_set_other _ x) by auto. rewrite (get_set_other _ n) by auto. unfold vs1. rewrite get_new_other by (cbn; congruence).
           rewrite get_set_other by auto. destruct (vs_arr vs z); auto. apply same_value_refl.
    + assert (P1 : vs_arr vs1 x = Some va) by (unfold vs1; rewrite get_new_other by (cbn; lia); rewrite get_set_other; auto).
      destruct (run_move_ok w1 vs1 y x nb va I1 S1 F2 P1) as (w2 & -> & I2 & S2); auto.
      cbn [bind]. unfold run_move in S2. rewrite (on2_eq vs1 y x nb va), (proj2 (Nat.eqb_neq y x)) in S2 by auto.
      destruct (move_into c nb va) as [b2 a1]. set (vs2 := set_value (set_value vs1 x (Some a1)) y (Some b2)) in *.
      assert (F4 : vs_arr vs2 n = Some na) by (unfold vs2; rewrite !get_set_other by lia; auto).
      assert (F5 : vs_arr vs2 x = Some a1) by (unfold vs2; rewrite get_set_other, get_set_same by auto; auto).
      destruct (run_move_ok w2 vs2 x n a1 na I2 S2 F5 F4) as (w3 & -> & I3 & S3); auto.
      cbn [bind]. unfold run_move in S3. rewrite (on2_eq vs2 x n a1 na), (proj2 (Nat.eqb_neq x n)) in S3 by (auto; lia).
      destruct (move_into c a1 na) as [ra rb].
      assert (F3 : exists b3, w_arr w3 n = Some b3).
      { destruct (shows_val _ _ n rb S3) as (b3 & E & _); [rewrite get_set_other, get_set_same by lia; auto|eauto]. }
      destruct F3 as (b3 & Eb3). destruct (run_delete w3 _ n b3 I3 S3 Eb3) as (w4 & E4 & I4 & S4).
      exists w4. split; auto. split; auto. eapply shows_ext; [exact S4|reflexivity|].
      intros z. cbn [skip_name vs_arr fst]. destruct (Nat.eq_dec z n) as [->|Nz].
      * rewrite get_set_same, !get_set_other by lia. rewrite F0. exact Logic.I.
      * rewrite (get_set_other _ n) by auto. destruct (Nat.eq_dec z x) as [->|Nx].
        -- rewrite !get_set_same. apply same_value_refl.
        -- rewrite !(get_set_other _ x) by auto. rewrite (get_set_other _ n) by auto. unfold vs2. destruct (Nat.eq_dec z y) as [->|Ny].
           ++ rewrite !get_set_same. apply same_value_refl.
           ++ rewrite !(get_set_other _ y), get_set_other by auto. unfold vs1. rewrite get_new_other by (cbn; congruence).
              rewrite get_set_other by auto. destruct (vs_arr vs z); auto. apply same_value_refl.
Qed.

(** ** Algorithms *)

Lemma with_arrays w w' x a v f : w_arr w' = w_arr w -> w_arr w x = Some a -> is_value c (w_heap w) a v -> denotes w' x (a_shape a) f ->
  good w' x (Some (filled v f)).
Proof. intros E Ea Ha D. eapply good_some; [rewrite E; exact Ea|apply sig_filled, (is_value_sig _ _ _ Ha)|exact D]. Qed.
Lemma astep_next w o w' : match o with Run _ | MoveAll _ _ => False | _ => True end -> astep c w o = Ok w' -> w_next w' = w_next w.
Proof.
  intros H E. destruct o; cbn [astep] in E; try contradiction; cbn [change] in E; unfold change in E;
    repeat match type of E with bind ?m _ = _ => destruct m; cbn [bind] in E; try discriminate
                              | (let (_, _) := ?m in _) = _ => destruct m end;
    injection E as <-; reflexivity.
Qed.
Lemma generate_order nd h dst (g : nat -> V) : extents_ge 0 (r_shape dst) -> injective_layout (r_shape dst) ->
  (forall i, in_bounds (r_shape dst) i -> alive h (elem (r_base dst) (r_shape dst) i)) ->
  exists h' n, generate nd h dst g = Ok (h', n) /\
    (forall i, in_bounds (r_shape dst) i -> holds h' (elem (r_base dst) (r_shape dst) i) (g (visits (r_shape dst) i))).
Proof.
  intros Hs Hi Ha. destruct (generate_spec nd h dst g Hs Hi Ha) as (h' & l0 & E0 & _). exists h', (length l0). split; auto.
  intros i Ii. assert (Hn : is_null (r_base dst) = false).
  { destruct (alive_base h _ _ _ Hs Ha) as [?|Hno]; auto. exfalso. apply (Hno i); auto. }
  unfold generate in E0. destruct (TraverseFacts.for_each_value_visits (r_shape dst) (snd (r_base dst)) Hs) as (l & Hl & El).
  assert (Ev : values nd (r_shape dst) (r_base dst) = Ok (map (elem (r_base dst) (r_shape dst)) l)).
  { unfold values, values_in_order. rewrite Hn. unfold for_each_value in El. rewrite El, map_map. f_equal. apply map_ext. intros j.
    unfold to_ptr, elem. simpl. rewrite flat_offset_spec. auto. }
  rewrite Ev in E0. cbn [bind] in E0. unfold assign_each in E0. rewrite assign_each_fold in E0.
  set (ps := map (elem (r_base dst) (r_shape dst)) l) in *.
  assert (Hfst : map fst (combine ps (seq 0 (length ps))) = ps) by (apply TraverseFacts.combine_fst; rewrite seq_length; auto).
  assert (Hnd : NoDup (map fst (combine ps (seq 0 (length ps))))) by (rewrite Hfst; apply NoDup_map_elem; auto).
  assert (Hal : forall x, In x (combine ps (seq 0 (length ps))) -> alive h (fst x)).
  { intros x Hx. apply (in_map fst) in Hx. rewrite Hfst in Hx. apply in_map_iff in Hx.
    destruct Hx as [j [E Hx]]. rewrite <- E. apply Ha. apply Hl; auto. }
  rewrite (fold_store_list fst (fun x => g (snd x))) in E0 by auto. cbn [bind] in E0. injection E0 as <- _.
  assert (Hil : In i l) by (apply Hl; auto). destruct (In_nth_error l i Hil) as [k Hk].
  assert (Hvk : visits (r_shape dst) i = k).
  { apply (visits_place (r_shape dst) (snd (r_base dst)) l k i); auto. rewrite El. apply map_ext. intros j. rewrite flat_offset_spec. reflexivity. }
  rewrite Hvk. assert (Hk' : nth_error ps k = Some (elem (r_base dst) (r_shape dst) i)) by (unfold ps; erewrite map_nth_error; eauto).
  apply nth_error_combine_seq in Hk'.
  apply (upds_list_spec fst (fun x => g (snd x)) _ h _ Hnd Hk' (Hal _ Hk')).
Qed.

Lemma shaped_val w vs x (P : list dim -> Prop) : shows w vs -> shaped vs x P ->
  exists a v, w_arr w x = Some a /\ vs_arr vs x = Some v /\ is_value c (w_heap w) a v /\ P (a_shape a).
Proof.
  intros S (v & Ev & H). destruct (shows_val _ _ _ _ S Ev) as (a & Ea & Ha). exists a, v. split; auto. split; auto. split; auto.
  destruct Ha as (_ & _ & _ & -> & _). auto.
Qed.
Lemma present_val w vs x : shows w vs -> present vs x ->
  exists a v, w_arr w x = Some a /\ vs_arr vs x = Some v /\ is_value c (w_heap w) a v.
Proof. intros S (v & Ev). destruct (shows_val _ _ _ _ S Ev) as (a & Ea & Ha). eauto. Qed.
Lemma copiable_val w vs x : shows w vs -> copiable c vs x ->
  exists a v, w_arr w x = Some a /\ vs_arr vs x = Some v /\ is_value c (w_heap w) a v /\ copyable c a /\ (c_ndebug c = true \/ known_strides (v_shape v)).
Proof.
  intros S (v & Ev & H). destruct (shows_val _ _ _ _ S Ev) as (a & Ea & Ha). exists a, v. split; auto. split; auto. split; auto.
  split; auto. apply (value_copyable w a v); auto.
Qed.

Lemma step_op w vs o : Inv w -> shows w vs -> allowed_op c vs o -> follows (step c w o) (run1 vs (Run o)).
Proof.
  intros I S L. destruct o; cbn [allowed_op] in L; cbn [step].
  - apply run_new; auto.
  - apply run_new_value; auto.
  - destruct (copiable_val _ _ _ S L) as (b & vb & Eb & Ev & Hb & Cb & _). cbn [interp interp_op]. rewrite (on_eq vs y vb) by auto.
    apply (run_new_copy w vs y b vb); auto.
  - destruct (copiable_val _ _ _ S L) as (b & vb & Eb & Ev & Hb & Cb & _). cbn [interp interp_op]. rewrite (on_eq vs y vb) by auto.
    apply (run_new_copy_alloc w vs y b vb); auto.
  - destruct (copiable_val _ _ _ S L) as (b & vb & Eb & Ev & Hb & Cb & _). apply (run_do_new_move w vs y b vb); auto.
  - destruct (copiable_val _ _ _ S L) as (b & vb & Eb & Ev & Hb & Cb & _). apply (run_new_move_alloc w vs y b vb); auto.
  - destruct L as [Hs L]. destruct (shaped_val _ _ _ _ S L) as (b & vb & Eb & Ev & Hb & Hw). cbn [interp interp_op]. rewrite (on_eq vs y vb) by auto.
    apply (run_make_copy w vs y b vb); auto.
  - destruct L as [Hs L]. destruct (shaped_val _ _ _ _ S L) as (b & vb & Eb & Ev & Hb & Hw). cbn [interp interp_op]. rewrite (on_eq vs y vb) by auto.
    apply (run_make_move w vs y b vb); auto.
  - destruct L as [L1 L2]. destruct (present_val _ _ _ S L1) as (a & va & Ea & Eva & Ha). destruct (copiable_val _ _ _ S L2) as (b & vb & Eb & Evb & Hb & Cb & _).
    destruct (Nat.eq_dec x y) as [<-|N]; [apply (run_self w vs x va (CopyAssign x x)); auto|].
    apply (run_assign w vs x y a b va vb (CopyAssign x y)); auto.
  - destruct L as [L1 L2]. destruct (present_val _ _ _ S L1) as (a & va & Ea & Eva & Ha). destruct (copiable_val _ _ _ S L2) as (b & vb & Eb & Evb & Hb & Cb & K).
    apply (run_move_ok w vs x y va vb); auto.
  - destruct L as [L1 L2]. destruct (present_val _ _ _ S L1) as (a & va & Ea & Eva & Ha). destruct (copiable_val _ _ _ S L2) as (b & vb & Eb & Evb & Hb & Cb & _).
    destruct (Nat.eq_dec x y) as [<-|N]; [apply (run_self w vs x va (AssignCopy x x)); auto|].
    apply (run_assign w vs x y a b va vb (AssignCopy x y)); auto.
  - destruct L as [L1 L2]. destruct (present_val _ _ _ S L1) as (a & va & Ea & Eva & Ha). destruct (copiable_val _ _ _ S L2) as (b & vb & Eb & Evb & Hb & Cb & _).
    destruct (Nat.eq_dec x y) as [<-|N]; [apply (run_self w vs x va (AssignMove x x)); auto|].
    apply (run_assign w vs x y a b va vb (AssignMove x y)); auto.
  - destruct L as [L Hs]. destruct (present_val _ _ _ S L) as (a & va & Ea & Eva & Ha). cbn [interp interp_op]. rewrite (on_eq vs x va) by auto.
    apply (run_assign_value w vs x a va); auto.
  - destruct (present_val _ _ _ S L) as (a & va & Ea & Eva & Ha). cbn [interp interp_op]. rewrite (on_eq vs x va) by auto.
    apply (run_clear w vs x a va); auto.
  - destruct L as [Hs L]. destruct (shaped_val _ _ _ _ S L) as (a & va & Ea & Eva & Ha & Hm). apply (run_reshape w vs x a va); auto.
  - destruct L as [(va & Ea & Ca) (vb & Eb & Cb)]. apply (run_swap w vs x y va vb); auto.
  - destruct (shaped_val _ _ _ _ S L) as (a & va & Ea & Eva & Ha & Hi). cbn [interp interp_op]. rewrite (on_eq vs x va) by auto.
    apply (run_write w vs x a va); auto.
  - destruct (present_val _ _ _ S L) as (a & va & Ea & Eva & Ha). apply (run_delete w vs x a); auto.
Qed.
Lemma step_act w vs o : Inv w -> shows w vs -> allowed c vs o -> follows (astep c w o) (run1 vs o).
Proof.
  intros I S L. destruct o; cbn [allowed] in L.
  - apply step_op; auto.
  - destruct (present_val _ _ _ S L) as (a & va & Ea & Eva & Ha). cbn [interp]. rewrite (on_eq vs x va) by auto.
    destruct (fill_world c w x a v I Ea) as (w' & E & I' & U & Ew & D). exists w'. split; auto. split; auto.
    apply (finish_one w); auto; [apply (astep_next w (Fill x v)); cbn; auto|]. apply (with_arrays w w' x a va); auto.
  - destruct L as [L1 L2]. destruct (present_val _ _ _ S L1) as (a & va & Ea & Eva & Ha). destruct (shaped_val _ _ _ _ S L2) as (b & vb & Eb & Evb & Hb & Hi).
    cbn [interp]. rewrite (on2_eq vs x y va vb) by auto.
    destruct (fill_elem_world c w x a y b i _ I Ea Eb Hi (shows_denotes w vs y b vb Eb Hb)) as (w' & E & I' & U & Ew & D). exists w'. split; auto. split; auto.
    apply (finish_one w); auto; [apply (astep_next w (FillElem x y i)); cbn; auto|]. apply (with_arrays w w' x a va); auto.
  - destruct L as (va & Eva & vb & Evb & Hw). destruct (shows_val _ _ _ _ S Eva) as (a & Ea & Ha). destruct (shows_val _ _ _ _ S Evb) as (b & Eb & Hb).
    cbn [interp]. rewrite (on2_eq vs x y va vb) by auto.
    assert (Hw' : within (a_shape a) (a_shape b)) by (destruct Ha as (_ & _ & _ & -> & _), Hb as (_ & _ & _ & -> & _); auto).
    destruct (Nat.eq_dec x y) as [<-|N].
    + rewrite Eva in Evb. injection Evb as <-. destruct (self_copy_world c w x a I Ea) as (w' & E & I' & U & Ew). exists w'. split; auto. split; auto.
      apply (finish_one w); auto; [apply (unchanged_weaken _ _ []); [intros z []|auto]|apply (astep_next w (CopyTo x x)); cbn; auto|].
      apply (with_arrays w w' x a va); auto. apply U; [intros []|]. apply (shows_denotes w vs x a va); auto.
    + destruct (copy_world c w x a y b I N Ea Eb Hw') as (w' & E & I' & U & Ew & D). exists w'. split; auto. split; auto.
      apply (finish_one w); auto; [apply (astep_next w (CopyTo y x)); cbn; auto|]. apply (with_arrays w w' x a va); auto.
      apply D. apply (shows_denotes w vs y b vb); auto.
  - destruct L as (N & va & Eva & vb & Evb & Hw). destruct (shows_val _ _ _ _ S Eva) as (a & Ea & Ha). destruct (shows_val _ _ _ _ S Evb) as (b & Eb & Hb).
    cbn [interp]. rewrite (on2_eq vs x y va vb) by auto.
    assert (Hw' : within (a_shape a) (a_shape b)) by (destruct Ha as (_ & _ & _ & -> & _), Hb as (_ & _ & _ & -> & _); auto).
    destruct (move_world c w x a y b I (not_eq_sym N) Ea Eb Hw') as (w' & E & I' & U & Ew & D). exists w'. split; auto. split; auto.
    destruct (D _ (shows_denotes w vs y b vb Eb Hb)) as (D1 & g & D2 & G1 & G2).
    apply (finish_two w); auto; [apply (astep_next w (MoveTo y x)); cbn; auto| |].
    + apply (with_arrays w w' x a va); auto.
    + apply (with_arrays w w' y b vb); auto. apply (denotes_ext w' y _ g); [exact D2|]. intros i _.
      assert (Es : a_shape a = v_shape va) by apply Ha. rewrite <- Es. destruct (inside (a_shape a) i) eqn:Ei.
      * apply G2. apply inside_iff; auto.
      * apply G1. apply inside_not; auto.
  - destruct L as [L1 L2]. destruct (present_val _ _ _ S L1) as (a & va & Ea & Eva & Ha). destruct (copiable_val _ _ _ S L2) as (b & vb & Eb & Evb & Hb & Cb & K).
    cbn [astep step interp]. apply (run_move_ok w vs x y va vb); auto.
  - destruct (present_val _ _ _ S L) as (a & va & Ea & Eva & Ha). cbn [interp]. rewrite (on_eq vs x va) by auto.
    destruct (generate_world c w x a g I Ea) as (w' & l & f & E & I' & U & Ew & _ & _). exists w'. split; auto. split; auto.
    apply (finish_one w); auto; [apply (astep_next w (Generate x g)); cbn; auto|]. apply (with_arrays w w' x a va); auto.
    destruct (generate_order (c_ndebug c) (w_heap w) (aref_of a) g) as (h' & n & E' & D).
    { apply (inv_extents c w x a); auto. }
    { apply (inv_injective c w x a); auto. }
    { intros i Hi. apply (inv_alive c w x a); auto. }
    cbn [astep] in E. rewrite (get_ok w x a Ea) in E. cbn [bind] in E. rewrite E' in E. cbn [bind fst] in E. injection E as <-.
    assert (Es : a_shape a = v_shape va) by apply Ha. rewrite <- Es. apply has_denotes with (a := a); auto.
  - destruct (present_val _ _ _ S L) as (a & va & Ea & Eva & Ha). cbn [interp]. rewrite (on_eq vs x va) by auto.
    destruct (transform_world c w x a fn I Ea) as (w' & E & I' & U & Ew & D). exists w'. split; auto. split; auto.
    apply (finish_one w); auto; [apply (astep_next w (Transform x fn)); cbn; auto|]. apply (with_arrays w w' x a va); auto.
  - destruct L as (L1 & Hs & N & L2). destruct (present_val _ _ _ S L1) as (a & va & Ea & Eva & Ha). destruct (shaped_val _ _ _ _ S L2) as (b & vb & Eb & Evb & Hb & Hi).
    cbn [interp]. rewrite (on2_eq vs x y va vb) by auto.
    destruct (assign_elem_world c w x a s y b i _ I (not_eq_sym N) Ea Eb Hs Hi (shows_denotes w vs y b vb Eb Hb)) as (w' & E & I' & U & D).
    exists w'. split; auto. split; auto. apply (finish_one w); auto; [apply (astep_next w (AssignElem x s y i)); cbn; auto|].
    cbn [astep] in E. rewrite (get_ok w x a Ea), (get_ok w y b Eb) in E. cbn [bind] in E. destruct (change_eq _ _ _ _ E) as (h' & a' & E' & Ea').
    eapply good_some; [exact Ea'| |unfold revalued; destruct (shape_dec _ _); exact D].
    apply (assign_value_sig c Hf x (w_heap w) a va s _ (v_at vb i) h' a' (proj1 I) (inv_valid c w x a I Ea) Hs (is_value_sig _ _ _ Ha) E').
Qed.

(** ** Legal programs *)

Lemma present_iff w vs x : shows w vs -> present vs x <-> exists_arr w x.
Proof.
  intros S. split; intros [v E].
  - destruct (shows_val _ _ _ _ S E) as (a & Ea & _). exists a; auto.
  - destruct (shows_some _ _ _ _ S E) as (a & Ea & _). exists a; auto.
Qed.
Lemma shaped_iff w vs x (P : list dim -> Prop) : shows w vs -> shaped vs x P <-> exists a, w_arr w x = Some a /\ P (a_shape a).
Proof.
  intros S. split; intros (v & E & H).
  - destruct (shows_val _ _ _ _ S E) as (a & Ea & Ha). exists a. split; auto. destruct Ha as (_ & _ & _ & -> & _). auto.
  - destruct (shows_some _ _ _ _ S E) as (a & Ea & Ha). exists a. split; auto. destruct Ha as (_ & _ & _ & <- & _). auto.
Qed.
Lemma copiable_iff w vs x : shows w vs -> copiable c vs x <-> may_copy c w x.
Proof. intros S. apply (shaped_iff w vs x (fun s => c_ndebug c = true \/ known_strides s) S). Qed.
Lemma pair_iff w vs x y : shows w vs -> shaped vs x (fun s => shaped vs y (fun t => within s t)) <->
  exists a b, w_arr w x = Some a /\ w_arr w y = Some b /\ within (a_shape a) (a_shape b).
Proof.
  intros S. rewrite (shaped_iff w vs x _ S). split.
  - intros (a & Ea & H). apply (shaped_iff w vs y _ S) in H. destruct H as (b & Eb & H). eauto.
  - intros (a & b & Ea & Eb & H). exists a. split; auto. apply (shaped_iff w vs y _ S). eauto.
Qed.
Lemma allowed_op_iff w vs o : shows w vs -> allowed_op c vs o <-> legal_op c w o.
Proof.
  intros S. destruct o; cbn [allowed_op legal_op]; rewrite ?(present_iff w vs _ S), ?(copiable_iff w vs _ S), ?(shaped_iff w vs _ _ S); reflexivity.
Qed.
Lemma allowed_iff w vs o : shows w vs -> allowed c vs o <-> legal_act c w o.
Proof.
  intros S. destruct o; cbn [allowed legal_act]; try apply (allowed_op_iff w vs _ S);
    rewrite ?(pair_iff w vs _ _ S); rewrite ?(present_iff w vs _ S), ?(copiable_iff w vs _ S), ?(shaped_iff w vs _ _ S); reflexivity.
Qed.
Lemma all_allowed_iff ops : forall w vs, Inv w -> shows w vs -> all_allowed c visits vs ops <-> alegal c w ops.
Proof.
  induction ops as [|o r IH]; intros w vs I S; cbn [all_allowed alegal]; [tauto|]. rewrite (allowed_iff w vs o S). split; intros [L H]; split; auto.
  - intros w' E. destruct (step_act w vs o I S (proj2 (allowed_iff w vs o S) L)) as (w1 & E1 & I1 & S1). rewrite E in E1. injection E1 as <-.
    apply (IH w' (run1 vs o)); auto.
  - destruct (step_act w vs o I S (proj2 (allowed_iff w vs o S) L)) as (w1 & E1 & I1 & S1). apply (IH w1); auto.
Qed.
Lemma run_interps ops : forall w vs, Inv w -> shows w vs -> all_allowed c visits vs ops ->
  exists w', arun c ops w = Ok w' /\ Inv w' /\ shows w' (interps c visits ops vs).
Proof.
  induction ops as [|o r IH]; intros w vs I S L.
  - exists w. auto.
  - destruct L as [L R]. destruct (step_act w vs o I S L) as (w1 & E1 & I1 & S1). unfold arun. cbn [foldM]. rewrite E1. cbn [bind].
    apply (IH w1 (run1 vs o)); auto.
Qed.
Lemma shows_empty : shows empty_world no_values.
Proof. split; [reflexivity|]. intros x. exact Logic.I. Qed.
End Interp.
