(** What the counts come to: the balance over a program, and statements that cost nothing. *)
From Coq Require Import ZArith List Bool Lia Arith.
From Verif Require Import Base Interval Shape Traverse Memory Ref Container Program Count.
From Verif Require Import Spec SpecMem SpecContainer SpecProgram SpecViews SpecCount.
From Verif Require Import Tac ShapeFacts ResolveFacts MemFacts RefFacts SliceFacts ContainerFacts ContainerWorld ProgramFacts
  ContainerProps CountFacts CountWorld.
Import ListNotations.
Open Scope Z_scope.

Section Props.
Context {V : Type}.
Variable c : config V.
Implicit Types (h : heap V) (w : world V).

Lemma erase ops w : match n_run c ops w with Ok (w', _) => Ok w' | AssertFail => AssertFail | UB => UB end = arun c ops w.
Proof. rewrite <- strip_run. unfold strip. destruct (n_run c ops w) as [[w' t]| |]; reflexivity. Qed.

Lemma shared_count s t : Forall2 meets s t -> has_count (fun i => in_bounds s i /\ in_bounds t i) (shared s t).
Proof.
  intros H. assert (Hl : length s = length t) by (induction H; cbn [length]; congruence).
  apply (count_iff (in_bounds (clamp_dims s t))).
  - intros i. apply clamp_in_bounds; auto.
  - rewrite <- shared_clamp by auto. apply elements_count. apply clamp_extents; auto.
Qed.

(** ** The balance *)

Lemma empty_counts : counts (w_heap (V := V) empty_world) 0 0.
Proof.
  split; [apply (inv_empty c)|]. split; exists []; (split; [|reflexivity]); (split; [constructor|]); cbn [In].
  - intros [k z]. split; [intros []|]. intros [v H]. unfold holds, peek in H. cbn in H. destruct k; discriminate.
  - intros k. split; [intros []|]. intros [b [a [H _]]]. cbn in H. discriminate.
Qed.
Lemma run_balance ops w t : n_run c ops empty_world = Ok (w, t) ->
  has_count (alive (w_heap w)) (objects_made t) /\ has_count (base_block (w_heap w)) (blocks_made t).
Proof.
  intros E. pose proof (growing_run c ops empty_world) as G. unfold growing in G. rewrite E in G.
  destruct (G w t eq_refl 0 0 empty_counts) as [_ [H1 H2]]. split; auto.
Qed.
Lemma step_balance w o w' t : heap_ok (w_heap w) -> n_astep c w o = Ok (w', t) -> forall n k,
  has_count (alive (w_heap w)) n -> has_count (base_block (w_heap w)) k ->
  has_count (alive (w_heap w')) (n + objects_made t) /\ has_count (base_block (w_heap w')) (k + blocks_made t).
Proof.
  intros Hh E n k Hn Hk. pose proof (growing_astep c w o) as G. unfold growing in G. rewrite E in G.
  destruct (G w' t eq_refl n k) as [_ [H1 H2]]; [split; auto|]. split; auto.
Qed.
Lemma count_image {A B} (P : A -> Prop) (Q : B -> Prop) (f : A -> B) l n : enumerates P l ->
  (forall a b, P a -> P b -> f a = f b -> a = b) -> (forall b, Q b <-> exists a, P a /\ b = f a) ->
  has_count Q n -> has_count P n.
Proof.
  intros [N E] Hi Hq [m [Em Lm]]. exists l. split; [split; auto|]. rewrite <- Lm. f_equal.
  rewrite <- (map_length f l). apply (enumerates_length Q); auto. split.
  - clear Em. assert (Hi' : forall a b, In a l -> In b l -> f a = f b -> a = b) by (intros a b Ha Hb; apply Hi; apply E; auto).
    clear E Hq. induction l as [|a l IH]; [constructor|]. inversion N as [|? ? N1 N2]; subst. cbn [map]. constructor.
    + intros I. apply in_map_iff in I. destruct I as [b [Eb Ib]]. apply N1. rewrite (Hi' a b); auto; [left; auto|right; auto].
    + apply IH; auto. intros x y Hx Hy. apply Hi'; right; auto.
  - intros b. rewrite Hq, in_map_iff. split; intros [a [H1 H2]]; exists a; [rewrite <- E, H1|rewrite E, H2]; auto.
Qed.
Definition place w (xi : nat * list Z) : ptr :=
  match w_arr w (fst xi) with Some a => elem (a_base a) (a_shape a) (snd xi) | None => null end.
Definition listed w : list (nat * list Z) :=
  flat_map (fun x => match w_arr w x with Some a => map (pair x) (box (a_shape a)) | None => [] end) (seq 0 (w_next w)).
Lemma NoDup_app {A} (l m : list A) : NoDup l -> NoDup m -> (forall a, In a l -> ~ In a m) -> NoDup (l ++ m).
Proof.
  induction l as [|a l IH]; intros Hl Hm Hd; [exact Hm|]. inversion Hl as [|? ? N1 N2]; subst. cbn [app]. constructor.
  - rewrite in_app_iff. intros [I|I]; [auto|]. apply (Hd a); [left|]; auto.
  - apply IH; auto. intros b Hb. apply Hd. right; auto.
Qed.
Lemma listed_all w : Inv c w -> enumerates (element w) (listed w).
Proof.
  intros Hw. split.
  - unfold listed. generalize (seq 0 (w_next w)) (seq_NoDup (w_next w) 0). intros l. induction l as [|x l IH]; intros N; [constructor|].
    inversion N as [|? ? N1 N2]; subst. cbn [flat_map]. apply NoDup_app; auto.
    + destruct (w_arr w x) as [a|]; [|constructor]. apply FinFun.Injective_map_NoDup; [intros i j E; congruence|apply box_enumerates].
    + intros [y i] H1 H2. assert (y = x).
      { destruct (w_arr w x) as [a|]; [|destruct H1]. apply in_map_iff in H1. destruct H1 as [j [E _]]. congruence. }
      subst y. apply in_flat_map in H2. destruct H2 as [z [Hz Hi]].
      assert (x = z).
      { destruct (w_arr w z) as [a|]; [|destruct Hi]. apply in_map_iff in Hi. destruct Hi as [j [E _]]. congruence. }
      subst z. auto.
  - intros [x i]. unfold listed, element. cbn [fst snd]. rewrite in_flat_map. split.
    + intros [y [_ H]]. destruct (w_arr w y) as [a|] eqn:Ea; [|destruct H]. apply in_map_iff in H.
      destruct H as [j [E Hj]]. injection E as -> ->. exists a. split; auto. apply box_enumerates. auto.
    + intros [a [Ea Hi]]. exists x. split; [apply in_seq; pose proof (inv_lt c w x a Hw Ea); lia|]. rewrite Ea.
      apply in_map. apply box_enumerates. auto.
Qed.
Lemma objects_elements w n : Inv c w -> has_count (alive (w_heap w)) n -> has_count (element w) n.
Proof.
  intros Hw. destruct (live_objects c (Inv c) (fun w H => H) w Hw) as [Hl Hu].
  apply (count_image (element w) (alive (w_heap w)) (place w) (listed w)).
  - apply listed_all; auto.
  - intros [x i] [y j] [a [Ea Hi]] [b [Eb Hj]]. unfold place. cbn [fst snd] in *. rewrite Ea, Eb. intros E.
    assert (x = y).
    { apply (Hu x y (elem (a_base a) (a_shape a) i)); [exists a|exists b]; (split; [auto|]); [exists i|exists j]; auto. }
    subst y. rewrite Ea in Eb. injection Eb as <-. f_equal. apply (inv_injective c w x a Hw Ea); auto.
    apply (elem_inj (a_base a)); auto.
  - intros p. rewrite Hl. split.
    + intros [x [a [Ea [i [Hi E]]]]]. exists (x, i). split; [exists a; auto|]. unfold place. cbn [fst snd]. rewrite Ea. auto.
    + intros [[x i] [[a [Ea Hi]] E]]. unfold place in E. cbn [fst snd] in *. rewrite Ea in E. exists x, a. split; auto. exists i. auto.
Qed.
Definition place_block w (x : nat) : nat := match w_arr w x with Some a => blk a | None => 0%nat end.
Lemma holds_block_iff w x : Inv c w -> holds_block w x <->
  exists a b, w_arr w x = Some a /\ blk a <> 0%nat /\ h_blk (w_heap w) (blk a) = Some b /\ b_owner b = Base (a_al a).
Proof.
  intros Hw. unfold holds_block, held_by, blocks. destruct (w_arr w x) as [a|] eqn:Ea; cbn [hd_mem hd_inline].
  2: { split; [discriminate|]. intros [a [b [E _]]]. discriminate. }
  destruct (inv_valid c w x a Hw Ea) as [_ [[Hm _]|[_ [k [b [Hb [(Hk & Eb & _ & _ & _ & _ & Ho & _) _]]]]]]].
  - pose proof (no_memory_blk a Hm) as Hz. destruct Hm as [Hm _]. rewrite Hm. cbn [is_null]. split; [intros; discriminate|].
    intros [a' [b [E [Hn _]]]]. injection E as <-. contradiction.
  - unfold blk. rewrite Eb. cbn [fst]. replace (is_null (k, 0)) with false by (symmetry; apply is_null_block; auto). cbn [negb andb].
    destruct (a_busy a) eqn:Ez; cbn [negb]; split; try discriminate; intros H.
    + destruct H as [a' [b' [E [_ [Hb' Ho']]]]]. injection E as <-. rewrite Eb in Hb'. cbn [fst] in Hb'. congruence.
    + exists a, b. rewrite Eb. cbn [fst]. auto.
    + reflexivity.
Qed.
Lemma blocks_arrays w n : Inv c w -> has_count (base_block (w_heap w)) n -> has_count (holds_block w) n.
Proof.
  intros Hw.
  apply (count_image (holds_block w) (base_block (w_heap w)) (place_block w)
           (filter (fun x => blocks (held_by w x) =? 1) (seq 0 (w_next w)))).
  - split; [apply NoDup_filter, seq_NoDup|]. intros x. rewrite filter_In, Z.eqb_eq. unfold holds_block. split; [tauto|].
    intros H. split; auto. apply (holds_block_iff w x Hw) in H. destruct H as [a [b [Ea _]]].
    apply in_seq. pose proof (inv_lt c w x a Hw Ea). lia.
  - intros x y Hx Hy. apply (holds_block_iff w _ Hw) in Hx, Hy. destruct Hx as [a [b [Ea [Na _]]]], Hy as [a' [b' [Ea' [Na' _]]]].
    unfold place_block. rewrite Ea, Ea'. intros E. destruct (Nat.eq_dec x y) as [|N]; auto. exfalso.
    apply Na. apply (inv_apart c w x y a a' Hw N Ea Ea'). auto.
  - intros k. split.
    + intros [b [al [Hb Ho]]]. destruct Hw as (H1 & H2 & H3 & H4).
      destruct (H4 k) as [x [a [Ea Ek]]]; [congruence|]. exists x. unfold place_block. rewrite Ea. split; auto.
      assert (Hw : Inv c w) by exact (conj H1 (conj H2 (conj H3 H4))). apply (holds_block_iff w x Hw). exists a, b. subst k.
      assert (Hk : blk a <> 0%nat).
      { intros E. rewrite E in Hb. destruct H1 as [_ [H0 _]]. congruence. }
      split; auto. split; auto. split; auto.
      destruct (inv_valid c w x a Hw Ea) as [_ [[Hm _]|[_ [k [b' [Hb' [(Hk' & Eb & _ & _ & _ & _ & Ho' & _) _]]]]]]].
      * elim Hk. apply no_memory_blk; auto.
      * unfold blk in Hb. rewrite Eb in Hb. cbn [fst] in Hb. rewrite Hb' in Hb. injection Hb as ->. rewrite Ho in Ho' |- *.
        destruct (a_busy a); congruence.
    + intros [x [Hx ->]]. apply (holds_block_iff w x Hw) in Hx. destruct Hx as [a [b [Ea [Na [Hb Ho]]]]].
      unfold place_block. rewrite Ea. exists b, (a_al a). auto.
Qed.
Lemma program_balance (Hf : fair c) ops : alegal c empty_world ops -> exists w,
  arun c ops empty_world = Ok w /\ n_run c ops empty_world = Ok (w, work_run c empty_world ops) /\
  has_count (element w) (objects_made (work_run c empty_world ops)) /\
  has_count (holds_block w) (blocks_made (work_run c empty_world ops)).
Proof.
  intros L. destruct (run_work c Hf ops empty_world (inv_empty c) L) as [w [E N]]. exists w. split; auto. split; auto.
  assert (Hw : Inv c w) by (destruct (arun_ok c Hf ops empty_world (inv_empty c) L) as [w' [E' I]]; congruence).
  destruct (run_balance ops w _ N) as [H1 H2]. split; [apply objects_elements|apply blocks_arrays]; auto.
Qed.
Lemma count_none {A} (P : A -> Prop) n : (forall a, ~ P a) -> has_count P n -> n = 0.
Proof.
  intros H [l [[_ E] <-]]. destruct l as [|a l]; auto. exfalso. apply (H a). apply E. left; auto.
Qed.
Lemma program_clean (Hf : fair c) ops w : alegal c empty_world ops -> arun c ops empty_world = Ok w -> (forall x, w_arr w x = None) ->
  objects_made (work_run c empty_world ops) = 0 /\ blocks_made (work_run c empty_world ops) = 0.
Proof.
  intros L E H. destruct (program_balance Hf ops L) as [w' [E' [_ [H1 H2]]]]. rewrite E in E'. injection E' as <-. split.
  - apply (count_none (element w)); auto. intros [x i] [a [Ea _]]. cbn [fst] in Ea. rewrite H in Ea. discriminate.
  - apply (count_none (holds_block w)); auto. intros x. unfold holds_block, held_by. rewrite H. discriminate.
Qed.

(** ** Statements that do little *)

Lemma no_copies_plus t u : no_copies t -> no_copies u -> no_copies (plus t u).
Proof. intros [H1 H2] [H3 H4]. unfold no_copies, plus. cbn [n_copy n_copy_assign]. lia. Qed.
Lemma no_copies_times n t : no_copies t -> no_copies (times n t).
Proof. intros [H1 H2]. unfold no_copies, times. cbn [n_copy n_copy_assign]. rewrite H1, H2. lia. Qed.
Lemma no_copies_nothing : no_copies nothing.
Proof. split; reflexivity. Qed.
Ltac nocopy := repeat first
  [ apply no_copies_nothing | apply no_copies_plus | apply no_copies_times | (split; reflexivity)
  | match goal with |- no_copies (if ?b then _ else _) => destruct b end
  | progress unfold making, unmaking, redoing, replacing ].
Lemma moving_op w o : moving (Run o) -> no_copies (work_op c w o).
Proof. destruct o; cbn [moving work_op]; intros []; nocopy. Qed.
Lemma moving_ops ops : Forall (fun o => moving (Run o)) ops -> forall w, no_copies (work_ops c w ops).
Proof.
  induction 1 as [|o ops Ho _ IH]; intros w; cbn [work_ops]; [nocopy|]. apply no_copies_plus; [apply moving_op; auto|].
  destruct (step c w o); auto; nocopy.
Qed.
Lemma moving_work w o : moving o -> no_copies (work c w o).
Proof.
  destruct o as [o| | | | | | | |]; cbn [moving]; try (intros []; fail); intros H.
  - destruct o; cbn [work]; try (apply moving_op; auto; fail). destruct (c_pocs c); [nocopy|].
    apply moving_ops. unfold swap_ops. repeat constructor.
  - cbn [work]. nocopy.
  - cbn [work]. apply moving_op. exact I.
  - cbn [work]. nocopy.
  - cbn [work]. nocopy.
Qed.
Lemma moving_prop (Hf : fair c) w o : areachable c w -> legal_act c w o -> moving o ->
  exists w' t, n_astep c w o = Ok (w', t) /\ no_copies t.
Proof.
  intros R L M. destruct (step_work c Hf w o (areachable_inv c Hf w R) L) as [w' [_ E]].
  exists w', (work c w o). split; auto. apply moving_work; auto.
Qed.
Lemma in_place_prop (Hf : fair c) w o : areachable c w -> legal_act c w o -> in_place o ->
  exists w' t, n_astep c w o = Ok (w', t) /\ only_assigns t.
Proof.
  intros R L M. destruct (step_work c Hf w o (areachable_inv c Hf w R) L) as [w' [_ E]].
  exists w', (work c w o). split; auto.
  assert (G : forall n t, only_assigns t -> only_assigns (times n t)).
  { intros n t (H1 & H2 & H3 & H4 & H5 & H6). unfold only_assigns, times. cbn [n_default n_copy n_move n_destroy n_alloc n_free].
    rewrite H1, H2, H3, H4, H5, H6. lia. }
  assert (G1 : only_assigns one_copy_assign) by (repeat split).
  assert (G2 : only_assigns one_move_assign) by (repeat split).
  destruct o as [o| | | | | | | |]; cbn [in_place] in M; try (destruct M; fail); cbn [work]; auto.
  destruct o; try (destruct M; fail). cbn [work_op]. auto.
Qed.
Lemma work_prop (Hf : fair c) w o : areachable c w -> legal_act c w o ->
  exists w', astep c w o = Ok w' /\ n_astep c w o = Ok (w', work c w o).
Proof. intros R. apply step_work; auto. apply areachable_inv; auto. Qed.
Lemma free_prop (Hf : fair c) w o : areachable c w -> legal_act c w o -> work c w o = nothing ->
  exists w', n_astep c w o = Ok (w', nothing).
Proof. intros R L E. destruct (work_prop Hf w o R L) as [w' [_ N]]. exists w'. rewrite N, E. reflexivity. Qed.
(** A move takes over the memory if the allocator moves along or both arrays' allocators are the same *)
Lemma move_assign_free (Hf : fair c) w x y : areachable c w -> legal_act c w (Run (MoveAssign x y)) ->
  c_pocma c = true \/ same_allocator w x y = true -> exists w', n_astep c w (Run (MoveAssign x y)) = Ok (w', nothing).
Proof.
  intros R L H. apply free_prop; auto. cbn [work work_op]. destruct H as [-> | ->]; rewrite ?orb_true_r; reflexivity.
Qed.
Lemma new_move_free (Hf : fair c) w y : areachable c w -> legal_act c w (Run (NewMove y)) ->
  c_pocma c = true \/ could_take w y (c_default c) = true -> exists w', n_astep c w (Run (NewMove y)) = Ok (w', nothing).
Proof.
  intros R L H. apply free_prop; auto. cbn [work work_op]. destruct H as [-> | ->]; rewrite ?orb_true_r; reflexivity.
Qed.
Lemma pocs_swap_free (Hf : fair c) w x y : areachable c w -> legal_act c w (Run (Swap x y)) -> c_pocs c = true ->
  exists w', n_astep c w (Run (Swap x y)) = Ok (w', nothing).
Proof. intros R L H. apply free_prop; auto. cbn [work]. rewrite H. reflexivity. Qed.
Lemma bare_unmaking x h a : valid c x h a -> is_null (a_base a) = true -> unmaking (hold a) = nothing.
Proof. intros Ha Hn. apply (unmaking_none c _ _ _ _ Ha). rewrite (memory_hold c _ _ _ _ Ha), Hn. reflexivity. Qed.
(** Arrays whose memory a default constructed one can take over *)
Definition light (d : arr) : Prop := a_busy d = false /\ (c_pocma c = true \/ a_al d = c_default c).
Lemma light_new_move w y b w1 t b1 : (w_next w <> y)%nat -> w_arr w y = Some b -> light b -> do_new_move c w y = Ok w1 ->
  w_arr w1 (w_next w) = Some t -> w_arr w1 y = Some b1 -> light t /\ light b1.
Proof.
  intros N Eb [Hb Hl] E Et Eb1. unfold do_new_move in E. rewrite (get_ok w y b Eb) in E. cbn [bind] in E. unfold ctor_move in E. cbv zeta in E.
  assert (Hc : c_pocma c || alloc_eq (w_next w) (blank (if c_pocma c then a_al b else c_default c) (c_shape0 c)) y b = true).
  { destruct (c_pocma c) eqn:Ep; [reflexivity|]. destruct Hl as [Hl|Hl]; [discriminate|]. cbn [orb]. unfold alloc_eq, blank.
    cbn [a_busy a_al orb]. rewrite Hb, Hl. apply Nat.eqb_refl. }
  rewrite Hc in E. unfold swap_except_allocator, add2 in E. cbn [bind] in E. injection E as <-. cbn [w_arr] in Et, Eb1.
  rewrite put_same in Et. rewrite put_other, put_same in Eb1 by auto. injection Et as <-. injection Eb1 as <-.
  unfold light, blank. cbn [a_busy a_al]. split; split; auto. destruct (c_pocma c); auto.
Qed.
Lemma light_move_assign w x y a b w1 a1 b1 : x <> y -> w_arr w x = Some a -> w_arr w y = Some b -> light a -> light b ->
  do_move_assign c w x y = Ok w1 -> w_arr w1 x = Some a1 -> w_arr w1 y = Some b1 -> light a1 /\ light b1.
Proof.
  intros N Ea Eb [Ha Hla] [Hb Hlb] E Ea1 Eb1. unfold do_move_assign in E. rewrite (get_ok w x a Ea), (get_ok w y b Eb) in E. cbn [bind] in E.
  assert (G : forall h a' b', change2 w x y (Ok (h, a', b')) = Ok w1 -> a1 = a' /\ b1 = b').
  { intros h a' b' F. unfold change2 in F. cbn [bind] in F. injection F as <-. cbn [w_arr] in Ea1, Eb1.
    rewrite put_same in Ea1. rewrite put_other, put_same in Eb1 by auto. split; congruence. }
  unfold move_assign_op in E. destruct (ptr_eqb _ _).
  - destruct (negb _).
    + destruct (assert_ _ _) in E; try discriminate. cbn [bind] in E. destruct (G _ _ _ E) as [-> ->]. split; split; auto.
    + cbv zeta in E. destruct (assert_ _ _) in E; try discriminate. cbn [bind] in E. destruct (G _ _ _ E) as [-> ->]. split; split; auto.
  - destruct (c_pocma c) eqn:Ep.
    + unfold swap_allocators, swap_except_allocator in E. destruct (G _ _ _ E) as [-> ->]. unfold light, set_al. cbn [a_busy a_al]. auto.
    + destruct Hla as [|Hla]; [discriminate|]. destruct Hlb as [|Hlb]; [discriminate|].
      unfold alloc_eq in E. rewrite Ha, Hb, Hla, Hlb, Nat.eqb_refl in E. cbn [orb] in E.
      unfold swap_except_allocator in E. destruct (G _ _ _ E) as [-> ->]. unfold light. cbn [a_busy a_al]. auto.
Qed.
Lemma light_same w x y a b : w_arr w x = Some a -> w_arr w y = Some b -> light a -> light b ->
  c_pocma c || same_allocator w x y = true /\ c_pocma c || negb (a_busy a || a_busy b) && (a_al a =? a_al b)%nat = true.
Proof.
  intros Ea Eb [Ha Hla] [Hb Hlb]. unfold same_allocator, is_inline, allocator_of. rewrite Ea, Eb, Ha, Hb. cbn [negb orb andb].
  destruct (c_pocma c); auto. destruct Hla as [|Hla]; [discriminate|]. destruct Hlb as [|Hlb]; [discriminate|].
  rewrite Hla, Hlb, Nat.eqb_refl. auto.
Qed.
Lemma light_take (Hf : fair c) w x a : Inv c w -> w_arr w x = Some a -> c_pocma c = true \/ could_take w x (c_default c) = true -> light a.
Proof.
  intros Hw Ea H. unfold could_take, is_inline, allocator_of in H. rewrite Ea in H. destruct (c_pocma c) eqn:Ep.
  - split; [|rewrite Ep; auto]. apply (not_busy c x (w_heap w)); [apply inv_valid; auto|].
    destruct Hf as (_ & _ & _ & [?|(_ & Q & _)]); [auto|congruence].
  - destruct H as [|H]; [discriminate|]. apply andb_true_iff in H. destruct H as [H1 H2]. apply negb_true_iff in H1.
    apply Nat.eqb_eq in H2. split; auto.
Qed.
(** The general swap takes over memory three times *)
Lemma swap_free (Hf : fair c) w x y : areachable c w -> legal_act c w (Run (Swap x y)) -> x <> y ->
  c_pocma c = true \/ could_take w x (c_default c) = true /\ could_take w y (c_default c) = true ->
  exists w', n_astep c w (Run (Swap x y)) = Ok (w', nothing).
Proof.
  intros R L N H. apply free_prop; auto. cbn [work]. destruct (c_pocs c) eqn:Ep; [reflexivity|].
  cbn [legal_act legal_op] in L. destruct L as [[a [Ea Ca]] [b [Eb Cb]]]. pose proof (areachable_inv c Hf w R) as Hw.
  set (n := w_next w). pose proof (inv_lt c w x a Hw Ea) as Lx. pose proof (inv_lt c w y b Hw Eb) as Ly. fold n in Lx, Ly.
  assert (La : light a) by (apply (light_take Hf w x); auto; tauto).
  assert (Lb : light b) by (apply (light_take Hf w y); auto; tauto).
  destruct (new_move_world c Hf w y b Hw Eb Cb) as [w1 [E1 [I1 [U1 [N1 [M1 [t [b1 [Et [Eb1 H1]]]]]]]]]].
  fold n in U1, N1, Et, M1. destruct (light_new_move w y b w1 t b1) as [Lt Lb1]; auto; [unfold n in *; lia|].
  assert (Hc1 : c_pocma c || could_take w y (c_default c) = true).
  { unfold could_take, is_inline, allocator_of. rewrite Eb. destruct Lb as [Q1 Q2]. rewrite Q1. destruct (c_pocma c); auto.
    destruct Q2 as [|Q2]; [discriminate|]. rewrite Q2. apply Nat.eqb_refl. }
  assert (Hc1' : c_pocma c || negb (a_busy b) && (c_default c =? a_al b)%nat = true).
  { destruct Lb as [Q1 Q2]. rewrite Q1. destruct (c_pocma c); auto. destruct Q2 as [|Q2]; [discriminate|]. rewrite Q2. apply Nat.eqb_refl. }
  rewrite Hc1' in H1. destruct H1 as [_ [Hm1 [Hs1 [Hst Hbt]]]].
  destruct (inv_denotes c w y b Hw Eb) as [fb Db].
  assert (Ct : copyable c t) by (destruct Cb as [Cb|Cb]; [left; auto|right; rewrite Hst; auto]).
  destruct (U1 x) as [X1 _]; [simpl; intuition lia|]. rewrite Ea in X1.
  destruct (light_same w1 y x b1 a Eb1 X1 Lb1 La) as [Hc2 Hc2'].
  assert (Nyx : y <> x) by auto.
  destruct (move_assign_world c Hf w1 y x b1 a I1 Nyx Eb1 X1 Ca) as [w2 [E2 [I2 [U2 [N2 [_ [b2 [a2 [Eb2 [Ea2 H2]]]]]]]]]].
  rewrite Hc2' in H2. destruct H2 as [_ [_ [_ [Hs2 Hb2]]]].
  destruct (light_move_assign w1 y x b1 a w2 b2 a2) as [Lb2 La2]; auto.
  destruct (U2 n) as [T1 _]; [simpl; intuition lia|]. rewrite Et in T1.
  destruct (light_same w2 x n a2 t Ea2 T1 La2 Lt) as [Hc3 Hc3'].
  assert (Nxn : x <> n) by lia.
  destruct (move_assign_world c Hf w2 x n a2 t I2 Nxn Ea2 T1 Ct) as [w3 [E3 [I3 [U3 [N3 [_ [a3 [t3 [Ea3 [Et3 H3]]]]]]]]]].
  rewrite Hc3' in H3. destruct H3 as [_ [_ [_ [Hs3 Hb3]]]].
  unfold swap_ops. fold n. cbn [work_ops work_op step]. rewrite E1, E2, E3, Hc1.
  rewrite <- !orb_assoc, Hc2, Hc3, !orb_true_r.
  rewrite (held_hold w3 n t3 Et3), (bare_unmaking n (w_heap w3) t3).
  - destruct (do_delete c w3 n); reflexivity.
  - apply inv_valid; auto.
  - rewrite Hb3, Hb2. apply no_memory_null; auto.
Qed.
End Props.
