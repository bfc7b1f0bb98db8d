(** Proofs that programs with array_refs compute what the interpreter computes. *)
From Coq Require Import ZArith List Bool Lia Arith Sorted.
From Verif Require TraverseFacts OrderFacts.
From Verif Require Import Base Interval Shape Traverse Memory Ref Container Program Views.
From Verif Require Import Spec SpecMem SpecContainer SpecProgram SpecViews SpecInterp SpecOrder SpecRelate SpecInterpViews.
From Verif Require Import Tac ShapeFacts ResolveFacts MemFacts RefFacts SliceFacts ContainerFacts ContainerWorld ProgramFacts ViewsFacts ViewsWorld
  InterpForms InterpFacts RelateFacts.
Import ListNotations.
Open Scope Z_scope.

(** ** The order of copies *)

Definition index_at (t : list dim) (z : Z) : list Z := match find (fun i => offset t i =? z) (box t) with Some i => i | None => [] end.
Definition orders (s t : list dim) : list (list Z) := map (fun l => index_at t (nth 1 l 0)) (for_each_value_copy s 0 t 0).
Lemma index_at_offset t i : injective_layout t -> in_bounds t i -> index_at t (offset t i) = i.
Proof.
  intros J Hi. unfold index_at. destruct (find _ _) as [j|] eqn:E.
  - apply find_some in E. destruct E as [I E]. apply Z.eqb_eq in E. apply box_In in I. apply J; auto.
  - pose proof (find_none _ _ E i (proj2 (box_In t i) Hi)) as N. cbn beta in N. rewrite Z.eqb_refl in N. discriminate.
Qed.
Lemma shifted2 s t a b : length s = length t -> extents_ge 0 t ->
  for_each_value_copy s a t b = map (fun l => [a + nth 0 l 0; b + nth 1 l 0]) (for_each_value_copy s 0 t 0).
Proof.
  intros L He. rewrite !OrderFacts.copy_order_list by auto. cbv zeta. rewrite map_map. apply map_ext. intros i. cbn [nth]. repeat f_equal.
Qed.
Lemma orders_list s t a b l : length s = length t -> extents_ge 0 t -> injective_layout t -> enumerates (in_bounds t) l ->
  for_each_value_copy s a t b = map (fun i => [a + offset s i; b + offset t i]) l -> orders s t = l.
Proof.
  intros L He J [_ En] E. rewrite shifted2 in E by auto. unfold orders.
  apply (f_equal (map (fun l => index_at t (nth 1 l 0 - b)))) in E. rewrite !map_map in E. cbn [nth] in E.
  transitivity (map (fun x : list Z => index_at t (b + nth 1 x 0 - b)) (for_each_value_copy s 0 t 0)).
  { apply map_ext. intros x. f_equal. lia. }
  rewrite E. assert (H : forall x, In x l -> in_bounds t x) by (intros x; apply En). clear E En.
  induction l as [|i l IH]; [reflexivity|]. cbn [map]. f_equal; [|apply IH; intros x Ix; apply H; right; auto].
  replace (b + offset t i - b) with (offset t i) by lia. apply index_at_offset; auto. apply H. left; auto.
Qed.
Lemma orders_spec s t : length s = length t -> extents_ge 0 t -> injective_layout t ->
  enumerates (in_bounds t) (orders s t) /\
  forall a b, for_each_value_copy s a t b = map (fun i => [a + offset s i; b + offset t i]) (orders s t).
Proof.
  intros L He J. assert (G : forall a b, exists l, enumerates (in_bounds t) l /\ for_each_value_copy s a t b = map (fun i => [a + offset s i; b + offset t i]) l).
  { intros a b. destruct (TraverseFacts.copy_traversal_pairs s t a b L He) as (l & En & E). exists l. split; auto.
    rewrite E. apply map_ext. intros i. rewrite !flat_offset_spec. reflexivity. }
  split.
  - destruct (G 0 0) as (l & En & E). rewrite (orders_list s t 0 0 l); auto.
  - intros a b. destruct (G a b) as (l & En & E). rewrite (orders_list s t a b l); auto.
Qed.
Lemma orders_sequence : copy_sequence orders.
Proof.
  intros s t L He J. destruct (orders_spec s t L He J) as [En E]. split; auto. intros N F.
  pose proof (OrderFacts.copy_increasing s t 0 0 L He N F) as S. rewrite E, map_map in S. cbn [nth] in S. exact S.
Qed.
Lemma values_copy_orders nd s src t dst : length s = length t -> extents_ge 0 t -> injective_layout t ->
  is_null src = false -> is_null dst = false ->
  values_copy nd s src t dst = Ok (map (fun i => (elem src s i, elem dst t i)) (orders s t)).
Proof.
  intros L He J N1 N2. destruct (orders_spec s t L He J) as [_ E]. specialize (E (snd src) (snd dst)).
  unfold values_copy. unfold for_each_value_copy in E. destruct (optimize_copy_shapes s t) as [os od].
  unfold values_in_order2. rewrite N1, N2. cbn [orb]. f_equal. rewrite E, map_map. apply map_ext. intros i. reflexivity.
Qed.
Lemma left_dims_slice args : forall s, length args = length s -> shape_slice s args = left_dims args s.
Proof.
  induction args as [|a r IH]; intros [|d s] L; cbn [length] in L; try discriminate; [reflexivity|].
  rewrite shape_slice_cons, IH by lia. destruct a; reflexivity.
Qed.

Section Views.
Context {V : Type}.
Variable c : config V.
Hypothesis Hf : fair c.
Implicit Types (h : heap V) (w : world V) (vs : valuation V) (is : view_state V).
Notation shows := (shows_values c).
Notation put := (@put V).
Notation run1 := (vinterp c visits orders).

(** ** Where the elements are *)

Lemma test_val w vs x a p : shows w vs -> w_arr w x = Some a -> exists va, vs_arr vs x = Some va /\ is_value c (w_heap w) a va /\ test vs x p = p va.
Proof. intros S Ea. destruct (shows_some c w vs x a S Ea) as (va & Eva & Ha). exists va. split; auto. split; auto. unfold test. rewrite Eva. auto. Qed.
Lemma has_shape_eq s (a : value V) : has_shape s a = if shape_dec (v_shape a) s then true else false.
Proof. reflexivity. Qed.
Lemma refit_unless w vs x a s z : shows w vs -> w_arr w x = Some a -> unless (negb (test vs x (has_shape s))) x z = refit w x s z.
Proof.
  intros S Ea. destruct (test_val w vs x a (has_shape s) S Ea) as (va & Eva & Ha & ->). unfold unless, refit, shape_of. rewrite Ea.
  destruct Ha as (_ & _ & _ & -> & _). unfold has_shape. destruct (Nat.eqb z x); [|reflexivity]. destruct (shape_dec _ _); reflexivity.
Qed.
Lemma refit2_unless w vs x y a b z : shows w vs -> w_arr w x = Some a -> w_arr w y = Some b ->
  unless (negb (test2 vs x y (fun a b => has_shape (v_shape b) a))) x z = refit w x (shape_of w y) z.
Proof.
  intros S Ea Eb. rewrite <- (refit_unless w vs x a _ z S Ea). f_equal. f_equal. unfold test2, test.
  destruct (shows_some c w vs x a S Ea) as (va & -> & _). destruct (shows_some c w vs y b S Eb) as (vb & -> & Hb).
  unfold shape_of. rewrite Eb. destruct Hb as (_ & _ & _ & -> & _). reflexivity.
Qed.
Lemma exchange_same w vs x y a b : shows w vs -> w_arr w x = Some a -> w_arr w y = Some b -> test2 vs x y (exchange c) = same_allocator w x y.
Proof.
  intros S Ea Eb. unfold test2, test, same_allocator, is_inline, allocator_of. rewrite Ea, Eb.
  destruct (shows_some c w vs x a S Ea) as (va & -> & Ha). destruct (shows_some c w vs y b S Eb) as (vb & -> & Hb).
  destruct Ha as (-> & _ & -> & _), Hb as (-> & _ & -> & _). reflexivity.
Qed.
Lemma takes_could w vs y b al : shows w vs -> w_arr w y = Some b -> test vs y (takes_over c al) = could_take w y al.
Proof.
  intros S Eb. unfold test, could_take, is_inline, allocator_of. rewrite Eb. destruct (shows_some c w vs y b S Eb) as (vb & -> & Hb).
  destruct Hb as (-> & _ & -> & _). reflexivity.
Qed.
Lemma home_op_fate w vs o z : shows w vs -> legal_op c w o -> home_op c vs o z = fate_op c w o z.
Proof.
  intros S L. destruct o; cbn [home_op fate_op legal_op] in *; auto.
  - destruct L as (b & Eb & _). rewrite (takes_could w vs y b _ S Eb), (shows_next c w vs S). reflexivity.
  - destruct L as (b & Eb & _). rewrite (takes_could w vs y b _ S Eb), (shows_next c w vs S). reflexivity.
  - destruct L as ([a Ea] & b & Eb & _). rewrite <- (refit2_unless w vs x y a b z S Ea Eb). rewrite <- (exchange_same w vs x y a b S Ea Eb).
    unfold test2, test. destruct (shows_some c w vs x a S Ea) as (va & -> & _). destruct (shows_some c w vs y b S Eb) as (vb & -> & _).
    unfold unless. destruct (Nat.eqb z x), (Nat.eqb x y), (c_pocca c), (exchange c va vb), (has_shape (v_shape vb) va); reflexivity.
  - destruct L as ([a Ea] & b & Eb & _). rewrite (exchange_same w vs x y a b S Ea Eb). rewrite (refit2_unless w vs x y a b z S Ea Eb). reflexivity.
  - destruct L as ([a Ea] & b & Eb & _). rewrite (refit2_unless w vs x y a b z S Ea Eb). reflexivity.
  - destruct L as ([a Ea] & b & Eb & _). rewrite (refit2_unless w vs x y a b z S Ea Eb). reflexivity.
  - destruct L as ([a Ea] & _). apply (refit_unless w vs x a); auto.
  - unfold unless. rewrite andb_true_r. reflexivity.
  - destruct L as (_ & a & Ea & _). apply (refit_unless w vs x a); auto.
  - destruct L as ((a & Ea & _) & b & Eb & _). rewrite (exchange_same w vs x y a b S Ea Eb). destruct (_ || _ || _); [reflexivity|].
    destruct ((z =? x)%nat || (z =? y)%nat) eqn:Ez; [|reflexivity].
    assert (Q : unless (negb (test2 vs x y (fun a b => has_shape (v_shape b) a))) z z = refit w z (shape_of w (trade x y z)) z).
    { unfold trade. destruct (Nat.eqb_spec z x) as [->|Nx]; [apply (refit2_unless w vs x y a b); auto|].
      destruct (Nat.eqb_spec z y) as [->|]; [|discriminate]. rewrite <- (refit2_unless w vs y x b a y S Eb Ea). f_equal. f_equal.
      unfold test2, test. destruct (shows_some c w vs x a S Ea) as (va & -> & _). destruct (shows_some c w vs y b S Eb) as (vb & -> & _).
      unfold has_shape. destruct (shape_dec _ _), (shape_dec _ _); congruence. }
    rewrite <- Q. assert (Gz : exists d, w_arr w z = Some d).
    { apply orb_true_iff in Ez. destruct Ez as [Ez|Ez]; apply Nat.eqb_eq in Ez; subst z; eauto. }
    destruct Gz as (d & Ed). rewrite (takes_could w vs z d _ S Ed). unfold unless. rewrite Nat.eqb_refl. destruct (could_take _ _ _); reflexivity.
  - unfold unless. rewrite andb_true_r. reflexivity.
Qed.
Lemma home_fate w vs o z : shows w vs -> legal_act c w o -> home c vs o z = fate c w o z.
Proof.
  intros S L. destruct o; cbn [home fate]; auto.
  - apply home_op_fate; auto.
  - apply home_op_fate; auto.
  - destruct L as ([a Ea] & _). apply (refit_unless w vs x a); auto.
Qed.

(** ** Writing through array_refs *)

Lemma view_val w vs x at_ r i : shows w vs -> views w x at_ r -> in_bounds (r_shape r) i ->
  exists a va, w_arr w x = Some a /\ vs_arr vs x = Some va /\ is_value c (w_heap w) a va /\ in_bounds (a_shape a) (at_ i) /\
    elem (r_base r) (r_shape r) i = elem (a_base a) (a_shape a) (at_ i) /\ holds (w_heap w) (elem (r_base r) (r_shape r) i) (v_at va (at_ i)).
Proof.
  intros S Hv Hi. destruct (Hv i Hi) as (a & Ea & Hj & E). destruct (shows_some c w vs x a S Ea) as (va & Eva & Ha).
  exists a, va. split; auto. split; auto. split; auto. split; auto. split; auto. rewrite E. apply (is_value_has c _ _ _ Ha). auto.
Qed.
Notation set h w := (mkW h (w_arr w) (w_next w)).
Lemma put_ok w vs x at_ r i e : Inv c w -> shows w vs -> views w x at_ r -> in_bounds (r_shape r) i ->
  exists h', store (w_heap w) (elem (r_base r) (r_shape r) i) e = Ok h' /\ Inv c (set h' w) /\ shows (set h' w) (put vs x (at_ i) e).
Proof.
  intros I S Hv Hi. destruct (view_val w vs x at_ r i S Hv Hi) as (a & va & Ea & Eva & Ha & Hj & E & _).
  destruct (run_write c w vs x a va (at_ i) e I S Ea Eva Ha Hj) as (w' & Ew & I' & S'). cbn [step] in Ew.
  rewrite (get_ok w x a Ea) in Ew. cbn [bind] in Ew. apply bind_inv in Ew. destruct Ew as (h' & Eh & Ew). injection Ew as <-.
  exists h'. split. { rewrite E. rewrite elem_ref in Eh. exact Eh. } split; auto. unfold put, SpecInterpViews.put, on. rewrite Eva. exact S'.
Qed.
Lemma views_arr w w' x at_ r : w_arr w' = w_arr w -> views w x at_ r -> views w' x at_ r.
Proof. intros E Hv i Hi. rewrite E. apply Hv. exact Hi. Qed.
Lemma copy_fold s r x at_x y at_y l : forall w vs, Inv c w -> shows w vs -> views w x at_x s -> views w y at_y r ->
  (forall i, In i l -> in_bounds (r_shape s) i /\ in_bounds (r_shape r) i) ->
  exists h', foldM (@copy_assign V) (map (fun i => (elem (r_base s) (r_shape s) i, elem (r_base r) (r_shape r) i)) l) (w_heap w) = Ok h' /\
    shows (set h' w) (fold_left (transfer x y) (map (fun i => (at_x i, at_y i)) l) vs).
Proof.
  induction l as [|i l IH]; intros w vs I S Hs Hr H; cbn [map foldM fold_left].
  - exists (w_heap w). split; [reflexivity|]. destruct w; exact S.
  - destruct (H i (or_introl eq_refl)) as [Bs Br]. destruct (view_val w vs x at_x s i S Hs Bs) as (a & va & Ea & Eva & Ha & Hj & E & Hh).
    destruct (put_ok w vs y at_y r i (v_at va (at_x i)) I S Hr Br) as (h1 & E1 & I1 & S1).
    unfold copy_assign at 1. cbn [fst snd]. rewrite (proj2 (load_holds _ _ _) Hh). cbn [bind]. rewrite E1. cbn [bind].
    destruct (IH (set h1 w) (put vs y (at_y i) (v_at va (at_x i))) I1 S1) as (h' & E' & S'); auto.
    { intros j Ij. apply H. right; auto. }
    exists h'. split; auto. cbn [w_arr w_next] in S'. unfold transfer at 2. cbn [fst snd]. unfold on. rewrite Eva. exact S'.
Qed.
Lemma enumerates_none (P : list Z -> Prop) l : enumerates P l -> (forall i, ~ P i) -> l = [].
Proof. intros [_ E] N. destruct l as [|i l]; auto. exfalso. apply (N i). apply E. left; auto. Qed.
Lemma copy_ok w vs s r x at_x y at_y h' : Inv c w -> shows w vs -> views w x at_x s -> views w y at_y r ->
  extents_ge 0 (r_shape r) -> injective_layout (r_shape r) -> length (r_shape s) = length (r_shape r) -> within (r_shape r) (r_shape s) ->
  copy (c_ndebug c) (w_heap w) s r = Ok h' ->
  shows (set h' w) (fold_left (transfer x y) (map (fun i => (at_x i, at_y i)) (orders (r_shape s) (r_shape r))) vs).
Proof.
  intros I S Hs Hr He J L Hw E. destruct (orders_spec (r_shape s) (r_shape r) L He J) as [En _].
  unfold copy in E. destruct (empty (r_shape r)) eqn:Em.
  - injection E as <-. rewrite (enumerates_none _ _ En (proj1 (empty_iff _ He) Em)). destruct w; exact S.
  - assert (B : exists i, in_bounds (r_shape r) i).
    { destruct (box (r_shape r)) as [|i l] eqn:B; [|exists i; apply box_In; rewrite B; left; auto].
      exfalso. assert (Q : empty (r_shape r) = true); [|congruence]. apply (empty_iff _ He). intros i Hi. apply box_In in Hi. rewrite B in Hi. exact Hi. }
    destruct B as (i0 & B0). destruct (view_val w vs x at_x s i0 S Hs (Hw i0 B0)) as (_ & va & _ & _ & _ & _ & _ & H1).
    destruct (view_val w vs y at_y r i0 S Hr B0) as (_ & vb & _ & _ & _ & _ & _ & H2).
    assert (Hnull : forall b sh v, holds (w_heap w) (elem b sh i0) v -> is_null b = false).
    { intros b sh v A. assert (A' : alive (w_heap w) (elem b sh i0)) by (exists v; exact A). apply alive_block in A'. cbn [elem fst] in A'. apply is_null_block. auto. }
    apply bind_inv in E. destruct E as ([] & _ & E). rewrite (values_copy_orders (c_ndebug c)) in E by eauto. cbn [bind] in E.
    destruct (copy_fold s r x at_x y at_y (orders (r_shape s) (r_shape r)) w vs I S Hs Hr) as (h2 & E2 & S2).
    { intros i Hi. apply En in Hi. auto. }
    rewrite E in E2. injection E2 as <-. exact S2.
Qed.
(** What a sequence of writes of one value leaves *)
Lemma put_arr vs x j e z : vs_arr (put vs x j e) z =
  if (z =? x)%nat then option_map (fun a => filled a (fun k => if same_index k j then e else v_at a k)) (vs_arr vs x) else vs_arr vs z.
Proof. unfold put, SpecInterpViews.put, on. destruct (Nat.eqb_spec z x) as [->|N]; destruct (vs_arr vs x) as [a|] eqn:E; cbn; auto.
  - rewrite Nat.eqb_refl. reflexivity.
  - destruct (Nat.eqb_spec z x); [contradiction|]. reflexivity.
Qed.
Lemma fill_fold x at_ e l : forall vs a, vs_arr vs x = Some a ->
  let vs' := fold_left (fun vs (i : list Z) => put vs x (at_ i) e) l vs in
  vs_next vs' = vs_next vs /\ (forall z, z <> x -> vs_arr vs' z = vs_arr vs z) /\
  exists g, vs_arr vs' x = Some (filled a g) /\
    (forall i, In i l -> g (at_ i) = e) /\ (forall j, (forall i, In i l -> at_ i <> j) -> g j = v_at a j).
Proof.
  induction l as [|i l IH]; intros vs a Ea; cbn [fold_left].
  - split; auto. split; auto. exists (v_at a). split. { rewrite Ea. destruct a; reflexivity. } split; [intros i []|auto].
  - set (f := fun k => if same_index k (at_ i) then e else v_at a k).
    assert (E1 : vs_arr (put vs x (at_ i) e) x = Some (filled a f)) by (rewrite put_arr, Nat.eqb_refl, Ea; reflexivity).
    destruct (IH (put vs x (at_ i) e) (filled a f) E1) as (N & O & g & Eg & G1 & G2). cbn zeta.
    split. { rewrite N. unfold put, SpecInterpViews.put, on. rewrite Ea. reflexivity. }
    split. { intros z Hz. rewrite O by auto. rewrite put_arr. destruct (Nat.eqb_spec z x); [contradiction|reflexivity]. }
    exists g. split; [exact Eg|]. cbn [filled v_at] in G2. split.
    + intros j [<-|Hj]; [|auto]. destruct (in_dec (list_eq_dec Z.eq_dec) (at_ i) (map at_ l)) as [Q|Q].
      * apply in_map_iff in Q. destruct Q as (k & <- & Hk). auto.
      * rewrite G2. { unfold f. rewrite (proj2 (same_index_iff (at_ i) (at_ i)) eq_refl). reflexivity. }
        intros k Hk Q2. apply Q. apply in_map_iff. eauto.
    + intros j H. rewrite G2 by (intros k Hk; apply H; right; auto). unfold f. destruct (same_index j (at_ i)) eqn:Ej; auto.
      apply same_index_iff in Ej. exfalso. apply (H i (or_introl eq_refl)). auto.
Qed.
Lemma fill_ok w vs r x at_ e h' : Inv c w -> shows w vs -> views w x at_ r -> extents_ge 0 (r_shape r) -> injective_layout (r_shape r) ->
  fill (c_ndebug c) (w_heap w) r e = Ok h' ->
  shows (set h' w) (fold_left (fun vs i => put vs x (at_ i) e) (orders (r_shape r) (r_shape r)) vs).
Proof.
  intros I S Hv He J E. destruct (orders_spec (r_shape r) (r_shape r) eq_refl He J) as [En _].
  destruct (views_fill c w x at_ r e I He Hv) as (h1 & E1 & I1 & U & D). rewrite E in E1. injection E1 as <-.
  destruct (w_arr w x) as [a|] eqn:Ea.
  - destruct (shows_some c w vs x a S Ea) as (va & Eva & Ha). destruct (D _ _ (shows_denotes c w vs x a va Ea Ha)) as (g & Dg & G1 & G2).
    destruct (fill_fold x at_ e (orders (r_shape r) (r_shape r)) vs va Eva) as (N & O & f & Ef & F1 & F2).
    apply (finish c w _ vs _ [x]); auto. { cbn [w_next]. rewrite N. apply (shows_next c w vs S). }
    { intros z Hz. apply O. intros ->. apply Hz. left; auto. }
    intros z [<-|[]]. rewrite Ef. eapply good_some; [exact Ea|apply sig_filled, (is_value_sig c _ _ _ Ha)|].
    apply (denotes_ext _ x _ g); [exact Dg|]. intros j Hj. cbn [filled v_at].
    destruct (in_dec (list_eq_dec Z.eq_dec) j (map at_ (orders (r_shape r) (r_shape r)))) as [Q|Q].
    + apply in_map_iff in Q. destruct Q as (k & <- & Hk). rewrite F1 by auto. apply G1. apply En. auto.
    + assert (Q2 : forall i, In i (orders (r_shape r) (r_shape r)) -> at_ i <> j).
      { intros i Hi E2. apply Q. apply in_map_iff. eauto. }
      rewrite F2 by auto. apply G2; auto. intros i Hi. apply Q2. apply En. auto.
  - rewrite (enumerates_none _ _ En). { apply (unchanged_shows c w); auto. intros z _. destruct (Nat.eq_dec z x) as [->|N].
      - split; [reflexivity|]. intros s f (a & Ea' & _). congruence.
      - apply U. intros [->|[]]. apply N. reflexivity. }
    intros i Hi. destruct (Hv i Hi) as (a & Ea' & _). congruence.
Qed.

(** ** Statements *)

Definition owner_of (r : view_value) : owner := match vv_of r with Some x => Some (x, vv_at r) | None => None end.
Definition rel (st : vstate V) (own : list owner) is : Prop :=
  shows (vs_world st) (is_vals is) /\ own = map owner_of (is_refs is) /\ map r_shape (vs_refs st) = map vv_shape (is_refs is) /\ vs_out st = is_out is.
Lemma rel_ref st own is v iv : rel st own is -> nth_error (is_refs is) v = Some iv ->
  exists r, nth_error (vs_refs st) v = Some r /\ r_shape r = vv_shape iv /\ nth_error own v = Some (owner_of iv).
Proof.
  intros (_ & -> & Es & _) Ev. pose proof (map_nth_error vv_shape _ _ Ev) as E1. rewrite <- Es, nth_error_map in E1.
  destruct (nth_error (vs_refs st) v) as [r|]; cbn in E1; [|discriminate]. injection E1 as E1. exists r. split; auto. split; auto.
  apply map_nth_error. exact Ev.
Qed.
Lemma usable_iff st own is v (P : list dim -> Prop) : rel st own is ->
  usable is v P <-> live_ref own v /\ exists r, nth_error (vs_refs st) v = Some r /\ P (r_shape r).
Proof.
  intros R. split.
  - intros (iv & Ev & Hn & HP). destruct (rel_ref st own is v iv R Ev) as (r & Er & Es & Eo). split.
    + destruct (vv_of iv) as [x|] eqn:Ex; [|congruence]. exists (x, vv_at iv). rewrite Eo. unfold owner_of. rewrite Ex. reflexivity.
    + exists r. split; auto. rewrite Es. exact HP.
  - intros ((o & Eo) & r & Er & HP). pose proof R as (_ & -> & Es & _). rewrite nth_error_map in Eo.
    destruct (nth_error (is_refs is) v) as [iv|] eqn:Ev; [|discriminate]. cbn in Eo. injection Eo as Eo. unfold owner_of in Eo.
    destruct (rel_ref st _ is v iv R Ev) as (r' & Er' & Es' & _). rewrite Er in Er'. injection Er' as <-.
    exists iv. split; auto. split; [destruct (vv_of iv); discriminate|]. rewrite <- Es'. exact HP.
Qed.
Lemma vallowed_iff st own is o : vinv c st own -> rel st own is -> vallowed c is o <-> legal_vact c st own o.
Proof.
  intros Hv R. pose proof R as (S & Eo & _). destruct o; cbn [vallowed legal_vact].
  - apply (allowed_iff c _ _ _ S).
  - apply (present_iff c _ _ _ S).
  - rewrite (usable_iff st own is v _ R). reflexivity.
  - rewrite (usable_iff st own is v _ R). reflexivity.
  - rewrite (usable_iff st own is v _ R). reflexivity.
  - rewrite (usable_iff st own is v _ R). split; [intros [H _]; exact H|]. intros H. split; auto.
    destruct H as (x & Ex). destruct (vinv_ref c st own v _ Hv Ex) as (r & Er). eauto.
  - rewrite (usable_iff st own is u _ R). split.
    + intros (L1 & s & Es & H). apply (usable_iff st own is v _ R) in H. destruct H as (L2 & r & Er & H1 & H2). split; auto. split; auto. exists s, r. auto.
    + intros (L1 & L2 & s & r & Es & Er & H1 & H2). split; auto. exists s. split; auto. apply (usable_iff st own is v _ R). split; auto. exists r. auto.
Qed.
Lemma owners_after w vs o l : shows w vs -> legal_act c w o -> map owner_of (map (follow c vs o) l) = map (after c w o) (map owner_of l).
Proof.
  intros S L. rewrite !map_map. apply map_ext. intros r. unfold owner_of, follow, after. cbn [vv_of vv_at]. destruct (vv_of r) as [x|]; auto.
  rewrite (home_fate w vs o x S L). reflexivity.
Qed.
Lemma live_nth own is v (o : nat * (list Z -> list Z)) : own = map owner_of (is_refs is) -> nth_error own v = Some (Some o) ->
  exists iv, nth_error (is_refs is) v = Some iv /\ vv_of iv = Some (fst o) /\ vv_at iv = snd o.
Proof.
  intros -> E. rewrite nth_error_map in E. destruct (nth_error (is_refs is) v) as [iv|]; [|discriminate]. cbn in E. injection E as E.
  exists iv. split; auto. unfold owner_of in E. destruct (vv_of iv) as [x|]; [|discriminate]. injection E as <-. auto.
Qed.
Lemma step_view st own is o : vinv c st own -> rel st own is -> vallowed c is o ->
  exists st', vstep c st o = Ok st' /\ vinv c st' (track c st own o) /\ rel st' (track c st own o) (run1 is o).
Proof.
  intros Hv R A. pose proof (proj1 (vallowed_iff st own is o Hv R) A) as L.
  destruct (vstep_ok c Hf st own o Hv L) as (st' & E & Hv'). exists st'. split; auto. split; auto.
  pose proof R as (S & Eo & Es & Et). pose proof (proj1 Hv) as Hw. destruct o; cbn [vstep legal_vact track vinterp vallowed] in *.
  - destruct (step_act c Hf (vs_world st) (is_vals is) o Hw S A) as (w' & E' & _ & S'). rewrite E' in E. cbn [bind] in E. injection E as <-.
    split; [exact S'|]. cbn [is_refs vs_refs is_out vs_out]. split; [|split; auto].
    + rewrite (owners_after (vs_world st) (is_vals is) o _ S L), Eo. reflexivity.
    + rewrite Es, map_map. reflexivity.
  - destruct L as (a & Ea). rewrite (get_ok _ x a Ea) in E. cbn [bind] in E. injection E as <-.
    split; [exact S|]. cbn [is_refs vs_refs is_out vs_out add_ref]. rewrite !map_app. cbn [map]. split; [rewrite Eo; reflexivity|]. split; auto.
    rewrite Es. f_equal. f_equal. destruct (shows_some c _ _ x a S Ea) as (va & Eva & Ha). cbn [vv_shape]. unfold shape_at. rewrite Eva.
    cbn [aref_of r_shape]. apply Ha.
  - destruct L as ((o & Ex) & r & Er & Hl & Ha & He). destruct (live_nth own is v o Eo Ex) as (iv & Ev & Eof & Eat).
    destruct (rel_ref st own is v iv R Ev) as (r' & Er' & Esh & _). rewrite Er in Er'. injection Er' as <-.
    unfold get_ref in E. rewrite Er in E. cbn [bind] in E. injection E as <-. unfold through. rewrite Ev, Eof.
    split; [exact S|]. cbn [is_refs vs_refs is_out vs_out add_ref]. rewrite !map_app. cbn [map]. split; [|split; auto].
    + rewrite (nth_error_nth _ _ _ Ex). destruct o as [x at_]. cbn [part owner_of vv_of vv_at fst snd] in *. rewrite Eo, Eat. reflexivity.
    + rewrite Es. f_equal. f_equal. cbn [vv_shape]. rewrite <- Esh. rewrite <- left_dims_slice by auto. reflexivity.
  - destruct L as ((o & Ex) & r & Er & Hi). destruct (live_nth own is v o Eo Ex) as (iv & Ev & Eof & Eat).
    destruct (vinv_nth c st own v r _ Hv Er Ex) as [_ H]. destruct o as [x at_]. cbn [fst snd] in *.
    destruct (view_val _ _ x at_ r i S H Hi) as (a & va & Ea & Eva & _ & _ & _ & Hh).
    unfold get_ref in E. rewrite Er in E. cbn [bind] in E. unfold ref_at in E. rewrite elem_ref, (proj2 (load_holds _ _ _) Hh) in E. cbn [bind] in E. injection E as <-.
    unfold through. rewrite Ev, Eof, Eva, Eat. split; [exact S|]. cbn [is_refs vs_refs is_out vs_out]. split; auto. split; auto. rewrite Et. reflexivity.
  - destruct L as ((o & Ex) & r & Er & Hi). destruct (live_nth own is v o Eo Ex) as (iv & Ev & Eof & Eat).
    destruct (vinv_nth c st own v r _ Hv Er Ex) as [_ H]. destruct o as [x at_]. cbn [fst snd] in *.
    destruct (put_ok _ _ x at_ r i e Hw S H Hi) as (h' & Eh & _ & S').
    unfold get_ref in E. rewrite Er in E. cbn [bind] in E. rewrite elem_ref, Eh in E. cbn [bind] in E. injection E as <-.
    unfold through. rewrite Ev, Eof, Eat. split; [exact S'|]. split; auto.
  - destruct L as (o & Ex). destruct (live_nth own is v o Eo Ex) as (iv & Ev & Eof & Eat). destruct (rel_ref st own is v iv R Ev) as (r & Er & Esh & _).
    destruct (vinv_nth c st own v r _ Hv Er Ex) as [[He J] H]. destruct o as [x at_]. cbn [fst snd] in *.
    unfold get_ref in E. rewrite Er in E. cbn [bind] in E. apply bind_inv in E. destruct E as (h' & Eh & E). injection E as <-.
    unfold through. rewrite Ev, Eof, Eat, <- Esh. split; [apply (fill_ok _ _ r x at_ e h'); auto|]. split; auto.
  - destruct L as ((o & Ex) & (o2 & Ey) & s & r & Ers & Err & Hl & Hi).
    destruct (live_nth own is u o Eo Ex) as (iu & Eu & Euf & Eut). destruct (live_nth own is v o2 Eo Ey) as (iv & Ev & Eof & Eat).
    destruct (rel_ref st own is u iu R Eu) as (s' & Es' & Essh & _). rewrite Ers in Es'. injection Es' as <-.
    destruct (rel_ref st own is v iv R Ev) as (r' & Er' & Ersh & _). rewrite Err in Er'. injection Er' as <-.
    destruct (vinv_nth c st own u s _ Hv Ers Ex) as [_ H]. destruct (vinv_nth c st own v r _ Hv Err Ey) as [[He J] H']. destruct o as [x at_x], o2 as [y at_y]. cbn [fst snd] in *.
    unfold get_ref in E. rewrite Ers, Err in E. cbn [bind] in E. apply bind_inv in E. destruct E as (h' & Eh & E). injection E as <-.
    unfold through. rewrite Eu, Ev, Euf, Eof, Eut, Eat, <- Essh, <- Ersh. split; [apply (copy_ok _ _ s r x at_x y at_y h'); auto|]. split; auto.
Qed.
Lemma all_vallowed_iff ops : forall st own is, vinv c st own -> rel st own is -> all_vallowed c visits orders is ops <-> vlegal c st own ops.
Proof.
  induction ops as [|o r IH]; intros st own is I R; cbn [all_vallowed vlegal]; [tauto|]. rewrite (vallowed_iff st own is o I R). split; intros [L H]; split; auto.
  - intros st' E. destruct (step_view st own is o I R (proj2 (vallowed_iff st own is o I R) L)) as (s1 & E1 & I1 & R1). rewrite E in E1. injection E1 as <-.
    apply (IH st' _ (run1 is o)); auto.
  - destruct (step_view st own is o I R (proj2 (vallowed_iff st own is o I R) L)) as (s1 & E1 & I1 & R1). apply (IH s1 (track c st own o)); auto.
Qed.
Lemma run_views ops : forall st own is, vinv c st own -> rel st own is -> all_vallowed c visits orders is ops ->
  exists st', vrun c ops st = Ok st' /\ vinv c st' (tracks c st own ops) /\ rel st' (tracks c st own ops) (vinterps c visits orders ops is).
Proof.
  induction ops as [|o r IH]; intros st own is I R L.
  - exists st. auto.
  - destruct L as [L1 L2]. destruct (step_view st own is o I R L1) as (s1 & E1 & I1 & R1). unfold vrun. cbn [foldM tracks]. rewrite E1. cbn [bind].
    apply (IH s1 (track c st own o) (run1 is o)); auto.
Qed.
Lemma rel_empty : rel vempty [] nothing.
Proof. split; [apply shows_empty|]. split; auto. Qed.
Lemma rel_shows st own is : vinv c st own -> rel st own is -> shows_state c st is.
Proof.
  intros [_ H] (S & -> & Es & Et). split; auto. split; auto. clear S Et. revert Es H. generalize (is_refs is). induction (vs_refs st) as [|r l IH]; intros [|iv li] Es H; cbn [map] in *.
  - constructor.
  - discriminate.
  - discriminate.
  - injection Es as Es1 Es2. inversion H as [|? ? ? ? [_ H1] H2]; subst. constructor; auto. split; auto.
    unfold owner_of in H1. destruct (vv_of iv) as [x|]; auto. apply dead_dangles. auto.
Qed.
End Views.

Section Builds.
Context {V : Type}.
Variable c : config V.
Hypothesis Hf : fair c.
Variable order : list dim -> list dim -> list (list Z).
Lemma release_vinterp visit is o : vinterp (release c) visit order is o = vinterp c visit order is o.
Proof. destruct o; reflexivity. Qed.
Lemma release_vallowed is o : vallowed c is o -> vallowed (release c) is o.
Proof. destruct o; auto. cbn [vallowed]. apply release_allowed. Qed.
Lemma release_vinterps visit ops : forall is, vinterps (release c) visit order ops is = vinterps c visit order ops is.
Proof. unfold vinterps. induction ops as [|o r IH]; intros is; cbn [fold_left]; [reflexivity|]. rewrite release_vinterp. apply IH. Qed.
Lemma release_all_vallowed visit ops : forall is, all_vallowed c visit order is ops -> all_vallowed (release c) visit order is ops.
Proof.
  induction ops as [|o r IH]; intros is L; [exact I|]. destruct L as [L1 L2]. split; [apply release_vallowed; auto|]. rewrite release_vinterp. auto.
Qed.
End Builds.

(** ** For PropInterp.v *)

Lemma view_interpreter : exists visit order, numbering visit /\ copy_sequence order /\
  forall V (c : config V) ops, fair c ->
    (vlegal c vempty [] ops <-> all_vallowed c visit order nothing ops) /\
    (vlegal c vempty [] ops -> exists st, vrun c ops vempty = Ok st /\ shows_state c st (vinterps c visit order ops nothing)).
Proof.
  exists visits, orders. split. { exact visits_numbering. } split. { exact orders_sequence. } intros V c ops Hf.
  pose proof (all_vallowed_iff c Hf ops vempty [] nothing (vinv_empty c) (rel_empty c)) as A. split. { symmetry. exact A. }
  intros L. destruct (run_views c Hf ops vempty [] nothing (vinv_empty c) (rel_empty c) (proj2 A L)) as (st & E & I & R).
  exists st. split; auto. apply (rel_shows c st _ _ I R).
Qed.
Lemma view_builds V (c : config V) : fair c -> forall ops, vlegal c vempty [] ops ->
  vlegal (release c) vempty [] ops /\
  exists st st', vrun c ops vempty = Ok st /\ vrun (release c) ops vempty = Ok st' /\ vs_out st = vs_out st' /\
    w_next (vs_world st) = w_next (vs_world st') /\ forall x, same_array (vs_world st) (vs_world st') x.
Proof.
  intros Hf ops L. apply (all_vallowed_iff c Hf ops vempty [] nothing (vinv_empty c) (rel_empty c)) in L.
  pose proof (release_all_vallowed c orders visits ops nothing L) as L'. pose proof (release_fair c Hf) as Hf'.
  destruct (run_views c Hf ops vempty [] nothing (vinv_empty c) (rel_empty c) L) as (st & E & _ & S & _ & _ & O).
  destruct (run_views (release c) Hf' ops vempty [] nothing (vinv_empty (release c)) (rel_empty (release c)) L') as (st' & E' & _ & S' & _ & _ & O').
  split. { apply (all_vallowed_iff (release c) Hf' ops vempty [] nothing (vinv_empty (release c)) (rel_empty (release c))); auto. }
  rewrite release_vinterps in S', O'. exists st, st'. split; auto. split; auto. split; [congruence|]. split. { destruct S as [-> _], S' as [-> _]. reflexivity. }
  intros x. apply (shows_same c (release c) _ _ _ _ x eq_refl S S'). reflexivity.
Qed.
