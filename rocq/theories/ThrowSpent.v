(** When the functions that allocate throw: exactly the requests for memory, in order. *)
From Coq Require Import ZArith List Bool Lia Arith.
From Verif Require Import Base Interval Shape Traverse Memory Ref Container Throw.
From Verif Require Import Spec SpecMem SpecContainer SpecThrow SpecViews SpecInterp SpecInterpThrow.
From Verif Require Import Tac ShapeFacts ResolveFacts MemFacts RefFacts SliceFacts ContainerFacts ContainerWorld ThrowFacts ThrowWorld InterpForms.
Import ListNotations.
Open Scope Z_scope.

(** With [n] successful requests, [r] throws with the [n]-th state of [L], or returns [a] *)
Definition spent {A B : Type} (L : list B) (a : A) (n : option nat) (r : outcome (xres A B)) : Prop :=
  r = Ok (match n with
          | None => Done a (allocs None)
          | Some k => match nth_error L k with
                      | Some b => Threw b
                      | None => Done a (allocs (Some (k - length L)%nat))
                      end
          end).
Definition when {A : Type} (b : bool) (x : A) : list A := if b then [x] else [].

Lemma spent_done {A B : Type} (a : A) n : spent (B := B) [] a n (Ok (Done a (allocs n))).
Proof. unfold spent. destruct n as [[|k]|]; reflexivity. Qed.
Lemma spent_nothrow {A B : Type} (a : A) r n : r = Ok a -> spent (B := B) [] a n (nothrow r (allocs n)).
Proof. intros ->. apply spent_done. Qed.
Lemma spent_bind {A B C D : Type} (L : list B) (Lc L' : list D) (a : A) (d : C) n r (k : A -> budget -> outcome (xres C D)) catch :
  spent L a n r -> Forall2 (fun b e => catch b = Ok (Threw e)) L Lc -> (forall m, spent L' d m (k a (allocs m))) ->
  spent (Lc ++ L') d n (xbind r k catch).
Proof.
  unfold spent. intros -> F K. assert (El : length Lc = length L) by (clear K; induction F; cbn; auto).
  unfold xbind. cbn [bind]. destruct n as [j|]; [|rewrite (K None); reflexivity].
  destruct (nth_error L j) as [b|] eqn:Ej.
  - assert (Hj : exists e, nth_error Lc j = Some e /\ catch b = Ok (Threw e)).
    { clear K El. revert j Ej. induction F as [|b0 e0 L0 Lc0 H F IH]; intros [|j] Ej; cbn in Ej |- *; try discriminate.
      - injection Ej as ->. eauto.
      - auto. }
    destruct Hj as (e & He & ->). rewrite nth_error_app1 by (apply nth_error_Some; congruence). rewrite He. reflexivity.
  - apply nth_error_None in Ej. rewrite (K (Some (j - length L)%nat)). rewrite nth_error_app2 by lia. rewrite El.
    destruct (nth_error L' (j - length L)); [reflexivity|]. rewrite app_length, El. do 4 f_equal. lia.
Qed.
(** A call that does not throw comes next *)
Lemma spent_ret {A B C D : Type} (L : list B) (Lc : list D) (a : A) (d : C) n r (k : A -> budget -> outcome (xres C D)) catch :
  spent L a n r -> Forall2 (fun b e => catch b = Ok (Threw e)) L Lc -> (forall f, k a f = Ok (Done d f)) ->
  spent Lc d n (xbind r k catch).
Proof.
  intros H F K. rewrite <- (app_nil_r Lc). eapply spent_bind; eauto. intros m. rewrite K. apply spent_done.
Qed.
(** A call that does not throw comes first *)
Lemma spent_first {A B C D : Type} (L' : list D) (a : A) (d : C) n r (k : A -> budget -> outcome (xres C D)) catch :
  spent (B := B) [] a n r -> (forall m, spent L' d m (k a (allocs m))) -> spent L' d n (xbind r k catch).
Proof. intros H K. change L' with ([] ++ L'). eapply spent_bind; eauto. Qed.
Lemma when_catch {B D : Type} (catch : B -> outcome (xres D D)) (q : bool) b e :
  (q = true -> catch b = Ok (Threw e)) -> Forall2 (fun b e => catch b = Ok (Threw e)) (when q b) (when q e).
Proof. destruct q; cbn [when]; auto. Qed.
Lemma when_Forall2 {A B : Type} (P : A -> B -> Prop) (q : bool) a b : (q = true -> P a b) -> Forall2 P (when q a) (when q b).
Proof. destruct q; cbn [when]; auto. Qed.

Section Spent.
Context {V : Type}.
Variable c : config V.
Implicit Types h : heap V.
Notation asks := (asks c).

Lemma allocate_spent x h a ha n : allocate c x h a = Ok ha -> a_busy a = false ->
  spent (when (asks (a_shape a)) (h, failed a (a_shape a))) ha n (allocate_x c x h a (allocs n)).
Proof.
  intros E Hz. unfold allocate in E. unfold allocate_x, SpecInterpThrow.asks.
  destruct (assert_ _ _) as [u| |]; try discriminate. cbn [bind] in *.
  destruct (0 <? flat_extent (resolve (a_shape a))); cbn [andb when].
  2:{ injection E as <-. apply spent_done. }
  unfold alloc_get in E. unfold alloc_get_x. rewrite Hz in *. cbn [negb andb] in *.
  destruct (Z.leb_spec (flat_extent (resolve (a_shape a))) (c_cap c)) as [Hc|Hc].
  - rewrite (proj2 (Z.ltb_ge _ _)) by auto. cbn [when]. destruct (alloc_block _ _ _) as [h' p]. injection E as <-. apply spent_done.
  - rewrite (proj2 (Z.ltb_lt _ _)) by auto. cbn [when]. destruct (alloc_block _ _ _) as [h' p]. injection E as <-.
    destruct n as [[|k]|]; cbn [allocs b_allocs b_elems spend]; unfold spent; cbn [nth_error].
    + unfold failed. rewrite Hz. reflexivity.
    + rewrite (proj2 (nth_error_None [] k)) by (cbn; lia). cbn [length]. rewrite Nat.sub_1_r. reflexivity.
    + reflexivity.
Qed.
Lemma each_spent {A} (one : heap V -> A -> outcome (heap V)) l : forall h h' n, foldM one l h = Ok h' ->
  construct_each one l h (allocs n) = Ok (Done h' (allocs n)).
Proof.
  induction l as [|p r IH]; intros h h' n E; cbn [construct_each foldM] in *; [injection E as <-; reflexivity|].
  cbn [allocs b_elems spend b_allocs]. destruct (one h p) as [h1| |]; try discriminate. cbn [bind] in *. apply (IH h1 h' n E).
Qed.
Lemma construct_spent h a init h' n : construct c h a init = Ok h' -> spent [] h' n (construct_x c h a init (allocs n)).
Proof.
  unfold construct, construct_x. destruct (assert_ _ _) as [u| |]; try discriminate. cbn [bind].
  destruct (values _ _ _) as [l| |]; try discriminate. cbn [bind]. intros E. rewrite (each_spent _ _ _ _ _ E). apply spent_done.
Qed.
Lemma copy_construct_spent h a b h' n : copy_construct c h a b = Ok h' -> spent [] h' n (copy_construct_x c h a b (allocs n)).
Proof.
  unfold copy_construct, copy_construct_x. do 2 (destruct (assert_ _ _) as [?| |]; try discriminate; cbn [bind]).
  destruct (values_copy _ _ _ _ _) as [l| |]; try discriminate. cbn [bind]. intros E. rewrite (each_spent _ _ _ _ _ E). apply spent_done.
Qed.
Lemma move_construct_spent h a b h' n : move_construct c h a b = Ok h' -> spent [] h' n (move_construct_x c h a b (allocs n)).
Proof.
  unfold move_construct, move_construct_x. do 2 (destruct (assert_ _ _) as [?| |]; try discriminate; cbn [bind]).
  destruct (values_copy _ _ _ _ _) as [l| |]; try discriminate. cbn [bind]. intros E. rewrite (each_spent _ _ _ _ _ E). apply spent_done.
Qed.
Lemma ctor_shape_spent x h al s ha n : ctor_shape c x h al s = Ok ha ->
  spent (when (asks s) h) ha n (ctor_shape_x c x h al s (allocs n)).
Proof.
  unfold ctor_shape, ctor_shape_x. destruct (allocate c x h (blank al s)) as [[h1 a1]| |] eqn:Ea; try discriminate. cbn [bind].
  unfold construct_default. destruct (construct c h1 a1 _) as [h2| |] eqn:Ec; try discriminate. cbn [bind]. intros E. injection E as <-.
  rewrite <- (app_nil_r (when _ h)). eapply spent_bind; [apply (allocate_spent x h (blank al s) _ n Ea eq_refl)| |].
  - apply when_Forall2. intros _. reflexivity.
  - intros m. eapply spent_first; [apply construct_spent; exact Ec|]. intros m'. apply spent_done.
Qed.
(** The storage of [a] is replaced *)
Lemma refit_spent (same : bool) x h a s h1 a1 ha n : deallocate c x h a = Ok (h1, a1) -> a_busy a1 = false ->
  (if same then h' <- destroy c h a ;; Ok (h', a)
   else ' (h', a') <- deallocate c x h a ;; allocate c x h' (with_shape a' s)) = Ok ha ->
  spent (when (negb same && asks s) (h1, failed a1 s)) ha n (refit_x c same x h a s (allocs n)).
Proof.
  intros Ed Hz E. unfold refit_x. destruct same; cbn [negb andb when].
  - destruct (destroy c h a) as [h'| |]; try discriminate. cbn [bind] in *. injection E as <-. apply spent_done.
  - rewrite Ed in *. cbn [bind] in *. apply (allocate_spent x h1 (with_shape a1 s) ha n E Hz).
Qed.
Lemma assign_value_spent x h a s init h1 a1 ha n : deallocate c x h a = Ok (h1, a1) -> a_busy a1 = false ->
  assign_value c x h a s init = Ok ha ->
  spent (when (negb (shape_eqb (a_shape a) (resolve s)) && asks (resolve s)) (h1, failed a1 (resolve s))) ha n (assign_value_x c x h a s init (allocs n)).
Proof.
  intros Ed Hz E. unfold assign_value in E. unfold assign_value_x. cbv zeta in *.
  match type of E with bind ?m _ = _ => destruct m as [[h2 a2]| |] eqn:Em; try discriminate end. cbn [bind] in E.
  destruct (construct c h2 a2 init) as [h3| |] eqn:Ec; try discriminate. cbn [bind] in E. injection E as <-.
  rewrite <- (app_nil_r (when _ (h1, _))). eapply spent_bind; [apply (refit_spent _ x h a (resolve s) h1 a1 (h2, a2) n Ed Hz Em)| |].
  - apply when_Forall2. intros _. reflexivity.
  - intros m. eapply spent_first; [apply construct_spent; exact Ec|]. intros m'. apply spent_done.
Qed.
Definition refits (a b : arr) : bool :=
  negb (ptr_eqb (a_base a) (a_base b)) && negb (negb (is_null (a_base a)) && shape_eqb (a_shape a) (a_shape b)) && asks (a_shape b).
Lemma assign_copy_spent x h a b h1 a1 ha n : deallocate c x h a = Ok (h1, a1) -> a_busy a1 = false ->
  assign_copy c x h a b = Ok ha ->
  spent (when (refits a b) (h1, failed a1 (a_shape b))) ha n (assign_copy_x c x h a b (allocs n)).
Proof.
  intros Ed Hz E. unfold assign_copy_x, refits. destruct (ptr_eqb (a_base a) (a_base b)) eqn:Ep; cbn [negb andb when].
  - apply spent_nothrow; auto.
  - unfold assign_copy in E. rewrite Ep in E.
    match type of E with bind ?m _ = _ => destruct m as [[h2 a2]| |] eqn:Em; try discriminate end. cbn [bind] in E.
    destruct (copy_construct c h2 a2 b) as [h3| |] eqn:Ec; try discriminate. cbn [bind] in E. injection E as <-.
    rewrite <- (app_nil_r (when _ (h1, _))). eapply spent_bind; [apply (refit_spent _ x h a (a_shape b) h1 a1 (h2, a2) n Ed Hz Em)| |].
    + apply when_Forall2. intros _. reflexivity.
    + intros m. eapply spent_first; [apply copy_construct_spent; exact Ec|]. intros m'. apply spent_done.
Qed.
Lemma assign_move_spent x h a b h1 a1 ha n : deallocate c x h a = Ok (h1, a1) -> a_busy a1 = false ->
  assign_move c x h a b = Ok ha ->
  spent (when (refits a b) (h1, failed a1 (a_shape b))) ha n (assign_move_x c x h a b (allocs n)).
Proof.
  intros Ed Hz E. unfold assign_move_x, refits. destruct (ptr_eqb (a_base a) (a_base b)) eqn:Ep; cbn [negb andb when].
  - apply spent_nothrow; auto.
  - unfold assign_move in E. rewrite Ep in E.
    match type of E with bind ?m _ = _ => destruct m as [[h2 a2]| |] eqn:Em; try discriminate end. cbn [bind] in E.
    destruct (move_construct c h2 a2 b) as [h3| |] eqn:Ec; try discriminate. cbn [bind] in E. injection E as <-.
    rewrite <- (app_nil_r (when _ (h1, _))). eapply spent_bind; [apply (refit_spent _ x h a (a_shape b) h1 a1 (h2, a2) n Ed Hz Em)| |].
    + apply when_Forall2. intros _. reflexivity.
    + intros m. eapply spent_first; [apply move_construct_spent; exact Ec|]. intros m'. apply spent_done.
Qed.
(** Constructors that delegate: [h1], [a1] after the other constructor, [h2] after the destructor *)
Lemma ctor_value_spent x h al s v h1 a1 h2 a2 ha n : ctor_shape c x h al (c_shape0 c) = Ok (h1, a1) ->
  deallocate c x h1 a1 = Ok (h2, a2) -> a_busy a2 = false -> ctor_value c x h al s v = Ok ha ->
  spent (when (asks (c_shape0 c)) h ++ when (negb (shape_eqb (a_shape a1) (resolve s)) && asks (resolve s)) h2) ha n
    (ctor_value_x c x h al s v (allocs n)).
Proof.
  intros Es Ed Hz E. unfold ctor_value in E. rewrite Es in E. cbn [bind] in E. unfold ctor_value_x.
  eapply spent_bind; [apply ctor_shape_spent; exact Es| |].
  - apply when_Forall2. intros _. reflexivity.
  - intros m. eapply spent_ret; [apply (assign_value_spent x h1 a1 s _ h2 a2 ha m Ed Hz E)| |reflexivity].
    apply when_Forall2. intros _. cbn [fst snd]. rewrite deallocate_nothing; [reflexivity|]. apply (deallocate_null c x h1 a1 h2 a2 Ed).
Qed.
Lemma ctor_copy_alloc_spent x h b al h1 a1 h2 a2 ha n : ctor_shape c x h al (c_shape0 c) = Ok (h1, a1) ->
  deallocate c x h1 a1 = Ok (h2, a2) -> a_busy a2 = false -> ctor_copy_alloc c x h b al = Ok ha ->
  spent (when (asks (c_shape0 c)) h ++ when (refits a1 b) h2) ha n (ctor_copy_alloc_x c x h b al (allocs n)).
Proof.
  intros Es Ed Hz E. unfold ctor_copy_alloc in E. rewrite Es in E. cbn [bind] in E. unfold ctor_copy_alloc_x.
  eapply spent_bind; [apply ctor_shape_spent; exact Es| |].
  - apply when_Forall2. intros _. reflexivity.
  - intros m. eapply spent_ret; [apply (assign_copy_spent x h1 a1 b h2 a2 ha m Ed Hz E)| |reflexivity].
    apply when_Forall2. intros _. cbn [fst snd]. rewrite deallocate_nothing; [reflexivity|]. apply (deallocate_null c x h1 a1 h2 a2 Ed).
Qed.
Lemma ctor_copy_spent x h b ha n : ctor_copy c x h b = Ok ha ->
  spent (when (refits (blank (c_select c (a_al b)) (c_shape0 c)) b) h) ha n (ctor_copy_x c x h b (allocs n)).
Proof.
  intros E. unfold ctor_copy in E. unfold ctor_copy_x.
  eapply spent_ret; [apply (assign_copy_spent x h (blank (c_select c (a_al b)) (c_shape0 c)) b h _ ha n (deallocate_nothing c x h (blank (c_select c (a_al b)) (c_shape0 c)) eq_refl) eq_refl E)| |reflexivity].
  apply when_Forall2. intros _. reflexivity.
Qed.
Lemma clear_spent x h a h1 a1 ha n : deallocate c x h a = Ok (h1, a1) -> a_busy a1 = false -> clear c x h a = Ok ha ->
  spent (when (asks (c_shape0 c)) (h1, failed a1 (c_shape0 c))) ha n (clear_x c x h a (allocs n)).
Proof.
  intros Ed Hz E. unfold clear in E. unfold clear_x. rewrite Ed in *. cbn [bind] in *.
  destruct (allocate c x h1 _) as [[h2 a2]| |] eqn:Ea; try discriminate. cbn [bind] in E. unfold construct_default in E.
  destruct (construct c h2 a2 _) as [h3| |] eqn:Ec; try discriminate. cbn [bind] in E. injection E as <-.
  rewrite <- (app_nil_r (when _ (h1, _))). eapply spent_bind; [apply (allocate_spent x h1 (with_shape a1 (c_shape0 c)) _ n Ea Hz)| |].
  - apply when_Forall2. intros _. reflexivity.
  - intros m. eapply spent_first; [apply construct_spent; exact Ec|]. intros m'. apply spent_done.
Qed.
Lemma move_elements_spent x h al s b hab n :
  (' (h1, a1) <- allocate c x h (with_shape (blank al s) (a_shape b)) ;; h2 <- move_construct c h1 a1 b ;; Ok (h2, a1, b)) = Ok hab ->
  spent (when (asks (a_shape b)) h) hab n (move_elements_x c x h (blank al s) b (allocs n)).
Proof.
  intros E. unfold move_elements_x. destruct (allocate c x h _) as [[h1 a1]| |] eqn:Ea; try discriminate. cbn [bind] in E.
  destruct (move_construct c h1 a1 b) as [h2| |] eqn:Ec; try discriminate. cbn [bind] in E. injection E as <-.
  rewrite <- (app_nil_r (when _ h)). eapply spent_bind; [apply (allocate_spent x h (with_shape (blank al s) (a_shape b)) _ n Ea eq_refl)| |].
  - apply when_Forall2. intros _. reflexivity.
  - intros m. eapply spent_first; [apply move_construct_spent; exact Ec|]. intros m'. apply spent_done.
Qed.
Lemma ctor_move_spent x h y b hab n : ctor_move c x h y b = Ok hab ->
  spent (when (negb (c_pocma c || alloc_eq x (blank (if c_pocma c then a_al b else c_default c) (c_shape0 c)) y b) && asks (a_shape b)) h) hab n
    (ctor_move_x c x h y b (allocs n)).
Proof.
  intros E. unfold ctor_move_x. destruct (c_pocma c || alloc_eq _ _ _ _) eqn:Eq; cbn [negb andb when].
  - apply spent_nothrow; auto.
  - unfold ctor_move in E. rewrite Eq in E. apply move_elements_spent; auto.
Qed.
Lemma ctor_move_alloc_spent x h y b al hab n : ctor_move_alloc c x h y b al = Ok hab ->
  spent (when (negb (alloc_eq x (blank al (c_shape0 c)) y b) && asks (a_shape b)) h) hab n (ctor_move_alloc_x c x h y b al (allocs n)).
Proof.
  intros E. unfold ctor_move_alloc_x. destruct (alloc_eq _ _ _ _) eqn:Eq; cbn [negb andb when].
  - apply spent_nothrow; auto.
  - unfold ctor_move_alloc in E. rewrite Eq in E. apply move_elements_spent; auto.
Qed.
Lemma move_assign_spent x h a y b h1 a1 hab n : deallocate c x h a = Ok (h1, a1) -> a_busy a1 = false ->
  move_assign_op c x h a y b = Ok hab ->
  spent (when (negb (c_pocma c || alloc_eq x a y b) && refits a b) (h1, failed a1 (a_shape b))) hab n (move_assign_op_x c x h a y b (allocs n)).
Proof.
  intros Ed Hz E. unfold move_assign_op_x. destruct (ptr_eqb (a_base a) (a_base b)) eqn:Ep; cbn [orb].
  { unfold refits. rewrite Ep. cbn [negb andb]. rewrite andb_false_r. apply spent_nothrow; auto. }
  unfold move_assign_op in E. rewrite Ep in E. destruct (c_pocma c) eqn:Em; cbn [orb negb andb when].
  { apply spent_nothrow. unfold move_assign_op. rewrite Ep, Em. auto. }
  destruct (alloc_eq x a y b) eqn:Eq; cbn [negb andb when].
  { apply spent_nothrow. unfold move_assign_op. rewrite Ep, Em, Eq. auto. }
  destruct (assign_move c x h a b) as [[h2 a2]| |] eqn:Ea; try discriminate. cbn [bind] in E. injection E as <-.
  eapply spent_ret; [apply (assign_move_spent x h a b h1 a1 _ n Ed Hz Ea)| |reflexivity].
  apply when_Forall2. intros _. reflexivity.
Qed.
Lemma make_copy_spent x h src s al ha n : make_copy c x h src s al = Ok ha ->
  spent (when (asks s) h) ha n (make_copy_x c x h src s al (allocs n)).
Proof.
  intros E. unfold make_copy in E. unfold make_copy_x. destruct (ctor_shape c x h al s) as [[h1 a1]| |] eqn:Es; try discriminate. cbn [bind] in E.
  destruct (copy _ _ _ _) as [h2| |] eqn:Ec; try discriminate. cbn [bind] in E. injection E as <-.
  eapply spent_ret; [apply ctor_shape_spent; exact Es| |].
  - apply when_Forall2. intros _. reflexivity.
  - intros f. cbv beta iota. rewrite Ec. reflexivity.
Qed.
Lemma make_move_spent x h src s al ha n : make_move c x h src s al = Ok ha ->
  spent (when (asks s) h) ha n (make_move_x c x h src s al (allocs n)).
Proof.
  intros E. unfold make_move in E. unfold make_move_x. destruct (ctor_shape c x h al s) as [[h1 a1]| |] eqn:Es; try discriminate. cbn [bind] in E.
  destruct (move _ _ _ _ _) as [h2| |] eqn:Ec; try discriminate. cbn [bind] in E. injection E as <-.
  eapply spent_ret; [apply ctor_shape_spent; exact Es| |].
  - apply when_Forall2. intros _. reflexivity.
  - intros f. cbv beta iota. rewrite Ec. reflexivity.
Qed.
(** Copy assignment: the allocator is replaced first *)
Lemma copy_assign_spent x h a y b h1 a1 ha n : x <> y -> deallocate c x h a = Ok (h1, a1) -> a_busy a1 = false ->
  copy_assign_op c x h a y b = Ok ha ->
  let change := c_pocca c && negb (alloc_eq x a y b) in
  spent (when (negb (ptr_eqb (a_base a) (a_base b)) && refits (if change then set_al a1 (a_al b) else a) b)
           (h1, failed (set_al a1 (if change then a_al b else a_al a1)) (a_shape b))) ha n (copy_assign_op_x c x h a y b (allocs n)).
Proof.
  intros N Ed Hz E. cbv zeta. unfold copy_assign_op_x. destruct (ptr_eqb (a_base a) (a_base b)) eqn:Ep; cbn [negb andb when].
  { apply spent_nothrow; auto. }
  unfold copy_assign_op in E. rewrite Ep in E.
  assert (E0 : set_al a1 (a_al a1) = a1) by (destruct a1; reflexivity).
  destruct (c_pocca c); cbn [bind andb] in *.
  2:{ rewrite E0. apply (assign_copy_spent x h a b h1 a1 ha n Ed Hz E). }
  destruct (alloc_eq x a y b) eqn:Eq; cbn [negb bind] in *.
  - assert (Eal : set_al a (a_al b) = a).
    { unfold alloc_eq in Eq. rewrite (proj2 (Nat.eqb_neq x y) N) in Eq. destruct (a_busy a || a_busy b); [discriminate|].
      apply Nat.eqb_eq in Eq. rewrite <- Eq. destruct a; reflexivity. }
    rewrite Eal in *. rewrite E0. apply (assign_copy_spent x h a b h1 a1 ha n Ed Hz E).
  - rewrite Ed in *. cbn [bind] in *. apply (assign_copy_spent x h1 (set_al a1 (a_al b)) b h1 (set_al a1 (a_al b)) ha n); auto.
    apply deallocate_nothing. apply (deallocate_null c x h a h1 a1 Ed).
Qed.
End Spent.
