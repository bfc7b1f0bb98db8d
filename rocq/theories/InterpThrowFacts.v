(** Proofs that statements in which an allocation fails do what the interpreter says; all arrays are usable. *)
From Coq Require Import ZArith List Bool Lia Arith.
From Verif Require Import Base Interval Shape Traverse Memory Ref Container Throw Program.
From Verif Require Import Spec SpecMem SpecContainer SpecThrow SpecProgram SpecViews SpecInterp SpecInterpThrow.
From Verif Require Import Tac ShapeFacts ResolveFacts MemFacts RefFacts SliceFacts ContainerFacts ContainerWorld.
From Verif Require Import ThrowFacts ThrowWorld ThrowLift ThrowPlain ThrowProps CountWorld InterpForms InterpFacts ThrowSpent.
Import ListNotations.
Open Scope Z_scope.

Section Interp.
Context {V : Type}.
Variable c : config V.
Hypothesis Hf : fair c.
Implicit Types (h : heap V) (w : world V) (vs : valuation V) (v va vb : value V).
Notation Inv := (Inv c).
Notation XInv := (XInv c).
Notation shows := (shows_values c).
Notation showsX := (shows_xvalues c).
Notation asks := (asks c).
Notation lost := (lost c).

(** ** What is shown *)

Lemma is_value_x h a v : is_value c h a v -> is_xvalue c h a v.
Proof. intros (H1 & H2 & H3 & H4 & H5). unfold is_xvalue. repeat (split; [assumption|]). intros _. exact H5. Qed.
Lemma shows_x w vs : shows w vs -> showsX w vs.
Proof.
  intros [N H]. split; auto. intros x. specialize (H x). destruct (w_arr w x), (vs_arr vs x); auto. apply is_value_x; auto.
Qed.
Lemma finishX w w' vs vs' X : showsX w vs -> unchanged w w' X -> w_next w' = vs_next vs' ->
  (forall z, ~ In z X -> vs_arr vs' z = vs_arr vs z) ->
  (forall x, In x X -> match w_arr w' x, vs_arr vs' x with
                       | Some a, Some v => is_xvalue c (w_heap w') a v | None, None => True | _, _ => False end) -> showsX w' vs'.
Proof.
  intros [_ Hs] U N E G. split; auto. intros x. destruct (in_dec Nat.eq_dec x X) as [Ix|Ix]; [apply G; auto|].
  rewrite (E x Ix). destruct (U x Ix) as [U1 U2]. rewrite U1. specialize (Hs x).
  destruct (w_arr w x) as [a|] eqn:Ea, (vs_arr vs x) as [v|]; auto. destruct Hs as (H1 & H2 & H3 & H4 & H5).
  split; auto. split; auto. split; auto. split; auto. intros M.
  destruct (U2 (v_shape v) (v_at v)) as (a' & Ea' & _ & D); [exists a; split; auto|]. rewrite U1 in Ea'. injection Ea' as <-. exact D.
Qed.
Lemma showsX_ext w vs vs' : showsX w vs -> vs_next vs' = vs_next vs -> (forall x, vs_arr vs' x = vs_arr vs x) -> showsX w vs'.
Proof. intros [N H] N' E. split; [congruence|]. intros x. rewrite E. apply H. Qed.
Lemma showsX_val w vs x v : showsX w vs -> vs_arr vs x = Some v -> exists a, w_arr w x = Some a /\ is_xvalue c (w_heap w) a v.
Proof. intros [_ H] E. specialize (H x). rewrite E in H. destruct (w_arr w x) as [a|]; [eauto|contradiction]. Qed.
Lemma showsX_some w vs x a : showsX w vs -> w_arr w x = Some a -> exists v, vs_arr vs x = Some v /\ is_xvalue c (w_heap w) a v.
Proof. intros [_ H] E. specialize (H x). rewrite E in H. destruct (vs_arr vs x) as [v|]; [eauto|contradiction]. Qed.

(** An array that lost its storage *)
Lemma failed_value h a1 al s : no_memory a1 -> is_xvalue c h (failed (set_al a1 al) s) (lost al s).
Proof.
  intros (H1 & H2 & H3). unfold is_xvalue, failed, set_al, SpecInterpThrow.lost, v_inline. cbn [a_al a_buf a_busy a_shape v_al v_mem v_shape v_at andb].
  rewrite H1, H3. split; auto. split; auto. split; auto. split; auto. discriminate.
Qed.
Lemma lost_world w vs x a s h1 a1 al : Inv w -> shows w vs -> w_arr w x = Some a -> shape_arg c s ->
  deallocate c x (w_heap w) a = Ok (h1, a1) ->
  XInv (wput w x h1 (failed (set_al a1 al) s)) /\ showsX (wput w x h1 (failed (set_al a1 al) s)) (set_value vs x (Some (lost al s))).
Proof.
  intros I Sh Ea Hs E.
  destruct (let_go_local c Hf x (w_heap w) a s (h1, failed (set_al a1 al) s) (proj1 I) (inv_valid c w x a I Ea) Hs) as (N & Hx & Hv & L).
  { exists h1, a1, al. auto. }
  cbn [fst snd] in *.
  destruct (xinv_put c w x a h1 (failed (set_al a1 al) s) (inv_xinv c w I) Ea Hx Hv L) as [I' U]. split; auto.
  apply (finishX w _ vs _ [x]); auto.
  - apply shows_x; auto.
  - cbn. apply shows_next with (c := c). auto.
  - intros z Hz. apply get_set_other. intros ->. apply Hz. left; auto.
  - intros z [<-|[]]. rewrite get_set_same. cbn [wput w_arr w_heap]. rewrite put_same. apply failed_value.
    destruct a1; exact N.
Qed.
Lemma skipped w vs h' : Inv w -> shows w vs -> local (w_heap w) [0%nat] h' [0%nat] -> showsX (mkW h' (w_arr w) (S (w_next w))) (skip_name vs).
Proof.
  intros I Sh L. destruct (xinv_heap c w h' (S (w_next w)) (inv_xinv c w I) L) as [I' U]; [lia|].
  apply (finishX w _ vs _ []); auto.
  - apply shows_x; auto.
  - cbn. f_equal. apply shows_next with (c := c). auto.
  - intros x [].
Qed.
Lemma skipped_same w vs : Inv w -> shows w vs -> showsX (mkW (w_heap w) (w_arr w) (S (w_next w))) (skip_name vs).
Proof. intros I Sh. apply skipped; auto. apply local_refl. apply I. Qed.
Lemma deleted w vs n v : XInv w -> showsX w vs -> vs_arr vs n = Some v ->
  exists w', do_delete c w n = Ok w' /\ XInv w' /\ showsX w' (set_value vs n None).
Proof.
  intros I Sh E. destruct (showsX_val _ _ _ _ Sh E) as (a & Ea & _). destruct (xdelete c Hf w n a I Ea) as (w' & E' & I' & U & N & X).
  exists w'. split; auto. split; auto. apply (finishX w _ vs _ [n]); auto.
  - cbn. rewrite N. apply Sh.
  - intros z Hz. apply get_set_other. intros ->. apply Hz. left; auto.
  - intros z [<-|[]]. rewrite X, get_set_same. exact Logic.I.
Qed.

(** ** Conditions *)

Lemma refits_renews x y h a b va vb : valid c x h a -> valid c y h b -> apart a b -> sig a va -> sig b vb -> refits c a b = renews c va vb.
Proof.
  intros Ha Hb Hap Sa Sb. unfold refits, renews, same_dims. rewrite (sig_bases c x y h a b va vb), (sig_null c _ x h a va Ha Sa) by auto.
  destruct Sa as (_ & _ & <-), Sb as (_ & _ & <-). rewrite shape_dec_eqb, negb_involutive, negb_andb, !negb_involutive. reflexivity.
Qed.
Lemma asks_resolve s : shape_arg c s -> asks (resolve s) = asks s.
Proof. intros Hs. unfold SpecInterpThrow.asks. rewrite proper_resolve2 by apply Hs. reflexivity. Qed.
Lemma lost_resolve al s : shape_arg c s -> lost al (resolve s) = lost al s.
Proof. intros Hs. unfold SpecInterpThrow.lost. rewrite proper_resolve2 by apply Hs. reflexivity. Qed.

(** ** Statements *)

Lemma Forall2_map_catch {B D : Type} (g : B -> D) L : Forall2 (fun b e => Ok (Threw (A := D) (g b)) = Ok (Threw e)) L (map g L).
Proof. induction L; cbn; auto. Qed.
Lemma spent_add w L ha n r : spent L ha n r ->
  spent (map (fun h' => mkW h' (w_arr w) (S (w_next w))) L) (mkW (fst ha) (put (w_arr w) (w_next w) (Some (snd ha))) (S (w_next w))) n (add_x w r).
Proof. intros H. unfold add_x. eapply spent_ret; [exact H|apply (Forall2_map_catch (fun h' => mkW h' (w_arr w) (S (w_next w))))|reflexivity]. Qed.
Lemma spent_add2 w y L h' a' b' n r : spent L (h', a', b') n r ->
  spent (map (fun h' => mkW h' (w_arr w) (S (w_next w))) L) (mkW h' (put (put (w_arr w) y (Some b')) (w_next w) (Some a')) (S (w_next w))) n (add2_x w y r).
Proof. intros H. unfold add2_x. eapply spent_ret; [exact H|apply (Forall2_map_catch (fun h' => mkW h' (w_arr w) (S (w_next w))))|reflexivity]. Qed.
Lemma spent_change w x L ha n r : spent L ha n r ->
  spent (map (fun ha => mkW (fst ha) (put (w_arr w) x (Some (snd ha))) (w_next w)) L) (mkW (fst ha) (put (w_arr w) x (Some (snd ha))) (w_next w)) n (change_x w x r).
Proof. intros H. unfold change_x. eapply spent_ret; [exact H|apply (Forall2_map_catch (fun ha => mkW (fst ha) (put (w_arr w) x (Some (snd ha))) (w_next w)))|reflexivity]. Qed.

Definition runs w vs (o : op V) : Prop :=
  exists w' L, (forall n, spent L w' n (xstep c w o (allocs n))) /\ Forall2 showsX L (requests c vs o).
Lemma one_request {B : Type} (g : B -> world V) (q q' : bool) x vs : q = q' -> (q = true -> showsX (g x) vs) ->
  Forall2 showsX (map g (when q x)) (request q' vs).
Proof. intros <- H. destruct q; cbn; auto. Qed.

Lemma move_runs w vs x y va vb : Inv w -> shows w vs -> vs_arr vs x = Some va -> vs_arr vs y = Some vb ->
  (x <> y -> c_ndebug c = true \/ known_strides (v_shape vb)) ->
  exists w' w1, do_move_assign c w x y = Ok w' /\ Inv w' /\ shows w' (run_move c vs x y) /\
    (forall n, spent (when (negb (x =? y)%nat && move_renews c va vb) w1) w' n (do_move_assign_x c w x y (allocs n))) /\
    XInv w1 /\ showsX w1 (set_value vs x (Some (lost (v_al va) (v_shape vb)))).
Proof.
  intros I Sh Eva Evb C. destruct (run_move_ok c Hf w vs x y va vb I Sh Eva Evb C) as (w' & E & I' & Sh').
  destruct (shows_val c _ _ _ _ Sh Eva) as (a & Ea & Ha). destruct (shows_val c _ _ _ _ Sh Evb) as (b & Eb & Hb).
  pose proof (inv_valid c w x a I Ea) as Va. pose proof (inv_valid c w y b I Eb) as Vb.
  pose proof (is_value_sig c _ _ _ Ha) as Sa. pose proof (is_value_sig c _ _ _ Hb) as Sb.
  destruct (deallocate_raw c x (w_heap w) a (proj1 I) Va) as (h1 & a1 & Ed & Nm & _ & Eal & _).
  destruct (lost_world w vs x a (a_shape b) h1 a1 (a_al a1) I Sh Ea (inv_shape c w y b I Eb) Ed) as [I1 S1].
  replace (set_al a1 (a_al a1)) with a1 in I1, S1 by (destruct a1; reflexivity).
  pose proof Sa as (Sal & _). pose proof Sb as (_ & _ & Ssh). rewrite Eal, Sal, Ssh in S1.
  exists w', (wput w x h1 (failed a1 (v_shape vb))). split; auto. split; auto. split; auto. split; [|rewrite <- Ssh in *; auto].
  intros n. unfold do_move_assign in E. unfold do_move_assign_x. rewrite (get_ok w x a Ea), (get_ok w y b Eb) in *. cbn [bind] in *.
  destruct (move_assign_op c x (w_heap w) a y b) as [[[h' a'] b']| |] eqn:Em; try discriminate. cbn [change2 bind] in E. injection E as <-.
  eapply spent_ret; [apply (move_assign_spent c x (w_heap w) a y b h1 a1 _ n Ed (proj2 (proj2 Nm)) Em)| |reflexivity].
  replace (negb (c_pocma c || alloc_eq x a y b) && refits c a b) with (negb (x =? y)%nat && move_renews c va vb).
  { apply when_Forall2. intros _. rewrite Ssh. reflexivity. }
  destruct (Nat.eqb_spec x y) as [<-|N]; cbn [negb andb].
  - rewrite Ea in Eb. injection Eb as <-. unfold refits. rewrite ptr_eqb_refl. cbn [negb andb]. rewrite andb_false_r. reflexivity.
  - unfold move_renews. rewrite (refits_renews x y (w_heap w) a b va vb), (alloc_eq_exchange c x y (w_heap w) a b va vb) by
      (auto; apply (inv_apart c w x y); auto). reflexivity.
Qed.

Lemma on_list vs x v f : vs_arr vs x = Some v -> with_array vs x f = f v.
Proof. unfold with_array. intros ->. reflexivity. Qed.
Lemma on_list2 vs x y va vb f : vs_arr vs x = Some va -> vs_arr vs y = Some vb -> SpecInterpThrow.with_arrays vs x y f = f va vb.
Proof. unfold SpecInterpThrow.with_arrays, with_array. intros -> ->. reflexivity. Qed.
Lemma add_ok w r w' : add w r = Ok w' -> exists ha, r = Ok ha.
Proof. destruct r as [ha| |]; cbn; [eauto|discriminate|discriminate]. Qed.
Lemma add2_ok w y r w' : add2 w y r = Ok w' -> exists h a b, r = Ok (h, a, b).
Proof. destruct r as [[[h a] b]| |]; cbn; [eauto|discriminate|discriminate]. Qed.
Lemma change_ok w x r w' : change w x r = Ok w' -> exists ha, r = Ok ha.
Proof. destruct r as [ha| |]; cbn; [eauto|discriminate|discriminate]. Qed.

Lemma new_runs w vs s al : Inv w -> shows w vs -> shape_arg c s ->
  exists w', do_new c w s al = Ok w' /\ forall n, spent (when (asks s) (mkW (w_heap w) (w_arr w) (S (w_next w)))) w' n (do_new_x c w s al (allocs n)).
Proof.
  intros I Sh Hs. destruct (run_new c w vs s al I Sh Hs) as (w' & E & _). pose proof E as E0. unfold do_new in E. unfold do_new_x.
  destruct (ctor_shape c _ _ _ _) as [ha| |] eqn:Ec; try discriminate. exists w'. split; auto. intros n.
  pose proof (spent_add w _ ha n _ (ctor_shape_spent c _ _ _ _ _ n Ec)) as H. destruct ha as [h a]. cbn [add bind fst snd] in *. injection E as <-.
  destruct (asks s); exact H.
Qed.
Lemma new_move_runs w vs y vb : Inv w -> shows w vs -> vs_arr vs y = Some vb -> c_ndebug c = true \/ known_strides (v_shape vb) ->
  exists w', do_new_move c w y = Ok w' /\ Inv w' /\ shows w' (interp_op c vs (NewMove y)) /\
    forall n, spent (when (negb (c_pocma c || takes_over c (c_default c) vb) && asks (v_shape vb)) (mkW (w_heap w) (w_arr w) (S (w_next w)))) w' n
      (do_new_move_x c w y (allocs n)).
Proof.
  intros I Sh Ev C. destruct (shows_val c _ _ _ _ Sh Ev) as (b & Eb & Hb).
  destruct (run_do_new_move c Hf w vs y b vb I Sh Eb Ev Hb (value_copyable c w b vb Hb C)) as (w' & E & I' & Sh').
  exists w'. split; auto. split; auto. split; auto. intros n. unfold do_new_move in E. unfold do_new_move_x.
  rewrite (get_ok w y b Eb) in *. cbn [bind] in *.
  destruct (ctor_move c _ _ _ _) as [[[h a1] b1]| |] eqn:Ec; try discriminate.
  pose proof (spent_add2 w y _ h a1 b1 n _ (ctor_move_spent c _ _ _ _ _ n Ec)) as H. cbn [add2 bind] in *. injection E as <-.
  pose proof (inv_valid c w y b I Eb) as Vb. pose proof (is_value_sig c _ _ _ Hb) as Sb. pose proof (inv_lt c w y b I Eb) as Ly.
  rewrite (alloc_eq_takes c (w_next w) y (w_heap w) _ _ b vb) in H by (auto; lia). destruct Sb as (_ & _ & Ssh). rewrite Ssh in H.
  replace (c_pocma c || takes_over c (if c_pocma c then a_al b else c_default c) vb) with (c_pocma c || takes_over c (c_default c) vb) in H
    by (destruct (c_pocma c); reflexivity).
  destruct (negb _ && _); exact H.
Qed.

Lemma Forall2_two {A B : Type} (P : A -> B -> Prop) l1 l2 m1 m2 : Forall2 P l1 m1 -> Forall2 P l2 m2 -> Forall2 P (l1 ++ l2) (m1 ++ m2).
Proof. intros. apply Forall2_app; auto. Qed.
Lemma when_request (q : bool) w vs : showsX w vs -> Forall2 showsX (when q w) (request q vs).
Proof. destruct q; cbn; auto. Qed.
(** An assignment to [x] that throws once its storage is gone *)
Lemma change_runs w vs x a s al (q : bool) h1 a1 ha r : Inv w -> shows w vs -> w_arr w x = Some a -> shape_arg c s ->
  deallocate c x (w_heap w) a = Ok (h1, a1) ->
  (forall n, spent (when q (h1, failed (set_al a1 al) s)) ha n (r (allocs n))) ->
  exists w' L, (forall n, spent L w' n (change_x w x (r (allocs n)))) /\ Forall2 showsX L (request q (set_value vs x (Some (lost al s)))).
Proof.
  intros I Sh Ea Hs Ed H. eexists. eexists. split; [intros n; apply spent_change; apply H|].
  apply one_request; auto. intros _. cbn [fst snd]. apply (lost_world w vs x a s h1 a1 al); auto.
Qed.
Lemma new_runs_op w vs h' ha (q q' : bool) r : Inv w -> shows w vs -> local (w_heap w) [0%nat] h' [0%nat] -> q = q' ->
  (forall n, spent (when q h') ha n (r (allocs n))) ->
  exists w' L, (forall n, spent L w' n (add_x w (r (allocs n)))) /\ Forall2 showsX L (request q' (skip_name vs)).
Proof.
  intros I Sh L E H. eexists. eexists. split; [intros n; apply spent_add; apply H|]. apply one_request; auto. intros _. apply skipped; auto.
Qed.
Lemma new_runs_op2 w vs h1 h2 ha (q1 q2 q1' q2' : bool) r : Inv w -> shows w vs ->
  local (w_heap w) [0%nat] h1 [0%nat] -> local (w_heap w) [0%nat] h2 [0%nat] -> q1 = q1' -> q2 = q2' ->
  (forall n, spent (when q1 h1 ++ when q2 h2) ha n (r (allocs n))) ->
  exists w' L, (forall n, spent L w' n (add_x w (r (allocs n)))) /\ Forall2 showsX L (request q1' (skip_name vs) ++ request q2' (skip_name vs)).
Proof.
  intros I Sh L1 L2 E1 E2 H. eexists. eexists. split; [intros n; apply spent_add; apply H|]. rewrite map_app.
  apply Forall2_two; apply one_request; auto; intros _; apply skipped; auto.
Qed.

Lemma reshape_runs w vs x a va s : Inv w -> shows w vs -> w_arr w x = Some a -> vs_arr vs x = Some va -> is_value c (w_heap w) a va ->
  shape_arg c s -> Forall2 meets s (a_shape a) -> runs w vs (Reshape x s).
Proof.
  intros I Sh Ea Eva Ha Hs Hm. unfold runs. cbn [xstep requests]. rewrite (on_list vs x va) by auto.
  unfold do_reshape_x. rewrite (get_ok w x a Ea). cbn [bind]. pose proof (is_value_sig c _ _ _ Ha) as Sa.
  pose proof Sa as (_ & _ & Esa). unfold same_dims. rewrite <- Esa, (shape_dec_eqb (a_shape a)).
  destruct (shape_dec (a_shape a) (resolve s)) as [Eq|Eq].
  - exists w, []. split; [intros n; apply spent_done|constructor].
  - set (n := w_next w). pose proof (inv_lt c w x a I Ea) as Lx. fold n in Lx.
    assert (Nn : vs_next vs = n) by (symmetry; apply (shows_next c); auto).
    assert (Hrr : resolve (resolve s) = resolve s) by (apply proper_resolve2; apply Hs).
    assert (Hs2 : shape_arg c (resolve s)) by (apply shape_arg_resolve; auto).
    destruct (run_new c w vs (resolve s) (c_default c) I Sh Hs2) as (w1 & E1 & I1 & S1).
    destruct (new_runs w vs (resolve s) (c_default c) I Sh Hs2) as (w1' & E1' & R1). rewrite E1 in E1'. injection E1' as <-.
    assert (Exa : w_arr w1 x = Some a).
    { unfold do_new, add in E1. destruct (ctor_shape _ _ _ _ _) as [[h1 a1]| |]; try discriminate. injection E1 as <-. cbn [w_arr].
      rewrite put_other; auto. fold n. lia. }
    set (vn := built (c_default c) (resolve s) (fun _ => c_dv c)) in *. set (vs1 := new_value vs vn) in *.
    assert (Evn : vs_arr vs1 n = Some vn) by (unfold vs1; rewrite <- Nn; apply get_new_same).
    assert (Ev1 : vs_arr vs1 x = Some va) by (unfold vs1; rewrite get_new_other by lia; auto).
    destruct (shows_val c _ _ _ _ S1 Evn) as (b & Eb & Hb). destruct (shows_val c _ _ _ _ S1 Ev1) as (a1 & Ea1 & Ha1).
    rewrite Exa in Ea1. injection Ea1 as <-.
    pose proof (is_value_sig c _ _ _ Hb) as Sb. assert (Esb : a_shape b = resolve s) by (destruct Sb as (_ & _ & ->); cbn; auto).
    assert (Nxn : x <> n) by lia.
    pose proof (inv_apart c w1 x n a b I1 Nxn Exa Eb) as Hap.
    assert (Hm' : Forall2 meets (a_shape b) (a_shape a)) by (rewrite Esb; apply meets_resolve; auto).
    destruct (move_common_spec c x n (w_heap w1) a b (v_at va) (v_at vn) (proj1 I1) (inv_valid c w1 x a I1 Exa) (inv_valid c w1 n b I1 Eb)
      (is_value_has c _ _ _ Ha1) (is_value_has c _ _ _ Hb) Hap Hm') as (h2 & g & E2 & V1 & V2 & Hg & G1 & G2 & L2).
    destruct (inv_two c w1 x n a b h2) as [I2 U2]; auto.
    set (w2 := mkW h2 (w_arr w1) (w_next w1)) in *.
    destruct (inv_denotes c w2 x a I2 Exa) as (f2 & D2).
    set (va2 := filled va f2). set (vn2 := filled vn g).
    assert (S2 : shows w2 (set_value (set_value vs1 n (Some vn2)) x (Some va2))).
    { apply (finish_two c w1); auto.
      - eapply good_some; [exact Exa|apply sig_filled; exact Sa|exact D2].
      - eapply good_some; [exact Eb|apply sig_filled; exact Sb|]. apply has_denotes with (a := b); auto. }
    set (vs2 := set_value (set_value vs1 n (Some vn2)) x (Some va2)) in *.
    assert (F1 : vs_arr vs2 x = Some va2) by apply get_set_same.
    assert (F2 : vs_arr vs2 n = Some vn2) by (unfold vs2; rewrite get_set_other, get_set_same by lia; auto).
    destruct (move_runs w2 vs2 x n va2 vn2 I2 S2 F1 F2) as (w3 & wt & E3 & I3 & S3 & R3 & It & St).
    { intros _. right. cbn. rewrite Hrr. apply Hs. }
    unfold run_move in S3. rewrite (on2_eq vs2 x n va2 vn2), (proj2 (Nat.eqb_neq x n) Nxn) in S3 by auto.
    destruct (move_into c va2 vn2) as [ra rb] eqn:Emi.
    assert (F3 : exists b3, w_arr w3 n = Some b3).
    { destruct (shows_val c _ _ n rb S3) as (b3 & E & _); [rewrite get_set_other, get_set_same by lia; auto|eauto]. }
    destruct F3 as (b3 & Eb3). destruct (run_delete c Hf w3 _ n b3 I3 S3 Eb3) as (w4 & E4 & I4 & S4).
    destruct (deleted wt _ n vn2 It St) as (wt4 & Et4 & It4 & St4); [rewrite get_set_other by lia; auto|].
    rewrite (proj2 (Nat.eqb_neq x n) Nxn) in R3. cbn [negb andb] in R3.
    assert (Eq1 : asks (resolve s) = asks s) by (apply asks_resolve; auto).
    assert (Eq2 : move_renews c va2 vn2 = move_renews c va (built (c_default c) s (fun _ => c_dv c))).
    { unfold move_renews, renews, exchange, v_inline, va2, vn2, vn, filled, built. cbn [v_al v_mem v_shape]. rewrite Hrr, Eq1. reflexivity. }
    eexists. eexists. split.
    + intros m. eapply spent_bind; [apply R1| |].
      * apply when_catch. intros _. reflexivity.
      * intros m'. cbv beta. rewrite (get_ok w1 n b Eb). cbn [bind]. rewrite <- Esb, E2. cbn [bind].
        eapply spent_ret; [apply R3| |].
        -- apply when_catch. intros _. cbv beta. rewrite Et4. reflexivity.
        -- intros f. cbv beta. rewrite E4. reflexivity.
    + apply Forall2_two.
      * rewrite Eq1. apply when_request. apply skipped_same; auto.
      * rewrite Eq2. apply when_request.
        eapply showsX_ext; [exact St4|reflexivity|]. intros z. cbn [skip_name vs_arr].
        assert (El : lost (v_al va2) (v_shape vn2) = lost (v_al va) s).
        { unfold SpecInterpThrow.lost, va2, vn2, vn, filled, built. cbn [v_al v_mem v_shape]. rewrite !Hrr. reflexivity. }
        rewrite El. destruct (Nat.eq_dec z n) as [->|Nz].
        -- rewrite get_set_same, get_set_other by lia. apply (shows_none c w vs n); auto. apply (fresh c w I).
        -- rewrite (get_set_other _ n) by auto. destruct (Nat.eq_dec z x) as [->|Nx].
           ++ rewrite !get_set_same. reflexivity.
           ++ rewrite !(get_set_other _ x) by auto. unfold vs2. rewrite get_set_other, get_set_other by auto.
              unfold vs1. rewrite get_new_other by congruence. reflexivity.
Qed.

Lemma swap_runs w vs x y va vb : Inv w -> shows w vs -> vs_arr vs x = Some va -> vs_arr vs y = Some vb ->
  c_ndebug c = true \/ known_strides (v_shape va) -> c_ndebug c = true \/ known_strides (v_shape vb) -> runs w vs (Swap x y).
Proof.
  intros I Sh Eva Evb Ca Cb. destruct (shows_val c _ _ _ _ Sh Eva) as (a & Ea & Ha). destruct (shows_val c _ _ _ _ Sh Evb) as (b & Eb & Hb).
  unfold runs. cbn [xstep requests]. rewrite (on_list2 vs x y va vb) by auto. unfold do_swap_x. destruct (c_pocs c) eqn:Ep.
  - destruct (run_swap c Hf w vs x y va vb I Sh Eva Evb Ca Cb) as (w' & E & _). exists w', []. split; [intros n; apply spent_nothrow; auto|constructor].
  - set (n := w_next w). pose proof (inv_lt c w x a I Ea) as Lx. pose proof (inv_lt c w y b I Eb) as Ly. fold n in Lx, Ly.
    assert (Nn : vs_next vs = n) by (symmetry; apply (shows_next c); auto).
    destruct (new_move_runs w vs y vb I Sh Evb Cb) as (w1 & E1 & I1 & S1 & R1).
    cbn [interp interp_op] in S1. unfold run_move_new in S1. rewrite (on_eq vs y vb) in S1 by auto.
    assert (K : forall take al, c_ndebug c = true \/ known_strides (v_shape (fst (move_new c take al vb)))).
    { intros take al. destruct Cb as [Cb|Cb]; auto. right. unfold move_new. destruct take; cbn; auto.
      rewrite resolve_known by exact Cb. exact Cb. }
    specialize (K (c_pocma c || takes_over c (c_default c) vb) (if c_pocma c then v_al vb else c_default c)).
    cbv zeta. destruct (move_new _ _ _ _) as [na nb]. cbn [fst] in K.
    set (vs1 := new_value (set_value vs y (Some nb)) na) in *.
    assert (F1 : vs_arr vs1 n = Some na) by (unfold vs1; rewrite <- Nn; apply (get_new_same (set_value vs y (Some nb)))).
    assert (F2 : vs_arr vs1 y = Some nb) by (unfold vs1; rewrite get_new_other by (cbn; lia); apply get_set_same).
    assert (F0 : vs_arr vs n = None) by (apply (shows_none c w); auto; apply (fresh c w I)).
    destruct (Nat.eqb_spec x y) as [<-|N].
    + destruct (move_runs w1 vs1 x x nb nb I1 S1 F2 F2) as (w2 & wt & E2 & I2 & S2 & R2 & _). { congruence. }
      unfold run_move in S2. rewrite (on2_eq vs1 x x nb nb), Nat.eqb_refl in S2 by auto.
      rewrite Nat.eqb_refl in R2. cbn [negb andb when] in R2.
      destruct (move_runs w2 vs1 x n nb na I2 S2 F2 F1) as (w3 & wu & E3 & I3 & S3 & R3 & Iu & Su); auto.
      unfold run_move in S3. rewrite (on2_eq vs1 x n nb na), (proj2 (Nat.eqb_neq x n)) in S3 by (auto; lia).
      rewrite (proj2 (Nat.eqb_neq x n)) in R3 by lia. cbn [negb andb] in R3.
      destruct (move_into c nb na) as [ra rb].
      assert (F3 : exists b3, w_arr w3 n = Some b3).
      { destruct (shows_val c _ _ n rb S3) as (b3 & E & _); [rewrite get_set_other, get_set_same by lia; auto|eauto]. }
      destruct F3 as (b3 & Eb3). destruct (run_delete c Hf w3 _ n b3 I3 S3 Eb3) as (w4 & E4 & _).
      destruct (deleted wu _ n na Iu Su) as (wu4 & Eu4 & _ & Su4); [rewrite get_set_other by lia; auto|].
      eexists. eexists. split.
      * intros m. eapply spent_bind; [apply R1| |].
        -- apply when_catch. intros _. reflexivity.
        -- intros m'. cbv beta. eapply spent_first; [apply R2|]. intros m2. cbv beta. eapply spent_ret; [apply R3| |].
           ++ apply when_catch. intros _. cbv beta. rewrite Eu4. reflexivity.
           ++ intros f. cbv beta. rewrite E4. reflexivity.
      * apply Forall2_two.
        -- apply when_request. apply skipped_same; auto.
        -- apply when_request.
           eapply showsX_ext; [exact Su4|reflexivity|]. intros z. cbn [skip_name vs_arr]. destruct (Nat.eq_dec z n) as [->|Nz].
           ++ rewrite get_set_same, get_set_other by lia. auto.
           ++ rewrite (get_set_other _ n) by auto. destruct (Nat.eq_dec z x) as [->|Nx].
              ** rewrite !get_set_same. reflexivity.
              ** rewrite !(get_set_other _ x) by auto. unfold vs1. rewrite get_new_other by (cbn; congruence). rewrite get_set_other by auto. reflexivity.
    + assert (P1 : vs_arr vs1 x = Some va) by (unfold vs1; rewrite get_new_other by (cbn; lia); rewrite get_set_other; auto).
      destruct (move_runs w1 vs1 y x nb va I1 S1 F2 P1) as (w2 & wt & E2 & I2 & S2 & R2 & It & St); auto.
      unfold run_move in S2. rewrite (on2_eq vs1 y x nb va), (proj2 (Nat.eqb_neq y x)) in S2 by auto.
      rewrite (proj2 (Nat.eqb_neq y x)) in R2 by auto. cbn [negb andb] in R2.
      destruct (deleted wt _ n na It St) as (wt4 & Et4 & _ & St4); [rewrite get_set_other by lia; auto|].
      destruct (move_into c nb va) as [b2 a1]. set (vs2 := set_value (set_value vs1 x (Some a1)) y (Some b2)) in *.
      assert (F4 : vs_arr vs2 n = Some na) by (unfold vs2; rewrite !get_set_other by lia; auto).
      assert (F5 : vs_arr vs2 x = Some a1) by (unfold vs2; rewrite get_set_other, get_set_same by auto; auto).
      destruct (move_runs w2 vs2 x n a1 na I2 S2 F5 F4) as (w3 & wu & E3 & I3 & S3 & R3 & Iu & Su); auto.
      unfold run_move in S3. rewrite (on2_eq vs2 x n a1 na), (proj2 (Nat.eqb_neq x n)) in S3 by (auto; lia).
      rewrite (proj2 (Nat.eqb_neq x n)) in R3 by lia. cbn [negb andb] in R3.
      destruct (move_into c a1 na) as [ra rb].
      assert (F3 : exists b3, w_arr w3 n = Some b3).
      { destruct (shows_val c _ _ n rb S3) as (b3 & E & _); [rewrite get_set_other, get_set_same by lia; auto|eauto]. }
      destruct F3 as (b3 & Eb3). destruct (run_delete c Hf w3 _ n b3 I3 S3 Eb3) as (w4 & E4 & _).
      destruct (deleted wu _ n na Iu Su) as (wu4 & Eu4 & _ & Su4); [rewrite get_set_other by lia; auto|].
      eexists. eexists. split.
      * intros m. eapply spent_bind; [apply R1| |].
        -- apply when_catch. intros _. reflexivity.
        -- intros m'. cbv beta. eapply spent_bind; [apply R2| |].
           ++ apply when_catch. intros _. cbv beta. rewrite Et4. reflexivity.
           ++ intros m2. cbv beta. eapply spent_ret; [apply R3| |].
              ** apply when_catch. intros _. cbv beta. rewrite Eu4. reflexivity.
              ** intros f. cbv beta. rewrite E4. reflexivity.
      * apply Forall2_two; [|apply Forall2_two].
        -- apply when_request. apply skipped_same; auto.
        -- apply when_request.
           eapply showsX_ext; [exact St4|reflexivity|]. intros z. cbn [skip_name vs_arr]. destruct (Nat.eq_dec z n) as [->|Nz].
           ++ rewrite get_set_same, get_set_other by lia. auto.
           ++ rewrite (get_set_other _ n) by auto. destruct (Nat.eq_dec z y) as [->|Nx].
              ** rewrite !get_set_same. reflexivity.
              ** rewrite !(get_set_other _ y) by auto. unfold vs1. rewrite get_new_other by (cbn; congruence). rewrite get_set_other by auto. reflexivity.
        -- apply when_request.
           eapply showsX_ext; [exact Su4|reflexivity|]. intros z. cbn [skip_name vs_arr]. destruct (Nat.eq_dec z n) as [->|Nz].
           ++ rewrite get_set_same, !get_set_other by lia. auto.
           ++ rewrite (get_set_other _ n) by auto. destruct (Nat.eq_dec z x) as [->|Nx].
              ** rewrite !get_set_same. reflexivity.
              ** rewrite !(get_set_other _ x) by auto. unfold vs2. destruct (Nat.eq_dec z y) as [->|Ny].
                 --- rewrite !get_set_same. reflexivity.
                 --- rewrite !(get_set_other _ y), get_set_other by auto. unfold vs1. rewrite get_new_other by (cbn; congruence).
                     rewrite get_set_other by auto. reflexivity.
Qed.

Lemma op_runs w vs o : Inv w -> shows w vs -> allowed_op c vs o -> runs w vs o.
Proof.
  intros I Sh L. destruct (step_op c Hf w vs o I Sh L) as (w0 & E0 & _). pose proof (proj1 I) as Hh.
  assert (Hl0 : local (w_heap w) [0%nat] (w_heap w) [0%nat]) by (apply local_refl; auto).
  unfold runs. destruct o; cbn [allowed_op] in L; cbn [step] in E0; cbn [xstep requests].
  - (* New *) destruct (new_runs w vs s al I Sh L) as (w1 & _ & R). eexists. eexists. split; [exact R|].
    apply when_request. apply skipped_same; auto.
  - (* NewValue *) destruct (add_ok _ _ _ E0) as (ha & Ec).
    destruct (ctor_shape_spec c (w_next w) (w_heap w) al (c_shape0 c) Hh (proj1 Hf)) as (h1 & a1 & E1 & Hv & _ & Hl & Es & _).
    destruct (deallocate_raw c (w_next w) h1 a1 (proj1 Hl) Hv) as (h2 & a2 & Ed & Nm & _).
    apply (new_runs_op2 w vs (w_heap w) h2 ha (asks (c_shape0 c)) (negb (shape_eqb (a_shape a1) (resolve s)) && asks (resolve s))); auto.
    + apply (undone_local c Hf (w_next w) (w_heap w) al); auto. right. eauto.
    + rewrite Es, asks_resolve by auto. unfold same_dims. rewrite shape_dec_eqb. reflexivity.
    + intros n. apply (ctor_value_spent c _ _ _ _ _ _ _ _ _ _ n E1 Ed (proj2 (proj2 Nm)) Ec).
  - (* NewCopy *) destruct (copiable_val c _ _ _ Sh L) as (b & vb & Eb & Ev & Hb & Cb & _). rewrite (on_list vs y vb) by auto.
    rewrite (get_ok w y b Eb) in *. cbn [bind] in *. destruct (add_ok _ _ _ E0) as (ha & Ec).
    pose proof (inv_valid c w y b I Eb) as Vb. pose proof (is_value_sig c _ _ _ Hb) as Sb.
    eapply new_runs_op; [auto|auto|exact Hl0| |intros n; apply (ctor_copy_spent c _ _ _ _ n Ec)].
    rewrite (refits_renews (w_next w) y (w_heap w) _ b (bare c (c_select c (a_al b))) vb); auto.
    + unfold renews, bare. cbn [v_mem v_shape orb andb negb]. rewrite andb_true_r. reflexivity.
    + apply blank_default; auto.
    + apply blank_apart.
    + apply blank_sig.
  - (* NewCopyAlloc *) destruct (copiable_val c _ _ _ Sh L) as (b & vb & Eb & Ev & Hb & Cb & _). rewrite (on_list vs y vb) by auto.
    rewrite (get_ok w y b Eb) in *. cbn [bind] in *. destruct (add_ok _ _ _ E0) as (ha & Ec).
    pose proof (inv_valid c w y b I Eb) as Vb. pose proof (is_value_sig c _ _ _ Hb) as Sb.
    destruct (ctor_shape_spec c (w_next w) (w_heap w) al (c_shape0 c) Hh (proj1 Hf)) as (h1 & a1 & E1 & Hv & _ & Hl & Es & _).
    destruct (deallocate_raw c (w_next w) h1 a1 (proj1 Hl) Hv) as (h2 & a2 & Ed & Nm & _).
    apply (new_runs_op2 w vs (w_heap w) h2 ha (asks (c_shape0 c)) (refits c a1 b)); auto.
    + apply (undone_local c Hf (w_next w) (w_heap w) al); auto. right. eauto.
    + destruct (frame_local c _ y _ h1 _ _ b Hh Hl Vb) as (Hb1 & _ & Hd & _).
      { intros [Ii|[]]. auto. }
      apply (refits_renews (w_next w) y h1 a1 b); auto; [|eapply ctor_shape_sig; [exact Hh|exact E1]].
      intros Ii. rewrite Ii. apply Hd. left. auto.
    + intros n. apply (ctor_copy_alloc_spent c _ _ _ _ _ _ _ _ _ n E1 Ed (proj2 (proj2 Nm)) Ec).
  - (* NewMove *) destruct (copiable_val c _ _ _ Sh L) as (b & vb & Eb & Ev & Hb & Cb & K). rewrite (on_list vs y vb) by auto.
    destruct (new_move_runs w vs y vb I Sh Ev K) as (w1 & _ & _ & _ & R). eexists. eexists. split; [exact R|].
    apply when_request. apply skipped_same; auto.
  - (* NewMoveAlloc *) destruct (copiable_val c _ _ _ Sh L) as (b & vb & Eb & Ev & Hb & Cb & _). rewrite (on_list vs y vb) by auto.
    rewrite (get_ok w y b Eb) in *. cbn [bind] in *. destruct (add2_ok _ _ _ _ E0) as (h' & a' & b' & Ec).
    pose proof (inv_valid c w y b I Eb) as Vb. pose proof (is_value_sig c _ _ _ Hb) as Sb. pose proof (inv_lt c w y b I Eb) as Ly.
    eexists. eexists. split; [intros n; apply spent_add2; apply (ctor_move_alloc_spent c _ _ _ _ _ _ n Ec)|].
    apply one_request; [|intros _; apply skipped_same; auto].
    rewrite (alloc_eq_takes c (w_next w) y (w_heap w) _ _ b vb) by (auto; lia). destruct Sb as (_ & _ & Ssh). rewrite Ssh. reflexivity.
  - (* MakeCopy *) destruct L as [Hs L]. destruct (shaped_val c _ _ _ _ Sh L) as (b & vb & Eb & Ev & Hb & Hw).
    rewrite (get_ok w y b Eb) in *. cbn [bind] in *. destruct (add_ok _ _ _ E0) as (ha & Ec).
    eapply new_runs_op; [auto|auto|exact Hl0|reflexivity|intros n; apply (make_copy_spent c _ _ _ _ _ _ n Ec)].
  - (* MakeMove *) destruct L as [Hs L]. destruct (shaped_val c _ _ _ _ Sh L) as (b & vb & Eb & Ev & Hb & Hw).
    rewrite (get_ok w y b Eb) in *. cbn [bind] in *. destruct (add_ok _ _ _ E0) as (ha & Ec).
    eapply new_runs_op; [auto|auto|exact Hl0|reflexivity|intros n; apply (make_move_spent c _ _ _ _ _ _ n Ec)].
  - (* CopyAssign *) destruct L as [L1 L2]. destruct (present_val c _ _ _ Sh L1) as (a & va & Ea & Eva & Ha).
    destruct (copiable_val c _ _ _ Sh L2) as (b & vb & Eb & Evb & Hb & Cb & _). rewrite (on_list2 vs x y va vb) by auto.
    rewrite (get_ok w x a Ea), (get_ok w y b Eb) in *. cbn [bind] in *. destruct (change_ok _ _ _ _ E0) as (ha & Ec).
    pose proof (inv_valid c w x a I Ea) as Va. pose proof (inv_valid c w y b I Eb) as Vb.
    pose proof (is_value_sig c _ _ _ Ha) as Sa. pose proof (is_value_sig c _ _ _ Hb) as Sb.
    destruct (Nat.eqb_spec x y) as [<-|N]; cbn [negb andb].
    { rewrite Ea in Eb. injection Eb as <-. eexists. eexists. split; [|constructor]. intros n. apply (spent_change w x [] ha).
      unfold copy_assign_op_x. rewrite ptr_eqb_refl. apply spent_nothrow; auto. }
    destruct (deallocate_raw c x (w_heap w) a Hh Va) as (h1 & a1 & Ed & Nm & _ & Eal & _).
    assert (Sp := fun n => copy_assign_spent c x (w_heap w) a y b h1 a1 ha n N Ed (proj2 (proj2 Nm)) Ec). cbv zeta in Sp.
    pose proof (inv_apart c w x y a b I N Ea Eb) as Hap.
    rewrite (alloc_eq_exchange c x y (w_heap w) a b va vb N Va Vb Sa Sb), (sig_bases c x y (w_heap w) a b va vb) in Sp by auto.
    pose proof Sa as (Sal & Sma & Sas). pose proof Sb as (Sbl & Smb & Ssh). rewrite Eal, Sal, Sbl in Sp.
    set (a1v := if c_pocca c && negb (exchange c va vb) then mkVal (v_al vb) false (v_shape va) (v_at va) else va).
    assert (Eq : negb (negb (v_mem va) && negb (v_mem vb)) && refits c (if c_pocca c && negb (exchange c va vb) then set_al a1 (v_al vb) else a) b = renews c a1v vb).
    { unfold a1v. destruct (c_pocca c && negb (exchange c va vb)).
      - unfold refits, renews. cbn [set_al a_base a_shape v_mem v_shape orb andb negb]. rewrite (proj1 (proj2 Nm)). change (is_null null) with true. cbn [negb andb].
        rewrite <- (negb_involutive (v_mem vb)), <- (sig_null c _ y _ b vb Vb Sb), Ssh.
        replace (ptr_eqb null (a_base b)) with (is_null (a_base b)) by (unfold is_null, ptr_eqb; rewrite Nat.eqb_sym, Z.eqb_sym; reflexivity).
        destruct (v_mem va), (is_null (a_base b)); reflexivity.
      - rewrite (refits_renews x y (w_heap w) a b va vb) by auto. unfold renews.
        destruct (v_mem va), (v_mem vb); reflexivity. }
    rewrite Eq in Sp. replace (if c_pocca c && negb (exchange c va vb) then v_al vb else v_al va) with (v_al a1v) in Sp
      by (unfold a1v; destruct (_ && _); reflexivity).
    rewrite <- Ssh. eapply change_runs; [exact I|exact Sh|exact Ea|apply (inv_shape c w y b I Eb)|exact Ed|exact Sp].
  - (* MoveAssign *) destruct L as [L1 L2]. destruct (present_val c _ _ _ Sh L1) as (a & va & Ea & Eva & Ha).
    destruct (copiable_val c _ _ _ Sh L2) as (b & vb & Eb & Evb & Hb & Cb & K). rewrite (on_list2 vs x y va vb) by auto.
    destruct (move_runs w vs x y va vb I Sh Eva Evb) as (w' & w1 & _ & _ & _ & R & _ & S1); auto.
    eexists. eexists. split; [exact R|]. apply when_request; auto.
  - (* AssignCopy *) destruct L as [L1 L2]. destruct (present_val c _ _ _ Sh L1) as (a & va & Ea & Eva & Ha).
    destruct (copiable_val c _ _ _ Sh L2) as (b & vb & Eb & Evb & Hb & Cb & _). rewrite (on_list2 vs x y va vb) by auto.
    rewrite (get_ok w x a Ea), (get_ok w y b Eb) in *. cbn [bind] in *. destruct (change_ok _ _ _ _ E0) as (ha & Ec).
    pose proof (inv_valid c w x a I Ea) as Va. pose proof (inv_valid c w y b I Eb) as Vb.
    pose proof (is_value_sig c _ _ _ Ha) as Sa. pose proof (is_value_sig c _ _ _ Hb) as Sb.
    destruct (deallocate_raw c x (w_heap w) a Hh Va) as (h1 & a1 & Ed & Nm & _ & Eal & _).
    assert (Sp := fun n => assign_copy_spent c x (w_heap w) a b h1 a1 ha n Ed (proj2 (proj2 Nm)) Ec).
    pose proof Sa as (Sal & _). pose proof Sb as (_ & _ & Ssh).
    replace (refits c a b) with (negb (x =? y)%nat && renews c va vb) in Sp.
    2:{ destruct (Nat.eqb_spec x y) as [<-|N]; cbn [negb andb].
        - rewrite Ea in Eb. injection Eb as <-. unfold refits. rewrite ptr_eqb_refl. reflexivity.
        - symmetry. apply (refits_renews x y (w_heap w)); auto. apply (inv_apart c w x y); auto. }
    assert (Eset : set_al a1 (v_al va) = a1) by (rewrite <- Sal, <- Eal; destruct a1; reflexivity). rewrite <- Eset in Sp.
    rewrite <- Ssh. eapply change_runs; [exact I|exact Sh|exact Ea|apply (inv_shape c w y b I Eb)|exact Ed|exact Sp].
  - (* AssignMove *) destruct L as [L1 L2]. destruct (present_val c _ _ _ Sh L1) as (a & va & Ea & Eva & Ha).
    destruct (copiable_val c _ _ _ Sh L2) as (b & vb & Eb & Evb & Hb & Cb & _). rewrite (on_list2 vs x y va vb) by auto.
    rewrite (get_ok w x a Ea), (get_ok w y b Eb) in *. cbn [bind] in *. destruct (change_ok _ _ _ _ E0) as (ha & Ec).
    pose proof (inv_valid c w x a I Ea) as Va. pose proof (inv_valid c w y b I Eb) as Vb.
    pose proof (is_value_sig c _ _ _ Ha) as Sa. pose proof (is_value_sig c _ _ _ Hb) as Sb.
    destruct (deallocate_raw c x (w_heap w) a Hh Va) as (h1 & a1 & Ed & Nm & _ & Eal & _).
    assert (Sp := fun n => assign_move_spent c x (w_heap w) a b h1 a1 ha n Ed (proj2 (proj2 Nm)) Ec).
    pose proof Sa as (Sal & _). pose proof Sb as (_ & _ & Ssh).
    replace (refits c a b) with (negb (x =? y)%nat && renews c va vb) in Sp.
    2:{ destruct (Nat.eqb_spec x y) as [<-|N]; cbn [negb andb].
        - rewrite Ea in Eb. injection Eb as <-. unfold refits. rewrite ptr_eqb_refl. reflexivity.
        - symmetry. apply (refits_renews x y (w_heap w)); auto. apply (inv_apart c w x y); auto. }
    assert (Eset : set_al a1 (v_al va) = a1) by (rewrite <- Sal, <- Eal; destruct a1; reflexivity). rewrite <- Eset in Sp.
    rewrite <- Ssh. eapply change_runs; [exact I|exact Sh|exact Ea|apply (inv_shape c w y b I Eb)|exact Ed|exact Sp].
  - (* AssignValue *) destruct L as [L Hs]. destruct (present_val c _ _ _ Sh L) as (a & va & Ea & Eva & Ha). rewrite (on_list vs x va) by auto.
    rewrite (get_ok w x a Ea) in *. cbn [bind] in *. destruct (change_ok _ _ _ _ E0) as (ha & Ec).
    pose proof (inv_valid c w x a I Ea) as Va. pose proof (is_value_sig c _ _ _ Ha) as Sa.
    destruct (deallocate_raw c x (w_heap w) a Hh Va) as (h1 & a1 & Ed & Nm & _ & Eal & _).
    assert (Sp := fun n => assign_value_spent c x (w_heap w) a s (fun _ => Ok v) h1 a1 ha n Ed (proj2 (proj2 Nm)) Ec).
    pose proof Sa as (Sal & _ & Sas). rewrite asks_resolve, shape_dec_eqb, Sas in Sp by auto.
    assert (Eset : set_al a1 (v_al va) = a1) by (rewrite <- Sal, <- Eal; destruct a1; reflexivity). rewrite <- Eset in Sp.
    rewrite <- lost_resolve by auto. eapply change_runs; [exact I|exact Sh|exact Ea|apply shape_arg_resolve; auto|exact Ed|exact Sp].
  - (* Clear *) destruct (present_val c _ _ _ Sh L) as (a & va & Ea & Eva & Ha). rewrite (on_list vs x va) by auto.
    rewrite (get_ok w x a Ea) in *. cbn [bind] in *. destruct (change_ok _ _ _ _ E0) as (ha & Ec).
    pose proof (inv_valid c w x a I Ea) as Va. pose proof (is_value_sig c _ _ _ Ha) as Sa.
    destruct (deallocate_raw c x (w_heap w) a Hh Va) as (h1 & a1 & Ed & Nm & _ & Eal & _).
    assert (Sp := fun n => clear_spent c x (w_heap w) a h1 a1 ha n Ed (proj2 (proj2 Nm)) Ec).
    pose proof Sa as (Sal & _).
    assert (Eset : set_al a1 (v_al va) = a1) by (rewrite <- Sal, <- Eal; destruct a1; reflexivity). rewrite <- Eset in Sp.
    eapply change_runs; [exact I|exact Sh|exact Ea|apply Hf|exact Ed|exact Sp].
  - (* Reshape *) destruct L as [Hs L]. destruct (shaped_val c _ _ _ _ Sh L) as (a & va & Ea & Eva & Ha & Hm). apply (reshape_runs w vs x a va); auto.
  - (* Swap *) destruct L as [(va & Ea & Ca) (vb & Eb & Cb)]. apply (swap_runs w vs x y va vb); auto.
  - (* Write *) exists w0, []. split; [|constructor]. intros n. apply spent_nothrow; auto.
  - (* Delete *) exists w0, []. split; [|constructor]. intros n. apply spent_nothrow; auto.
Qed.
End Interp.
