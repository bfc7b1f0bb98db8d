(** Proofs about the overloads selected by calls. *)
From Coq Require Import ZArith List Bool Arith Lia.
From Verif Require Import Base Interval Shape Static Typed Tac ShapeFacts Calls SpecCalls.
Import ListNotations.
Open Scope Z_scope.

(** ** Single arguments *)
Lemma not_equal_dynamic x : not_equal dynamic x = false.
Proof. reflexivity. Qed.
Lemma interval_constructible_dynamic t : interval_constructible (mkIT dynamic dynamic) t = true.
Proof. reflexivity. Qed.

Lemma select_range a v : has_type a v -> exists p, select range_with_stride_overloads a = Selected p /\ accessible p a = true /\
  p = match v with TIdx _ => PIndex | TInt t _ => if is_placeholder t then PAll else PInterval | TDim _ _ => PDim end.
Proof.
  intros H. destruct H as [a x H|t i|t d].
  - destruct H; eexists; repeat split.
  - unfold select, range_with_stride_overloads, beats; cbn [filter forallb]. cbn [conv_to].
    destruct (is_placeholder t) eqn:E; [eexists; cbn; rewrite E; repeat split|].
    destruct (interval_constructible (mkIT 0 (-1)) t) eqn:F; eexists; cbn; rewrite ?E, ?F; repeat split.
  - unfold select, range_with_stride_overloads, beats; cbn [filter forallb]. cbn [conv_to].
    destruct (is_placeholder (base_range t)) eqn:E; [eexists; cbn; rewrite E; repeat split|].
    destruct (interval_constructible (mkIT 0 (-1)) (base_range t)) eqn:F; eexists; cbn; rewrite ?E, ?F; repeat split.
Qed.
Lemma select_skip a v : has_type a v -> exists p, select skip_slices_overloads a = Selected p /\ accessible p a = true /\
  p = match v with TIdx _ => PIndex | TInt _ _ => PInterval | TDim _ _ => PDim end.
Proof. intros H. destruct H as [a x H|t i|t d]; [destruct H|..]; eexists; repeat split. Qed.

Theorem range_called nd a v td : has_type a v ->
  call_helper range_with_stride_overloads (fun p => range_with_stride_body nd p v td) a = Some (range_with_stride_T nd v td).
Proof.
  intros H. destruct (select_range a v H) as (p & S1 & A & P). unfold call_helper. rewrite S1, A, P.
  destruct td as [t d]. destruct v as [x|ti i|tc c]; cbn; auto. destruct (is_placeholder ti); reflexivity.
Qed.
Theorem skip_called a v x : has_type a v ->
  call_helper skip_slices_overloads (fun p => Some (skip_slices_body p x)) a = Some (skip_slices_impl_T x v).
Proof.
  intros H. destruct (select_skip a v H) as (p & S1 & A & P). unfold call_helper. rewrite S1, A, P. destruct v; reflexivity.
Qed.
Theorem min_called a v d : has_type a v ->
  call_helper min_of_range_overloads (fun p => min_of_range_body p v d) a = Some (min_of_range (erase v) d).
Proof.
  intros H. destruct (select_range a v H) as (p & S1 & A & P). unfold call_helper.
  change min_of_range_overloads with range_with_stride_overloads. rewrite S1, A, P.
  destruct v as [x|ti i|tc c]; cbn; auto. destruct (is_placeholder ti); reflexivity.
Qed.
(** [_] is an interval like any other here *)
Theorem in_range_called a v d : has_type a v ->
  call_helper in_range_overloads (fun p => in_range_body p v d) a =
    Some match v with
         | TIdx x => i_in_range (d_interval d) x
         | TInt _ i => i_in_range_interval (d_interval d) i
         | TDim _ c => i_in_range_interval (d_interval d) (d_interval c)
         end.
Proof.
  intros H. destruct (select_skip a v H) as (p & S1 & A & P). unfold call_helper.
  change in_range_overloads with skip_slices_overloads. rewrite S1, A, P. destruct v; reflexivity.
Qed.

(** ** Constraints *)
Lemma vany_cons b l : vany (b :: l) = b || vany l.
Proof.
  unfold vany. cbn [map]. rewrite vsum_cons.
  assert (H : 0 <= vsum (map (fun b0 : bool => if b0 then 1 else 0) l)).
  { induction l as [|c l IH]; [cbn; lia|]. cbn [map]. rewrite vsum_cons. destruct c; lia. }
  destruct b; [|reflexivity]. cbn [orb]. apply negb_true_iff, Z.eqb_neq. lia.
Qed.
Lemma constructs_index_iff a : constructs_index a = true <-> an_index a \/ a = TyExplicit.
Proof. split; [destruct a; try discriminate; intros _; auto using an_index|intros [[]| ->]; reflexivity]. Qed.
Lemma converts_iff a : (match conv_to PIndex a with Some _ => true | None => false end) = true <-> an_index a.
Proof. split; [destruct a; try discriminate; intros _; auto using an_index|intros []; reflexivity]. Qed.
Lemma slice_iff a : vany (map (fun t => t a) [constructs_interval; constructs_dim]) = true <->
  an_index a \/ a_range a \/ a = TyToInterval.
Proof.
  cbn [map]. rewrite !vany_cons. split.
  - destruct a; cbn; try discriminate; intros _; auto using an_index, a_range.
  - intros [[]|[[]| ->]]; reflexivity.
Qed.
Lemma all_of_any_iff ts args : all_of_any_type ts args = true <-> Forall (fun a => vany (map (fun t => t a) ts) = true) args.
Proof.
  induction args as [|a args IH]; cbn; [split; auto|]. rewrite andb_true_iff, IH, Forall_cons_iff. reflexivity.
Qed.
Lemma all_index_iff args : all_of_type constructs_index args = true <-> Forall (fun a => an_index a \/ a = TyExplicit) args.
Proof.
  unfold all_of_type. rewrite all_of_any_iff. split; intros F; (eapply Forall_impl; [|exact F]); intros a; cbn [map];
    rewrite vany_cons, orb_true_iff, constructs_index_iff; [intros [?|?]; [auto|discriminate]|auto].
Qed.
Lemma all_slice_iff args : all_of_any_type [constructs_interval; constructs_dim] args = true <->
  Forall (fun a => an_index a \/ a_range a \/ a = TyToInterval) args.
Proof.
  rewrite all_of_any_iff. split; intros F; (eapply Forall_impl; [|exact F]); intros a; rewrite slice_iff; auto.
Qed.
Lemma forallb_Forall {A} (f : A -> bool) (P : A -> Prop) l : (forall x, f x = true <-> P x) -> (forallb f l = true <-> Forall P l).
Proof. intros E. rewrite forallb_forall, Forall_forall. firstorder. Qed.
Lemma flat_offset_iff args : flat_offset_compiles args = true <-> Forall an_index args.
Proof. apply forallb_Forall, converts_iff. Qed.
Lemma slice_arg_iff a : slice_arg_compiles a = true <-> an_index a \/ a_range a.
Proof.
  split.
  - destruct a; try discriminate; intros _; auto using an_index, a_range.
  - intros H. assert (T : exists v, has_type a v) by
      (destruct H as [H|[t|t]]; eexists; [apply (value_index a 0 H)|apply (value_interval t (mkI 0 0))|apply (value_dim t (mkD 0 0 0))]).
    destruct T as [v T]. destruct (select_range a v T) as (p & S1 & A1 & _), (select_skip a v T) as (q & S2 & A2 & _).
    unfold slice_arg_compiles, compiles. rewrite S1, S2, A1, A2. reflexivity.
Qed.
Lemma min_iff a : compiles min_of_range_overloads a = true <-> an_index a \/ a_range a.
Proof.
  split.
  - destruct a; try discriminate; intros _; auto using an_index, a_range.
  - intros H. apply slice_arg_iff in H. apply andb_true_iff in H. apply H.
Qed.
Lemma in_range_iff a : compiles in_range_overloads a = true <-> an_index a \/ a_range a.
Proof.
  split.
  - destruct a; try discriminate; intros _; auto using an_index, a_range.
  - intros H. apply slice_arg_iff in H. apply andb_true_iff in H. apply H.
Qed.
Lemma range_not_index a : a_range a -> ~ (an_index a \/ a = TyExplicit).
Proof. intros [] [H|H]; inversion H. Qed.
Lemma ex_range args : Forall (fun a => an_index a \/ a_range a) args ->
  (~ Forall (fun a => an_index a \/ a = TyExplicit) args <-> Exists a_range args).
Proof.
  intros F. split.
  - intros N. destruct (Exists_dec a_range args) as [E|E]; [|exact E|].
    + intros a. destruct a; try (right; intros H; inversion H; fail); left; constructor.
    + exfalso. apply N. rewrite Forall_forall in *. intros a I1. destruct (F a I1) as [?|R]; auto.
      exfalso. apply E. apply Exists_exists. eauto.
  - intros E G. apply Exists_exists in E as (a & I1 & R). rewrite Forall_forall in G. apply (range_not_index a R), G, I1.
Qed.

(** ** Calls *)
Lemma not_both rank args : enable_if_all_indices rank args = true -> enable_if_any_slices rank args = false.
Proof.
  unfold enable_if_all_indices, enable_if_any_slices. intros H. apply andb_true_iff in H as [_ H]. rewrite H. apply andb_false_r.
Qed.
Lemma all_indices_iff rank args : enable_if_all_indices rank args = true <->
  length args = rank /\ Forall (fun a => an_index a \/ a = TyExplicit) args.
Proof. unfold enable_if_all_indices. rewrite andb_true_iff, Nat.eqb_eq, all_index_iff. reflexivity. Qed.
Lemma any_slices_iff rank args : enable_if_any_slices rank args = true <->
  length args = rank /\ Forall (fun a => an_index a \/ a_range a \/ a = TyToInterval) args /\
  ~ Forall (fun a => an_index a \/ a = TyExplicit) args.
Proof.
  unfold enable_if_any_slices. rewrite !andb_true_iff, Nat.eqb_eq, all_slice_iff, negb_true_iff, <- all_index_iff, not_true_iff_false. tauto.
Qed.
Lemma tuple_iff rank args : (exists c, tuple_to_index rank args = Some c) <-> length args = rank /\ Forall an_index args.
Proof.
  unfold tuple_to_index. destruct (Nat.eqb_spec (length args) rank) as [E|E].
  - destruct (forallb (fun a => match a with TyIndex => true | _ => false end) args) eqn:F.
    + split; [|eauto]. intros _. split; [exact E|]. rewrite forallb_forall in F. apply Forall_forall. intros a I1.
      specialize (F a I1). destruct a; try discriminate. constructor.
    + pose proof (flat_offset_iff args) as G. unfold flat_offset_compiles in G.
      destruct (forallb _ args) eqn:H in |- *; rewrite H in G.
      * split; [|eauto]. intros _. split; [exact E|]. apply G. reflexivity.
      * split; [intros [c C]; discriminate|]. intros [_ K]. apply G in K. discriminate.
  - split; [intros [c C]; discriminate|]. intros [H _]. contradiction.
Qed.
Lemma tuple_no_slices rank args c : tuple_to_index rank args = Some c -> enable_if_any_slices rank args = false.
Proof.
  intros T. apply not_both, all_indices_iff. assert (H : exists c, tuple_to_index rank args = Some c) by eauto.
  apply tuple_iff in H as [E F]. split; [exact E|]. eapply Forall_impl; [|exact F]. auto.
Qed.
Lemma tuple_of_indices n : tuple_to_index n (repeat TyIndex n) = Some Exact.
Proof.
  unfold tuple_to_index. rewrite repeat_length, Nat.eqb_refl.
  assert (F : forallb (fun a => match a with TyIndex => true | _ => false end) (repeat TyIndex n) = true) by (induction n; auto).
  rewrite F. reflexivity.
Qed.
Lemma map_const {A B} (x : B) (l : list A) : map (fun _ => x) l = repeat x (length l).
Proof. induction l; cbn; congruence. Qed.

Lemma shape_bracket_element rank args : shape_bracket rank args = Compiles Element <-> length args = rank /\ Forall an_index args.
Proof.
  rewrite <- tuple_iff. unfold shape_bracket. split.
  - destruct (tuple_to_index rank args) as [c|]; [eauto|]. destruct (enable_if_any_slices rank args); unfold with_body; [|discriminate].
    destruct (forallb _ _); discriminate.
  - intros [c C]. rewrite C, (tuple_no_slices _ _ _ C). destruct c; reflexivity.
Qed.
Lemma slice_conditions rank args : enable_if_any_slices rank args = true /\ forallb slice_arg_compiles args = true <->
  length args = rank /\ Forall (fun a => an_index a \/ a_range a) args /\ Exists a_range args.
Proof.
  rewrite any_slices_iff, (forallb_Forall _ _ args slice_arg_iff). split.
  - intros ((E & F & N) & G). split; [exact E|]. split; [exact G|]. apply ex_range; auto.
  - intros (E & G & X). split; [|exact G]. split; [exact E|]. split; [|apply ex_range; auto].
    eapply Forall_impl; [|exact G]. cbn; tauto.
Qed.
Lemma shape_bracket_view rank args : shape_bracket rank args = Compiles View <->
  length args = rank /\ Forall (fun a => an_index a \/ a_range a) args /\ Exists a_range args.
Proof.
  rewrite <- slice_conditions. unfold shape_bracket. split.
  - destruct (tuple_to_index rank args) as [c|] eqn:T.
    + rewrite (tuple_no_slices _ _ _ T). destruct c; discriminate.
    + destruct (enable_if_any_slices rank args); [|discriminate]. unfold with_body. destruct (forallb _ _); [auto|discriminate].
  - intros [S1 S2]. rewrite S1, S2. destruct (tuple_to_index rank args) as [c|] eqn:T; [|reflexivity].
    rewrite (tuple_no_slices _ _ _ T) in S1. discriminate.
Qed.
Lemma gives_iff c r : gives c r = true <-> c = Compiles r.
Proof. split; [destruct c as [| | |[|]], r; cbn; congruence|intros ->; destruct r; reflexivity]. Qed.
Lemma make_at_iff rank args : make_array_ref_at_compiles rank args = true <->
  length args = rank /\ Forall (fun a => an_index a \/ a_range a) args /\ Exists a_range args.
Proof.
  unfold make_array_ref_at_compiles. rewrite !andb_true_iff, !gives_iff, (forallb_Forall _ _ args min_iff), shape_bracket_view.
  split; [intros [[H _] _]; exact H|]. intros (E & F & X). split; [auto|]. rewrite shape_bracket_element, map_length. split; [exact E|].
  rewrite map_const. apply Forall_forall. intros a I1. apply repeat_spec in I1. subst a. constructor.
Qed.
Lemma index_conditions rank args : enable_if_all_indices rank args = true /\ flat_offset_compiles args = true <->
  length args = rank /\ Forall an_index args.
Proof.
  rewrite all_indices_iff, flat_offset_iff. split; [tauto|]. intros [E F]. repeat split; auto. eapply Forall_impl; [|exact F]. auto.
Qed.

Section Paren.
(** Both operators [()] have this form *)
Variables (rank : nat) (args : list argT) (index_ok slice_ok : bool).
Hypothesis index_iff : enable_if_all_indices rank args = true -> (index_ok = true <-> Forall an_index args).
Hypothesis view_iff : enable_if_any_slices rank args = true -> (slice_ok = true <-> forallb slice_arg_compiles args = true).
Definition paren : call :=
  match enable_if_all_indices rank args, enable_if_any_slices rank args with
  | true, true => AmbiguousCall
  | true, false => with_body Element index_ok
  | false, true => with_body View slice_ok
  | false, false => Rejected
  end.
Lemma paren_element : paren = Compiles Element <-> length args = rank /\ Forall an_index args.
Proof using index_iff.
  clear view_iff.
  rewrite <- index_conditions, flat_offset_iff. unfold paren. destruct (enable_if_all_indices rank args) eqn:E.
  - rewrite (not_both _ _ E), <- (index_iff eq_refl). unfold with_body. destruct index_ok; split; try tauto; try discriminate; intros [_ ?]; discriminate.
  - split; [|intros [? _]; discriminate]. destruct (enable_if_any_slices rank args); [|discriminate]. unfold with_body. destruct slice_ok; discriminate.
Qed.
Lemma paren_view : paren = Compiles View <-> length args = rank /\ Forall (fun a => an_index a \/ a_range a) args /\ Exists a_range args.
Proof using view_iff.
  clear index_iff.
  rewrite <- slice_conditions. unfold paren. destruct (enable_if_any_slices rank args) eqn:E.
  - rewrite <- (view_iff eq_refl). destruct (enable_if_all_indices rank args) eqn:G; [rewrite (not_both _ _ G) in E; discriminate|].
    unfold with_body. destruct slice_ok; split; try tauto; try discriminate; intros [_ ?]; discriminate.
  - split; [|intros [? _]; discriminate]. destruct (enable_if_all_indices rank args); [|discriminate]. unfold with_body. destruct index_ok; discriminate.
Qed.
Lemma paren_unambiguous : paren <> AmbiguousCall.
Proof using.
  clear index_iff view_iff.
  unfold paren. destruct (enable_if_all_indices rank args) eqn:E.
  - rewrite (not_both _ _ E). unfold with_body. destruct index_ok; discriminate.
  - destruct (enable_if_any_slices rank args); [|discriminate]. unfold with_body. destruct slice_ok; discriminate.
Qed.
Lemma paren_rejected : length args <> rank -> paren = Rejected.
Proof using.
  clear index_iff view_iff.
  intros N. unfold paren, enable_if_all_indices, enable_if_any_slices. apply Nat.eqb_neq in N. rewrite N. reflexivity.
Qed.
End Paren.

Lemma shape_index_iff rank args : enable_if_all_indices rank args = true -> (flat_offset_compiles args = true <-> Forall an_index args).
Proof. intros _. apply flat_offset_iff. Qed.
Lemma shape_view_iff rank args : enable_if_any_slices rank args = true ->
  (gives (shape_bracket rank args) View = true <-> forallb slice_arg_compiles args = true).
Proof. intros E. rewrite gives_iff, shape_bracket_view, <- slice_conditions. tauto. Qed.
Lemma shape_paren_element rank args : shape_paren rank args = Compiles Element <-> length args = rank /\ Forall an_index args.
Proof. apply (paren_element rank args (flat_offset_compiles args) (gives (shape_bracket rank args) View) (shape_index_iff rank args)). Qed.
Lemma shape_paren_view rank args : shape_paren rank args = Compiles View <->
  length args = rank /\ Forall (fun a => an_index a \/ a_range a) args /\ Exists a_range args.
Proof. apply (paren_view rank args (flat_offset_compiles args) (gives (shape_bracket rank args) View) (shape_view_iff rank args)). Qed.

Lemma array_index_iff rank args : enable_if_all_indices rank args = true -> (gives (shape_paren rank args) Element = true <-> Forall an_index args).
Proof. intros E. rewrite gives_iff, shape_paren_element. apply all_indices_iff in E. tauto. Qed.
Lemma array_view_iff rank args : enable_if_any_slices rank args = true ->
  (make_array_ref_at_compiles rank args = true <-> forallb slice_arg_compiles args = true).
Proof. intros E. rewrite make_at_iff, <- slice_conditions. tauto. Qed.
Theorem array_paren_element rank args : array_paren rank args = Compiles Element <-> length args = rank /\ Forall an_index args.
Proof. apply (paren_element rank args (gives (shape_paren rank args) Element) (make_array_ref_at_compiles rank args) (array_index_iff rank args)). Qed.
Theorem array_paren_view rank args : array_paren rank args = Compiles View <->
  length args = rank /\ Forall (fun a => an_index a \/ a_range a) args /\ Exists a_range args.
Proof. apply (paren_view rank args (gives (shape_paren rank args) Element) (make_array_ref_at_compiles rank args) (array_view_iff rank args)). Qed.
Theorem parens_unambiguous rank args : array_paren rank args <> AmbiguousCall /\ shape_paren rank args <> AmbiguousCall.
Proof. split; apply paren_unambiguous. Qed.

Lemma array_bracket_element rank args : array_bracket rank args = Compiles Element <-> length args = rank /\ Forall an_index args.
Proof.
  rewrite <- tuple_iff. unfold array_bracket. split.
  - destruct (tuple_to_index rank args) as [c|]; [eauto|]. destruct (enable_if_any_slices rank args); unfold with_body; [|discriminate].
    destruct (make_array_ref_at_compiles _ _); discriminate.
  - intros [c C]. rewrite C, (tuple_no_slices _ _ _ C).
    assert (G : gives (shape_bracket rank (repeat TyIndex rank)) Element = true).
    { apply gives_iff, shape_bracket_element, tuple_iff. eexists. apply tuple_of_indices. }
    rewrite G. destruct c; reflexivity.
Qed.
Lemma array_bracket_view rank args : array_bracket rank args = Compiles View <->
  length args = rank /\ Forall (fun a => an_index a \/ a_range a) args /\ Exists a_range args.
Proof.
  rewrite <- slice_conditions. unfold array_bracket. destruct (tuple_to_index rank args) as [c|] eqn:T.
  - rewrite (tuple_no_slices _ _ _ T). split; [|intros [? _]; discriminate]. unfold with_body.
    destruct c, (gives _ _); discriminate.
  - destruct (enable_if_any_slices rank args) eqn:E; [|split; [discriminate|intros [? _]; discriminate]].
    rewrite <- (array_view_iff _ _ E). unfold with_body. destruct (make_array_ref_at_compiles _ _); split; try tauto; try discriminate; intros [_ ?]; discriminate.
Qed.

(** All four operators take the same arguments. *)
Theorem elements_agree rank args (op : nat -> list argT -> call) : In op [array_paren; array_bracket; shape_paren; shape_bracket] ->
  (op rank args = Compiles Element <-> length args = rank /\ Forall an_index args).
Proof.
  intros [<-|[<-|[<-|[<-|[]]]]];
    [apply array_paren_element|apply array_bracket_element|apply shape_paren_element|apply shape_bracket_element].
Qed.
Theorem views_agree rank args (op : nat -> list argT -> call) : In op [array_paren; array_bracket; shape_paren; shape_bracket] ->
  (op rank args = Compiles View <-> length args = rank /\ Forall (fun a => an_index a \/ a_range a) args /\ Exists a_range args).
Proof.
  intros [<-|[<-|[<-|[<-|[]]]]];
    [apply array_paren_view|apply array_bracket_view|apply shape_paren_view|apply shape_bracket_view].
Qed.
Theorem calls_unambiguous rank args (op : nat -> list argT -> call) : In op [array_paren; array_bracket; shape_paren; shape_bracket] ->
  op rank args <> AmbiguousCall.
Proof.
  assert (W : forall r b, with_body r b <> AmbiguousCall) by (intros r []; discriminate).
  intros [<-|[<-|[<-|[<-|[]]]]]; [apply parens_unambiguous| |apply parens_unambiguous|].
  - unfold array_bracket. destruct (tuple_to_index rank args) as [[| |]|], (enable_if_any_slices rank args); try apply W; discriminate.
  - unfold shape_bracket. destruct (tuple_to_index rank args) as [[| |]|], (enable_if_any_slices rank args); try apply W; discriminate.
Qed.
Theorem wrong_count rank args (op : nat -> list argT -> call) : In op [array_paren; array_bracket; shape_paren; shape_bracket] ->
  length args <> rank -> op rank args = Rejected.
Proof.
  intros [<-|[<-|[<-|[<-|[]]]]] N; try (apply paren_rejected, N);
    unfold array_bracket, shape_bracket, tuple_to_index, enable_if_any_slices; apply Nat.eqb_neq in N; rewrite N; reflexivity.
Qed.
(** An argument no overload takes is refused before anything is compiled. *)
Theorem others_rejected rank args (op : nat -> list argT -> call) : In op [array_paren; array_bracket; shape_paren; shape_bracket] ->
  In TyOther args -> op rank args = Rejected.
Proof.
  intros O I1.
  assert (A : enable_if_all_indices rank args = false).
  { apply not_true_iff_false. rewrite all_indices_iff, Forall_forall. intros [_ F]. destruct (F _ I1) as [H|H]; inversion H. }
  assert (B : enable_if_any_slices rank args = false).
  { apply not_true_iff_false. rewrite any_slices_iff, Forall_forall. intros (_ & F & _). destruct (F _ I1) as [H|[H|H]]; inversion H. }
  assert (C : tuple_to_index rank args = None).
  { destruct (tuple_to_index rank args) as [c|] eqn:T; [|reflexivity].
    assert (H : exists c, tuple_to_index rank args = Some c) by eauto. apply tuple_iff in H as [_ F].
    rewrite Forall_forall in F. specialize (F _ I1). inversion F. }
  destruct O as [<-|[<-|[<-|[<-|[]]]]];
    unfold array_paren, shape_paren, array_bracket, shape_bracket; rewrite ?A, ?B, ?C; reflexivity.
Qed.
Theorem in_range_call_iff rank args : in_range_call rank args = Some true <->
  length args = rank /\ Forall (fun a => an_index a \/ a_range a) args.
Proof.
  unfold in_range_call, enable_if_any_slices_or_indices.
  destruct (Nat.eqb_spec (length args) rank) as [E|E]; cbn [andb]; [|split; [discriminate|tauto]].
  destruct (all_of_any_type [constructs_interval; constructs_dim] args) eqn:A.
  - rewrite <- (forallb_Forall _ _ args in_range_iff). split; [intros H; inversion H; auto|intros [_ ->]; reflexivity].
  - split; [discriminate|]. intros [_ F]. exfalso. apply not_true_iff_false in A. apply A, all_slice_iff.
    eapply Forall_impl; [|exact F]. cbn; tauto.
Qed.

(** Arguments that meet the constraints, though the call does not compile *)
Theorem constraints_too_weak :
  (exists rank args, enable_if_all_indices rank args = true /\ array_paren rank args = IllFormed) /\
  (exists rank args, enable_if_any_slices rank args = true /\ array_paren rank args = IllFormed) /\
  (exists rank args, enable_if_any_slices_or_indices rank args = true /\ in_range_call rank args = Some false).
Proof.
  split; [exists 1%nat, [TyExplicit]; split; reflexivity|].
  split; [exists 2%nat, [TyIndex; TyToInterval]; split; reflexivity|exists 1%nat, [TyToInterval]; split; reflexivity].
Qed.
(** The two subscripts differ on such arguments *)
Theorem operators_differ : exists rank args, array_paren rank args = IllFormed /\ array_bracket rank args = Rejected.
Proof. exists 1%nat, [TyExplicit]. split; reflexivity. Qed.

(** ** Whole slices *)
Lemma has_type_arg a v : has_type a v -> an_index a \/ a_range a.
Proof. intros []; auto using a_range. Qed.
Lemma intervals_called nd args vs l : Forall2 has_type args vs -> length l = length args ->
  intervals_call nd args vs l = Some (intervals_with_strides_T nd vs l).
Proof.
  intros F. revert l. induction F as [|a v args vs H F IH]; intros [|td l] E; cbn in E; try discriminate; [reflexivity|].
  cbn [intervals_call intervals_with_strides_T]. rewrite (range_called nd a v td H), IH by congruence. reflexivity.
Qed.
Lemma skip_slices_called args vs l : Forall2 has_type args vs -> length l = length args ->
  skip_call args l = Some (concat (map2 skip_slices_impl_T l vs)).
Proof.
  intros F. revert l. induction F as [|a v args vs H F IH]; intros [|x l] E; cbn in E; try discriminate; [reflexivity|].
  cbn [skip_call]. rewrite (skip_called a v x H), IH by congruence. reflexivity.
Qed.
Lemma intervals_length nd vs l r : length l = length vs -> intervals_with_strides_T nd vs l = Ok r -> length r = length vs.
Proof.
  revert l r. induction vs as [|v vs IH]; intros [|td l] r E H; cbn in E; try discriminate; cbn [intervals_with_strides_T] in H.
  - inversion H. reflexivity.
  - destruct (range_with_stride_T nd v td) as [x| |]; cbn in H; try discriminate.
    destruct (intervals_with_strides_T nd vs l) as [r'| |] eqn:R; cbn in H; try discriminate.
    inversion H. cbn. f_equal. eapply IH; [|exact R]. congruence.
Qed.
Lemma Forall2_lengths {A B} (P : A -> B -> Prop) l m : Forall2 P l m -> length l = length m.
Proof. intros F; induction F; cbn; congruence. Qed.
Theorem slice_called nd l args vs : Forall2 has_type args vs -> length args = length l -> Exists a_range args ->
  slice_call nd l args vs = Some (shape_slice_T nd l vs).
Proof.
  intros F E X. unfold slice_call.
  assert (G : gives (shape_paren (length l) args) View = true).
  { apply gives_iff, shape_paren_view. split; [exact E|]. split; [|exact X]. clear -F.
    induction F as [|a v args vs H F IH]; constructor; [|exact IH]. apply (has_type_arg a v H). }
  rewrite G, (intervals_called nd args vs l F) by congruence. unfold shape_slice_T.
  destruct (intervals_with_strides_T nd vs l) as [r| |] eqn:R; cbn; try reflexivity.
  rewrite (skip_slices_called args vs r F); [reflexivity|].
  pose proof (Forall2_lengths _ _ _ F). rewrite (intervals_length nd vs l r); congruence.
Qed.

(** ** Conversions of shapes *)
Lemma meet_iff a b : negb (not_equal a b) = true <-> meet a b.
Proof. unfold not_equal, is_static, dynamic, meet. rewrite negb_true_iff, !andb_false_iff, !negb_false_iff, !Z.eqb_eq. tauto. Qed.
Lemma dim_constructible_iff a b : dim_constructible a b = true <-> dims_meet a b.
Proof. unfold dim_constructible, dims_meet. rewrite !andb_true_iff, !meet_iff. tauto. Qed.
Lemma combine_Forall2 {A B} (P : A -> B -> Prop) l m : length m = length l -> (Forall (fun p => P (fst p) (snd p)) (combine l m) <-> Forall2 P l m).
Proof.
  revert m. induction l as [|a l IH]; intros [|b m] E; cbn in E; try discriminate; cbn; [split; constructor|].
  rewrite Forall_cons_iff, IH by congruence. cbn. split; [intros []; constructor; auto|intros F; inversion F; auto].
Qed.
Lemma conversion_iff dst src : shape_conversion_compiles dst src = true <-> Forall2 dims_meet dst src.
Proof.
  unfold shape_conversion_compiles. rewrite andb_true_iff, Nat.eqb_eq.
  rewrite (forallb_Forall _ (fun p => dims_meet (fst p) (snd p)) _ (fun p => dim_constructible_iff (fst p) (snd p))).
  split.
  - intros [E F]. apply combine_Forall2; auto.
  - intros F. pose proof (Forall2_lengths _ _ _ F). split; [congruence|]. apply combine_Forall2; [congruence|exact F].
Qed.
Theorem ref_conversion_compiles dst src : ref_conversion dst src = Compiles View <-> Forall2 dims_meet dst src.
Proof.
  rewrite <- conversion_iff. unfold ref_conversion, shapes_compatible, with_body. split.
  - destruct (_ || _); [|discriminate]. destruct (shape_conversion_compiles dst src); [auto|discriminate].
  - intros H. rewrite H. unfold shape_conversion_compiles in H. apply andb_true_iff in H as [-> _]. reflexivity.
Qed.
(** A shape of another rank is refused, except by a shape of rank 1 *)
Theorem ref_conversion_rejects dst src : length src <> length dst -> (length dst <> 1)%nat -> ref_conversion dst src = Rejected.
Proof.
  intros N M. unfold ref_conversion, shapes_compatible. apply Nat.eqb_neq in N. rewrite N.
  destruct (Nat.eqb_spec 1 (length dst)); [congruence|reflexivity].
Qed.
Theorem rank_one_accepts_all src : (length src <> 1)%nat -> forall d, ref_conversion [d] src = IllFormed.
Proof.
  intros N d. unfold ref_conversion, shapes_compatible, shape_conversion_compiles. apply Nat.eqb_neq in N.
  cbn [length]. rewrite N. reflexivity.
Qed.
Theorem rank_one_case : exists d, forall src : list dimT, length src <> 1%nat -> ref_conversion [d] src = IllFormed.
Proof. exists (mkDT (-9) (-9) (-9)). intros src N. exact (rank_one_accepts_all src N _). Qed.
Theorem is_compatible_iff dst src : is_compatible_call dst src = Some true <-> length dst = length src.
Proof.
  unfold is_compatible_call, shapes_compatible. split.
  - destruct (_ || _); [|discriminate]. intros H. inversion H. apply Nat.eqb_eq; auto.
  - intros ->. rewrite Nat.eqb_refl. reflexivity.
Qed.
Theorem is_compatible_ill_formed dst src : is_compatible_call dst src = Some false <-> length dst <> length src /\ length src = 1%nat.
Proof.
  unfold is_compatible_call, shapes_compatible. destruct (Nat.eqb_spec (length dst) (length src)) as [E|E]; cbn [orb].
  - split; [discriminate|tauto].
  - destruct (Nat.eqb_spec 1 (length src)) as [G|G]; split; intros H; [split; auto|reflexivity|discriminate|destruct H; congruence].
Qed.
