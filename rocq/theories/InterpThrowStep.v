(** Proofs that statements in which an allocation fails do what the interpreter says, when arrays have lost their storage before. *)
From Coq Require Import ZArith List Bool Lia Arith.
From Verif Require Import Base Interval Shape Traverse Memory Ref Container Throw Program.
From Verif Require Import Spec SpecMem SpecContainer SpecThrow SpecProgram SpecViews SpecInterp SpecInterpThrow.
From Verif Require Import Tac ShapeFacts ResolveFacts MemFacts RefFacts SliceFacts ContainerFacts ContainerWorld.
From Verif Require Import ThrowFacts ThrowWorld ThrowLift ThrowPlain ThrowProps CountWorld InterpForms InterpFacts ThrowSpent InterpThrowFacts.
Import ListNotations.
Open Scope Z_scope.

Section Step.
Context {V : Type}.
Variable c : config V.
Hypothesis Hf : fair c.
Implicit Types (h : heap V) (w : world V) (vs : valuation V) (v va vb : value V) (o : op V).
Notation Inv := (Inv c).
Notation XInv := (XInv c).
Notation normal := (normal c).
Notation norm := (norm c).
Notation shows := (shows_values c).
Notation showsX := (shows_xvalues c).
Notation lost := (lost c).

(** ** Lost arrays with the default shape *)

Definition vnormal v : value V := if negb (v_mem v) && negb (empty (v_shape v)) then mkVal (v_al v) false (c_shape0 c) (v_at v) else v.
Definition vnorm vs : valuation V := mkVs (fun x => option_map vnormal (vs_arr vs x)) (vs_next vs).

Lemma base_mem w x a v : XInv w -> w_arr w x = Some a -> is_xvalue c (w_heap w) a v -> is_null (a_base a) = negb (v_mem v).
Proof.
  intros I Ea (H1 & H2 & H3 & H4 & _). pose proof (inv_valid c (norm w) x (normal a) (proj1 I) (norm_arr c w x a Ea)) as Hv.
  rewrite <- (base_normal c a).
  rewrite (sig_null c _ x _ (normal a) (mkVal (a_al a) (v_mem v) (a_shape (normal a)) (v_at v)) Hv); [reflexivity|].
  unfold sig. cbn [v_al v_mem v_shape]. unfold ThrowWorld.normal. destruct (_ && _); auto.
Qed.
Lemma normal_value w x a v : XInv w -> w_arr w x = Some a -> is_xvalue c (w_heap w) a v -> normal a = a -> vnormal v = v.
Proof.
  intros I Ea Hv N. unfold vnormal. rewrite <- (base_mem w x a v I Ea Hv). assert (Es : a_shape a = v_shape v) by apply Hv. rewrite <- Es.
  unfold ThrowWorld.normal in N. destruct (is_null (a_base a) && negb (empty (a_shape a))) eqn:E; [|reflexivity].
  apply andb_true_iff in E. destruct E as [_ E]. rewrite <- N in E. cbn [with_shape a_shape] in E. rewrite (shape0_empty c Hf) in E. discriminate.
Qed.
Lemma normal_array w x a v : XInv w -> w_arr w x = Some a -> is_xvalue c (w_heap w) a v -> vnormal v = v -> normal a = a.
Proof.
  intros I Ea Hv N. unfold ThrowWorld.normal. rewrite (base_mem w x a v I Ea Hv). assert (Es : a_shape a = v_shape v) by apply Hv. rewrite Es.
  unfold vnormal in N. destruct (negb (v_mem v) && negb (empty (v_shape v))) eqn:E; [|reflexivity].
  apply andb_true_iff in E. destruct E as [_ E]. rewrite <- N in E. cbn [v_shape] in E. rewrite (shape0_empty c Hf) in E. discriminate.
Qed.
Lemma shows_norm w vs : XInv w -> showsX w vs -> shows (norm w) (vnorm vs).
Proof.
  intros I Sh. split; [apply Sh|]. intros x. cbn [ThrowWorld.norm w_arr w_heap vnorm vs_arr].
  destruct Sh as [_ Sh]. specialize (Sh x). destruct (w_arr w x) as [a|] eqn:Ea, (vs_arr vs x) as [v|]; cbn [option_map]; auto.
  pose proof (inv_valid c (norm w) x (normal a) (proj1 I) (norm_arr c w x a Ea)) as Hv. cbn [ThrowWorld.norm w_heap] in Hv.
  pose proof (base_mem w x a v I Ea Sh) as Hb. pose proof (xinv_failed c w x a I Ea) as Hfail.
  destruct Sh as (H1 & H2 & H3 & H4 & H5).
  assert (Stat : a_al (normal a) = v_al (vnormal v) /\ negb (is_null (a_buf (normal a))) = v_mem (vnormal v) /\
                 a_busy (normal a) = v_inline c (vnormal v) /\ a_shape (normal a) = v_shape (vnormal v)).
  { unfold ThrowWorld.normal, vnormal. rewrite Hb, H4.
    destruct (negb (v_mem v) && negb (empty (v_shape v))) eqn:E; cbn [with_shape a_al a_buf a_busy a_shape v_al v_mem v_shape]; auto.
    apply andb_true_iff in E. destruct E as [E _]. apply negb_true_iff in E. rewrite E in *. unfold v_inline in *. rewrite E in H3. auto. }
  destruct Stat as (T1 & T2 & T3 & T4). unfold is_value. split; auto. split; auto. split; auto. split; auto.
  destruct (v_mem v) eqn:M.
  - replace (vnormal v) with v by (unfold vnormal; rewrite M; reflexivity). rewrite (base_normal c). apply H5; auto.
  - rewrite <- T4. intros i Hi. exfalso. destruct (valid_memory c _ _ _ Hv) as [[_ H]|[_ [_ [H _]]]].
    + apply (proj1 H i Hi).
    + rewrite (base_normal c), Hb in H. discriminate.
Qed.

(** ** Comparing runs *)

Definition vsame_at vs (T : list nat) vs' vs0' z : Prop :=
  (vs_arr vs' z = vs_arr vs0' z /\ (In z T \/ vs_arr vs z = vs_arr (vnorm vs) z)) \/
  (~ In z T /\ vs_arr vs' z = vs_arr vs z /\ vs_arr vs0' z = vs_arr (vnorm vs) z).
Lemma shown_same w vs T w' w0' vs' vs0' : XInv w -> showsX w vs -> showsX w0' vs0' ->
  w_heap w' = w_heap w0' -> w_next w' = w_next w0' -> vs_next vs' = vs_next vs0' ->
  (forall z, same_at c w T w' w0' z) -> (forall z, vsame_at vs T vs' vs0' z) -> showsX w' vs'.
Proof.
  intros I [Sn Sh] [Sn0 Sh0] Eh En Ev Ha Hv. split; [congruence|]. intros z. rewrite Eh.
  assert (Both : (w_arr w' z = w_arr w0' z /\ vs_arr vs' z = vs_arr vs0' z) \/
                 (w_arr w' z = w_arr w z /\ vs_arr vs' z = vs_arr vs z /\ w_arr w0' z = w_arr (norm w) z /\ vs_arr vs0' z = vs_arr (vnorm vs) z)).
  { assert (Nv : w_arr w z = w_arr (norm w) z -> vs_arr vs z = vs_arr (vnorm vs) z).
    { intros E. specialize (Sh z). cbn [vnorm vs_arr ThrowWorld.norm w_arr] in *.
      destruct (w_arr w z) as [a|] eqn:Ea, (vs_arr vs z) as [v|]; cbn [option_map] in *; auto; try contradiction.
      injection E as E. rewrite (normal_value w z a v I Ea Sh); auto. }
    assert (Na : vs_arr vs z = vs_arr (vnorm vs) z -> w_arr w z = w_arr (norm w) z).
    { intros E. specialize (Sh z). cbn [vnorm vs_arr ThrowWorld.norm w_arr] in *.
      destruct (w_arr w z) as [a|] eqn:Ea, (vs_arr vs z) as [v|]; cbn [option_map] in *; auto; try contradiction.
      injection E as E. rewrite (normal_array w z a v I Ea Sh); auto. }
    destruct (Ha z) as [[A1 A2]|(A1 & A2 & A3)], (Hv z) as [[B1 B2]|(B1 & B2 & B3)].
    - left. auto.
    - destruct A2 as [A2|A2]; [contradiction|]. left. split; auto. rewrite B2, B3. auto.
    - destruct B2 as [B2|B2]; [contradiction|]. left. split; auto. rewrite A2, A3. auto.
    - right. auto. }
  specialize (Sh z). specialize (Sh0 z). destruct Both as [[-> ->]|(-> & -> & E1 & E2)]; [exact Sh0|].
  rewrite E1, E2 in Sh0. cbn [vnorm vs_arr ThrowWorld.norm w_arr] in Sh0.
  destruct (w_arr w z) as [a|] eqn:Ea, (vs_arr vs z) as [v|]; cbn [option_map] in Sh0; auto.
  pose proof (base_mem w z a v I Ea Sh) as Hb. destruct Sh as (H1 & H2 & H3 & H4 & H5).
  split; auto. split; auto. split; auto. split; auto. intros M.
  assert (Nn : normal a = a) by (unfold ThrowWorld.normal; rewrite Hb, M; reflexivity).
  assert (Nv : vnormal v = v) by (unfold vnormal; rewrite M; reflexivity). rewrite Nn, Nv in Sh0. apply Sh0. auto.
Qed.
(** The states in which requests fail, and the final state *)
Definition vclose vs (T : list nat) vs' vs0' : Prop := vs_next vs' = vs_next vs0' /\ forall z, vsame_at vs T vs' vs0' z.
Definition follows_interp w vs o n : Prop :=
  exists r, xstep c w o (allocs n) = Ok r /\ showsX (fst (settle r)) (fst (xinterp c vs o n)) /\ snd (settle r) = snd (xinterp c vs o n).
Lemma nth_Forall2 {A B : Type} (P : A -> B -> Prop) l m : Forall2 P l m -> forall k,
  match nth_error l k, nth_error m k with Some a, Some b => P a b | None, None => True | _, _ => False end.
Proof. induction 1 as [|a b l m H F IH]; intros [|k]; cbn; auto. apply IH. Qed.
Lemma usable_step w vs o n : Inv w -> shows w vs -> allowed_op c vs o -> follows_interp w vs o n.
Proof.
  intros I Sh L. destruct (op_runs c Hf w vs o I Sh L) as (w' & Lw & R & F). destruct (step_op c Hf w vs o I Sh L) as (w0 & E0 & _ & S0).
  specialize (R n). unfold spent in R. unfold follows_interp, xinterp. eexists. split; [exact R|].
  destruct n as [k|].
  - pose proof (nth_Forall2 _ _ _ F k) as Fk. destruct (nth_error Lw k) as [w1|] eqn:E1, (nth_error (requests c vs o) k) as [v1|]; try contradiction.
    + cbn [settle fst snd]. auto.
    + cbn [settle fst snd]. split; [|reflexivity]. apply xcompletes in R. rewrite E0 in R. injection R as <-. apply shows_x. exact S0.
  - cbn [settle fst snd]. split; [|reflexivity]. apply xcompletes in R. rewrite E0 in R. injection R as <-. apply shows_x. exact S0.
Qed.
Lemma close_step w vs o n T : XInv w -> showsX w vs -> allowed_op c (vnorm vs) o ->
  close c w T False (xstep c w o (allocs n)) (xstep c (norm w) o (allocs n)) ->
  vclose vs T (interp_op c vs o) (interp_op c (vnorm vs) o) -> Forall2 (vclose vs T) (requests c vs o) (requests c (vnorm vs) o) ->
  follows_interp w vs o n.
Proof.
  intros I Sh L C Ci Cr.
  destruct (usable_step (norm w) (vnorm vs) o n (proj1 I) (shows_norm w vs I Sh) L) as (r0 & E0 & S0 & T0). rewrite E0 in C.
  assert (Cx : vclose vs T (fst (xinterp c vs o n)) (fst (xinterp c (vnorm vs) o n)) /\ snd (xinterp c vs o n) = snd (xinterp c (vnorm vs) o n)).
  { unfold xinterp. destruct n as [k|]; [|auto]. pose proof (nth_Forall2 _ _ _ Cr k) as Fk.
    destruct (nth_error (requests c vs o) k), (nth_error (requests c (vnorm vs) o) k); try contradiction; auto. }
  destruct Cx as [[Cn Cz] Ct]. unfold follows_interp. rewrite Ct, <- T0.
  destruct (xstep c w o (allocs n)) as [[w' f|w']| |]; cbn [close] in C; destruct r0 as [w0' f0|w0']; try contradiction; eexists; (split; [reflexivity|]);
    cbn [settle fst snd] in *; (split; [|reflexivity]).
  - destruct C as (_ & Eh & En & Ez). apply (shown_same w vs T w' w0' _ _ I Sh S0); auto. intros z. destruct (Ez z) as [H|[[] _]]; auto.
  - destruct C as (Eh & En & Ez). apply (shown_same w vs T w' w0' _ _ I Sh S0); auto.
Qed.

(** ** All arguments are usable *)

Definition vrel vs vs0 vs' vs0' : Prop := vs_next vs' = vs_next vs0' /\
  forall z, (vs_arr vs' z = vs_arr vs0' z /\ vs_arr vs z = vs_arr vs0 z) \/ (vs_arr vs' z = vs_arr vs z /\ vs_arr vs0' z = vs_arr vs0 z).
Lemma vrel_refl vs vs0 : vs_next vs = vs_next vs0 -> vrel vs vs0 vs vs0.
Proof. intros E. split; auto. Qed.
Lemma vrel_set vs vs0 vs' vs0' x (v : option (value V)) : vrel vs vs0 vs' vs0' -> vs_arr vs x = vs_arr vs0 x -> vrel vs vs0 (set_value vs' x v) (set_value vs0' x v).
Proof.
  intros [N R] E. split; auto. intros z. cbn [set_value vs_arr]. destruct (Nat.eqb_spec z x) as [->|Nz]; auto.
Qed.
Lemma vrel_new vs vs0 vs' vs0' v : vrel vs vs0 vs' vs0' -> vs_arr vs (vs_next vs') = vs_arr vs0 (vs_next vs') -> vrel vs vs0 (new_value vs' v) (new_value vs0' v).
Proof.
  intros [N R] E. split; [cbn; congruence|]. intros z. cbn [new_value vs_arr]. rewrite <- N. destruct (Nat.eqb_spec z (vs_next vs')) as [->|Nz]; auto.
Qed.
Lemma vrel_skip vs vs0 vs' vs0' : vrel vs vs0 vs' vs0' -> vrel vs vs0 (skip_name vs') (skip_name vs0').
Proof. intros [N R]. split; [cbn; congruence|exact R]. Qed.
Lemma vrel_request vs vs0 vs' vs0' (q : bool) : vrel vs vs0 vs' vs0' -> Forall2 (vrel vs vs0) (request q vs') (request q vs0').
Proof. intros H. destruct q; cbn; auto. Qed.
Ltac vrels := repeat match goal with
  | |- vrel _ _ (set_value _ _ _) (set_value _ _ _) => apply vrel_set
  | |- vrel _ _ (new_value _ _) (new_value _ _) => apply vrel_new
  | |- vrel _ _ (skip_name _) (skip_name _) => apply vrel_skip
  | |- vrel ?a ?b ?a ?b => apply vrel_refl
  | |- Forall2 _ (_ ++ _) (_ ++ _) => apply Forall2_two
  | |- Forall2 _ (request _ _) (request _ _) => apply vrel_request
  | |- Forall2 _ [] [] => constructor
  | |- context [let (_, _) := ?m in _] => destruct m
  | |- context [if ?b then _ else _] => destruct b
  end; auto.
Lemma interp_local vs vs0 o : vs_next vs = vs_next vs0 -> vs_arr vs (vs_next vs) = vs_arr vs0 (vs_next vs) ->
  (forall x, In x (args o) -> vs_arr vs x = vs_arr vs0 x) -> vrel vs vs0 (interp_op c vs o) (interp_op c vs0 o).
Proof.
  intros N F A. destruct o; cbn [interp_op args In] in *; unfold run_move_new, run_move, on2, on;
    repeat match goal with
    | |- context [vs_arr vs0 ?x] => rewrite <- (A x) by auto; let a := fresh "a" in let E := fresh "E" in destruct (vs_arr vs x) as [a|] eqn:E
    end; cbv zeta; vrels.
Qed.
Lemma requests_local vs vs0 o : vs_next vs = vs_next vs0 -> (forall x, In x (args o) -> vs_arr vs x = vs_arr vs0 x) ->
  Forall2 (vrel vs vs0) (requests c vs o) (requests c vs0 o).
Proof.
  intros N A. destruct o; cbn [requests args In] in *; unfold SpecInterpThrow.with_arrays, with_array;
    repeat match goal with
    | |- context [vs_arr vs0 ?x] => rewrite <- (A x) by auto; let a := fresh "a" in let E := fresh "E" in destruct (vs_arr vs x) as [a|] eqn:E
    end; cbv zeta; vrels.
Qed.
Lemma vrel_close vs T vs' vs0' : vrel vs (vnorm vs) vs' vs0' -> (forall x, In x T -> vs_arr vs x = vs_arr (vnorm vs) x) -> vclose vs T vs' vs0'.
Proof.
  intros [N R] A. split; auto. intros z. destruct (R z) as [[R1 R2]|[R1 R2]]; [left; auto|].
  destruct (in_dec Nat.eq_dec z T) as [H|H]; [left; rewrite R1, R2; auto|right; auto].
Qed.
Lemma vrel_closes vs T L L0 : Forall2 (vrel vs (vnorm vs)) L L0 -> (forall x, In x T -> vs_arr vs x = vs_arr (vnorm vs) x) -> Forall2 (vclose vs T) L L0.
Proof. intros F A. induction F; constructor; auto. apply vrel_close; auto. Qed.
Lemma normal_values w vs X : XInv w -> showsX w vs -> all_normal c w X -> forall x, In x X -> vs_arr vs x = vs_arr (vnorm vs) x.
Proof.
  intros I [_ Sh] A x Hx. specialize (Sh x). cbn [vnorm vs_arr]. destruct (w_arr w x) as [a|] eqn:Ea, (vs_arr vs x) as [v|]; cbn; try contradiction; auto.
  rewrite (normal_value w x a v I Ea Sh); auto. apply (A x a); auto.
Qed.
Lemma args_usable_step w vs o n : XInv w -> showsX w vs -> all_normal c w (args o) -> legal_op c w o -> follows_interp w vs o n.
Proof.
  intros I Sh A L. pose proof (normal_values w vs (args o) I Sh A) as Ev.
  assert (L0 : allowed_op c (vnorm vs) o) by (apply (allowed_op_iff c (norm w)); [apply shows_norm; auto|apply legal_norm; auto]).
  assert (Et : forall x, In x (targets o) -> vs_arr vs x = vs_arr (vnorm vs) x) by (intros x Hx; apply Ev, targets_args; auto).
  apply (close_step w vs o n (targets o)); auto.
  - apply close_usable; auto.
  - apply vrel_close; auto. apply interp_local; auto. cbn [vnorm vs_arr].
    destruct Sh as [N Sh]. specialize (Sh (vs_next vs)). rewrite <- N in *. rewrite (xinv_fresh c w (w_next w) I) in Sh by lia.
    destruct (vs_arr vs (w_next w)); [contradiction|reflexivity].
  - apply vrel_closes; auto. apply requests_local; auto.
Qed.

(** ** The array that is assigned to has lost its storage *)

Lemma lost_mem w vs x a v : XInv w -> showsX w vs -> w_arr w x = Some a -> vs_arr vs x = Some v -> normal a <> a ->
  is_xvalue c (w_heap w) a v /\ v_mem v = false /\ vnormal v = mkVal (v_al v) false (c_shape0 c) (v_at v).
Proof.
  intros I [_ Sh] Ea Ev N. specialize (Sh x). rewrite Ea, Ev in Sh. split; auto. pose proof (base_mem w x a v I Ea Sh) as Hb.
  assert (Es : a_shape a = v_shape v) by apply Sh. unfold ThrowWorld.normal in N. rewrite Hb, Es in N. unfold vnormal.
  destruct (negb (v_mem v) && negb (empty (v_shape v))) eqn:E; [|congruence]. split; auto. apply andb_true_iff in E. destruct E as [E _].
  apply negb_true_iff in E. auto.
Qed.
Lemma vclose_one vs x (v : option (value V)) : vclose vs [x] (set_value vs x v) (set_value (vnorm vs) x v).
Proof.
  split; [reflexivity|]. intros z. unfold vsame_at. cbn [set_value vs_arr]. destruct (Nat.eqb_spec z x) as [->|N].
  - left. split; auto. left. left; auto.
  - right. split; auto. intros [E|[]]; auto.
Qed.
Lemma vclose_two vs x y (v u : option (value V)) : vs_arr vs y = vs_arr (vnorm vs) y ->
  vclose vs [x] (set_value (set_value vs y u) x v) (set_value (set_value (vnorm vs) y u) x v).
Proof.
  intros E. split; [reflexivity|]. intros z. unfold vsame_at. cbn [set_value vs_arr]. destruct (Nat.eqb_spec z x) as [->|N].
  - left. split; auto. left. left; auto.
  - destruct (Nat.eqb_spec z y) as [->|Ny]; [left; auto|]. right. split; auto. intros [H|[]]; auto.
Qed.
Lemma vclose_request vs T (q : bool) vs' vs0' : vclose vs T vs' vs0' -> Forall2 (vclose vs T) (request q vs') (request q vs0').
Proof. intros H. destruct q; cbn; auto. Qed.
Lemma replaced_lost va vb s f : v_mem va = false -> replaced (mkVal (v_al va) false s f) vb = replaced va vb.
Proof. intros M. unfold replaced. cbn [v_mem v_al]. rewrite M. reflexivity. Qed.
Lemma renews_lost va vb s f : v_mem va = false -> renews c (mkVal (v_al va) false s f) vb = renews c va vb.
Proof. intros M. unfold renews. cbn [v_mem v_al]. rewrite M. reflexivity. Qed.
Lemma exchange_lost va vb s f : v_mem va = false -> exchange c (mkVal (v_al va) false s f) vb = exchange c va vb.
Proof. intros M. unfold exchange, v_inline. cbn [v_mem v_al]. rewrite M. reflexivity. Qed.
Lemma copy_into_lost va vb s f : v_mem va = false -> copy_into c (mkVal (v_al va) false s f) vb = copy_into c va vb.
Proof.
  intros M. unfold copy_into. rewrite exchange_lost, !replaced_lost by auto. cbn [v_mem v_shape v_at]. rewrite M.
  destruct (c_pocca c), (exchange c va vb); rewrite ?replaced_lost by auto; reflexivity.
Qed.

Lemma lost_step w vs o n x a : XInv w -> showsX w vs -> w_arr w x = Some a -> normal a <> a ->
  match o with
  | CopyAssign x' y | AssignCopy x' y | AssignMove x' y => x' = x /\ may_copy c w y /\ all_normal c w [y]
  | Clear x' => x' = x
  | _ => False
  end -> follows_interp w vs o n.
Proof.
  intros I Sh Ea N Ho. destruct (showsX_some c _ _ _ _ Sh Ea) as (va & Eva & _). destruct (lost_mem w vs x a va I Sh Ea Eva N) as (_ & M & Nv).
  assert (E0 : vs_arr (vnorm vs) x = Some (mkVal (v_al va) false (c_shape0 c) (v_at va))) by (cbn [vnorm vs_arr]; rewrite Eva; cbn; rewrite Nv; reflexivity).
  assert (L0 : allowed_op c (vnorm vs) o).
  { apply (allowed_op_iff c (norm w)); [apply shows_norm; auto|]. apply (failed_step_ok c w o x a); auto. destruct o; try tauto. }
  assert (C : close c w (targets o) False (xstep c w o (allocs n)) (xstep c (norm w) o (allocs n))).
  { apply (close_failed c w o x a); auto. destruct o; try tauto. }
  assert (Y : forall y, may_copy c w y -> all_normal c w [y] -> x <> y /\ exists vb, vs_arr vs y = Some vb /\ vs_arr (vnorm vs) y = Some vb).
  { intros y (b & Eb & _) A. split; [intros ->; apply N; apply (A y); auto; left; auto|]. destruct (showsX_some c _ _ _ _ Sh Eb) as (vb & Evb & _).
    exists vb. split; auto. rewrite <- (normal_values w vs [y] I Sh A y); auto. left; auto. }
  apply (close_step w vs o n (targets o)); auto; destruct o; try tauto; cbn [targets interp_op requests].
  - destruct Ho as (-> & Hc & A). destruct (Y y Hc A) as (Nxy & vb & Ev & Ev0). rewrite (on2_eq vs x y va vb), (on2_eq (vnorm vs) x y _ vb _ E0 Ev0) by auto.
    rewrite (proj2 (Nat.eqb_neq x y) Nxy), copy_into_lost by auto. apply vclose_one.
  - destruct Ho as (-> & Hc & A). destruct (Y y Hc A) as (Nxy & vb & Ev & Ev0). rewrite (on2_eq vs x y va vb), (on2_eq (vnorm vs) x y _ vb _ E0 Ev0) by auto.
    rewrite (proj2 (Nat.eqb_neq x y) Nxy), replaced_lost by auto. apply vclose_one.
  - destruct Ho as (-> & Hc & A). destruct (Y y Hc A) as (Nxy & vb & Ev & Ev0). rewrite (on2_eq vs x y va vb), (on2_eq (vnorm vs) x y _ vb _ E0 Ev0) by auto.
    rewrite (proj2 (Nat.eqb_neq x y) Nxy), replaced_lost by auto. apply vclose_two. congruence.
  - subst x0. rewrite (on_eq vs x va), (on_eq (vnorm vs) x _ _ E0) by auto. cbn [v_al]. apply vclose_one.
  - destruct Ho as (-> & Hc & A). destruct (Y y Hc A) as (Nxy & vb & Ev & Ev0).
    rewrite (on_list2 vs x y va vb), (on_list2 (vnorm vs) x y _ vb _ E0 Ev0) by auto. cbv zeta.
    rewrite exchange_lost by auto. cbn [v_shape v_at]. destruct (c_pocca c && negb (exchange c va vb)); cbn [v_al].
    + replace (renews c (mkVal (v_al vb) false (c_shape0 c) (v_at va)) vb) with (renews c (mkVal (v_al vb) false (v_shape va) (v_at va)) vb) by reflexivity.
      apply vclose_request, vclose_one.
    + rewrite renews_lost by auto. apply vclose_request, vclose_one.
  - destruct Ho as (-> & Hc & A). destruct (Y y Hc A) as (Nxy & vb & Ev & Ev0).
    rewrite (on_list2 vs x y va vb), (on_list2 (vnorm vs) x y _ vb _ E0 Ev0) by auto. rewrite renews_lost by auto. apply vclose_request, vclose_one.
  - destruct Ho as (-> & Hc & A). destruct (Y y Hc A) as (Nxy & vb & Ev & Ev0).
    rewrite (on_list2 vs x y va vb), (on_list2 (vnorm vs) x y _ vb _ E0 Ev0) by auto. rewrite renews_lost by auto. apply vclose_request, vclose_one.
  - subst x0. rewrite (on_list vs x va), (on_list (vnorm vs) x _ _ E0) by auto. cbn [v_al]. apply vclose_request, vclose_one.
Qed.

(** A statement that throws no exception and leaves the heap alone *)
Lemma xinterp_none vs o n : requests c vs o = [] -> xinterp c vs o n = (interp_op c vs o, false).
Proof. intros E. unfold xinterp. rewrite E. destruct n as [[|k]|]; reflexivity. Qed.
Lemma two_shown w vs x y a' b' va' vb' : showsX w vs -> x <> y -> is_xvalue c (w_heap w) a' va' -> is_xvalue c (w_heap w) b' vb' ->
  showsX (mkW (w_heap w) (put (put (w_arr w) y (Some b')) x (Some a')) (w_next w)) (set_value (set_value vs y (Some vb')) x (Some va')).
Proof.
  intros [Sn Sh] N Ha Hb. split; [exact Sn|]. intros z. cbn [w_arr w_heap set_value vs_arr]. unfold put.
  destruct (z =? x)%nat; [exact Ha|]. destruct (z =? y)%nat; [exact Hb|]. apply Sh.
Qed.
Lemma lost_move w vs x y n a b : XInv w -> showsX w vs -> w_arr w x = Some a -> normal a <> a -> w_arr w y = Some b -> normal b = b ->
  may_copy c w y -> follows_interp w vs (MoveAssign x y) n.
Proof.
  intros I Sh Ea N Eb Nb Hc. assert (Nxy : x <> y) by (intros ->; congruence).
  destruct (showsX_some c _ _ _ _ Sh Ea) as (va & Eva & Hva). destruct (showsX_some c _ _ _ _ Sh Eb) as (vb & Evb & Hvb).
  destruct (lost_mem w vs x a va I Sh Ea Eva N) as (_ & M & Nv). destruct (failed_normal c w x a I Ea N) as [Mem En].
  pose proof (no_memory_null a Mem) as Na. pose proof (base_mem w y b vb I Eb Hvb) as Bb.
  assert (A : all_normal c w [y]) by (intros z d [<-|[]] Ez; congruence).
  assert (E0 : vs_arr (vnorm vs) x = Some (mkVal (v_al va) false (c_shape0 c) (v_at va))) by (cbn [vnorm vs_arr]; rewrite Eva; cbn; rewrite Nv; reflexivity).
  assert (Ev0 : vs_arr (vnorm vs) y = Some vb) by (rewrite <- (normal_values w vs [y] I Sh A y); auto; left; auto).
  assert (Ep : ptr_eqb (a_base a) (a_base b) = negb (v_mem vb)).
  { rewrite <- Bb. apply ptr_eqb_eq in Na. rewrite Na. unfold is_null, ptr_eqb. rewrite Nat.eqb_sym, Z.eqb_sym. reflexivity. }
  assert (Bz : a_busy a = false) by apply Mem.
  assert (Eq : alloc_eq x a y b = exchange c va vb).
  { unfold alloc_eq, exchange. destruct Hva as (-> & _ & -> & _), Hvb as (-> & _ & -> & _). rewrite (proj2 (Nat.eqb_neq x y) Nxy).
    destruct (v_inline c va), (v_inline c vb); reflexivity. }
  destruct (v_mem vb) eqn:Mb; cbn [negb] in Ep.
  2:{ (* both without memory *)
      assert (Rq : requests c vs (MoveAssign x y) = []).
      { cbn [requests]. rewrite (on_list2 vs x y va vb) by auto. unfold move_renews, renews. rewrite M, Mb, !andb_false_r. reflexivity. }
      unfold follows_interp. rewrite (xinterp_none vs _ n Rq). cbn [fst snd].
      assert (Emp : empty (a_shape b) = true).
      { destruct (empty (a_shape b)) eqn:E; auto. exfalso. pose proof Nb as Nb'. unfold ThrowWorld.normal in Nb. rewrite Bb, E in Nb. cbn [negb andb] in Nb.
        rewrite <- Nb in E. cbn [with_shape a_shape] in E. rewrite (shape0_empty c Hf) in E. discriminate. }
      eexists. split.
      { cbn [xstep]. unfold do_move_assign_x. rewrite (get_ok w x a Ea), (get_ok w y b Eb). cbn [bind]. unfold move_assign_op_x. rewrite Ep. cbn [orb].
        unfold move_assign_op. rewrite Ep, Na. cbn [negb with_shape a_shape]. rewrite Emp. replace (assert_ (c_ndebug c) true) with (Ok tt) by (unfold assert_; destruct (c_ndebug c); reflexivity). cbn [bind nothrow xbind]. reflexivity. }
      cbn [settle fst snd interp_op]. split; [|reflexivity]. unfold run_move. rewrite (on2_eq vs x y va vb), (proj2 (Nat.eqb_neq x y) Nxy) by auto.
      unfold move_into. rewrite M, Mb. cbn [negb andb]. apply two_shown; auto.
      - destruct Hva as (H1 & H2 & H3 & H4 & _), Hvb as (K1 & K2 & K3 & K4 & _). unfold is_xvalue, v_inline in *. cbn [with_shape a_al a_buf a_busy a_shape v_al v_mem v_shape andb].
        rewrite M in *. split; auto. split; auto. split; auto. split; auto. discriminate.
      - destruct Hva as (H1 & H2 & H3 & H4 & _), Hvb as (K1 & K2 & K3 & K4 & _). unfold is_xvalue, v_inline in *. cbn [with_shape a_al a_buf a_busy a_shape v_al v_mem v_shape andb].
        rewrite Mb in *. split; auto. split; auto. split; auto. split; auto. discriminate. }
  destruct (c_pocma c || exchange c va vb) eqn:Ex.
  { (* the memory changes hands *)
    assert (Rq : requests c vs (MoveAssign x y) = []).
    { cbn [requests]. rewrite (on_list2 vs x y va vb) by auto. unfold move_renews. rewrite Ex. cbn [negb andb]. rewrite andb_false_r. reflexivity. }
    unfold follows_interp. rewrite (xinterp_none vs _ n Rq). cbn [fst snd].
    assert (Ei : interp_op c vs (MoveAssign x y) = set_value (set_value vs y (Some va)) x (Some vb)).
    { cbn [interp_op]. unfold run_move. rewrite (on2_eq vs x y va vb), (proj2 (Nat.eqb_neq x y) Nxy) by auto.
      unfold move_into. rewrite M, Mb, Ex. reflexivity. }
    assert (L0 : allowed_op c (vnorm vs) (MoveAssign x y)).
    { apply (allowed_op_iff c (norm w)); [apply shows_norm; auto|]. apply (failed_step_ok c w _ x a); auto. }
    destruct (usable_step (norm w) (vnorm vs) (MoveAssign x y) n (proj1 I) (shows_norm w vs I Sh) L0) as (r0 & R0 & S0 & _).
    assert (Rq0 : requests c (vnorm vs) (MoveAssign x y) = []).
    { cbn [requests]. rewrite (on_list2 (vnorm vs) x y _ vb _ E0 Ev0). unfold move_renews. rewrite exchange_lost, Ex by auto. cbn [negb andb]. rewrite andb_false_r. reflexivity. }
    rewrite (xinterp_none _ _ n Rq0) in S0. cbn [fst interp_op] in S0. unfold run_move in S0.
    rewrite (on2_eq (vnorm vs) x y _ vb _ E0 Ev0), (proj2 (Nat.eqb_neq x y) Nxy) in S0. unfold move_into in S0. rewrite exchange_lost, Ex, Mb in S0 by auto.
    cbn [v_mem negb andb] in S0.
    pose proof (norm_arr c w x a Ea) as Ea0. rewrite En in Ea0. pose proof (norm_get c w y b Eb Nb) as Eb0.
    cbn [xstep] in R0. unfold do_move_assign_x in R0. rewrite (get_ok _ x _ Ea0), (get_ok _ y _ Eb0) in R0. cbn [bind] in R0. unfold move_assign_op_x in R0.
    cbn [with_shape a_base] in R0. change (alloc_eq x (with_shape a (c_shape0 c)) y b) with (alloc_eq x a y b) in R0. rewrite Ep, Eq in R0. cbn [orb] in R0. rewrite Ex in R0.
    unfold move_assign_op in R0. cbn [with_shape a_base] in R0. change (alloc_eq x (with_shape a (c_shape0 c)) y b) with (alloc_eq x a y b) in R0. rewrite Ep, Eq in R0.
    unfold follows_interp. cbn [xstep]. unfold do_move_assign_x. rewrite (get_ok w x a Ea), (get_ok w y b Eb). cbn [bind]. unfold move_assign_op_x. rewrite Ep, Eq. cbn [orb].
    rewrite Ex. unfold move_assign_op. rewrite Ep, Eq, Ei.
    destruct (c_pocma c); cbn [orb] in Ex; [|rewrite Ex in *];
      cbn [nothrow bind xbind swap_allocators swap_except_allocator set_al with_shape a_al a_busy a_buf a_bufsize a_base a_shape] in R0 |- *;
      injection R0 as <-; eexists; (split; [reflexivity|]); cbn [settle fst snd] in S0 |- *; (split; [|reflexivity]); destruct S0 as [_ S0];
      pose proof (S0 x) as Sx; pose proof (S0 y) as Sy; cbn [w_arr w_heap set_value vs_arr] in Sx, Sy; unfold put in Sx, Sy;
      rewrite Nat.eqb_refl in Sx; rewrite (proj2 (Nat.eqb_neq y x) (not_eq_sym Nxy)), Nat.eqb_refl in Sy; (apply two_shown; [exact Sh|exact Nxy|exact Sx|]);
      destruct Sy as (Y1 & Y2 & Y3 & Y4 & _); unfold is_xvalue, v_inline in *; cbn [a_al a_busy a_buf a_shape v_al v_mem v_shape andb] in *;
      rewrite M; (split; [exact Y1|]); (split; [exact Y2|]); (split; [exact Y3|]); (split; [apply Hva|discriminate]). }
  (* element by element *)
  assert (L0 : allowed_op c (vnorm vs) (MoveAssign x y)).
  { apply (allowed_op_iff c (norm w)); [apply shows_norm; auto|]. apply (failed_step_ok c w _ x a); auto. }
  apply orb_false_iff in Ex. destruct Ex as [Ex1 Ex2].
  apply (close_step w vs _ n [x]); auto.
  - pose proof (norm_arr c w x a Ea) as Ea0. rewrite En in Ea0. pose proof (norm_get c w y b Eb Nb) as Eb0.
    cbn [xstep]. unfold do_move_assign_x. rewrite (get_ok _ x _ Ea), (get_ok _ x _ Ea0), (get_ok _ y _ Eb), (get_ok _ y _ Eb0). cbn [bind]. unfold move_assign_op_x.
    cbn [with_shape a_base]. change (alloc_eq x (with_shape a (c_shape0 c)) y b) with (alloc_eq x a y b). rewrite Ep, Eq, Ex1, Ex2. cbn [orb].
    change (mkA (a_al a) (a_busy a) (a_buf a) (a_bufsize a) (a_base a) (c_shape0 c)) with (with_shape a (c_shape0 c)). cbn [ThrowWorld.norm w_heap].
    rewrite (assign_move_failed c) by auto.
    destruct (assign_move_x c x (w_heap w) a b (allocs n)) as [[[h a'] f'|[h a']]| |]; cbn [xbind bind close w_heap w_next w_arr fst snd]; auto.
    + split; auto. split; auto. split; auto. intros z. left. unfold same_at. cbn [w_arr]. unfold put.
      destruct (Nat.eqb_spec z x) as [->|Zx]; [left; split; auto; left; left; auto|].
      destruct (Nat.eqb_spec z y) as [->|Zy]; [left; split; auto; right; rewrite Eb, Eb0; auto|].
      right. split; [simpl; intuition|]. auto.
    + split; auto. split; auto. intros z. unfold same_at. cbn [w_arr]. unfold put.
      destruct (Nat.eqb_spec z x) as [->|Zx]; [left; split; auto; left; left; auto|].
      right. split; [simpl; intuition|]. auto.
  - cbn [interp_op]. unfold run_move. rewrite (on2_eq vs x y va vb), (on2_eq (vnorm vs) x y _ vb _ E0 Ev0), (proj2 (Nat.eqb_neq x y) Nxy) by auto.
    unfold move_into. rewrite exchange_lost, replaced_lost by auto. cbn [v_mem]. rewrite M, Mb, Ex1, Ex2. cbn [negb andb orb]. apply vclose_two. congruence.
  - cbn [requests]. rewrite (on_list2 vs x y va vb), (on_list2 (vnorm vs) x y _ vb _ E0 Ev0) by auto.
    unfold move_renews. rewrite exchange_lost, renews_lost by auto. cbn [v_al]. apply vclose_request, vclose_one.
Qed.

Lemma lost_value w vs x s (u : V) n a : XInv w -> showsX w vs -> w_arr w x = Some a -> normal a <> a -> shape_arg c s -> a_shape a <> resolve s ->
  follows_interp w vs (AssignValue x s u) n.
Proof.
  intros I Sh Ea N Hs Ns. destruct (showsX_some c _ _ _ _ Sh Ea) as (va & Eva & _). destruct (lost_mem w vs x a va I Sh Ea Eva N) as (Hva & M & Nv).
  destruct (failed_normal c w x a I Ea N) as [Mem En]. pose proof (no_memory_null a Mem) as Na.
  pose proof (inv_valid c (norm w) x (normal a) (proj1 I) (norm_arr c w x a Ea)) as Hv. cbn [ThrowWorld.norm w_heap] in Hv.
  assert (Hh : heap_ok (w_heap w)) by apply (proj1 I).
  assert (Hsr : shape_arg c (resolve s)) by (apply shape_arg_resolve; auto).
  assert (Esh : a_shape a = v_shape va) by apply Hva. assert (Eal : a_al a = v_al va) by apply Hva.
  assert (P : exists h' a', assign_value c x (w_heap w) a s (fun _ => Ok u) = Ok (h', a') /\ valid c x h' a' /\ has h' a' (fun _ => u) /\
     local (w_heap w) [blk a] h' [blk a'] /\ sig a' (built (v_al va) s (fun _ => u))).
  { unfold assign_value. destruct (shape_eqb (a_shape a) (resolve s)) eqn:E; [apply shape_eqb_eq in E; congruence|].
    destruct (refit_spec c x (w_heap w) (normal a) (resolve s) Hh Hv Hsr) as [h1 [a1 [E1 [Hr [Hl [Es _]]]]]].
    rewrite deallocate_nothing in E1 by (rewrite base_normal; auto). cbn [bind] in E1. rewrite En, with_shape_twice in E1.
    rewrite deallocate_nothing by auto. cbn [bind]. rewrite E1. cbn [bind].
    destruct (construct_spec c x h1 a1 u) as [h2 [-> [Hv2 [Hhas Hl2]]]]; auto; [apply Hl|]. cbn [bind].
    exists h2, a1. split; auto. split; auto. split; auto. rewrite blk_normal in Hl.
    split; [eapply local_trans; eauto|].
    pose proof (allocate_sig c x (w_heap w) (with_shape a (resolve s)) h1 a1 (fun _ => u) Hh (proj1 Mem) (proj2 (proj2 Mem)) E1) as Sg.
    cbn [with_shape a_al a_shape] in Sg. rewrite Eal in Sg. unfold built in *. rewrite proper_resolve2 in Sg by apply Hs. exact Sg. }
  destruct P as (h' & a' & E & V' & H' & L' & Sg).
  assert (Sp := assign_value_spent c x (w_heap w) a s (fun _ => Ok u) (w_heap w) a (h', a') n (deallocate_nothing c x (w_heap w) a Na) (proj2 (proj2 Mem)) E).
  apply (spent_change w x) in Sp. unfold spent in Sp.
  assert (D : showsX (mkW h' (put (w_arr w) x (Some a')) (w_next w)) (interp_op c vs (AssignValue x s u))).
  { destruct (xinv_put c w x a h' a' I Ea) as [I' U]; auto.
    { eapply repr_extents. exact V'. }
    { rewrite (valid_normal c x h'); auto. }
    apply (finishX c w _ vs _ [x]); auto.
    - cbn. rewrite (on_eq vs x va) by auto. apply Sh.
    - intros z Hz. cbn [interp_op]. rewrite (on_eq vs x va) by auto. apply get_set_other. intros ->. apply Hz. left; auto.
    - intros z [<-|[]]. cbn [interp_op w_arr w_heap wput]. rewrite (on_eq vs x va), put_same, get_set_same by auto. unfold revalued.
      destruct (shape_dec (v_shape va) (resolve s)) as [X|_]; [congruence|]. pose proof Sg as (G1 & G2 & G3).
      split; auto. split; auto. split; [apply (sig_busy c _ x h' a' _ V' Sg)|]. split; auto. intros _ i Hi. rewrite <- G3 in *. apply H'; auto. }
  assert (T : showsX (mkW (w_heap w) (put (w_arr w) x (Some (failed a (resolve s)))) (w_next w)) (set_value vs x (Some (lost (v_al va) s)))).
  { destruct Sh as [Sn Sh]. split; [exact Sn|]. intros z. cbn [w_arr w_heap set_value vs_arr]. unfold put. destruct (z =? x)%nat; [|apply Sh].
    rewrite <- (lost_resolve c _ s Hs), <- Eal. replace (failed a (resolve s)) with (failed (set_al a (a_al a)) (resolve s)) by (destruct a; reflexivity).
    apply failed_value. exact Mem. }
  assert (Rq : requests c vs (AssignValue x s u) = request (asks c s) (set_value vs x (Some (lost (v_al va) s)))).
  { cbn [requests]. rewrite (on_list vs x va) by auto. unfold same_dims. destruct (shape_dec (v_shape va) (resolve s)) as [X|_]; [congruence|]. reflexivity. }
  unfold follows_interp. cbn [xstep]. rewrite (get_ok w x a Ea). cbn [bind]. eexists. split; [exact Sp|]. unfold xinterp. rewrite Rq.
  rewrite (asks_resolve c s Hs). destruct (shape_eqb (a_shape a) (resolve s)) eqn:Eb; [apply shape_eqb_eq in Eb; contradiction|]. cbn [negb andb].
  destruct n as [k|]; [|cbn [settle fst snd]; auto]. destruct (asks c s); cbn [when request map].
  - destruct k as [|k]; cbn [nth_error settle fst snd]; [auto|]. rewrite (proj2 (nth_error_None [] k)), (proj2 (nth_error_None [] k)) by (cbn; lia). cbn [settle fst snd]. auto.
  - rewrite (proj2 (nth_error_None [] k)), (proj2 (nth_error_None [] k)) by (cbn; lia). cbn [settle fst snd]. auto.
Qed.
Lemma lost_delete w vs x n a : XInv w -> showsX w vs -> w_arr w x = Some a -> follows_interp w vs (Delete x) n.
Proof.
  intros I Sh Ea. destruct (showsX_some c _ _ _ _ Sh Ea) as (v & Ev & _). destruct (deleted c Hf w vs x v I Sh Ev) as (w' & E & _ & S').
  unfold follows_interp. rewrite xinterp_none by reflexivity. cbn [xstep step]. rewrite E. cbn [nothrow]. eexists. split; [reflexivity|]. cbn. auto.
Qed.

(** ** Every statement *)

Lemma xstep_interp w vs o n : XInv w -> showsX w vs -> xlegal_op c w o -> follows_interp w vs o n.
Proof.
  intros Hw Sh [L U].
  destruct (all_normal_dec c w (args o)) as [Ha|[z [a [Hz [Ez Nz]]]]]; [apply args_usable_step; auto|].
  assert (Nu : forall y, usable w y -> z <> y).
  { intros y Hy ->. destruct (usable_normal c w y Hw Hy) as [b [Eb Nb]]. congruence. }
  destruct o; cbn [args In] in Hz; cbn [legal_op] in L; try tauto;
    try (exfalso; destruct Hz as [<-|[]]; apply (Nu _ U); reflexivity).
  - destruct Hz as [<-|[<-|[]]]; [|destruct (Nu _ U eq_refl)]. apply (lost_step w vs _ n x a); auto.
    split; auto. split; [apply L|]. apply usable_all; auto.
  - destruct Hz as [<-|[<-|[]]]; [|destruct (Nu _ U eq_refl)].
    destruct (usable_normal c w y Hw U) as [b [Eb Nb]]. apply (lost_move w vs x y n a b); auto. apply L.
  - destruct Hz as [<-|[<-|[]]]; [|destruct (Nu _ U eq_refl)]. apply (lost_step w vs _ n x a); auto.
    split; auto. split; [apply L|]. apply usable_all; auto.
  - destruct Hz as [<-|[<-|[]]]; [|destruct (Nu _ U eq_refl)]. apply (lost_step w vs _ n x a); auto.
    split; auto. split; [apply L|]. apply usable_all; auto.
  - destruct Hz as [<-|[]]. destruct U as [U|[a' [Ea' Ns]]]; [destruct (Nu _ U eq_refl)|].
    assert (a' = a) by congruence. subst a'. apply (lost_value w vs x s v n a); auto. apply L.
  - destruct Hz as [<-|[]]. apply (lost_step w vs _ n x a); auto.
  - exfalso. destruct U as [U1 U2]. destruct Hz as [<-|[<-|[]]]; [apply (Nu _ U1)|apply (Nu _ U2)]; auto.
  - destruct Hz as [<-|[]]. apply (lost_delete w vs x n a); auto.
Qed.

(** ** Legal programs *)

Lemma xpresent_iff w vs x : showsX w vs -> present vs x <-> exists_arr w x.
Proof.
  intros Sh. split; intros [v E].
  - destruct (showsX_val c _ _ _ _ Sh E) as (a & Ea & _). exists a; auto.
  - destruct (showsX_some c _ _ _ _ Sh E) as (a & Ea & _). exists a; auto.
Qed.
Lemma xshaped_iff w vs x (P : list dim -> Prop) : showsX w vs -> shaped vs x P <-> exists a, w_arr w x = Some a /\ P (a_shape a).
Proof.
  intros Sh. split; intros (v & E & H).
  - destruct (showsX_val c _ _ _ _ Sh E) as (a & Ea & Ha). exists a. split; auto. destruct Ha as (_ & _ & _ & -> & _). auto.
  - destruct (showsX_some c _ _ _ _ Sh E) as (a & Ea & Ha). exists a. split; auto. destruct Ha as (_ & _ & _ & <- & _). auto.
Qed.
Lemma xcopiable_iff w vs x : showsX w vs -> copiable c vs x <-> may_copy c w x.
Proof. intros Sh. apply (xshaped_iff w vs x (fun s => c_ndebug c = true \/ known_strides s) Sh). Qed.
Lemma whole_iff w vs x : XInv w -> showsX w vs -> whole vs x <-> usable w x.
Proof.
  intros I Sh. split; intros (v & E & H).
  - destruct (showsX_val c _ _ _ _ Sh E) as (a & Ea & Ha). exists a. split; auto. pose proof (base_mem w x a v I Ea Ha) as Hb.
    destruct Ha as (_ & _ & _ & -> & _). destruct H as [H|H]; [left|auto]. intros X. rewrite X, H in Hb. discriminate.
  - destruct (showsX_some c _ _ _ _ Sh E) as (a & Ea & Ha). exists a. split; auto. pose proof (base_mem w x v a I E Ha) as Hb.
    destruct Ha as (_ & _ & _ & <- & _). destruct H as [H|H]; [left|auto]. destruct (v_mem a); auto. exfalso. apply H. apply ptr_eqb_eq. exact Hb.
Qed.
Lemma xallowed_iff w vs o : XInv w -> showsX w vs -> xallowed c vs o <-> xlegal_op c w o.
Proof.
  intros I Sh. unfold xallowed, xlegal_op. destruct o; cbn [allowed_op legal_op];
    rewrite ?(xpresent_iff w vs _ Sh), ?(xcopiable_iff w vs _ Sh), ?(xshaped_iff w vs _ _ Sh), ?(whole_iff w vs _ I Sh); reflexivity.
Qed.
Lemma xall_iff ops : forall w vs, XInv w -> showsX w vs -> all_xallowed c vs ops <-> xlegal c w ops.
Proof.
  induction ops as [|[o n] r IH]; intros w vs I Sh; cbn [all_xallowed xlegal]; [tauto|]. rewrite (xallowed_iff w vs o I Sh). split; intros [L H]; split; auto.
  - intros q E. destruct (xstep_interp w vs o n I Sh L) as (q1 & E1 & S1 & _). rewrite E in E1. injection E1 as <-.
    apply (IH _ (fst (xinterp c vs o n))); auto. apply (settle_inv c Hf w o (allocs n)); auto.
  - destruct (xstep_interp w vs o n I Sh L) as (q1 & E1 & S1 & _). apply (IH (fst (settle q1))); auto. apply (settle_inv c Hf w o (allocs n)); auto.
Qed.
Lemma xrun_interps ops : forall w vs, XInv w -> showsX w vs -> xlegal c w ops ->
  exists w', xrun c (with_allocs ops) w = Ok w' /\ XInv w' /\ showsX w' (xinterps c ops vs) /\ exceptions c ops w = xthrows c ops vs.
Proof.
  induction ops as [|[o n] r IH]; intros w vs I Sh L; cbn [with_allocs map xrun fst snd xinterps exceptions xthrows].
  - exists w. auto.
  - destruct L as [L R]. destruct (xstep_interp w vs o n I Sh L) as (q & E & S1 & T1). rewrite E. cbn [bind].
    destruct (IH (fst (settle q)) (fst (xinterp c vs o n))) as (w' & E' & I' & S' & T'); auto.
    { apply (settle_inv c Hf w o (allocs n)); auto. }
    exists w'. split; auto. split; auto. split; auto. rewrite T1, T'. reflexivity.
Qed.
Lemma xshows_empty : showsX empty_world no_values.
Proof. split; [reflexivity|]. intros x. exact Logic.I. Qed.
End Step.

Lemma xprograms {V : Type} (c : config V) : fair c -> forall ops,
  (xlegal c empty_world ops <-> all_xallowed c no_values ops) /\
  (xlegal c empty_world ops -> exists w, xrun c (with_allocs ops) empty_world = Ok w /\
     shows_xvalues c w (xinterps c ops no_values) /\ exceptions c ops empty_world = xthrows c ops no_values).
Proof.
  intros Hf ops. pose proof (xinv_empty c) as I. pose proof (xshows_empty c) as Sh. split.
  - symmetry. apply (xall_iff c Hf ops empty_world no_values I Sh).
  - intros L. destruct (xrun_interps c Hf ops empty_world no_values I Sh L) as (w & E & _ & S & T). eauto.
Qed.
Lemma xstatements {V : Type} (c : config V) : fair c -> forall w vs o n, xreachable c w -> shows_xvalues c w vs ->
  (xlegal_op c w o <-> xallowed c vs o) /\
  (xlegal_op c w o -> exists r, xstep c w o (allocs n) = Ok r /\ shows_xvalues c (fst (settle r)) (fst (xinterp c vs o n)) /\
     snd (settle r) = snd (xinterp c vs o n)).
Proof.
  intros Hf w vs o n R Sh. pose proof (xreachable_inv c Hf w R) as I. split; [symmetry; apply (xallowed_iff c w vs o I Sh)|].
  intros L. apply (xstep_interp c Hf w vs o n I Sh L).
Qed.
Lemma xstates {V : Type} (c : config V) : fair c -> forall w, xreachable c w -> exists vs, shows_xvalues c w vs.
Proof.
  intros Hf w (ops & L & R). destruct (proj2 (xprograms c Hf ops) L) as (w' & E & S & _). exists (xinterps c ops no_values). congruence.
Qed.
Lemma xcounts {V : Type} (c : config V) : fair c -> forall w vs o n, xreachable c w -> shows_xvalues c w vs -> xlegal_op c w o ->
  exists r, xstep c w o (allocs n) = Ok r /\
    (snd (settle r) = true <-> exists k, n = Some k /\ (k < length (requests c vs o))%nat).
Proof.
  intros Hf w vs o n R Sh L. destruct (proj2 (xstatements c Hf w vs o n R Sh) L) as (r & E & _ & T). exists r. split; auto. rewrite T.
  unfold xinterp. destruct n as [k|]; [|split; [discriminate|intros (k & K & _); discriminate]].
  destruct (nth_error (requests c vs o) k) eqn:Ek; cbn [snd].
  - split; auto. intros _. exists k. split; auto. apply nth_error_Some. congruence.
  - split; [discriminate|]. intros (j & Ej & H). injection Ej as <-. apply nth_error_None in Ek. lia.
Qed.
Lemma xthrown {V : Type} (c : config V) : fair c -> forall w vs o k w', xreachable c w -> shows_xvalues c w vs -> xlegal_op c w o ->
  xstep c w o (allocs (Some k)) = Ok (Threw w') -> exists vs', nth_error (requests c vs o) k = Some vs' /\ shows_xvalues c w' vs'.
Proof.
  intros Hf w vs o k w' R Sh L E. destruct (proj2 (xstatements c Hf w vs o (Some k) R Sh) L) as (r & E' & S & T). rewrite E in E'. injection E' as <-.
  unfold xinterp in *. destruct (nth_error (requests c vs o) k) as [vs'|]; cbn [settle fst snd] in *; [eauto|discriminate].
Qed.
