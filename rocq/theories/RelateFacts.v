(** Proofs about states that look the same and about statements on different arrays, by the interpreter. *)
From Coq Require Import ZArith List Bool Lia Arith.
From Verif Require Import Base Interval Shape Memory Ref Container Program.
From Verif Require Import Spec SpecMem SpecContainer SpecProgram SpecViews SpecInterp SpecRelate.
From Verif Require Import Tac ContainerFacts ContainerWorld ProgramFacts InterpForms InterpFacts.
Import ListNotations.
Open Scope Z_scope.

Section Values.
Context {V : Type}.
Variable c : config V.
Variable visit : list dim -> list Z -> nat.
Notation interp := (interp c visit).
Notation interps := (interps c visit).
Definition agree (P : nat -> Prop) (vs1 vs2 : valuation V) : Prop := forall z, P z -> vs_arr vs1 z = vs_arr vs2 z.

(** ** A statement depends on the arrays it mentions *)

Lemma shaped_frame (vs1 vs2 : valuation V) x P : vs_arr vs1 x = vs_arr vs2 x -> shaped vs1 x P <-> shaped vs2 x P.
Proof. unfold shaped. intros ->. tauto. Qed.
Lemma allowed_frame vs1 vs2 o : agree (fun z => In z (names o)) vs1 vs2 -> allowed c vs1 o <-> allowed c vs2 o.
Proof.
  intros A.
  destruct o as [o|x v|x y i|y x|y x|y x|x g|x f|x s y i]; [destruct o|..]; cbn [names op_names] in A; cbn [allowed allowed_op];
    unfold present, copiable, shaped;
    repeat match goal with
    | |- context [vs_arr vs1 ?x] => rewrite (A x) by (cbn; auto)
    end; try tauto.
Qed.
Ltac cases :=
  repeat match goal with
  | |- context [if ?b then _ else _] => destruct b
  | |- context [match ?b with Some _ => _ | None => _ end] => destruct b
  | |- context [match ?b with (_, _) => _ end] => destruct b
  end.
Lemma frame_next vs1 vs2 o : vs_next vs1 = vs_next vs2 -> agree (fun z => In z (names o)) vs1 vs2 ->
  vs_next (interp vs1 o) = vs_next (interp vs2 o).
Proof.
  intros N A.
  destruct o as [o|x v|x y i|y x|y x|y x|x g|x f|x s y i]; [destruct o|..]; cbn [names op_names] in A; cbn [SpecInterp.interp interp_op];
    unfold run_move_new, run_move, on2, on;
    repeat match goal with |- context [vs_arr vs1 ?x] => rewrite (A x) by (cbn; auto) end; cases; cbn; congruence.
Qed.
Lemma frame_arr vs1 vs2 o z : vs_next vs1 = vs_next vs2 -> agree (fun z => In z (names o)) vs1 vs2 ->
  vs_arr vs1 z = vs_arr vs2 z -> vs_arr (interp vs1 o) z = vs_arr (interp vs2 o) z.
Proof.
  intros N A.
  destruct o as [o|x v|x y i|y x|y x|y x|x g|x f|x s y i]; [destruct o|..]; cbn [names op_names] in A; cbn [SpecInterp.interp interp_op];
    unfold run_move_new, run_move, on2, on; intros E;
    repeat match goal with |- context [match vs_arr vs1 ?x with _ => _ end] => rewrite (A x) by (cbn; auto) end;
    repeat match goal with
    | |- context [match vs_arr vs2 ?x with _ => _ end] => destruct (vs_arr vs2 x)
    | |- context [match move_new ?a ?b ?d ?e with _ => _ end] => destruct (move_new a b d e)
    | |- context [match move_into ?a ?b ?d with _ => _ end] => destruct (move_into a b d)
    | |- context [if shape_dec ?a ?b then _ else _] => destruct (shape_dec a b)
    | |- context [if c_pocs c then _ else _] => destruct (c_pocs c)
    | |- context [vs_arr (if ?b then _ else _)] => destruct b
    end; cbn; rewrite ?N; cases; auto.
Qed.

(** ** Statements that declare nothing *)

Lemma local_other vs o z : ~ declares o -> ~ In z (names o) -> vs_arr (interp vs o) z = vs_arr vs z.
Proof.
  intros D.
  destruct o as [o|x v|x y i|y x|y x|y x|x g|x f|x s y i]; [destruct o|..]; cbn [declares] in D; try tauto; clear D;
    cbn [names op_names In SpecInterp.interp interp_op]; unfold run_move_new, run_move, on2, on; intros H;
    repeat match goal with
    | |- context [match vs_arr vs ?x with _ => _ end] => destruct (vs_arr vs x)
    | |- context [match move_new ?a ?b ?d ?e with _ => _ end] => destruct (move_new a b d e)
    | |- context [match move_into ?a ?b ?d with _ => _ end] => destruct (move_into a b d)
    | |- context [if shape_dec ?a ?b then _ else _] => destruct (shape_dec a b)
    | |- context [if c_pocs c then _ else _] => destruct (c_pocs c)
    | |- context [vs_arr (if ?b then _ else _)] => destruct b
    end; cbn; auto;
    repeat match goal with
    | |- context [(z =? ?x)%nat] => rewrite (proj2 (Nat.eqb_neq z x)) by (intros ->; tauto)
    end; auto.
Qed.
Lemma local_names vs1 vs2 o z : ~ declares o -> agree (fun z => In z (names o)) vs1 vs2 -> In z (names o) ->
  vs_arr (interp vs1 o) z = vs_arr (interp vs2 o) z.
Proof.
  intros D A Hz. pose proof (A z Hz) as E. clear Hz. revert E.
  destruct o as [o|x v|x y i|y x|y x|y x|x g|x f|x s y i]; [destruct o|..]; cbn [declares] in D; try tauto; clear D;
    cbn [names op_names] in A; cbn [SpecInterp.interp interp_op];
    unfold run_move_new, run_move, on2, on; intros E;
    repeat match goal with |- context [match vs_arr vs1 ?x with _ => _ end] => rewrite (A x) by (cbn; auto) end;
    repeat match goal with
    | |- context [match vs_arr vs2 ?x with _ => _ end] => destruct (vs_arr vs2 x)
    | |- context [match move_new ?a ?b ?d ?e with _ => _ end] => destruct (move_new a b d e)
    | |- context [match move_into ?a ?b ?d with _ => _ end] => destruct (move_into a b d)
    | |- context [if shape_dec ?a ?b then _ else _] => destruct (shape_dec a b)
    | |- context [if c_pocs c then _ else _] => destruct (c_pocs c)
    | |- context [vs_arr (if ?b then _ else _)] => destruct b
    end; cbn; cases; auto.
Qed.
(** How many names it uses up *)
Lemma local_next vs1 vs2 o : ~ declares o -> agree (fun z => In z (names o)) vs1 vs2 ->
  exists k, vs_next (interp vs1 o) = (vs_next vs1 + k)%nat /\ vs_next (interp vs2 o) = (vs_next vs2 + k)%nat.
Proof.
  intros D A.
  destruct o as [o|x v|x y i|y x|y x|y x|x g|x f|x s y i]; [destruct o|..]; cbn [declares] in D; try tauto; clear D;
    cbn [names op_names] in A; cbn [SpecInterp.interp interp_op];
    unfold run_move_new, run_move, on2, on;
    repeat match goal with |- context [match vs_arr vs1 ?x with _ => _ end] => rewrite (A x) by (cbn; auto) end; cases; cbn;
    solve [exists 0%nat; lia | exists 1%nat; lia].
Qed.
End Values.

Section Many.
Context {V : Type}.
Variable c : config V.
Variable visit : list dim -> list Z -> nat.
Notation interp := (interp c visit).
Notation interps := (interps c visit).

Lemma frame_all ops : forall vs1 vs2 (P : nat -> Prop), vs_next vs1 = vs_next vs2 -> agree P vs1 vs2 ->
  (forall x, mentions ops x -> P x) ->
  (all_allowed c visit vs1 ops <-> all_allowed c visit vs2 ops) /\
  vs_next (interps ops vs1) = vs_next (interps ops vs2) /\ agree P (interps ops vs1) (interps ops vs2).
Proof.
  induction ops as [|o r IH]; intros vs1 vs2 P N A M; [cbn; tauto|].
  assert (A1 : agree (fun z => In z (names o)) vs1 vs2) by (intros z Hz; apply A, M; exists o; cbn; auto).
  destruct (IH (interp vs1 o) (interp vs2 o) P) as (H1 & H2 & H3).
  - apply frame_next; auto.
  - intros z Hz. apply frame_arr; auto.
  - intros x (o' & I & Hx). apply M. exists o'. cbn; auto.
  - split; [|split; assumption]. cbn [all_allowed]. rewrite H1, (allowed_frame c visit vs1 vs2 o A1). tauto.
Qed.

(** ** Threads *)

Lemma weave_values ls ops : weave ls ops -> forall (own : nat -> nat -> Prop) vs (f : nat -> valuation V),
  (forall j k x, own j x -> own k x -> j = k) ->
  (forall k l, nth_error ls k = Some l -> (forall o, In o l -> ~ declares o /\ forall x, In x (names o) -> own k x) /\ all_allowed c visit (f k) l) ->
  (forall k, agree (own k) (f k) vs) ->
  all_allowed c visit vs ops /\
  (forall k l, nth_error ls k = Some l -> agree (own k) (interps l (f k)) (interps ops vs)) /\
  (forall z, (forall k, ~ own k z) -> vs_arr (interps ops vs) z = vs_arr vs z).
Proof.
  induction 1 as [ls F|ls1 o r ls2 ops W IH]; intros own vs f D L A.
  - split; [exact I|split; [|reflexivity]]. intros k l E. rewrite Forall_forall in F. rewrite (F l (nth_error_In _ _ E)). apply A.
  - set (k0 := length ls1).
    assert (E0 : nth_error (ls1 ++ (o :: r) :: ls2) k0 = Some (o :: r)).
    { rewrite nth_error_app2, Nat.sub_diag by (unfold k0; lia). reflexivity. }
    destruct (L k0 (o :: r) E0) as (L1 & L2 & L3). destruct (L1 o (or_introl eq_refl)) as [Nd Hn].
    assert (Ao : agree (fun z => In z (names o)) (f k0) vs) by (intros z Hz; apply A; auto).
    set (f' := fun k => if (k =? k0)%nat then interp (f k0) o else f k).
    destruct (IH own (interp vs o) f') as (H1 & H2 & H3); auto.
    + intros k l E. unfold f'. destruct (Nat.eqb_spec k k0) as [->|N].
      * rewrite nth_error_app2, Nat.sub_diag in E by (unfold k0; lia). injection E as <-. split; auto. intros o' I. apply L1. cbn; auto.
      * apply L. destruct (Nat.lt_ge_cases k k0) as [Hk|Hk].
        -- rewrite nth_error_app1 in * by auto. auto.
        -- rewrite nth_error_app2 in * by auto. replace (k - length ls1)%nat with (S (k - length ls1 - 1)) in * by (unfold k0 in *; lia). exact E.
    + intros k. unfold f'. destruct (Nat.eqb_spec k k0) as [->|N]; intros z Hz.
      * destruct (in_dec Nat.eq_dec z (names o)) as [I|I].
        -- apply local_names; auto.
        -- rewrite !local_other by auto. apply A; auto.
      * rewrite local_other; auto. { apply A; auto. } intros I. apply N. apply (D k k0 z); auto.
    + split; [|split].
      * split; auto. apply (allowed_frame c visit (f k0) vs o Ao); auto.
      * intros k l E. destruct (Nat.eq_dec k k0) as [->|N].
        -- rewrite E0 in E. injection E as <-. specialize (H2 k0 r). unfold f' in H2. rewrite Nat.eqb_refl in H2. apply H2.
           rewrite nth_error_app2, Nat.sub_diag by (unfold k0; lia). reflexivity.
        -- specialize (H2 k l). unfold f' in H2. rewrite (proj2 (Nat.eqb_neq k k0) N) in H2. apply H2.
           destruct (Nat.lt_ge_cases k k0) as [Hk|Hk].
           ++ rewrite nth_error_app1 in * by auto. auto.
           ++ rewrite nth_error_app2 in * by auto. replace (k - length ls1)%nat with (S (k - length ls1 - 1)) in * by (unfold k0 in *; lia). exact E.
      * intros z Hz. change (interps (o :: ops) vs) with (interps ops (interp vs o)). rewrite H3 by auto.
        apply local_other; auto. intros I. apply (Hz k0). auto.
Qed.
End Many.

(** ** States *)

Section Worlds.
Context {V : Type}.
Variable c : config V.
Hypothesis Hf : fair c.

Lemma shows_same c1 c2 w1 w2 (vs1 vs2 : valuation V) x : c_cap c1 = c_cap c2 -> shows_values c1 w1 vs1 -> shows_values c2 w2 vs2 ->
  vs_arr vs1 x = vs_arr vs2 x -> same_array w1 w2 x.
Proof.
  intros Hc [_ S1] [_ S2] E. specialize (S1 x). specialize (S2 x). unfold same_array. rewrite <- E in S2.
  destruct (w_arr w1 x) as [a1|], (vs_arr vs1 x) as [v|], (w_arr w2 x) as [a2|]; try contradiction; auto.
  destruct S1 as (A1 & B1 & C1 & D1 & F1), S2 as (A2 & B2 & C2 & D2 & F2). split; [congruence|]. split.
  { rewrite C1, C2. unfold v_inline. rewrite Hc. reflexivity. }
  split. { apply (f_equal negb) in B1, B2. rewrite negb_involutive in B1, B2. congruence. }
  split; [congruence|]. rewrite D1, D2. intros i Hi. exists (v_at v i). auto.
Qed.
Lemma holds_det (h : heap V) p v v' : holds h p v -> holds h p v' -> v = v'.
Proof. unfold holds. congruence. Qed.
Lemma shows_other w1 w2 (vs1 vs2 : valuation V) X : shows_values c w1 vs1 -> shows_values c w2 vs2 -> (forall x, In x X -> same_array w1 w2 x) ->
  shows_values c w2 (mkVs (fun z => if in_dec Nat.eq_dec z X then vs_arr vs1 z else vs_arr vs2 z) (vs_next vs2)).
Proof.
  intros [_ S1] [N2 S2] H. split; auto. intros x. cbn [vs_arr]. specialize (S1 x). specialize (S2 x).
  destruct (in_dec Nat.eq_dec x X) as [I|I]; auto. specialize (H x I). unfold same_array in H.
  destruct (w_arr w1 x) as [a1|], (vs_arr vs1 x) as [v1|], (w_arr w2 x) as [a2|], (vs_arr vs2 x) as [v2|]; try contradiction; auto.
  destruct S1 as (A1 & B1 & C1 & D1 & F1), S2 as (A2 & B2 & C2 & D2 & F2), H as (A & B & C & D & F).
  split; [congruence|]. split; [congruence|]. split; [congruence|]. split; [congruence|]. intros i Hi. rewrite D1 in *.
  destruct (F i Hi) as (v & P1 & P2). rewrite (holds_det _ _ _ _ (F1 i Hi) P1). rewrite <- D in P2. exact P2.
Qed.
Lemma reach_shows w : areachable c w -> exists vs, shows_values c w vs.
Proof.
  intros (ops & L & E). pose proof (inv_empty c) as I0.
  apply (all_allowed_iff c Hf ops empty_world no_values I0 (shows_empty c)) in L.
  destruct (run_interps c Hf ops empty_world no_values I0 (shows_empty c) L) as (w' & E' & _ & S).
  rewrite E in E'. injection E' as <-. eauto.
Qed.

Lemma fresh_above w z : areachable c w -> (w_next w <= z)%nat -> w_arr w z = None.
Proof.
  intros R G. destruct (areachable_inv c Hf w R) as [_ [H _]]. destruct (w_arr w z) as [a|] eqn:E; auto. destruct (H _ _ E). lia.
Qed.
(** A state and the values in it *)
Lemma reach_run w vs ops : areachable c w -> shows_values c w vs -> alegal c w ops ->
  all_allowed c visits vs ops /\ exists w', arun c ops w = Ok w' /\ shows_values c w' (interps c visits ops vs).
Proof.
  intros R S L. pose proof (areachable_inv c Hf w R) as I. apply (all_allowed_iff c Hf ops w vs I S) in L. split; auto.
  destruct (run_interps c Hf ops w vs I S L) as (w' & E & _ & S'). eauto.
Qed.
Lemma frame_worlds w1 w2 X ops : areachable c w1 -> areachable c w2 -> w_next w1 = w_next w2 ->
  (forall x, In x X -> same_array w1 w2 x) -> (forall x, mentions ops x -> In x X \/ (w_next w1 <= x)%nat) ->
  alegal c w1 ops ->
  alegal c w2 ops /\
  exists w1' w2', arun c ops w1 = Ok w1' /\ arun c ops w2 = Ok w2' /\ w_next w1' = w_next w2' /\
    forall x, In x X \/ (w_next w1 <= x)%nat -> same_array w1' w2' x.
Proof.
  intros R1 R2 N H M L. destruct (reach_shows w1 R1) as [vs1 S1]. destruct (reach_shows w2 R2) as [vs2 S2].
  pose proof (shows_other w1 w2 vs1 vs2 X S1 S2 H) as S3. set (vs3 := mkVs _ _) in S3.
  destruct (reach_run w1 vs1 ops R1 S1 L) as (A1 & w1' & E1 & S1').
  assert (N' : vs_next vs1 = vs_next vs3) by (destruct S1 as [<- _], S3 as [<- _]; auto).
  destruct (frame_all c visits ops vs1 vs3 (fun x => In x X \/ (w_next w1 <= x)%nat)) as (F1 & F2 & F3); auto.
  { intros z [I|G].
    - unfold vs3. cbn. destruct (in_dec Nat.eq_dec z X); tauto.
    - destruct S1 as [_ S1], S3 as [_ S3]. specialize (S1 z). specialize (S3 z).
      rewrite (fresh_above w1 z R1 G) in S1. rewrite (fresh_above w2 z R2) in S3 by lia.
      destruct (vs_arr vs1 z), (vs_arr vs3 z); tauto. }
  pose proof (areachable_inv c Hf w2 R2) as I2. apply F1 in A1.
  destruct (run_interps c Hf ops w2 vs3 I2 S3 A1) as (w2' & E2 & _ & S2').
  split. { apply (all_allowed_iff c Hf ops w2 vs3 I2 S3); auto. }
  exists w1', w2'. split; auto. split; auto. split. { destruct S1' as [-> _], S2' as [-> _]. exact F2. }
  intros x Hx. apply (shows_same c c w1' w2' _ _ x eq_refl S1' S2'). apply F3; auto.
Qed.

(** ** Threads *)

Definition owns (ls : list (list (act V))) (k x : nat) : Prop := exists l, nth_error ls k = Some l /\ mentions l x.
Definition apart (ls : list (list (act V))) : Prop := forall j k x, owns ls j x -> owns ls k x -> j = k.
Lemma weave_run w vs ls ops : areachable c w -> shows_values c w vs -> Forall (Forall (fun o => ~ declares o)) ls -> apart ls ->
  Forall (alegal c w) ls -> weave ls ops ->
  all_allowed c visits vs ops /\
  (forall k l, nth_error ls k = Some l -> agree (owns ls k) (interps c visits l vs) (interps c visits ops vs)) /\
  (forall z, (forall k, ~ owns ls k z) -> vs_arr (interps c visits ops vs) z = vs_arr vs z).
Proof.
  intros R S D A L W. apply (weave_values c visits ls ops W (owns ls) vs (fun _ => vs) A).
  - intros k l E. rewrite Forall_forall in D, L. pose proof (nth_error_In _ _ E) as I. split.
    + intros o Ho. specialize (D l I). rewrite Forall_forall in D. split; auto. intros x Hx. exists l. split; auto. exists o; auto.
    + apply (all_allowed_iff c Hf l w vs (areachable_inv c Hf w R) S). auto.
  - intros k z _. reflexivity.
Qed.
Lemma owns_dec ls z : (exists k l, nth_error ls k = Some l /\ mentions l z) \/ (forall k, ~ owns ls k z).
Proof.
  induction ls as [|l ls IH].
  - right. intros [|k] (l & E & _); discriminate.
  - assert (Dl : mentions l z \/ ~ mentions l z).
    { clear. induction l as [|o l IH]. { right. intros (o & [] & _). }
      destruct (in_dec Nat.eq_dec z (names o)) as [I|I]. { left. exists o. cbn; auto. }
      destruct IH as [(o' & H1 & H2)|IH]. { left. exists o'. cbn; auto. }
      right. intros (o' & [<-|H1] & H2); [contradiction|]. apply IH. exists o'; auto. }
    destruct Dl as [M|M]. { left. exists 0%nat, l. auto. }
    destruct IH as [(k & l' & E & H)|IH]. { left. exists (S k), l'. auto. }
    right. intros [|k] (l' & E & H). { injection E as <-. contradiction. } apply (IH k). exists l'; auto.
Qed.
Lemma threads_worlds w ls ops : areachable c w -> Forall (Forall (fun o => ~ declares o)) ls ->
  (forall j k l l' x, j <> k -> nth_error ls j = Some l -> nth_error ls k = Some l' -> mentions l x -> ~ mentions l' x) ->
  Forall (alegal c w) ls -> weave ls ops ->
  alegal c w ops /\
  exists w', arun c ops w = Ok w' /\
    (forall l, In l ls -> exists w1, arun c l w = Ok w1 /\ forall x, mentions l x -> same_array w1 w' x) /\
    (forall x, (forall l, In l ls -> ~ mentions l x) -> same_array w w' x).
Proof.
  intros R D A L W. destruct (reach_shows w R) as [vs S].
  assert (A' : apart ls).
  { intros j k x (l & E & M) (l' & E' & M'). destruct (Nat.eq_dec j k) as [|N]; auto. exfalso. exact (A j k l l' x N E E' M M'). }
  destruct (weave_run w vs ls ops R S D A' L W) as (H1 & H2 & H3).
  pose proof (areachable_inv c Hf w R) as I. split. { apply (all_allowed_iff c Hf ops w vs I S); auto. }
  destruct (run_interps c Hf ops w vs I S H1) as (w' & E & _ & S'). exists w'. split; auto. split.
  - intros l Hl. rewrite Forall_forall in L. destruct (reach_run w vs l R S (L l Hl)) as (_ & w1 & E1 & S1). exists w1. split; auto.
    intros x M. destruct (In_nth_error _ _ Hl) as [k Ek]. apply (shows_same c c w1 w' _ _ x eq_refl S1 S'). apply (H2 k l Ek). exists l; auto.
  - intros x M. apply (shows_same c c w w' _ _ x eq_refl S S'). symmetry. apply H3. intros k (l & Ek & Ml). exact (M l (nth_error_In _ _ Ek) Ml).
Qed.
Lemma order_worlds w ls ops ops' : areachable c w -> Forall (Forall (fun o => ~ declares o)) ls ->
  (forall j k l l' x, j <> k -> nth_error ls j = Some l -> nth_error ls k = Some l' -> mentions l x -> ~ mentions l' x) ->
  Forall (alegal c w) ls -> weave ls ops -> weave ls ops' ->
  exists w1 w2, arun c ops w = Ok w1 /\ arun c ops' w = Ok w2 /\ forall x, same_array w1 w2 x.
Proof.
  intros R D A L W W'. destruct (reach_shows w R) as [vs S].
  assert (A' : apart ls).
  { intros j k x (l & E & M) (l' & E' & M'). destruct (Nat.eq_dec j k) as [|N]; auto. exfalso. exact (A j k l l' x N E E' M M'). }
  destruct (weave_run w vs ls ops R S D A' L W) as (H1 & H2 & H3).
  destruct (weave_run w vs ls ops' R S D A' L W') as (K1 & K2 & K3).
  pose proof (areachable_inv c Hf w R) as I.
  destruct (run_interps c Hf ops w vs I S H1) as (w1 & E1 & _ & S1).
  destruct (run_interps c Hf ops' w vs I S K1) as (w2 & E2 & _ & S2). exists w1, w2. split; auto. split; auto.
  intros x. apply (shows_same c c w1 w2 _ _ x eq_refl S1 S2).
  destruct (owns_dec ls x) as [(k & l & E & M)|N].
  - assert (O : owns ls k x) by (exists l; auto). rewrite <- (H2 k l E x O). apply (K2 k l E x O).
  - rewrite H3, K3; auto.
Qed.
End Worlds.

(** ** Debug and release builds *)

Section Builds.
Context {V : Type}.
Variable c : config V.
Hypothesis Hf : fair c.

Lemma release_fair : fair (release c).
Proof. exact Hf. Qed.
Lemma release_interp visit vs o : interp (release c) visit vs o = interp c visit vs o.
Proof. destruct o as [[]| | | | | | | |]; reflexivity. Qed.
Lemma release_interps visit ops : forall vs, interps (release c) visit ops vs = interps c visit ops vs.
Proof. unfold interps. induction ops as [|o r IH]; intros vs; cbn [fold_left]; [reflexivity|]. rewrite release_interp. apply IH. Qed.
Lemma release_copiable vs x : copiable c vs x -> copiable (release c) vs x.
Proof. intros (a & E & _). exists a. split; auto. Qed.
Lemma release_allowed vs o : allowed c vs o -> allowed (release c) vs o.
Proof.
  destruct o as [[]| | | | | | | |]; cbn [allowed allowed_op]; auto using release_copiable; try (intros [? ?]; split; auto using release_copiable).
Qed.
Lemma release_all visit ops : forall vs, all_allowed c visit vs ops -> all_allowed (release c) visit vs ops.
Proof.
  induction ops as [|o r IH]; intros vs L; [exact I|]. destruct L as [L1 L2]. split. { apply release_allowed; auto. }
  rewrite release_interp. auto.
Qed.
Lemma builds ops : alegal c empty_world ops ->
  alegal (release c) empty_world ops /\
  exists w w', arun c ops empty_world = Ok w /\ arun (release c) ops empty_world = Ok w' /\
    w_next w = w_next w' /\ forall x, same_array w w' x.
Proof.
  intros L. apply (all_allowed_iff c Hf ops empty_world no_values (inv_empty c) (shows_empty c)) in L.
  pose proof (release_all visits ops no_values L) as L'.
  destruct (run_interps c Hf ops empty_world no_values (inv_empty c) (shows_empty c) L) as (w & E & _ & S).
  destruct (run_interps (release c) release_fair ops empty_world no_values (inv_empty (release c)) (shows_empty (release c)) L') as (w' & E' & _ & S').
  split. { apply (all_allowed_iff (release c) release_fair ops empty_world no_values (inv_empty (release c)) (shows_empty (release c))); auto. }
  rewrite release_interps in S'. exists w, w'. split; auto. split; auto. split. { destruct S as [-> _], S' as [-> _]. reflexivity. }
  intros x. apply (shows_same c (release c) w w' _ _ x eq_refl S S'). reflexivity.
Qed.
End Builds.

(** ** The interpreter *)

Lemma interpreter : exists visit, numbering visit /\
  forall V (c : config V) ops, fair c ->
    (alegal c empty_world ops <-> all_allowed c visit no_values ops) /\
    (alegal c empty_world ops -> exists w, arun c ops empty_world = Ok w /\ shows_values c w (interps c visit ops no_values)).
Proof.
  exists visits. split. { exact visits_numbering. } intros V c ops Hf.
  pose proof (all_allowed_iff c Hf ops empty_world no_values (inv_empty c) (shows_empty c)) as A. split. { symmetry. exact A. }
  intros L. destruct (run_interps c Hf ops empty_world no_values (inv_empty c) (shows_empty c) (proj2 A L)) as (w & E & _ & S). eauto.
Qed.
Lemma statements : exists visit, numbering visit /\
  forall V (c : config V) w vs o, fair c -> areachable c w -> shows_values c w vs ->
    (legal_act c w o <-> allowed c vs o) /\
    (legal_act c w o -> exists w', astep c w o = Ok w' /\ shows_values c w' (interp c visit vs o)).
Proof.
  exists visits. split. { exact visits_numbering. } intros V c w vs o Hf R S.
  pose proof (allowed_iff c w vs o S) as A. split. { symmetry. exact A. }
  intros L. destruct (step_act c Hf w vs o (areachable_inv c Hf w R) S (proj2 A L)) as (w' & E & _ & S'). eauto.
Qed.
