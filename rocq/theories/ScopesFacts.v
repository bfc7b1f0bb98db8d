(** Proofs about threads that declare arrays, by the interpreter. *)
From Coq Require Import ZArith List Bool Lia Arith.
From Verif Require Import Base Interval Shape Memory Ref Container Program Scopes.
From Verif Require Import Spec SpecMem SpecContainer SpecProgram SpecViews SpecInterp SpecRelate SpecScopes.
From Verif Require Import Tac ContainerFacts ContainerWorld ProgramFacts InterpForms InterpFacts RelateFacts.
Import ListNotations.
Open Scope Z_scope.

Section Values.
Context {V : Type}.
Variable c : config V.
Variable visit : list dim -> list Z -> nat.
Notation interp := (interp c visit).
Notation interps := (interps c visit).

Lemma names_rename f (o : act V) : names (rename f o) = map f (names o).
Proof. destruct o as [[]| | | | | | | |]; reflexivity. Qed.
Lemma rename_ext f g (o : act V) : (forall x, In x (names o) -> f x = g x) -> rename f o = rename g o.
Proof.
  intros H. destruct o as [o|x v|x y i|y x|y x|y x|x h|x h|x s y i]; [destruct o|..]; cbn [names op_names] in H; cbn [rename rename_op];
    repeat match goal with |- context [f ?x] => rewrite (H x) by (cbn; auto) end; reflexivity.
Qed.
Lemma allowed_present vs (o : act V) x : allowed c vs o -> In x (names o) -> present vs x.
Proof.
  destruct o as [o|x0 v|x0 y i|y x0|y x0|y x0|x0 h|x0 h|x0 s y i]; [destruct o|..]; cbn [names op_names allowed allowed_op In];
    unfold present, copiable, shaped; intros L H;
    repeat match goal with
    | H : _ \/ False |- _ => destruct H as [H|[]]
    | H : _ = x |- _ => subst
    | H : _ = x \/ _ |- _ => destruct H as [H|H]
    | H : _ /\ _ |- _ => destruct H
    | H : exists _, _ |- _ => destruct H
    end; try contradiction; eauto.
Qed.

Definition unused (vs : valuation V) : Prop := forall z, (vs_next vs <= z)%nat -> vs_arr vs z = None.
Ltac open_cases vs :=
  repeat match goal with
  | |- context [match vs_arr vs ?x with _ => _ end] => destruct (vs_arr vs x) eqn:?
  | |- context [match move_new ?a ?b ?d ?e with _ => _ end] => destruct (move_new a b d e)
  | |- context [match move_into ?a ?b ?d with _ => _ end] => destruct (move_into a b d)
  | |- context [if shape_dec ?a ?b then _ else _] => destruct (shape_dec a b)
  | |- context [if c_pocs c then _ else _] => destruct (c_pocs c)
  | |- context [vs_arr (if ?b then _ else _)] => destruct b
  | |- context [vs_next (if ?b then _ else _)] => destruct b
  end.
Lemma next_grows vs o : vs_next (interp vs o) = vs_next vs \/ vs_next (interp vs o) = S (vs_next vs).
Proof.
  destruct o as [o|x v|x y i|y x|y x|y x|x g|x f|x s y i]; [destruct o|..]; cbn [SpecInterp.interp interp_op];
    unfold run_move_new, run_move, on2, on; open_cases vs; cbn; auto.
Qed.
Lemma other_same vs o z : ~ In z (names o) -> z <> vs_next vs -> vs_arr (interp vs o) z = vs_arr vs z.
Proof.
  destruct o as [o|x v|x y i|y x|y x|y x|x g|x f|x s y i]; [destruct o|..];
    cbn [names op_names In SpecInterp.interp interp_op]; unfold run_move_new, run_move, on2, on; intros H N; open_cases vs; cbn; auto;
    repeat match goal with
    | |- context [(z =? ?x)%nat] => rewrite (proj2 (Nat.eqb_neq z x)) by (intros ->; tauto)
    end; auto.
Qed.
Lemma unused_interp vs o : unused vs -> allowed c vs o -> unused (interp vs o).
Proof.
  intros U L z Hz.
  assert (B : (vs_next vs <= z)%nat) by (destruct (next_grows vs o); lia).
  assert (Q : ~ In z (names o)).
  { intros I. destruct (allowed_present vs o z L I) as [a E]. rewrite (U z B) in E. discriminate. }
  destruct (Nat.eq_dec z (vs_next vs)) as [->|N]; [|rewrite other_same by auto; auto].
  revert Hz Q. pose proof (U (vs_next vs) (le_n _)) as E0.
  destruct o as [o|x v|x y i|y x|y x|y x|x g|x f|x s y i]; [destruct o|..];
    cbn [names op_names In SpecInterp.interp interp_op]; unfold run_move_new, run_move, on2, on; intros Hz Q; revert Hz; open_cases vs; cbn; intros Hz; auto; try lia;
    repeat match goal with
    | |- context [(vs_next vs =? ?x)%nat] => rewrite (proj2 (Nat.eqb_neq (vs_next vs) x)) by (intros <-; tauto)
    end; auto.
Qed.

(** ** A statement under other names *)
Section Renamed.
Variables (A J : valuation V) (f : nat -> nat) (D : nat -> Prop).
Hypothesis Inj : forall x y, D x -> D y -> f x = f y -> x = y.
Hypothesis Agree : forall x, D x -> vs_arr J (f x) = vs_arr A x.
Lemma eqb_renamed x y : D x -> D y -> (f x =? f y)%nat = (x =? y)%nat.
Proof.
  intros Dx Dy. destruct (Nat.eqb_spec x y) as [->|N]; [apply Nat.eqb_refl|]. apply Nat.eqb_neq. intros E. apply N, Inj; auto.
Qed.
Lemma rename_allowed o : (forall x, In x (names o) -> D x) -> (allowed c J (rename f o) <-> allowed c A o).
Proof.
  intros H.
  destruct o as [o|x v|x y i|y x|y x|y x|x g|x h|x s y i]; [destruct o|..]; cbn [names op_names] in H; cbn [rename rename_op allowed allowed_op];
    unfold present, copiable, shaped;
    repeat match goal with |- context [vs_arr J (f ?x)] => rewrite (Agree x) by (apply H; cbn; auto) end; try tauto.
  - assert (E : f y <> f x <-> y <> x) by (split; intros N E; apply N; [congruence|apply Inj; auto; apply H; cbn; auto]). tauto.
  - assert (E : f y <> f x <-> y <> x) by (split; intros N E; apply N; [congruence|apply Inj; auto; apply H; cbn; auto]). tauto.
Qed.
Lemma rename_next o : (forall x, In x (names o) -> D x) ->
  exists k, (k <= 1)%nat /\ vs_next (interp J (rename f o)) = (vs_next J + k)%nat /\ vs_next (interp A o) = (vs_next A + k)%nat.
Proof.
  intros H.
  destruct o as [o|x v|x y i|y x|y x|y x|x g|x h|x s y i]; [destruct o|..]; cbn [names op_names] in H; cbn [rename rename_op SpecInterp.interp interp_op];
    unfold run_move_new, run_move, on2, on;
    repeat match goal with |- context [vs_arr J (f ?x)] => rewrite (Agree x) by (apply H; cbn; auto) end;
    repeat match goal with |- context [(f ?x =? f ?y)%nat] => rewrite (eqb_renamed x y) by (apply H; cbn; auto) end;
    open_cases A; cbn; solve [exists 0%nat; lia | exists 1%nat; lia].
Qed.
Lemma rename_arr o : (forall x, In x (names o) -> D x) -> D (vs_next A) -> f (vs_next A) = vs_next J ->
  forall z, D z -> vs_arr (interp J (rename f o)) (f z) = vs_arr (interp A o) z.
Proof.
  intros H Dn E z Dz. pose proof (Agree z Dz) as Az.
  destruct o as [o|x v|x y i|y x|y x|y x|x g|x h|x s y i]; [destruct o|..]; cbn [names op_names] in H; cbn [rename rename_op SpecInterp.interp interp_op];
    unfold run_move_new, run_move, on2, on;
    repeat match goal with |- context [match vs_arr J (f ?x) with _ => _ end] => rewrite (Agree x) by (apply H; cbn; auto) end;
    repeat match goal with |- context [(f ?x =? f ?y)%nat] => rewrite (eqb_renamed x y) by (apply H; cbn; auto) end;
    open_cases A; cbn; rewrite <- ?E;
    repeat match goal with |- context [(f z =? f ?y)%nat] => rewrite (eqb_renamed z y) by (auto; apply H; cbn; auto) end;
    repeat match goal with |- context [(z =? ?y)%nat] => destruct (z =? y)%nat end; auto.
Qed.
End Renamed.

Lemma all_allowed_app a : forall vs b, all_allowed c visit vs (a ++ b) <-> all_allowed c visit vs a /\ all_allowed c visit (interps a vs) b.
Proof.
  induction a as [|o a IH]; intros vs b; cbn [app all_allowed]; [cbn; tauto|]. rewrite IH.
  change (interps (o :: a) vs) with (interps a (interp vs o)). tauto.
Qed.
Lemma interps_app a b vs : interps (a ++ b) vs = interps b (interps a vs).
Proof. unfold SpecInterp.interps. apply fold_left_app. Qed.
Lemma unused_interps a : forall vs, unused vs -> all_allowed c visit vs a -> unused (interps a vs).
Proof. induction a as [|o a IH]; intros vs U L; [exact U|]. destruct L as [L R]. apply (IH (interp vs o)); auto. apply unused_interp; auto. Qed.
End Values.

Section Threads.
Context {V : Type}.
Variable c : config V.
Hypothesis Hf : fair c.
Notation interp := (interp c visits).
Notation interps := (interps c visits).
Notation shows := (shows_values c).

Lemma shows_like w1 w2 (vs1 vs2 : valuation V) x y : shows w1 vs1 -> shows w2 vs2 -> vs_arr vs1 x = vs_arr vs2 y -> looks_like w1 x w2 y.
Proof.
  intros [_ S1] [_ S2] E. specialize (S1 x). specialize (S2 y). unfold looks_like. rewrite <- E in S2.
  destruct (w_arr w1 x) as [a1|], (vs_arr vs1 x) as [v|], (w_arr w2 y) as [a2|]; try contradiction; auto.
  destruct S1 as (A1 & B1 & C1 & D1 & F1), S2 as (A2 & B2 & C2 & D2 & F2). split; [congruence|]. split.
  { rewrite C1, C2. reflexivity. }
  split. { apply (f_equal negb) in B1, B2. rewrite negb_involutive in B1, B2. congruence. }
  split; [congruence|]. rewrite D1, D2. intros i Hi. exists (v_at v i). auto.
Qed.
Lemma shows_unused w vs : areachable c w -> shows w vs -> unused vs.
Proof.
  intros R [N S] z Hz. rewrite <- N in Hz. specialize (S z). rewrite (fresh_above c Hf w z R Hz) in S. destruct (vs_arr vs z); tauto.
Qed.
Lemma reach_step w o w' : areachable c w -> legal_act c w o -> astep c w o = Ok w' -> areachable c w'.
Proof.
  intros (ops & L & E) H E'. exists (ops ++ [o]). split; [eapply alegal_snoc; eauto|]. rewrite (arun_snoc c ops o _ _ E). exact E'.
Qed.

Section Run.
Variables (n0 : nat) (vs0 : valuation V) (own : nat -> nat -> Prop).
Hypothesis apart_own : forall j k x, j <> k -> (x < n0)%nat -> own j x -> ~ own k x.
Definition dom (T : threads (V:=V)) (k x : nat) : Prop := (own k x /\ (x < n0)%nat) \/ (n0 <= x < sc_next (fst (T k)))%nat.
Record good (T : threads (V:=V)) (F : nat -> valuation V) (J : valuation V) : Prop := mkGood {
  g_next : forall k, sc_next (fst (T k)) = vs_next (F k) /\ (n0 <= vs_next (F k))%nat;
  g_unused : (n0 <= vs_next J)%nat /\ unused J /\ forall k, unused (F k);
  g_left : forall k, all_allowed c visits (F k) (snd (T k)) /\ forall x, mentions (snd (T k)) x -> (x < n0)%nat -> own k x;
  g_old : forall k x, (x < n0)%nat -> sc_name (fst (T k)) x = x;
  g_new : forall k x, (n0 <= x < sc_next (fst (T k)))%nat -> (n0 <= sc_name (fst (T k)) x < vs_next J)%nat;
  g_apart : forall j k x y, (n0 <= x < sc_next (fst (T j)))%nat -> (n0 <= y < sc_next (fst (T k)))%nat ->
    sc_name (fst (T j)) x = sc_name (fst (T k)) y -> j = k /\ x = y;
  g_agree : forall k x, dom T k x -> vs_arr J (sc_name (fst (T k)) x) = vs_arr (F k) x;
  g_rest : forall z, (z < n0)%nat -> (forall k, ~ own k z) -> vs_arr J z = vs_arr vs0 z;
  g_all : forall z, (n0 <= z < vs_next J)%nat -> exists k x, (n0 <= x < sc_next (fst (T k)))%nat /\ sc_name (fst (T k)) x = z }.

Lemma good_step T F J k sc o l : good T F J -> T k = (sc, o :: l) ->
  allowed c J (rename (sc_name sc) o) /\
  let J' := interp J (rename (sc_name sc) o) in
  good (fun j => if (j =? k)%nat then (declared sc (vs_next J) (vs_next J'), l) else T j) (fun j => if (j =? k)%nat then interp (F k) o else F j) J'.
Proof.
  intros G Ek. pose proof G as [Gn [Gj [GJ GF]] Gl Go Gw Ga Gg Gr Gz].
  destruct (Gl k) as [La Lm]. destruct (Gn k) as [Nk Bk]. rewrite Ek in La, Lm, Nk. cbn [fst snd all_allowed] in La, Lm, Nk. destruct La as [Lo Ll].
  set (A := F k) in *. set (n := vs_next A) in *. set (N := vs_next J) in *.
  assert (UA : unused A) by apply GF.
  assert (Pn : forall x, In x (names o) -> dom T k x /\ (x < n)%nat).
  { intros x Hx. assert (B : (x < n)%nat).
    { destruct (allowed_present c A o x Lo Hx) as [a E]. destruct (Nat.lt_ge_cases x n) as [?|H]; auto.
      rewrite (UA x H) in E. discriminate. }
    split; auto. unfold dom. rewrite Ek. cbn [fst]. destruct (Nat.lt_ge_cases x n0); [left|right; lia].
    split; auto. apply Lm; auto. exists o. split; [left; auto|auto]. }
  assert (Nm : forall x, (x < n)%nat -> (sc_name sc x < N)%nat).
  { intros x Hx. destruct (Nat.lt_ge_cases x n0) as [H|H].
    - specialize (Go k x H). rewrite Ek in Go. cbn in Go. lia.
    - specialize (Gw k x). rewrite Ek in Gw. cbn in Gw. lia. }
  assert (Dn : forall x, dom T k x -> (x < n)%nat).
  { intros x [[_ H]|H]; [lia|]. rewrite Ek in H. cbn in H. lia. }
  assert (In0 : forall x y, (x < n)%nat -> (y < n)%nat -> sc_name sc x = sc_name sc y -> x = y).
  { intros x y Hx Hy E. pose proof (Go k) as O. pose proof (Gw k) as W. pose proof (Ga k k x y) as U. rewrite Ek in O, W, U. cbn in O, W, U.
    rewrite Nk in *. destruct (Nat.lt_ge_cases x n0), (Nat.lt_ge_cases y n0).
    - rewrite (O x), (O y) in E; auto.
    - rewrite (O x) in E by auto. specialize (W y). lia.
    - rewrite (O y) in E by auto. specialize (W x). lia.
    - apply U; auto. }
  set (f := fun x => if (x =? n)%nat then N else sc_name sc x).
  set (D := fun x => dom T k x \/ x = n).
  assert (fn : f n = N) by (unfold f; rewrite Nat.eqb_refl; auto).
  assert (fo : forall x, (x < n)%nat -> f x = sc_name sc x).
  { intros x H. unfold f. rewrite (proj2 (Nat.eqb_neq x n)) by lia. auto. }
  assert (Inj : forall x y, D x -> D y -> f x = f y -> x = y).
  { intros x y [Hx| ->] [Hy| ->] E; auto; rewrite ?fn in E; rewrite ?fo in E by auto.
    - apply In0; auto.
    - pose proof (Nm x (Dn x Hx)). lia.
    - pose proof (Nm y (Dn y Hy)). lia. }
  assert (Agr : forall x, D x -> vs_arr J (f x) = vs_arr A x).
  { intros x [Hx| ->].
    - rewrite fo by auto. specialize (Gg k x Hx). rewrite Ek in Gg. exact Gg.
    - rewrite fn, (GJ N (le_n _)). symmetry. apply UA. apply le_n. }
  assert (Nd : forall x, In x (names o) -> D x) by (intros x Hx; left; apply Pn; auto).
  assert (Er : rename (sc_name sc) o = rename f o) by (apply rename_ext; intros x Hx; rewrite fo; auto; apply Pn; auto).
  assert (AJ : allowed c J (rename f o)) by (apply (rename_allowed c visits A J f D Inj Agr o Nd); auto).
  rewrite Er. split; auto. cbv zeta. set (J' := interp J (rename f o)).
  destruct (rename_next c visits A J f D Inj Agr o Nd) as (e & He & EJ & EA). fold J' in EJ. fold n in EA. fold N in EJ.
  assert (Arr : forall z, D z -> vs_arr J' (f z) = vs_arr (interp A o) z)
    by (apply (rename_arr c visits A J f D Inj Agr o Nd); [right; auto|auto]).
  set (sc' := declared sc N (vs_next J')).
  assert (Esn : sc_next sc' = (n + e)%nat) by (unfold sc'; cbn; lia).
  assert (Enm : forall x, (x < n + e)%nat -> sc_name sc' x = f x).
  { intros x Hx. unfold sc', f, declared. cbn [sc_name]. rewrite Nk, EJ. replace (N + e - N)%nat with e by lia.
    destruct (Nat.leb_spec n x), (Nat.ltb_spec x (n + e)), (Nat.eqb_spec x n); cbn [andb]; auto; lia. }
  assert (Oth : forall j x, j <> k -> dom T j x -> vs_arr J' (sc_name (fst (T j)) x) = vs_arr J (sc_name (fst (T j)) x)).
  { intros j x Hj Hx. assert (L0 : (sc_name (fst (T j)) x < N)%nat).
    { destruct Hx as [[_ H]|H]; [rewrite (Go j x H); lia|apply Gw; auto]. }
    apply other_same; [|fold N; lia]. rewrite names_rename. intros Hi. apply in_map_iff in Hi. destruct Hi as (y & E & Hy).
    destruct (Pn y Hy) as [Dy By]. rewrite fo in E by auto.
    destruct Dy as [[Oy Hy0]|Hy0]; destruct Hx as [[Ox Hx0]|Hx0].
    - rewrite (Go j x Hx0) in E. pose proof (Go k y Hy0) as O. rewrite Ek in O. cbn in O. rewrite O in E. subst y. apply (apart_own j k x); auto.
    - pose proof (Go k y Hy0) as O. rewrite Ek in O. cbn in O. pose proof (Gw j x Hx0). lia.
    - pose proof (Gw k y Hy0) as W. rewrite Ek in W. cbn in W. rewrite (Go j x Hx0) in E. lia.
    - destruct (Ga j k x y Hx0 Hy0) as [? _]; auto. rewrite Ek. cbn. auto. }
  assert (sel : forall j, j <> k -> (j =? k)%nat = false) by (intros j; apply Nat.eqb_neq).
  constructor.
  - intros j. destruct (Nat.eqb_spec j k) as [->|Hj]; [cbn [fst]; lia|apply Gn].
  - split; [lia|]. split; [apply unused_interp; auto|]. intros j. destruct (Nat.eqb_spec j k) as [->|Hj]; [apply unused_interp; auto; apply GF|apply GF].
  - intros j. destruct (Nat.eqb_spec j k) as [->|Hj]; [|apply Gl]. cbn [snd]. split; auto. intros x (p & Hp & Hx) B. apply Lm; auto. exists p. split; [right|]; auto.
  - intros j x B. destruct (Nat.eqb_spec j k) as [->|Hj]; [|apply Go; auto]. cbn [fst]. rewrite Enm, fo by lia. specialize (Go k x B). rewrite Ek in Go. exact Go.
  - intros j x. destruct (Nat.eqb_spec j k) as [->|Hj]; cbn [fst]; [|intros B; specialize (Gw j x B); lia]. rewrite Esn. intros B. rewrite Enm by lia.
    destruct (Nat.eq_dec x n) as [->|Hx]; [rewrite fn; lia|]. rewrite fo by lia. specialize (Gw k x). rewrite Ek in Gw. cbn in Gw. lia.
  - assert (one : forall j x y, j <> k -> (n0 <= x < n + e)%nat -> (n0 <= y < sc_next (fst (T j)))%nat -> f x = sc_name (fst (T j)) y -> False).
    { intros j x y Hj Bx By E. pose proof (Gw j y By). destruct (Nat.eq_dec x n) as [->|Hx]; [rewrite fn in E; lia|]. rewrite fo in E by lia.
      destruct (Ga k j x y) as [? _]; auto; rewrite Ek; cbn [fst]; auto; lia. }
    intros i j x y. destruct (Nat.eqb_spec i k) as [->|Hi], (Nat.eqb_spec j k) as [->|Hj]; cbn [fst]; rewrite ?Esn; intros Bx By E.
    + rewrite !Enm in E by lia. split; auto. 
      destruct (Nat.eq_dec x n) as [->|Hx], (Nat.eq_dec y n) as [->|Hy]; auto; rewrite ?fn in E; rewrite ?fo in E by lia.
      * pose proof (Nm y). lia.
      * pose proof (Nm x). lia.
      * apply In0; auto; lia.
    + rewrite Enm in E by lia. destruct (one j x y Hj Bx By E).
    + rewrite Enm in E by lia. destruct (one i y x Hi By Bx (eq_sym E)).
    + apply Ga; auto.
  - intros j x. unfold dom. destruct (Nat.eqb_spec j k) as [->|Hj]; cbn [fst].
    + rewrite Esn. intros H. rewrite Enm by lia. apply Arr. unfold D, dom. rewrite Ek. cbn [fst]. rewrite Nk. destruct H; [left; left; auto|].
      destruct (Nat.eq_dec x n); [right; auto|left; right; lia].
    + intros H. rewrite (Oth j x Hj H). apply Gg; auto.
  - intros z B U. rewrite <- (Gr z B U). apply other_same; [|fold N; lia]. rewrite names_rename. intros Hi. apply in_map_iff in Hi. destruct Hi as (y & E & Hy).
    destruct (Pn y Hy) as [[[Oy By]|By] Hn]; rewrite fo in E by auto.
    + pose proof (Go k y By) as O. rewrite Ek in O. cbn in O. rewrite O in E. subst y. apply (U k); auto.
    + pose proof (Gw k y By) as W. rewrite Ek in W. cbn in W. lia.
  - intros z B. destruct (Nat.lt_ge_cases z N) as [H|H].
    + destruct (Gz z) as (j & x & Bx & E); [lia|]. exists j, x. destruct (Nat.eqb_spec j k) as [->|Hj]; [|auto]. cbn [fst]. rewrite Ek in Bx, E. cbn in Bx, E.
      rewrite Esn, Enm, fo by lia. split; [lia|auto].
    + exists k, n. rewrite Nat.eqb_refl. cbn [fst]. rewrite Esn, Enm, fn by lia. lia.
Qed.

Lemma good_run sched : forall T F J w, good T F J -> areachable c w -> shows w J ->
  exists T' F' J' w', run_threads c sched T w = Ok (T', w') /\ areachable c w' /\ shows w' J' /\ good T' F' J' /\
    forall k, snd (T' k) = skipn (count_occ Nat.eq_dec sched k) (snd (T k)) /\
              F' k = interps (firstn (count_occ Nat.eq_dec sched k) (snd (T k))) (F k).
Proof.
  induction sched as [|k r IH]; intros T F J w G R S; cbn [run_threads].
  - exists T, F, J, w. split; [reflexivity|]. do 3 (split; [assumption|]). intros k. split; reflexivity.
  - destruct (T k) as [sc [|o l]] eqn:Ek.
    + destruct (IH T F J w G R S) as (T' & F' & J' & w' & E & R' & S' & G' & H). exists T', F', J', w'. do 4 (split; [assumption|]).
      intros j. destruct (H j) as [H1 H2]. cbn [count_occ]. destruct (Nat.eq_dec k j) as [<-|]; auto. rewrite Ek in *. cbn [snd] in *.
      rewrite skipn_nil in *. rewrite firstn_nil in *. auto.
    + destruct (good_step T F J k sc o l G Ek) as [L G1]. cbv zeta in G1. pose proof (areachable_inv c Hf w R) as I.
      destruct (step_act c Hf w J _ I S L) as (w1 & E1 & I1 & S1). apply (allowed_iff c w J _ S) in L.
      pose proof (reach_step w _ w1 R L E1) as R1.
      destruct (IH _ _ _ w1 G1 R1 S1) as (T' & F' & J' & w' & E & R' & S' & G' & H). exists T', F', J', w'. split; [|do 3 (split; [assumption|])].
      * unfold scope_step. rewrite E1. cbn [bind]. destruct S as [-> _], S1 as [-> _]. exact E.
      * intros j. destruct (H j) as [H1 H2]. cbn [count_occ]. rewrite (Nat.eqb_sym j k) in *. destruct (Nat.eq_dec k j) as [<-|Hj].
        { rewrite Nat.eqb_refl in *. rewrite Ek. cbn [snd skipn firstn] in *. split; auto. }
        { rewrite (proj2 (Nat.eqb_neq k j)) in * by auto. auto. }
Qed.
End Run.

Definition separate (n : nat) (P : nat -> list (act V)) : Prop :=
  forall j k x, j <> k -> (x < n)%nat -> mentions (P j) x -> ~ mentions (P k) x.
Lemma threads_run w vs P sched : areachable c w -> shows w vs -> separate (w_next w) P -> (forall k, alegal c w (P k)) ->
  exists T F J w', run_threads c sched (start (w_next w) P) w = Ok (T, w') /\ areachable c w' /\ shows w' J /\
    good (w_next w) vs (fun k => mentions (P k)) T F J /\
    forall k, snd (T k) = skipn (count_occ Nat.eq_dec sched k) (P k) /\ 
       F k = interps (firstn (count_occ Nat.eq_dec sched k) (P k)) vs.
Proof.
  intros R S D L. pose proof (areachable_inv c Hf w R) as I. pose proof S as [N _].
  apply (good_run (w_next w) vs (fun k => mentions (P k)) D sched (start (w_next w) P) (fun _ => vs) vs w); auto.
  pose proof (shows_unused w vs R S) as U.
  constructor; cbn [start fst snd first_scope sc_next sc_name].
  - intros _. lia.
  - split; auto. lia.
  - intros k. split; auto. apply (all_allowed_iff c Hf (P k) w vs I S). auto.
  - auto.
  - intros _ x. lia.
  - intros j k x y H1 H2. lia.
  - auto.
  - auto.
  - intros z. lia.
Qed.
Lemma prefix_run w vs l n : areachable c w -> shows w vs -> alegal c w l ->
  exists w1, arun c (firstn n l) w = Ok w1 /\ shows w1 (interps (firstn n l) vs).
Proof.
  intros R S L. pose proof (areachable_inv c Hf w R) as I. apply (all_allowed_iff c Hf l w vs I S) in L.
  rewrite <- (firstn_skipn n l) in L. apply all_allowed_app in L. destruct L as [L _].
  destruct (run_interps c Hf (firstn n l) w vs I S L) as (w1 & E & _ & S1). eauto.
Qed.
Lemma looks_both (w : world V) x (w1 : world V) y (w2 : world V) z : looks_like w x w1 y -> looks_like w x w2 z -> looks_like w1 y w2 z.
Proof.
  unfold looks_like. destruct (w_arr w x) as [a|], (w_arr w1 y) as [b|], (w_arr w2 z) as [d|]; try tauto.
  intros (A1 & B1 & C1 & D1 & F1) (A2 & B2 & C2 & D2 & F2). do 4 (split; [congruence|]). intros i Hi. rewrite <- D1 in Hi.
  destruct (F1 i Hi) as (v & P1 & Q1), (F2 i Hi) as (u & P2 & Q2). rewrite (holds_det _ _ _ _ P1 P2) in *. eauto.
Qed.

Lemma scopes_run w P sched : areachable c w -> separate (w_next w) P -> (forall k, alegal c w (P k)) ->
  exists T w', run_threads c sched (start (w_next w) P) w = Ok (T, w') /\
    (forall k, exists w1,
       arun c (firstn (count_occ Nat.eq_dec sched k) (P k)) w = Ok w1 /\
       snd (T k) = skipn (count_occ Nat.eq_dec sched k) (P k) /\ sc_next (fst (T k)) = w_next w1 /\
       forall x, (x < w_next w)%nat /\ mentions (P k) x \/ (w_next w <= x < w_next w1)%nat -> looks_like w1 x w' (sc_name (fst (T k)) x)) /\
    (forall x, (x < w_next w)%nat -> (forall k, ~ mentions (P k) x) -> looks_like w x w' x).
Proof.
  intros R D L. destruct (reach_shows c Hf w R) as [vs S].
  destruct (threads_run w vs P sched R S D L) as (T & F & J & w' & E & R' & S' & G & H). exists T, w'. split; auto. split.
  - intros k. destruct (H k) as [H1 H2]. destruct (prefix_run w vs (P k) (count_occ Nat.eq_dec sched k) R S (L k)) as (w1 & E1 & S1). rewrite <- H2 in S1.
    destruct (g_next _ _ _ _ _ _ G k) as [N _]. pose proof S1 as [N1 _]. exists w1. split; auto. split; auto. split; [congruence|].
    intros x Hx. apply (shows_like w1 w' (F k) J); auto. symmetry. apply (g_agree _ _ _ _ _ _ G). unfold dom. rewrite N, <- N1. tauto.
  - intros x B U. apply (shows_like w w' vs J); auto. symmetry. apply (g_rest _ _ _ _ _ _ G); auto.
Qed.
Lemma scopes_names w P sched T w' : areachable c w -> separate (w_next w) P -> (forall k, alegal c w (P k)) ->
  run_threads c sched (start (w_next w) P) w = Ok (T, w') ->
  areachable c w' /\
  (forall k x, (x < w_next w)%nat -> sc_name (fst (T k)) x = x) /\
  (forall k x, (w_next w <= x < sc_next (fst (T k)))%nat -> (w_next w <= sc_name (fst (T k)) x < w_next w')%nat) /\
  (forall z, (w_next w <= z < w_next w')%nat -> exists! kx, (w_next w <= snd kx < sc_next (fst (T (fst kx))))%nat /\ sc_name (fst (T (fst kx))) (snd kx) = z).
Proof.
  intros R D L E. destruct (reach_shows c Hf w R) as [vs S].
  destruct (threads_run w vs P sched R S D L) as (T1 & F & J & w1 & E1 & R' & S' & G & H). rewrite E in E1. injection E1 as <- <-.
  destruct G as [Gn _ _ Go Gw Ga _ _ Gz]. pose proof S' as [N _]. rewrite N. split; auto. split; auto. split; auto.
  intros z Hz. destruct (Gz z Hz) as (k & x & B & Ex). exists (k, x). split; [auto|]. intros [j y] [By Ey]. cbn [fst snd] in *.
  destruct (Ga k j x y B By) as [-> ->]; auto; congruence.
Qed.
Lemma min_firstn {A} (l : list A) : forall n, firstn (Nat.min n (length l)) l = firstn n l.
Proof. induction l as [|a l IH]; intros [|n]; cbn; auto. rewrite IH. auto. Qed.
Lemma scopes_order w P s1 s2 T1 w1 T2 w2 k : areachable c w -> separate (w_next w) P -> (forall k, alegal c w (P k)) ->
  run_threads c s1 (start (w_next w) P) w = Ok (T1, w1) -> run_threads c s2 (start (w_next w) P) w = Ok (T2, w2) ->
  Nat.min (count_occ Nat.eq_dec s1 k) (length (P k)) = Nat.min (count_occ Nat.eq_dec s2 k) (length (P k)) ->
  sc_next (fst (T1 k)) = sc_next (fst (T2 k)) /\
  forall x, (x < w_next w)%nat /\ mentions (P k) x \/ (w_next w <= x < sc_next (fst (T1 k)))%nat ->
    looks_like w1 (sc_name (fst (T1 k)) x) w2 (sc_name (fst (T2 k)) x).
Proof.
  intros R D L E1 E2 Ec.
  destruct (scopes_run w P s1 R D L) as (T & w' & E & H & _). rewrite E1 in E. injection E as <- <-.
  destruct (scopes_run w P s2 R D L) as (T & w' & E & H' & _). rewrite E2 in E. injection E as <- <-.
  destruct (H k) as (u & Eu & _ & N & Q), (H' k) as (u' & Eu' & _ & N' & Q'). rewrite <- min_firstn, <- Ec, min_firstn, Eu in Eu'. injection Eu' as <-.
  split; [congruence|]. rewrite N. intros x Hx. eapply looks_both; [apply Q|apply Q']; auto.
Qed.
End Threads.
