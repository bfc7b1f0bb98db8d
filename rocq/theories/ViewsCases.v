(** Concrete programs that hold array_refs, for the examples of PropViews.v. *)
From Coq Require Import ZArith List Bool Lia Arith.
From Verif Require Import Base Interval Shape Memory Ref Container Program Views Spec SpecMem SpecContainer SpecProgram SpecViews Tac
  ShapeFacts ContainerFacts ContainerWorld ContainerProps ContainerCases ProgramFacts ProgramCases ViewsFacts ViewsWorld.
Import ListNotations.
Open Scope Z_scope.

(** A sufficient test for legality *)
Definition liveb (own : list owner) (v : nat) : bool := match nth_error own v with Some (Some _) => true | _ => false end.
Definition partb (a : sarg) (d : dim) : bool :=
  match a with
  | AIdx x => (dmin d <=? x) && (x <? dmin d + dext d)
  | AInt i => (0 <=? iext i) && (dmin d <=? imin i) && (imin i + iext i <=? dmin d + dext d)
  | ADim e => (0 <=? dext e) && (dmin d <=? dmin e) && (dmin e + dext e <=? dmin d + dext d)
  | AAll => true
  end.
Fixpoint partsb (args : list sarg) (s : list dim) : bool :=
  match args, s with
  | [], [] => true
  | a :: r, d :: s => partb a d && partsb r s
  | _, _ => false
  end.
Definition refb (st : vstate Z) (v : nat) (t : aref -> bool) : bool :=
  match nth_error (vs_refs st) v with Some r => t r | None => false end.
Definition vact_okb (c : config Z) (st : vstate Z) (own : list owner) (o : vact Z) : bool :=
  match o with
  | Do o => act_okb c (vs_world st) o
  | Ref x => existsb_arr (vs_world st) x
  | Slice v args => liveb own v && refb st v (fun r => partsb args (r_shape r))
  | Get v i => liveb own v && refb st v (fun r => boundsb (r_shape r) i)
  | Put v i _ => liveb own v && refb st v (fun r => boundsb (r_shape r) i)
  | FillRef v _ => liveb own v
  | CopyRef u v => liveb own u && (liveb own v && refb st u (fun s => refb st v (fun r => all2b dim_withinb (r_shape r) (r_shape s))))
  end.
Fixpoint vlegalb (c : config Z) (st : vstate Z) (own : list owner) (ops : list (vact Z)) : bool :=
  match ops with
  | [] => true
  | o :: r => vact_okb c st own o && match vstep c st o with Ok st' => vlegalb c st' (track c st own o) r | _ => true end
  end.
Lemma liveb_ok own v : liveb own v = true -> live_ref own v.
Proof. unfold liveb, live_ref. destruct (nth_error own v) as [[x|]|]; try discriminate. eauto. Qed.
Lemma refb_ok st v t : refb st v t = true -> exists r, nth_error (vs_refs st) v = Some r /\ t r = true.
Proof. unfold refb. destruct (nth_error _ v); try discriminate. eauto. Qed.
Lemma partb_ok args : forall s, partsb args s = true -> length args = length s /\ args_within args s /\
  Forall (fun a => match a with AInt i => 0 <= iext i | ADim d => 0 <= dext d | _ => True end) args.
Proof.
  induction args as [|a r IH]; intros [|d s] H; cbn [partsb] in H; try discriminate.
  - split; auto. split; constructor.
  - apply andb_true_iff in H. destruct H as [H1 H2]. destruct (IH s H2) as [A [B C]]. cbn [length]. split; [lia|].
    split; constructor; auto; destruct a; cbn [partb] in H1; auto;
      rewrite ?andb_true_iff, ?Z.leb_le, ?Z.ltb_lt in H1; unfold selects, in_interval, in_dim; try lia.
Qed.
Lemma vact_okb_ok c st own o : vact_okb c st own o = true -> legal_vact c st own o.
Proof.
  destruct o; cbn [vact_okb legal_vact]; intros H.
  - apply act_okb_ok; auto.
  - apply existsb_arr_ok; auto.
  - apply andb_true_iff in H. destruct H as [H1 H2]. split; [apply liveb_ok; auto|].
    apply refb_ok in H2. destruct H2 as [r [E H2]]. exists r. split; auto. apply partb_ok; auto.
  - apply andb_true_iff in H. destruct H as [H1 H2]. split; [apply liveb_ok; auto|].
    apply refb_ok in H2. destruct H2 as [r [E H2]]. exists r. split; auto. apply boundsb_ok; auto.
  - apply andb_true_iff in H. destruct H as [H1 H2]. split; [apply liveb_ok; auto|].
    apply refb_ok in H2. destruct H2 as [r [E H2]]. exists r. split; auto. apply boundsb_ok; auto.
  - apply liveb_ok; auto.
  - apply andb_true_iff in H. destruct H as [H1 H2]. apply andb_true_iff in H2. destruct H2 as [H2 H3].
    split; [apply liveb_ok; auto|]. split; [apply liveb_ok; auto|].
    apply refb_ok in H3. destruct H3 as [s [Es H3]]. apply refb_ok in H3. destruct H3 as [r [Er H3]].
    exists s, r. split; auto. split; auto. split; [|apply within_ok; auto].
    clear - H3. revert H3. generalize (r_shape s) as l. generalize (r_shape r) as k.
    induction k as [|d k IH]; intros [|e l] H; cbn [all2b] in H; try discriminate; auto. apply andb_true_iff in H.
    cbn [length]. f_equal. apply IH. apply H.
Qed.
Lemma vlegalb_ok c ops : forall st own, vlegalb c st own ops = true -> vlegal c st own ops.
Proof.
  induction ops as [|o r IH]; intros st own H; cbn [vlegalb vlegal] in *; auto.
  apply andb_true_iff in H. destruct H as [H1 H2]. split; [apply vact_okb_ok; auto|]. intros st' E. rewrite E in H2. auto.
Qed.
Definition vstate_of (c : config Z) (ops : list (vact Z)) : vstate Z :=
  match vrun c ops vempty with Ok st => st | _ => vempty end.
Lemma vstate_reachable c ops : fair c -> vlegalb c vempty [] ops = true ->
  vreachable c (vstate_of c ops) (tracks c vempty [] ops).
Proof.
  intros Hf H. apply vlegalb_ok in H. exists ops. split; auto. split; auto.
  destruct (vprograms c Hf ops H) as [st [E _]]. unfold vstate_of. rewrite E. reflexivity.
Qed.
(** An array is moved, written through an array_ref, swapped and assigned to while array_refs exist *)
Definition vprog : list (vact Z) :=
  [ Do (Run (New shapeA 0));                          (* array 0 *)
    Do (Transform 0%nat (fun i => match i with [x; y] => 10 * x + y | _ => 0 end));
    Ref 0%nat;                                        (* array_ref 0: all of it *)
    Slice 0%nat [AInt (mkI 3 2); AAll];               (* array_ref 1: x = 3, 4 *)
    Slice 1%nat [AIdx 4; AAll];                       (* array_ref 2: x = 4 *)
    Get 2%nat [-1];
    Do (Run (NewMove 0%nat));                         (* array 1 has the elements now *)
    Get 2%nat [0];
    Put 1%nat [3; 0] 7;
    Do (Run (New shapeA 0));                          (* array 2 *)
    Do (Run (Swap 1%nat 2%nat));                      (* array 2 has the elements now *)
    Slice 0%nat [AIdx 2; AAll];                       (* array_ref 3: x = 2 *)
    CopyRef 3%nat 2%nat;
    FillRef 3%nat 5;
    Get 0%nat [3; 0];
    Ref 1%nat;                                        (* array_ref 4: the other array *)
    Do (Run (AssignValue 2%nat small 1)) ].           (* the elements are gone *)
(** Arrays with different allocators that are not exchanged are swapped by moving the elements *)
Lemma swap_moves_elements : exists (c : config Z) (w w' : world Z) (x y : nat),
  fair c /\ areachable c w /\ legal_act c w (Run (Swap x y)) /\ astep c w (Run (Swap x y)) = Ok w' /\
  exists_arr w x /\ (exists i, in_bounds (shape_of w x) i) /\ forall z, ~ same_place w x w' z.
Proof.
  set (w := astate debug2 [Run (NewValue shapeA 1 1); Run (NewValue shapeB 2 2)]).
  assert (R : areachable debug2 w) by (apply astate_reachable; [apply fair2; left; reflexivity|vm_compute; reflexivity]).
  assert (L : legal_act debug2 w (Run (Swap 0%nat 1%nat))) by (apply act_okb_ok; vm_compute; reflexivity).
  assert (Hf : fair debug2) by (apply fair2; left; reflexivity).
  destruct (astep_ok debug2 Hf w _ (areachable_inv debug2 Hf w R) L) as [w' [E I]].
  exists debug2, w, w', 0%nat, 1%nat. split; auto. split; auto. split; auto. split; auto.
  assert (Ex : exists_arr w 0%nat) by (apply existsb_arr_ok; vm_compute; reflexivity). split; auto.
  assert (N : in_bounds (shape_of w 0%nat) [3; 0]) by (apply boundsb_ok; vm_compute; reflexivity).
  split; [exists [3; 0]; auto|]. intros z [a [a' [E1 [E2 [B S]]]]].
  assert (F : fate debug2 w (Run (Swap 0%nat 1%nat)) 0%nat = None) by (vm_compute; reflexivity).
  pose proof (fate_spec debug2 Hf w _ w' 0%nat (areachable_inv debug2 Hf w R) L E Ex (ex_intro _ _ N)) as P. rewrite F in P.
  rewrite (shape_of_some w 0%nat a E1) in N.
  apply (P (elem (a_base a) (a_shape a) [3; 0]) [] w'); auto.
  - exists a. split; auto. exists [3; 0]. auto.
  - rewrite <- B, <- S. rewrite <- S in N. apply (inv_alive debug2 w' z a'); auto.
Qed.
