(** Concrete programs that use arrays and algorithms, for the examples of PropProgram.v. *)
From Coq Require Import ZArith List Bool Lia.
From Verif Require Import Base Interval Shape Memory Ref Container Program Spec SpecMem SpecContainer SpecProgram Tac
  ShapeFacts ContainerFacts ContainerWorld ContainerProps ContainerCases ProgramFacts.
Import ListNotations.
Open Scope Z_scope.

(** A sufficient test for legality *)
Definition elemb (w : world Z) (y : nat) (i : list Z) : bool :=
  match w_arr w y with Some b => boundsb (a_shape b) i | None => false end.
Definition pairb (w : world Z) (y x : nat) : bool :=
  match w_arr w x, w_arr w y with Some a, Some b => all2b dim_withinb (a_shape a) (a_shape b) | _, _ => false end.
Definition act_okb (c : config Z) (w : world Z) (o : act Z) : bool :=
  match o with
  | Run o => op_okb c w o
  | Fill x _ | Generate x _ | Transform x _ => existsb_arr w x
  | FillElem x y i => existsb_arr w x && elemb w y i
  | CopyTo y x => pairb w y x
  | MoveTo y x => negb (y =? x)%nat && pairb w y x
  | MoveAll y x => existsb_arr w x && copyb c w y
  | AssignElem x s y i => existsb_arr w x && argb c s && negb (y =? x)%nat && elemb w y i
  end.
Fixpoint alegalb (c : config Z) (w : world Z) (ops : list (act Z)) : bool :=
  match ops with
  | [] => true
  | o :: r => act_okb c w o && match astep c w o with Ok w' => alegalb c w' r | _ => true end
  end.
Lemma elemb_ok w y i : elemb w y i = true -> exists b, w_arr w y = Some b /\ in_bounds (a_shape b) i.
Proof. unfold elemb. destruct (w_arr w y) as [b|]; [|discriminate]. intros H. exists b. split; auto. apply boundsb_ok; auto. Qed.
Lemma pairb_ok w y x : pairb w y x = true -> exists a b, w_arr w x = Some a /\ w_arr w y = Some b /\ within (a_shape a) (a_shape b).
Proof.
  unfold pairb. destruct (w_arr w x) as [a|]; [|discriminate]. destruct (w_arr w y) as [b|]; [|discriminate].
  intros H. exists a, b. split; auto. split; auto. apply within_ok; auto.
Qed.
Lemma act_okb_ok c w o : act_okb c w o = true -> legal_act c w o.
Proof.
  destruct o; cbn [act_okb legal_act]; rewrite ?andb_true_iff, ?negb_true_iff, ?Nat.eqb_neq; intros H;
    intuition auto using op_okb_ok, existsb_arr_ok, elemb_ok, pairb_ok, copyb_ok, argb_ok.
Qed.
Lemma alegalb_ok c ops : forall w, alegalb c w ops = true -> alegal c w ops.
Proof.
  induction ops as [|o r IH]; intros w H; cbn [alegalb alegal] in *; auto.
  apply andb_true_iff in H. destruct H as [H1 H2]. split; [apply act_okb_ok; auto|]. intros w' E. rewrite E in H2. auto.
Qed.
Definition astate (c : config Z) (ops : list (act Z)) : world Z :=
  match arun c ops empty_world with Ok w => w | _ => empty_world end.
Lemma astate_reachable c ops : fair c -> alegalb c empty_world ops = true -> areachable c (astate c ops).
Proof.
  intros Hf H. apply alegalb_ok in H. exists ops. split; auto.
  destruct (aprograms c Hf ops H) as [w E]. unfold astate. rewrite E. reflexivity.
Qed.
(** A program with every statement *)
Definition small : list dim := [mkD 3 2 unresolved; mkD (-1) 2 unresolved].
Definition aprog : list (act Z) :=
  [ Run (New shapeA 0);                              (* 0 *)
    Transform 0%nat (fun i => match i with [x; y] => 10 * x + y | _ => 0 end);
    Run (New small 1);                               (* 1 *)
    CopyTo 0%nat 1%nat;
    CopyTo 1%nat 1%nat;
    FillElem 0%nat 0%nat [3; 0];
    Run (NewCopy 0%nat);                             (* 2 *)
    Generate 2%nat (fun k => 100 + Z.of_nat k);
    MoveTo 2%nat 1%nat;
    Run (New dyn2 1);                                (* 3 *)
    MoveAll 2%nat 3%nat;
    AssignElem 0%nat small 3%nat [2; 0];
    Fill 1%nat 4 ].
Definition acleanup : list (act Z) := map (fun x => Run (Delete x)) [0; 1; 2; 3]%nat.
