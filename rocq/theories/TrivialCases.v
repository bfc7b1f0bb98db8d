(** Concrete programs over arrays of a trivial type, for the examples and the counterexamples of PropTrivial.v. *)
From Coq Require Import ZArith List Bool Lia.
From Verif Require Import Base Interval Shape Memory Ref Container Program Trivial Spec SpecMem SpecContainer SpecProgram SpecTrivial
  Tac ShapeFacts ResolveFacts ContainerFacts ContainerWorld ContainerProps ContainerCases ProgramCases TrivialProps.
Import ListNotations.
Open Scope Z_scope.

(** ** A sufficient test for legality *)

Definition plainb (s : list dim) : bool :=
  forallb (fun d => 0 <=? dext d) s && forallb (fun d => negb (dstr d =? unresolved)) s &&
  ((0 <? flat_extent s) || (flat_min s =? 0)).
Lemma plainb_ok s : plainb s = true -> plain_layout s.
Proof.
  unfold plainb. rewrite !andb_true_iff, !forallb_forall. intros [[H1 H2] H4].
  split; [apply Forall_forall; intros d Hd; specialize (H1 d Hd); lia|].
  split; [apply Forall_forall; intros d Hd; specialize (H2 d Hd); apply negb_true_iff, Z.eqb_neq in H2; exact H2|lia].
Qed.
Definition lenb (c : config Z) (s : list dim) : bool := (length s =? length (c_shape0 c))%nat.
Definition plain_argb (c : config Z) (s : list dim) : bool := lenb c s && plainb (resolve s).
Lemma plain_argb_ok c s : plain_argb c s = true -> plain_arg c s.
Proof.
  unfold plain_argb, lenb. rewrite andb_true_iff. intros [H1 H2]. apply Nat.eqb_eq in H1. split; auto. apply plainb_ok; auto.
Qed.
Definition plain_opb (c : config Z) (w : world Z) (o : op Z) : bool :=
  match o with
  | New s _ | NewValue s _ _ => plain_argb c s
  | NewCopy y | NewCopyAlloc y _ | NewMove y | NewMoveAlloc y _ => copyb c w y
  | MakeCopy y s _ | MakeMove y s _ =>
      plain_argb c s && match w_arr w y with Some b => all2b dim_withinb (resolve s) (a_shape b) | None => false end
  | CopyAssign x y | MoveAssign x y | AssignCopy x y | AssignMove x y => existsb_arr w x && copyb c w y
  | AssignValue x s _ => existsb_arr w x && plain_argb c s
  | Clear x | Delete x => existsb_arr w x
  | Reshape x s => plain_argb c s && match w_arr w x with Some a => all2b meetsb s (a_shape a) | None => false end
  | Swap x y => copyb c w x && copyb c w y
  | Write x i _ => match w_arr w x with Some a => boundsb (a_shape a) i | None => false end
  end.
Lemma plain_opb_ok c w o : plain_opb c w o = true -> plain_op c w o.
Proof.
  destruct o; cbn [plain_opb plain_op]; rewrite ?andb_true_iff; intros H;
    auto using plain_argb_ok, copyb_ok, existsb_arr_ok;
    try (destruct H; split; auto using plain_argb_ok, copyb_ok, existsb_arr_ok; fail).
  - destruct H as [H1 H2]. split; [apply plain_argb_ok; auto|]. destruct (w_arr w y) as [b|]; [|discriminate].
    exists b. split; auto. apply within_ok; auto.
  - destruct H as [H1 H2]. split; [apply plain_argb_ok; auto|]. destruct (w_arr w y) as [b|]; [|discriminate].
    exists b. split; auto. apply within_ok; auto.
  - destruct H as [H1 H2]. split; [apply plain_argb_ok; auto|]. destruct (w_arr w x) as [b|]; [|discriminate].
    exists b. split; auto. apply (all2b_ok meetsb); auto. intros d e. unfold meetsb, meets. lia.
  - destruct (w_arr w x) as [b|]; [|discriminate]. exists b. split; auto. apply boundsb_ok; auto.
Qed.
Definition plain_actb (c : config Z) (w : world Z) (o : act Z) : bool :=
  match o with
  | Run o => plain_opb c w o
  | Fill x _ | Generate x _ | Transform x _ => existsb_arr w x
  | FillElem x y i => existsb_arr w x && elemb w y i
  | CopyTo y x | MoveTo y x => pairb w y x
  | MoveAll y x => existsb_arr w x && copyb c w y
  | AssignElem x s y i => existsb_arr w x && plain_argb c s && negb (y =? x)%nat && elemb w y i
  end.
Lemma plain_actb_ok c w o : plain_actb c w o = true -> plain_act c w o.
Proof.
  destruct o; cbn [plain_actb plain_act]; rewrite ?andb_true_iff, ?negb_true_iff, ?Nat.eqb_neq; intros H;
    intuition auto using plain_opb_ok, existsb_arr_ok, elemb_ok, pairb_ok, copyb_ok, plain_argb_ok.
Qed.
(** [f] at all indices of [s] *)
Fixpoint all_in (s : list dim) (f : list Z -> bool) : bool :=
  match s with
  | [] => f []
  | d :: r => forallb (fun k => all_in r (fun i => f (dmin d + Z.of_nat k :: i))) (seq 0 (Z.to_nat (dext d)))
  end.
Lemma all_in_ok s : forall f, all_in s f = true -> forall i, in_bounds s i -> f i = true.
Proof.
  induction s as [|d r IH]; intros f H i Hi; inversion Hi as [|d' x r' i' Hx Hr]; subst; cbn [all_in] in H; auto.
  rewrite forallb_forall in H. unfold in_dim in Hx. specialize (H (Z.to_nat (x - dmin d))).
  rewrite in_seq in H. specialize (H ltac:(lia)). apply (IH _ H i') in Hr. cbv beta in Hr.
  replace (dmin d + Z.of_nat (Z.to_nat (x - dmin d))) with x in Hr by lia. auto.
Qed.
Definition fitsb (h : heap Z) (a : arr) (s : list dim) (off : Z) : bool :=
  all_in s (fun i => let p := elem (ptr_off (a_base a) off) s i in
    (fst p =? fst (a_buf a))%nat && match peek h p with Some _ => true | None => false end).
Lemma fitsb_ok h a s off : fitsb h a s off = true -> fits_memory h a s off.
Proof.
  intros H i Hi. apply (all_in_ok s _ H i) in Hi. cbv beta zeta in Hi. apply andb_true_iff in Hi. destruct Hi as [H1 H2].
  apply Nat.eqb_eq in H1. split; auto. destruct (peek h _); congruence.
Qed.
Definition spanb (s t : list dim) (off : Z) : bool := (flat_min t <=? flat_min s + off) && (flat_max s + off <=? flat_max t).
Definition tactb (c : config Z) (w : world Z) (o : tact Z) : bool :=
  match o with
  | Plain o => plain_actb c w o
  | SetShape x s off => lenb c s && plainb s &&
      match w_arr w x with Some a => negb (c_ndebug c) || fitsb (w_heap w) a s off | None => false end
  | MoveShape y s off => lenb c s && plainb s &&
      match w_arr w y with
      | Some b => (negb (is_null (a_base b)) || (off =? 0)) &&
                  (if c_ndebug c then fitsb (w_heap w) b s off else spanb s (a_shape b) off) &&
                  (c_pocma c || (negb (a_busy b) && (a_al b =? c_default c)%nat))
      | None => false
      end
  end.
Lemma tactb_ok c w o : tactb c w o = true -> legal_tact c w o.
Proof.
  destruct o as [o|x s off|y s off]; cbn [tactb legal_tact].
  - apply plain_actb_ok.
  - rewrite !andb_true_iff. unfold lenb. rewrite Nat.eqb_eq. intros [[H1 H2] H3]. split; auto. split; [apply plainb_ok; auto|].
    destruct (w_arr w x) as [a|]; [|discriminate]. exists a. split; auto. apply orb_true_iff in H3. destruct H3 as [H3|H3].
    + left. apply negb_true_iff; auto.
    + right. apply fitsb_ok; auto.
  - rewrite !andb_true_iff. unfold lenb. rewrite Nat.eqb_eq. intros [[H1 H2] H3]. split; auto. split; [apply plainb_ok; auto|].
    destruct (w_arr w y) as [b|]; [|discriminate]. exists b. split; auto. rewrite !andb_true_iff in H3. destruct H3 as [[H3 H4] H5].
    split; [|split].
    + intros E. rewrite E in H3. cbn in H3. lia.
    + destruct (c_ndebug c); [apply fitsb_ok; auto|]. unfold spanb in H4. unfold in_span. lia.
    + apply orb_true_iff in H5. destruct H5 as [H5|H5]; auto. right. rewrite andb_true_iff, negb_true_iff, Nat.eqb_eq in H5. auto.
Qed.
Fixpoint tlegalb (skip : bool) (c : config Z) (w : world Z) (ops : list (tact Z)) : bool :=
  match ops with
  | [] => true
  | o :: r => tactb c w o && match tstep skip c w o with Ok w' => tlegalb skip c w' r | _ => true end
  end.
Lemma tlegalb_ok skip c ops : forall w, tlegalb skip c w ops = true -> tlegal skip c w ops.
Proof.
  induction ops as [|o r IH]; intros w H; cbn [tlegalb tlegal] in *; auto.
  apply andb_true_iff in H. destruct H as [H1 H2]. split; [apply tactb_ok; auto|]. intros w' E. rewrite E in H2. auto.
Qed.
Definition tstate (skip : bool) (c : config Z) (ops : list (tact Z)) : world Z :=
  match trun skip c ops empty_world with Ok w => w | _ => empty_world end.
Definition runsb (skip : bool) (c : config Z) (ops : list (tact Z)) : bool :=
  tlegalb skip c empty_world ops && match trun skip c ops empty_world with Ok _ => true | _ => false end.
Lemma tstate_reachable skip c ops : runsb skip c ops = true -> treachable skip c (tstate skip c ops).
Proof.
  unfold runsb. rewrite andb_true_iff. intros [H1 H2]. apply tlegalb_ok in H1. exists ops. split; auto.
  unfold tstate. destruct (trun skip c ops empty_world); [reflexivity|discriminate|discriminate].
Qed.
Lemma plain_fair2 nd pocca pocma pocs cap : cap < 0 \/ (pocca = false /\ pocma = false /\ pocs = false) ->
  plain_fair (conf nd pocca pocma pocs cap dyn2).
Proof.
  intros H. split; [apply plain_argb_ok; vm_compute; reflexivity|]. cbn [conf c_shape0 c_cap c_pocca c_pocma c_pocs].
  split; [repeat constructor; discriminate|]. split; [vm_compute; discriminate|]. split; [vm_compute; discriminate|auto].
Qed.
(** The places of an array: [None] where no value was ever written *)
Definition tcontents (w : world Z) (x : nat) : list (option Z) :=
  match w_arr w x with
  | Some a => map (fun i => match peek (w_heap w) (elem (a_base a) (a_shape a) i) with Some (Live v) => Some v | _ => None end)
                  (match a_shape a with
                   | [d; e] => flat_map (fun q => map (fun p => [dmin d + Z.of_nat p; dmin e + Z.of_nat q]) (seq 0 (Z.to_nat (dext d))))
                                        (seq 0 (Z.to_nat (dext e)))
                   | _ => []
                   end)
  | None => []
  end.

(** ** Programs *)

Definition trelease2 : config Z := conf true false false false (-1) dyn2.
Definition t43 : list dim := [mkD 0 4 1; mkD 0 3 4].
(** its transpose, two columns of its middle repeated four times, and four of its five places *)
Definition t34 : list dim := [mkD 0 3 4; mkD 0 4 1].
Definition twice : list dim := [mkD 0 2 4; mkD 0 4 0].
Definition corners : list dim := [mkD 5 2 1; mkD 1 2 3].
Definition tval (i : list Z) : Z := match i with [x; y] => 10 * x + y | _ => 0 end.
Definition tprog : list (tact Z) :=
  [ Plain (Run (New t43 0));                         (* 0 *)
    Plain (Transform 0%nat tval);
    SetShape 0%nat t34 0;
    SetShape 0%nat twice 1;
    Plain (Run (NewCopy 0%nat));                     (* 1 *)
    Plain (Run (Write 1%nat [0; 2] 77));
    MoveShape 1%nat corners 0 ].                      (* 2 *)
Definition tcleanup : list (tact Z) := map (fun x => Plain (Run (Delete x))) [2; 0; 1]%nat.
(** 16 elements fit in the inline storage. *)
Definition tauto2 : config Z := conf true false false false 16 dyn2.
(** Two elements share every place. *)
Definition tprog2 : list (tact Z) :=
  [ Plain (Run (NewValue t43 5 0));                  (* 0 *)
    Plain (Transform 0%nat tval);
    SetShape 0%nat twice 1;
    Plain (Run (New t43 3));                         (* 1 *)
    Plain (Fill 1%nat 8);
    Plain (Run (MakeCopy 1%nat [mkD 1 2 unresolved; mkD 0 3 unresolved] 2));    (* 2 *)
    Plain (Run (Swap 0%nat 1%nat)) ].
Definition no_elems : list dim := [mkD 0 0 1; mkD 0 0 0].
Definition tmove (y : nat) (s : list dim) (off : Z) (x : nat) : list (tact Z) := [MoveShape y s off; Plain (Run (Delete x))].

Definition movableb (c : config Z) (w : world Z) (y : nat) (s : list dim) (off : Z) : bool :=
  lenb c s && plainb s && match w_arr w y with Some b => fitsb (w_heap w) b s off | None => false end.
Lemma movableb_ok c w y s off : movableb c w y s off = true -> movable c w y s off.
Proof.
  unfold movableb. rewrite !andb_true_iff. unfold lenb. rewrite Nat.eqb_eq. intros [[H1 H2] H3]. split; auto.
  split; [apply plainb_ok; auto|]. destruct (w_arr w y) as [a|]; [|discriminate]. exists a. split; auto. apply fitsb_ok; auto.
Qed.
Lemma null_offset : exists (c : config Z) w y s off, plain_fair c /\ c_ndebug c = true /\ treachable false c w /\
  movable c w y s off /\ (exists b, w_arr w y = Some b /\ a_base b = null) /\ trun false c (tmove y s off (w_next w)) w = UB.
Proof.
  exists trelease2, (tstate false trelease2 [Plain (Run (New dyn2 0))]), 0%nat, no_elems, 3.
  split; [apply plain_fair2; left; lia|]. split; [reflexivity|].
  split; [apply tstate_reachable; vm_compute; reflexivity|]. split; [apply movableb_ok; vm_compute; reflexivity|].
  split; [eexists; split; [vm_compute; reflexivity|reflexivity]|]. vm_compute. reflexivity.
Qed.
Lemma inline_moved : exists (c : config Z) w y s, plain_fair c /\ c_ndebug c = true /\ treachable false c w /\
  movable c w y s 0 /\ (exists b, w_arr w y = Some b /\ a_busy b = true) /\ trun false c (tmove y s 0 (w_next w)) w = UB.
Proof.
  exists tauto2, (tstate false tauto2 [Plain (Run (New t43 0))]), 0%nat, t34.
  split; [apply plain_fair2; right; auto|]. split; [reflexivity|].
  split; [apply tstate_reachable; vm_compute; reflexivity|]. split; [apply movableb_ok; vm_compute; reflexivity|].
  split; [eexists; split; [vm_compute; reflexivity|reflexivity]|]. vm_compute. reflexivity.
Qed.
Lemma allocator_moved : exists (c : config Z) w y s, plain_fair c /\ c_ndebug c = true /\ treachable false c w /\
  movable c w y s 0 /\ (exists b, w_arr w y = Some b /\ a_al b <> c_default c) /\ trun false c (tmove y s 0 (w_next w)) w = UB.
Proof.
  exists trelease2, (tstate false trelease2 [Plain (Run (New t43 7))]), 0%nat, t34.
  split; [apply plain_fair2; left; lia|]. split; [reflexivity|].
  split; [apply tstate_reachable; vm_compute; reflexivity|]. split; [apply movableb_ok; vm_compute; reflexivity|].
  split; [eexists; split; [vm_compute; reflexivity|discriminate]|]. vm_compute. reflexivity.
Qed.
