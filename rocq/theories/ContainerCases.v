(** Concrete programs over arrays, for the examples and the counterexamples of
    PropContainer.v. *)
From Coq Require Import ZArith List Bool Lia.
From Verif Require Import Base Interval Shape Memory Ref Container Spec SpecMem SpecContainer Tac
  ShapeFacts ResolveFacts ContainerFacts ContainerWorld ContainerProps.
Import ListNotations.
Open Scope Z_scope.

(** Elements are integers, default constructed to 0; -1 remains of a moved element. *)
Definition conf (nd pocca pocma pocs : bool) (cap : Z) (s0 : list dim) : config Z :=
  mkC nd pocca pocma pocs (fun a => a) 0 cap s0 0 (fun _ => -1).
(** array<int, shape_of_rank<2>> *)
Definition dyn2 : list dim := [mkD 0 0 unresolved; mkD 0 0 unresolved].
Definition debug2 : config Z := conf false false false false (-1) dyn2.
(** with auto_allocator<int, 8> *)
Definition auto2 : config Z := conf false false false false 8 dyn2.

Definition shapeA : list dim := [mkD 2 3 unresolved; mkD (-1) 2 (-7)].
Definition shapeB : list dim := [mkD 3 4 unresolved; mkD 0 5 unresolved].
Definition shapeC : list dim := [mkD 2 3 unresolved; mkD (-1) 2 unresolved].

(** Value of the element at index [i] of array [x] after running [ops] *)
Definition read_back (c : config Z) (ops : list (op Z)) (x : nat) (i : list Z) : outcome Z :=
  w <- run c ops empty_world ;; a <- get w x ;; load (w_heap w) (ref_ptr (aref_of a) i).

(** ** A sufficient test for legality, to run on programs *)

Definition nested2b (a b : dim) : bool :=
  (dext a * Z.abs (dstr a) <=? Z.abs (dstr b)) || (dext b * Z.abs (dstr b) <=? Z.abs (dstr a)).
Fixpoint nestedb (s : list dim) : bool :=
  match s with
  | [] => true
  | d :: r => ((dext d <=? 1) || negb (dstr d =? 0)) &&
              forallb (fun e => (dext d <=? 1) || (dext e <=? 1) || nested2b d e) r && nestedb r
  end.
Lemma nestedb_ok s : nestedb s = true -> nested s.
Proof.
  induction s as [|d r IH]; cbn [nestedb]; intros H; [split; constructor|].
  apply andb_true_iff in H. destruct H as [H H3]. apply andb_true_iff in H. destruct H as [H1 H2].
  destruct (IH H3) as [I1 I2]. rewrite forallb_forall in H2. split; constructor; auto.
  - lia.
  - apply Forall_forall. intros e He G1 G2. specialize (H2 e He). unfold nested2b, nested2 in *. lia.
Qed.
Definition properb (s : list dim) : bool :=
  forallb (fun d => 0 <=? dext d) s && forallb (fun d => negb (dstr d =? unresolved)) s && nestedb s &&
  ((0 <? flat_extent s) || (flat_min s =? 0)).
Lemma properb_ok s : properb s = true -> proper_layout s.
Proof.
  unfold properb. rewrite !andb_true_iff, !forallb_forall. intros [[[H1 H2] H3] H4].
  split; [apply Forall_forall; intros d Hd; specialize (H1 d Hd); lia|].
  split; [apply Forall_forall; intros d Hd; specialize (H2 d Hd); apply negb_true_iff, Z.eqb_neq in H2; exact H2|].
  split; [apply nested_injective, nestedb_ok; auto|lia].
Qed.
Definition argb (c : config Z) (s : list dim) : bool := (length s =? length (c_shape0 c))%nat && properb (resolve s).
Lemma argb_ok c s : argb c s = true -> shape_arg c s.
Proof.
  unfold argb. rewrite andb_true_iff. intros [H1 H2]. apply Nat.eqb_eq in H1. split; auto. apply properb_ok; auto.
Qed.
Definition existsb_arr (w : world Z) (x : nat) : bool := match w_arr w x with Some _ => true | None => false end.
Definition copyb (c : config Z) (w : world Z) (x : nat) : bool :=
  match w_arr w x with
  | Some a => c_ndebug c || forallb (fun d => negb (dstr d =? unresolved)) (a_shape a)
  | None => false
  end.
Fixpoint all2b (f : dim -> dim -> bool) (s t : list dim) : bool :=
  match s, t with
  | [], [] => true
  | d :: s, e :: t => f d e && all2b f s t
  | _, _ => false
  end.
Lemma all2b_ok f (P : dim -> dim -> Prop) : (forall d e, f d e = true -> P d e) -> forall s t, all2b f s t = true -> Forall2 P s t.
Proof.
  intros H. induction s as [|d s IH]; intros [|e t] G; cbn [all2b] in G; try discriminate; constructor;
    apply andb_true_iff in G; destruct G; auto.
Qed.
Definition dim_withinb (d e : dim) : bool := (dmin e <=? dmin d) && (dmin d + dext d <=? dmin e + dext e).
Definition meetsb (d e : dim) : bool := Z.max (dmin d) (dmin e) <=? Z.min (dmin d + dext d) (dmin e + dext e).
Fixpoint boundsb (s : list dim) (i : list Z) : bool :=
  match s, i with
  | [], [] => true
  | d :: s, x :: i => (dmin d <=? x) && (x <? dmin d + dext d) && boundsb s i
  | _, _ => false
  end.
Lemma boundsb_ok s : forall i, boundsb s i = true -> in_bounds s i.
Proof.
  induction s as [|d s IH]; intros [|x i] H; cbn [boundsb] in H; try discriminate; constructor.
  - unfold in_dim. lia.
  - apply IH. lia.
Qed.
Definition op_okb (c : config Z) (w : world Z) (o : op Z) : bool :=
  match o with
  | New s _ | NewValue s _ _ => argb c s
  | NewCopy y | NewCopyAlloc y _ | NewMove y | NewMoveAlloc y _ => copyb c w y
  | MakeCopy y s _ | MakeMove y s _ =>
      argb c s && match w_arr w y with Some b => all2b dim_withinb (resolve s) (a_shape b) | None => false end
  | CopyAssign x y | MoveAssign x y | AssignCopy x y | AssignMove x y => existsb_arr w x && copyb c w y
  | AssignValue x s _ => existsb_arr w x && argb c s
  | Clear x | Delete x => existsb_arr w x
  | Reshape x s => argb c s && match w_arr w x with Some a => all2b meetsb s (a_shape a) | None => false end
  | Swap x y => copyb c w x && copyb c w y
  | Write x i _ => match w_arr w x with Some a => boundsb (a_shape a) i | None => false end
  end.
Fixpoint legalb (c : config Z) (w : world Z) (ops : list (op Z)) : bool :=
  match ops with
  | [] => true
  | o :: r => op_okb c w o && match step c w o with Ok w' => legalb c w' r | _ => true end
  end.
Lemma existsb_arr_ok w x : existsb_arr w x = true -> exists_arr w x.
Proof. unfold existsb_arr, exists_arr. destruct (w_arr w x); [eauto|discriminate]. Qed.
Lemma copyb_ok c w x : copyb c w x = true -> may_copy c w x.
Proof.
  unfold copyb, may_copy. destruct (w_arr w x) as [a|]; [|discriminate]. intros H. exists a. split; auto.
  apply orb_true_iff in H. destruct H as [H|H]; auto. right. rewrite forallb_forall in H. apply Forall_forall.
  intros d Hd. specialize (H d Hd). apply negb_true_iff, Z.eqb_neq in H. exact H.
Qed.
Lemma within_ok s t : all2b dim_withinb s t = true -> within s t.
Proof.
  intros H i Hi. apply (all2b_ok _ (fun d e => forall x, in_dim d x -> in_dim e x)) in H.
  - unfold in_bounds in *. revert i Hi. induction H; intros i Hi; inv Hi; constructor; auto.
  - intros d e G x. unfold dim_withinb, in_dim in *. lia.
Qed.
Lemma op_okb_ok c w o : op_okb c w o = true -> legal_op c w o.
Proof.
  destruct o; cbn [op_okb legal_op]; rewrite ?andb_true_iff; intros H;
    auto using argb_ok, copyb_ok, existsb_arr_ok;
    try (destruct H; split; auto using argb_ok, copyb_ok, existsb_arr_ok; fail).
  - destruct H as [H1 H2]. split; [apply argb_ok; auto|]. destruct (w_arr w y) as [b|]; [|discriminate].
    exists b. split; auto. apply within_ok; auto.
  - destruct H as [H1 H2]. split; [apply argb_ok; auto|]. destruct (w_arr w y) as [b|]; [|discriminate].
    exists b. split; auto. apply within_ok; auto.
  - destruct H as [H1 H2]. split; [apply argb_ok; auto|]. destruct (w_arr w x) as [b|]; [|discriminate].
    exists b. split; auto. apply (all2b_ok meetsb); auto. intros d e. unfold meetsb, meets. lia.
  - destruct (w_arr w x) as [b|]; [|discriminate]. exists b. split; auto. apply boundsb_ok; auto.
Qed.
Lemma legalb_ok c ops : forall w, legalb c w ops = true -> legal c w ops.
Proof.
  induction ops as [|o r IH]; intros w H; cbn [legalb legal] in *; auto.
  apply andb_true_iff in H. destruct H as [H1 H2]. split; [apply op_okb_ok; auto|]. intros w' E. rewrite E in H2. auto.
Qed.
Lemma fair2 nd pocca pocma pocs cap : cap < 0 \/ (pocca = false /\ pocma = false /\ pocs = false) -> fair (conf nd pocca pocma pocs cap dyn2).
Proof.
  intros H. split; [apply argb_ok; reflexivity|]. split; [repeat constructor; simpl; lia|]. split; auto.
  intros i Hi. unfold in_bounds, conf, dyn2 in Hi. cbn [c_shape0] in Hi. inv Hi. unfold in_dim in *. simpl in *. lia.
Qed.

(** ** A program that uses every operation *)
Definition prog : list (op Z) :=
  [ NewValue shapeA 5 0;                (* 0 *)
    Write 0%nat [3; -1] 9;
    New shapeB 1;                       (* 1: another allocator *)
    NewCopy 0%nat;                      (* 2 *)
    MakeCopy 0%nat shapeC 1;            (* 3 *)
    Write 0%nat [3; 0] 7;
    MoveAssign 1%nat 0%nat;             (* element by element *)
    NewMove 2%nat;                      (* 4: takes over *)
    Swap 1%nat 4%nat;
    Swap 3%nat 3%nat;
    Reshape 4%nat shapeB;
    CopyAssign 4%nat 3%nat;
    NewCopyAlloc 4%nat 1;               (* 8, after three temporaries *)
    AssignCopy 1%nat 4%nat;
    AssignMove 0%nat 1%nat;
    AssignValue 2%nat shapeC 3;
    NewMoveAlloc 0%nat 1;               (* 9 *)
    MakeMove 9%nat shapeC 0;            (* 10 *)
    Clear 9%nat;
    Delete 9%nat;
    Delete 1%nat ].
Definition cleanup : list (op Z) := map (@Delete Z) [0; 2; 3; 4; 8; 10]%nat.
Lemma legal_debug : legal debug2 empty_world (prog ++ cleanup).
Proof. apply legalb_ok. vm_compute. reflexivity. Qed.
Lemma legal_auto : legal auto2 empty_world (prog ++ cleanup).
Proof. apply legalb_ok. vm_compute. reflexivity. Qed.

(** The state after a program, and what is in it *)
Definition state (c : config Z) (ops : list (op Z)) : world Z :=
  match run c ops empty_world with Ok w => w | _ => empty_world end.
Lemma state_reachable c ops : fair c -> legalb c empty_world ops = true -> reachable c (state c ops).
Proof.
  intros Hf H. apply legalb_ok in H. exists ops. split; auto.
  destruct (programs_run c Hf ops H) as [w E]. unfold state. rewrite E. reflexivity.
Qed.
Definition kind {A : Type} (r : outcome A) : nat := match r with Ok _ => 0 | UB => 1 | _ => 2 end.
(** Dims of array [x], and its elements in order of the index, the first dimension innermost *)
Definition dims (w : world Z) (x : nat) : option (list dim) := option_map a_shape (w_arr w x).
Definition rect (s : list dim) : list (list Z) :=
  fold_left (fun l d => flat_map (fun x => map (fun i => i ++ [x]) l) (zseq (dmin d) (Z.to_nat (dext d)))) s [[]].
Definition contents (w : world Z) (x : nat) : list (option Z) :=
  match w_arr w x with
  | Some a => map (fun i => match peek (w_heap w) (elem (a_base a) (a_shape a) i) with Some (Live v) => Some v | _ => None end)
                  (rect (a_shape a))
  | None => []
  end.
(** Live objects and blocks *)
Definition live_count (w : world Z) : nat :=
  fold_left (fun n k => match h_blk (w_heap w) k with
                        | Some b => (n + length (filter (fun x => match b_cell b x with Live _ => true | Raw => false end)
                                                   (zseq 0 (Z.to_nat (b_size b)))))%nat
                        | None => n
                        end) (seq 0 (h_next (w_heap w))) 0%nat.
Definition block_count (w : world Z) : nat :=
  length (filter (fun k => match h_blk (w_heap w) k with Some _ => true | None => false end) (seq 0 (h_next (w_heap w)))).

(** Array 0: shape A with a 9 at (3, -1) and 5 elsewhere; array 1: shape B, other allocator *)
Definition pre : list (op Z) := [NewValue shapeA 5 0; Write 0%nat [3; -1] 9; New shapeB 1].
(** array<int, shape<dim<0, 4, 1>>>: the default is not empty *)
Definition static1 (nd : bool) : config Z := conf nd false false false (-1) [mkD 0 4 1].
(** array<int, shape_of_rank<1>> *)
Definition dyn1 (nd : bool) : config Z := conf nd false false false (-1) [mkD 0 0 unresolved].
Definition release2 : config Z := conf true false false false (-1) dyn2.
Definition pocma2 (nd : bool) : config Z := conf nd false true false (-1) dyn2.
(** Empty shapes that need no memory but have a flat_min other than 0 *)
Definition empty1 : list dim := [mkD 0 0 4; mkD 0 4 (-1)].
Definition empty2 : list dim := [mkD 0 0 4; mkD 7 4 (-1)].
Lemma no_index_head d s : dext d <= 0 -> no_index (d :: s).
Proof. intros H i Hi. unfold in_bounds in Hi. inv Hi. unfold in_dim in *. lia. Qed.
Lemma fair1 nd : fair (dyn1 nd).
Proof.
  split; [apply argb_ok; reflexivity|]. split; [repeat constructor; simpl; lia|]. split; [|left; reflexivity].
  apply no_index_head. simpl. lia.
Qed.
Lemma in_dim1 m e st i : in_bounds [mkD m e st] i -> exists x, i = [x] /\ m <= x < m + e.
Proof.
  intros H. unfold in_bounds in H. inv H. inv H4. unfold in_dim in H2. simpl in H2. eauto.
Qed.
Lemma reinterpret_rejects : exists (w : world Z) (b : arr) (t : list dim) (off : Z),
  reachable (dyn1 false) w /\ w_arr w 0%nat = Some b /\
  (forall i, in_bounds t i -> alive (w_heap w) (elem (ptr_off (a_base b) off) t i)) /\ (exists i, in_bounds t i) /\
  move_reinterpret_shape (dyn1 false) 1%nat (w_heap w) 0%nat b (c_shape0 (dyn1 false)) t off = AssertFail.
Proof.
  exists (state (dyn1 false) [New [mkD 0 10 1] 0]). eexists. exists [mkD 0 4 1], 3.
  split; [apply state_reachable; [apply fair1|reflexivity]|]. split; [reflexivity|]. split; [|split].
  - intros i Hi. apply in_dim1 in Hi. destruct Hi as [x [-> Hx]]. exists 0. unfold holds.
    assert (x = 0 \/ x = 1 \/ x = 2 \/ x = 3) as [-> | [-> | [-> | ->]]] by lia; reflexivity.
  - exists [0]. repeat constructor; simpl; lia.
  - reflexivity.
Qed.
Lemma reinterpret_accepts : exists (w : world Z) (b a' b' : arr) (h' : heap Z) (t : list dim) (off : Z),
  reachable (dyn1 false) w /\ w_arr w 0%nat = Some b /\
  move_reinterpret_shape (dyn1 false) 1%nat (w_heap w) 0%nat b (c_shape0 (dyn1 false)) t off = Ok (h', a', b') /\
  (exists i, in_bounds (a_shape a') i) /\
  forall i, in_bounds (a_shape a') i -> ~ alive h' (elem (a_base a') (a_shape a') i).
Proof.
  exists (state (dyn1 false) [New [mkD 0 10 1] 0]). eexists. eexists. eexists. eexists. exists [mkD 0 4 1], (-4).
  split; [apply state_reachable; [apply fair1|reflexivity]|]. split; [reflexivity|]. split; [reflexivity|].
  split; [exists [0]; repeat constructor; simpl; lia|].
  cbn [a_shape with_shape set_base]. intros i Hi. apply in_dim1 in Hi. destruct Hi as [x [-> Hx]].
  assert (x = 0 \/ x = 1 \/ x = 2 \/ x = 3) as [-> | [-> | [-> | ->]]] by lia; intros [v E]; vm_compute in E; discriminate.
Qed.
Lemma run_state c ops : kind (run c ops empty_world) = 0%nat -> run c ops empty_world = Ok (state c ops).
Proof. unfold state. destruct (run c ops empty_world); simpl; congruence. Qed.
Lemma step_state c ops o : kind (run c ops empty_world) = 0%nat -> kind (run c (ops ++ [o]) empty_world) = 0%nat ->
  step c (state c ops) o = Ok (state c (ops ++ [o])).
Proof.
  intros H1 H2. apply run_state in H1. apply run_state in H2. rewrite <- H2. symmetry. apply run_snoc; auto.
Qed.
Lemma static_shape : exists (s : list dim) (w w' : world Z),
  run (static1 true) [New s 0; NewMove 0%nat] empty_world = Ok w /\
  (exists a, w_arr w 0%nat = Some a /\ a_base a = null /\ in_bounds (a_shape a) [0]) /\
  run (static1 true) [New s 0; NewMove 0%nat; AssignValue 0%nat s 7] empty_world = Ok w' /\
  (exists a, w_arr w' 0%nat = Some a /\ a_base a = null /\ in_bounds (a_shape a) [0]) /\
  step (static1 true) w' (Write 0%nat [0] 1) = UB /\
  run (static1 false) [New s 0; NewMove 0%nat; AssignValue 0%nat s 7] empty_world = AssertFail.
Proof.
  exists [mkD 0 4 1], (state (static1 true) [New [mkD 0 4 1] 0; NewMove 0%nat]),
    (state (static1 true) [New [mkD 0 4 1] 0; NewMove 0%nat; AssignValue 0%nat [mkD 0 4 1] 7]).
  split; [apply run_state; vm_compute; reflexivity|].
  split; [eexists; split; [vm_compute; reflexivity|]; split; [reflexivity|apply boundsb_ok; reflexivity]|].
  split; [apply run_state; vm_compute; reflexivity|].
  split; [eexists; split; [vm_compute; reflexivity|]; split; [reflexivity|apply boundsb_ok; reflexivity]|].
  split; vm_compute; reflexivity.
Qed.
Lemma reshape_apart : exists (w : world Z) (t : list dim), reachable debug2 w /\ exists_arr w 0%nat /\
  shape_arg debug2 t /\ step debug2 w (Reshape 0%nat t) = AssertFail.
Proof.
  exists (state debug2 [New dyn2 0]), [mkD 5 5 unresolved; mkD 5 5 unresolved].
  split; [apply state_reachable; [apply fair2; left; reflexivity|vm_compute; reflexivity]|].
  split; [apply existsb_arr_ok; vm_compute; reflexivity|].
  split; [apply argb_ok; vm_compute; reflexivity|vm_compute; reflexivity].
Qed.
Lemma reshape_allocator : exists (w w' : world Z) (t : list dim) (a a' : arr),
  reachable (pocma2 false) w /\ w_arr w 0%nat = Some a /\ shape_arg (pocma2 false) t /\
  step (pocma2 false) w (Reshape 0%nat t) = Ok w' /\ w_arr w' 0%nat = Some a' /\ a_al a = 3%nat /\ a_al a' = 0%nat.
Proof.
  exists (state (pocma2 false) [New shapeA 3]), (state (pocma2 false) ([New shapeA 3] ++ [Reshape 0%nat shapeB])), shapeB.
  eexists. eexists.
  split; [apply state_reachable; [apply fair2; left; reflexivity|vm_compute; reflexivity]|].
  split; [vm_compute; reflexivity|]. split; [apply argb_ok; vm_compute; reflexivity|].
  split; [apply step_state; vm_compute; reflexivity|]. split; [vm_compute; reflexivity|]. split; reflexivity.
Qed.
Lemma empty_assign : exists (s t : list dim) (w : world Z),
  extents_ge 0 s /\ extents_ge 0 t /\ known_strides s /\ known_strides t /\ no_index s /\ no_index t /\
  run release2 [New s 0; New t 0; CopyAssign 0%nat 1%nat] empty_world = Ok w /\
  dims w 1%nat = Some t /\ dims w 0%nat = Some s /\ s <> t /\
  run debug2 [New s 0; New t 0; CopyAssign 0%nat 1%nat] empty_world = AssertFail /\
  run release2 [New s 0; Delete 0%nat] empty_world = UB.
Proof.
  exists empty1, empty2, (state release2 [New empty1 0; New empty2 0; CopyAssign 0%nat 1%nat]).
  split; [repeat constructor; discriminate|]. split; [repeat constructor; discriminate|].
  split; [repeat constructor; discriminate|]. split; [repeat constructor; discriminate|].
  split; [apply no_index_head; discriminate|]. split; [apply no_index_head; discriminate|].
  split; [apply run_state; vm_compute; reflexivity|]. split; [vm_compute; reflexivity|].
  split; [vm_compute; reflexivity|]. split; [discriminate|].
  split; vm_compute; reflexivity.
Qed.
