(** Concrete threads: on the matrices of EinCases.v, one reduces, one compares, and one fills the
    padding between the columns of an operand. *)
From Coq Require Import ZArith List Bool Lia.
From Verif Require Import Tac Interval Shape Traverse Memory Ref Ein Matrix Tiling Spec SpecMem SpecContainer SpecEin SpecStatic SpecMatrix
  ShapeFacts MemFacts ContainerCases EinCases MatrixCases TilingFacts Threads SpecThreads ThreadsFacts ThreadsCalls ThreadsTiles.
Import ListNotations.
Open Scope Z_scope.

(** ** Sufficient tests *)
Lemma viewb_alive h r : viewb h r = true -> view_alive h r.
Proof. intro H. exact (proj2 (viewb_ok h r H)). Qed.
Definition clashb (a b : ptr * bool) : bool := ptr_eqb (fst a) (fst b) && (snd a || snd b).
Definition apart_progs (h : heap Z) (m m' : prog Z answer) : bool :=
  forallb (fun a => forallb (fun b => negb (clashb a b)) (accesses m' h)) (accesses m h).
Fixpoint all_pairs {A} (f : A -> A -> bool) (l : list A) : bool :=
  match l with [] => true | a :: r => forallb (f a) r && all_pairs f r end.
Lemma apart_progs_ok h m m' : apart_progs h m m' = true -> apart h m m'.
Proof.
  unfold apart_progs. rewrite forallb_forall. intro H.
  assert (K : forall p b b', In (p, b) (accesses m h) -> In (p, b') (accesses m' h) -> b || b' = false).
  { intros p b b' I I'. specialize (H _ I). rewrite forallb_forall in H. specialize (H _ I'). unfold clashb in H. cbn [fst snd] in H.
    rewrite ptr_eqb_refl in H. destruct (b || b'); [discriminate|reflexivity]. }
  unfold apart, reads_elem, writes_elem.
  split; intros p W; (split; intro R); (specialize (K p _ _ R W) || specialize (K p _ _ W R)); discriminate.
Qed.
Lemma all_pairs_ok {A} (f : A -> A -> bool) (R : A -> A -> Prop) l : (forall a b, f a b = true -> R a b) -> all_pairs f l = true -> ForallOrdPairs R l.
Proof.
  intros H. induction l as [|a l IH]; cbn [all_pairs]; [constructor|]. rewrite andb_true_iff, forallb_forall. intros [F P].
  constructor; auto. apply Forall_forall. auto.
Qed.
Lemma no_conflict_check nd h cs : Forall (legal_call h) cs -> all_pairs (apart_progs h) (map (call_prog nd) cs) = true -> no_conflict cs.
Proof.
  intros L H. apply (calls_independent nd h cs L). apply independent_pairs. eapply all_pairs_ok; [|exact H]. apply apart_progs_ok.
Qed.

(** ** Calls *)
Definition padding : aref := mkR (2%nat, 3) [mkD 0 4 4].
Definition three_calls : list (call Z) :=
  [KReduce Z.add mR [2; 1]%nat mul_expr; KEqual Z.eqb mA mA; KFill padding 0].
Lemma three_legal : Forall (legal_call ex3) three_calls.
Proof.
  constructor; [|constructor; [|constructor; [|constructor]]].
  - split; [exact mul_ranks|]. split; [exact mul_alive|]. exists mul_span, 3%nat. split; [exact mul_ranges|exact mul_loops].
  - split; [reflexivity|]. split; [repeat constructor; discriminate|]. split; [repeat constructor; discriminate|].
    split; apply viewb_alive; vm_compute; reflexivity.
  - split; [repeat constructor; discriminate|apply viewb_alive; vm_compute; reflexivity].
Qed.
Lemma three_apart : no_conflict three_calls.
Proof. apply (no_conflict_check false ex3); [exact three_legal|]. vm_compute. reflexivity. Qed.
(** Fill all of the operand while it is read *)
Definition two_calls : list (call Z) := [KReduce Z.add mR [2; 1]%nat mul_expr; KFill mB 0].
Lemma two_legal : Forall (legal_call ex3) two_calls.
Proof.
  constructor; [exact (Forall_inv three_legal)|]. constructor; [|constructor].
  split; [repeat constructor; discriminate|apply viewb_alive; vm_compute; reflexivity].
Qed.
Lemma two_clash : call_writes (KFill mB 0) (2%nat, 4) /\ call_reads (KReduce Z.add mR [2; 1]%nat mul_expr) (2%nat, 4).
Proof.
  split.
  - exists [0; 0]. split; [constructor; [unfold in_dim; cbn; lia|constructor; [unfold in_dim; cbn; lia|constructor]]|reflexivity].
  - exists [0; 0; 5], mB, [0; 1]%nat. split; [|split; [cbn; auto|reflexivity]].
    exists mul_span, 3%nat. split; [exact mul_ranges|]. split; [exact mul_loops|]. split; [reflexivity|].
    intros [|[|[|k]]] Hk; cbn; lia.
Qed.

(** ** Schedules: which thread goes next *)
Definition go (s : outcome (heap Z * list (prog Z answer))) (k : nat) : outcome (heap Z * list (prog Z answer)) :=
  ' (h, ms) <- s ;;
  match nth_error ms k with
  | Some m => o <- advance h m ;; match o with Some (h', m') => Ok (h', set_nth k m' ms) | None => UB end
  | None => UB
  end.
Lemma go_step s k s' : go (Ok s) k = Ok s' -> step s s'.
Proof.
  destruct s as [h ms]. cbn [go bind]. destruct (nth_error ms k) as [m|] eqn:E; [|discriminate].
  destruct (advance h m) as [[[h1 m1]|]| |] eqn:Ea; cbn [bind]; try discriminate. intro Q. injection Q as <-. econstructor; eauto.
Qed.
Lemma go_stuck ks : forall s, s = AssertFail \/ s = UB -> forall r, fold_left go ks s <> Ok r.
Proof.
  induction ks as [|k ks IH]; intros s Hs r; cbn [fold_left]; [destruct Hs; subst; discriminate|].
  apply IH. destruct Hs; subst; cbn; auto.
Qed.
Lemma schedule_steps ks : forall s s', fold_left go ks (Ok s) = Ok s' -> steps (length ks) s s'.
Proof.
  induction ks as [|k ks IH]; intros s s' H; cbn [fold_left length] in *; [injection H as <-; constructor|].
  destruct (go (Ok s) k) as [s1| |] eqn:E.
  - apply go_step in E. pose proof (IH _ _ H) as P. replace (S (length ks)) with (length ks + 1)%nat by lia.
    eapply steps_trans; [|exact P]. econstructor; [constructor|exact E].
  - destruct (go_stuck ks AssertFail (or_introl eq_refl) s' H).
  - destruct (go_stuck ks UB (or_intror eq_refl) s' H).
Qed.

(** ** Three elements in two tiles of two *)
Definition heapV : heap Z := heap3 [0; 0; 0] [0] [0].
Definition tV : aref := mkR (1%nat, 0) [mkD 0 3 1].
Definition bump : list Z -> Z -> Z := fun _ w => w + 1.
Definition vtiles : list (list sarg) := [[AInt (mkI 0 2)]; [AInt (mkI 1 2)]].
Definition vthreads : list (prog Z answer) := map (fun t => call_prog false (KUpdate (ref_slice tV t) bump)) vtiles.
(** The second thread runs between the read and the write of element 1 by the first *)
Definition vsched : list nat := [0; 0; 0; 1; 1; 1; 1; 0]%nat.
Definition vend : heap Z * list (prog Z answer) := match fold_left go vsched (Ok (heapV, vthreads)) with Ok s => s | _ => (heapV, vthreads) end.
Lemma vend_steps : steps 8 (heapV, vthreads) vend.
Proof.
  apply (schedule_steps vsched). unfold vend. destruct (fold_left go vsched (Ok (heapV, vthreads))) as [s| |] eqn:E; [reflexivity| |];
    exfalso; revert E; vm_compute; discriminate.
Qed.
Lemma lost_update : exists (C : aref) (sps : list splitter) (u : list Z -> Z -> Z) (h : heap Z) (g : list Z -> Z) T n s h',
  injective_layout (r_shape C) /\ Forall2 splits sps (r_shape C) /\ usable_heap h /\ shows h C g /\ tiles_of false sps (r_shape C) = Ok T /\
  steps n (h, map (fun t => call_prog false (KUpdate (ref_slice C t) u)) T) s /\ finished s /\
  calls_in_order false (map (fun t => KUpdate (ref_slice C t) u) T) h = Ok h' /\ ~ same_memory h' (fst s).
Proof.
  destruct (calls_in_order false (map (fun t => KUpdate (ref_slice tV t) bump) vtiles) heapV) as [h'| |] eqn:E;
    [|exfalso; revert E; vm_compute; discriminate|exfalso; revert E; vm_compute; discriminate].
  exists tV, [SStatic 2], bump, heapV, (view_of heapV tV), vtiles, 8%nat, vend, h'.
  split; [apply (properb_ok (r_shape tV)); reflexivity|]. split; [repeat constructor; discriminate|]. split; [apply heap3_usable|].
  split; [apply viewb_ok; reflexivity|]. split; [vm_compute; reflexivity|]. split; [exact vend_steps|].
  split. { unfold finished. vm_compute. repeat constructor; eexists; reflexivity. }
  split; [exact E|]. intros (P & _). specialize (P (1%nat, 1) ltac:(intros [])).
  assert (Q : option_map (fun _ => peek h' (1%nat, 1)) (Some tt) = Some (Some (Live 2))).
  { assert (R : (h0 <- calls_in_order false (map (fun t => KUpdate (ref_slice tV t) bump) vtiles) heapV ;; Ok (peek h0 (1%nat, 1))) = Ok (Some (Live 2)))
      by (vm_compute; reflexivity). rewrite E in R. cbn in R. injection R as R. cbn. rewrite R. reflexivity. }
  injection Q as Q. rewrite Q in P. revert P. vm_compute. discriminate.
Qed.
