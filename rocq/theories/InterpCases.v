(** Concrete programs for the examples of PropInterp.v and PropRelate.v. *)
From Coq Require Import ZArith List Bool Lia.
From Verif Require Import Base Interval Shape Memory Ref Container Program Spec SpecMem SpecContainer SpecProgram SpecViews SpecInterp SpecRelate
  ContainerCases ProgramCases InterpFacts RelateFacts.
Import ListNotations.
Open Scope Z_scope.

(** What the interpreter has for array [x] after [ops]: allocator, memory, dims, elements *)
Definition outcome_of (c : config Z) (ops : list (act Z)) (x : nat) (l : list (list Z)) : option (nat * bool * list dim * list Z) :=
  option_map (fun a => (v_al a, v_mem a, v_shape a, map (v_at a) l)) (vs_arr (interps c visits ops no_values) x).
Definition at_A : list (list Z) := [[2; -1]; [3; -1]; [4; -1]; [2; 0]; [3; 0]; [4; 0]].
Definition at_small : list (list Z) := [[3; -1]; [4; -1]; [3; 0]; [4; 0]].

(** With temporaries: a swap, a reshape, a self-assignment *)
Definition bprog : list (act Z) :=
  [ Run (New shapeA 0);                              (* 0 *)
    Transform 0%nat (fun i => match i with [x; y] => 10 * x + y | _ => 0 end);
    Run (NewValue small 7 1);                        (* 1 *)
    Run (Swap 0%nat 1%nat);
    Run (Reshape 1%nat small);
    Run (MoveAssign 0%nat 0%nat);
    Run (NewMove 0%nat) ].                           (* 4 *)

(** Two threads, and two orders *)
Definition thread0 : list (act Z) := [Run (Reshape 0%nat small); Fill 0%nat 3].
Definition thread1 : list (act Z) := [Run (Swap 1%nat 2%nat); Run (Write 1%nat [3; 0] 5); Run (Delete 2%nat)].
Definition start2 : list (act Z) := [Run (NewValue shapeA 1 0); Run (NewValue small 2 1); Run (NewValue shapeA 6 0)].
Definition order1 : list (act Z) :=
  [Run (Swap 1%nat 2%nat); Run (Reshape 0%nat small); Run (Write 1%nat [3; 0] 5); Fill 0%nat 3; Run (Delete 2%nat)].
Definition order2 : list (act Z) := thread0 ++ thread1.
Lemma weave_order1 : weave [thread0; thread1] order1.
Proof.
  apply (pick [thread0] _ _ []). apply (pick [] _ _ [_]). apply (pick [[_]] _ _ []). apply (pick [] _ _ [_]). apply (pick [[]] _ _ []).
  apply woven. repeat constructor.
Qed.
Lemma weave_order2 : weave [thread0; thread1] order2.
Proof.
  apply (pick [] _ _ [_]). apply (pick [] _ _ [_]). apply (pick [[]] _ _ []). apply (pick [[]] _ _ []). apply (pick [[]] _ _ []).
  apply woven. repeat constructor.
Qed.
Lemma threads_quiet : Forall (Forall (fun o => ~ declares o)) [thread0; thread1].
Proof. repeat constructor; intros []. Qed.
Lemma threads_apart : forall j k (l l' : list (act Z)) x, j <> k -> nth_error [thread0; thread1] j = Some l ->
  nth_error [thread0; thread1] k = Some l' -> mentions l x -> ~ mentions l' x.
Proof.
  assert (M0 : forall x, mentions thread0 x -> x = 0%nat).
  { intros x (o & [<-|[<-|[]]] & [<-|[]]); auto. }
  assert (M1 : forall x, mentions thread1 x -> x <> 0%nat).
  { intros x (o & I & H). cbn in I. destruct I as [<-|[<-|[<-|[]]]]; cbn in H; intuition congruence. }
  intros [|[|[|j]]] [|[|[|k]]] l l' x N E E' H H'; try congruence; cbn in E, E'; try discriminate; injection E as <-; injection E' as <-.
  - apply (M1 x H'). auto.
  - apply (M1 x H). auto.
Qed.
(** The state [start2] and one with the same arrays 1 and 2, but another array 0 and other addresses *)
Definition start3 : list (act Z) :=
  [Run (New small 0); Run (NewValue shapeA 2 1); Run (NewValue shapeA 6 0); Run (AssignValue 1%nat small 2); Run (Write 0%nat [3; 0] 8)].
Lemma mentions_12 : forall x, mentions thread1 x -> In x [1; 2]%nat \/ (w_next (astate debug2 start2) <= x)%nat.
Proof. intros x (o & I & H). left. cbn in I. destruct I as [<-|[<-|[<-|[]]]]; cbn in H |- *; intuition. Qed.
(** A sufficient test for arrays that look the same *)
Fixpoint indices (s : list dim) : list (list Z) :=
  match s with
  | [] => [[]]
  | d :: s' => flat_map (fun z => map (cons z) (indices s')) (map (fun k => dmin d + Z.of_nat k) (seq 0 (Z.to_nat (dext d))))
  end.
Lemma indices_all s : forall i, in_bounds s i -> In i (indices s).
Proof.
  unfold in_bounds. induction s as [|d s IH]; intros [|z i] H; inversion H as [|? ? ? ? Hd Hr]; subst; cbn [indices]; [left; reflexivity|].
  apply in_flat_map. exists z. split; [|apply in_map, IH; exact Hr].
  unfold in_dim in Hd. apply in_map_iff. exists (Z.to_nat (z - dmin d)). split; [lia|]. apply in_seq. lia.
Qed.
Definition reads_same (w w' : world Z) (a a' : arr) (i : list Z) : bool :=
  match peek (w_heap w) (elem (a_base a) (a_shape a) i), peek (w_heap w') (elem (a_base a') (a_shape a') i) with
  | Some (Live v), Some (Live v') => v =? v'
  | _, _ => false
  end.
Definition sameb (w w' : world Z) (x : nat) : bool :=
  match w_arr w x, w_arr w' x with
  | Some a, Some a' => (a_al a =? a_al a')%nat && eqb (a_busy a) (a_busy a') && eqb (is_null (a_buf a)) (is_null (a_buf a')) &&
      (if shape_dec (a_shape a) (a_shape a') then true else false) && forallb (reads_same w w' a a') (indices (a_shape a))
  | None, None => true
  | _, _ => false
  end.
Lemma sameb_ok w w' x : sameb w w' x = true -> same_array w w' x.
Proof.
  unfold sameb, same_array. destruct (w_arr w x) as [a|], (w_arr w' x) as [a'|]; auto; try discriminate.
  rewrite !andb_true_iff, Nat.eqb_eq, !eqb_true_iff. intros [[[[H1 H2] H3] H4] H5]. split; auto. split; auto. split; auto.
  destruct (shape_dec (a_shape a) (a_shape a')) as [E|]; [|discriminate]. split; auto. intros i Hi.
  rewrite forallb_forall in H5. specialize (H5 i (indices_all _ _ Hi)). unfold reads_same in H5. unfold holds.
  destruct (peek (w_heap w) _) as [[|v]|]; try discriminate. destruct (peek (w_heap w') _) as [[|v']|]; try discriminate.
  apply Z.eqb_eq in H5 as ->. exists v'. auto.
Qed.
Lemma same_12 : forall x, In x [1; 2]%nat -> same_array (astate debug2 start2) (astate debug2 start3) x.
Proof. intros x [<-|[<-|[]]]; apply sameb_ok; vm_compute; reflexivity. Qed.
