(** Concrete reductions: a 2x3 matrix with rows 5, 6 and columns 0..2, a 3x4 matrix with
    padding between its columns and columns -1..2, and a 2x4 result. *)
From Coq Require Import ZArith List Bool Lia.
From Verif Require Import Tac Interval Shape Memory Ref Spec SpecMem SpecContainer Static SpecStatic Container Ein SpecEin
  ShapeFacts MemFacts ContainerCases EinUses.
Import ListNotations.
Open Scope Z_scope.

(** ** Sufficient tests *)
Definition aliveb (h : heap Z) (p : ptr) : bool := match peek h p with Some (Live _) => true | _ => false end.
Lemma aliveb_ok h p : aliveb h p = true -> alive h p.
Proof. unfold aliveb. destruct (peek h p) as [[|v]|] eqn:E; try discriminate. intros _. exists v. exact E. Qed.
Definition ops_aliveb (h : heap Z) (ops : list (aref * list nat)) : bool :=
  forallb (fun o => forallb (fun i => aliveb h (elem (r_base (fst o)) (r_shape (fst o)) i)) (box (r_shape (fst o)))) ops.
Lemma ops_aliveb_ok h ops : ops_aliveb h ops = true -> operands_alive h ops.
Proof.
  unfold ops_aliveb. rewrite forallb_forall. intros H r is_ i I Hi. specialize (H _ I). cbn [fst] in H.
  rewrite forallb_forall in H. apply aliveb_ok, H, box_In, Hi.
Qed.
Definition apartb (r : aref) (ops : list (aref * list nat)) : bool :=
  forallb (fun o => forallb (fun i => forallb (fun j =>
    negb (ptr_eqb (elem (r_base r) (r_shape r) j) (elem (r_base (fst o)) (r_shape (fst o)) i))) (box (r_shape r)))
      (box (r_shape (fst o)))) ops.
Lemma apartb_ok r ops : apartb r ops = true -> operands_apart r ops.
Proof.
  unfold apartb. rewrite forallb_forall. intros H r' is_ i I Hi (j & Hj & E). specialize (H _ I). cbn [fst] in H.
  rewrite forallb_forall in H. specialize (H i (proj2 (box_In _ _) Hi)). rewrite forallb_forall in H.
  specialize (H j (proj2 (box_In _ _) Hj)). rewrite E, ptr_eqb_refl in H. discriminate.
Qed.

(** ** Three blocks *)
Definition blockZ (l : list Z) : block Z :=
  mkB (Base 0) (Z.of_nat (length l)) (fun z => match nth_error l (Z.to_nat z) with Some v => Live v | None => Raw end).
Definition heap3 (a b c : list Z) : heap Z :=
  mkH 4 (fun k => match k with 1%nat => Some (blockZ a) | 2%nat => Some (blockZ b) | 3%nat => Some (blockZ c) | _ => None end).
Definition ex3 : heap Z := heap3 [1; 2; 3; 4; 5; 6] [1; 2; 3; 90; 4; 5; 6; 91; 7; 8; 9; 92; 10; 11; 12; 93] [100; 200; 300; 400; 500; 600; 700; 800].
Definition mA : aref := mkR (1%nat, 0) [mkD 5 2 3; mkD 0 3 1].
Definition mB : aref := mkR (2%nat, 0) [mkD 0 3 1; mkD (-1) 4 4].
Definition mR : aref := mkR (3%nat, 0) [mkD 5 2 1; mkD (-1) 4 2].
Definition mul_expr : expr Z := EBin Z.mul (EArr mA [2; 0]%nat) (EArr mB [0; 1]%nat).
Definition mul_span (k : nat) : span := match k with 0%nat => (0, 3) | 1%nat => (-1, 4) | 2%nat => (5, 2) | _ => (0, 1) end.
Definition dump3 (h : outcome (heap Z)) (b : nat) : list (option (cell Z)) :=
  match h with
  | Ok h => match h_blk h b with Some bl => map (fun z => peek h (b, z)) (zseq 0 (Z.to_nat (b_size bl))) | None => [] end
  | _ => []
  end.

Lemma mul_ranks : ranks_match ((mR, [2; 1]%nat) :: operands mul_expr).
Proof. repeat constructor. Qed.
Lemma mul_loops : loops 3 ([2; 1]%nat ++ labels mul_expr).
Proof. split; [repeat constructor|]. intros _. cbn. auto. Qed.
Lemma mul_ranges : ranges mR [2; 1]%nat (operands mul_expr) mul_span.
Proof.
  split; [|split; [|split]].
  - intros [|[|[|k]]]; cbn; lia.
  - intros k d (r & is_ & I & A). cbn in I. destruct I as [I|[]]. inv I. cbn in A. destruct A as [A|[A|[]]]; inv A; split; reflexivity.
  - intros k d (r & is_ & I & A). left. cbn in I. destruct I as [I|[I|[]]]; inv I; cbn in A; destruct A as [A|[A|[]]]; inv A; split; reflexivity.
  - intros [|[|[|k]]] N; [| | |reflexivity]; exfalso.
    + apply (N (mkD 0 3 1)). exists mA, [2; 0]%nat. cbn. auto.
    + apply (N (mkD (-1) 4 4)). exists mB, [0; 1]%nat. cbn. auto.
    + apply (N (mkD 5 2 3)). exists mA, [2; 0]%nat. cbn. auto.
Qed.
Lemma mul_alive : operands_alive ex3 ((mR, [2; 1]%nat) :: operands mul_expr).
Proof. apply ops_aliveb_ok. vm_compute. reflexivity. Qed.
Lemma mul_apart : operands_apart mR (operands mul_expr).
Proof. apply apartb_ok. vm_compute. reflexivity. Qed.
Lemma mul_inj : injective_layout (r_shape mR).
Proof. apply (properb_ok (r_shape mR)). reflexivity. Qed.

(** ** The result's own elements as operands: R(i, j) * R(i, j) *)
Definition sq_expr : expr Z := EBin Z.mul (EArr mR [0; 1]%nat) (EArr mR [0; 1]%nat).
Definition sq_span (k : nat) : span := match k with 0%nat => (5, 2) | 1%nat => (-1, 4) | _ => (0, 1) end.
Lemma sq_ranks : ranks_match ((mR, [0; 1]%nat) :: operands sq_expr).
Proof. repeat constructor. Qed.
Lemma sq_loops : loops 2 ([0; 1]%nat ++ labels sq_expr).
Proof. split; [repeat constructor|]. intros _. cbn. auto. Qed.
Lemma sq_ranges : ranges mR [0; 1]%nat (operands sq_expr) sq_span.
Proof.
  split; [|split; [|split]].
  - intros [|[|[|k]]]; cbn; lia.
  - intros k d (r & is_ & I & A). cbn in I. destruct I as [I|[]]. inv I. cbn in A. destruct A as [A|[A|[]]]; inv A; split; reflexivity.
  - intros k d (r & is_ & I & A). left. cbn in I. destruct I as [I|[I|[]]]; inv I; cbn in A; destruct A as [A|[A|[]]]; inv A; split; reflexivity.
  - intros [|[|k]] N; [| |reflexivity]; exfalso.
    + apply (N (mkD 5 2 1)). exists mR, [0; 1]%nat. cbn. auto.
    + apply (N (mkD (-1) 4 2)). exists mR, [0; 1]%nat. cbn. auto.
Qed.
Lemma sq_alive : operands_alive ex3 ((mR, [0; 1]%nat) :: operands sq_expr).
Proof. apply ops_aliveb_ok. vm_compute. reflexivity. Qed.
Lemma sq_free : forall k, (k < 2)%nat -> In k [0; 1]%nat \/ snd (sq_span k) <= 1.
Proof. intros [|[|k]] H; cbn; auto; lia. Qed.
Lemma sq_apart : forall env env' r' is_, loop_index sq_span 2 env -> loop_index sq_span 2 env' -> In (r', is_) (operands sq_expr) ->
  elem (r_base r') (r_shape r') (values_of is_ env) = elem (r_base mR) (r_shape mR) (values_of [0; 1]%nat env') -> env = env'.
Proof.
  intros env env' r' is_ [L H] [L' H'] I E.
  assert (r' = mR /\ is_ = [0; 1]%nat) as [-> ->] by (cbn in I; destruct I as [I|[I|[]]]; inv I; auto).
  destruct env as [|a [|b [|]]]; try discriminate L. destruct env' as [|a' [|b' [|]]]; try discriminate L'.
  pose proof (H 0%nat ltac:(lia)) as Ha. pose proof (H 1%nat ltac:(lia)) as Hb.
  pose proof (H' 0%nat ltac:(lia)) as Ha'. pose proof (H' 1%nat ltac:(lia)) as Hb'.
  cbn in Ha, Hb, Ha', Hb'. unfold elem, values_of in E. cbn in E. inv E.
  assert (a = a' /\ b = b') as [-> ->] by lia. reflexivity.
Qed.
(** Results of rank [n], and what is in them *)
Definition debug_rank (n : nat) : config Z := conf false false false false (-1) (repeat (mkD 0 0 unresolved) n).
Definition sum_of (n : nat) (out : list nat) (e : expr Z) : list Z * list dim :=
  match make_ein_sum (debug_rank n) Z.add 0 ex3 0 out e (repeat (mkDT (-9) (-9) (-9)) n) 0 with
  | Ok (h, a) => (map (fun o => match peek h (elem (a_base a) (a_shape a) o) with Some (Live v) => v | _ => -1 end) (box (a_shape a)), a_shape a)
  | _ => ([], [])
  end.
