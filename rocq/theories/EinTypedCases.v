(** Typed Einstein reductions on concrete arrays: a language with integers and rationals. *)
From Coq Require Import QArith.
From Verif Require Import Tac Interval Shape Traverse Memory Ref Spec SpecMem SpecContainer Static SpecStatic Container Ein SpecEin
  ShapeFacts TraverseFacts ContainerCases EinCases EinTyped SpecEinTyped EinTypedFacts.
Import ListNotations.
Open Scope Z_scope.

(** Integers and rationals; an operator on both gives a rational, a rational becomes an integer by truncation *)
Inductive nty := Int | Rat.
Definition nval (t : nty) : Type := match t with Int => Z | Rat => Q end.
Definition nty_dec (a b : nty) : {a = b} + {a <> b}.
Proof. decide equality. Defined.
Definition to_rat (t : nty) : nval t -> Q := match t with Int => inject_Z | Rat => fun q => q end.
Definition of_rat (t : nty) : Q -> nval t := match t with Int => fun q => Z.quot (Qnum q) (Zpos (Qden q)) | Rat => Qred end.
Definition join (a b : nty) : nty := match a, b with Int, Int => Int | _, _ => Rat end.
Definition rat_op (o : bin_op) : Q -> Q -> Q := match o with op_add => Qplus | op_sub => Qminus | op_mul => Qmult | op_div => Qdiv end.
Definition int_op (o : bin_op) : Z -> Z -> Z := match o with op_add => Z.add | op_sub => Z.sub | op_mul => Z.mul | op_div => Z.quot end.
Definition nbin (o : bin_op) (a b : nty) : nval a -> nval b -> nval (join a b) :=
  match a, b return nval a -> nval b -> nval (join a b) with
  | Int, Int => int_op o
  | Int, Rat => fun x y => Qred (rat_op o (inject_Z x) y)
  | Rat, Int => fun x y => Qred (rat_op o x (inject_Z y))
  | Rat, Rat => fun x y => Qred (rat_op o x y)
  end.
Definition numbers : language :=
  mkLa nty nty_dec nval (fun t => t) (fun t => match t with Int => Z.opp | Rat => Qopp end) (fun _ => join) nbin
    (fun t x y => match Qcompare (to_rat t x) (to_rat t y) with Lt => true | _ => false end)
    (fun a b x => of_rat b (to_rat a x)).
Definition int (z : Z) : tval numbers := existT (fun t => nval t) Int z.
Definition rat (q : Q) : tval numbers := existT (fun t => nval t) Rat q.

Definition typedb (h : heap (tval numbers)) (t : nty) (r : aref) : bool :=
  forallb (fun i => match peek h (elem (r_base r) (r_shape r) i) with
                    | Some (Live v) => if nty_dec (projT1 v) t then true else false
                    | _ => false
                    end) (box (r_shape r)).
Lemma typedb_ok h t r : typedb h t r = true -> array_of (L:=numbers) h t r.
Proof.
  unfold typedb. rewrite forallb_forall. intros H i Hi. specialize (H i (proj2 (box_In _ _) Hi)). unfold object, holds.
  destruct (peek h (elem (r_base r) (r_shape r) i)) as [[|[t' v]]|]; try discriminate. cbn [projT1] in H.
  destruct (nty_dec t' t) as [->|]; [|discriminate]. exists v. reflexivity.
Qed.
Definition typed_block (l : list (tval numbers)) : block (tval numbers) :=
  mkB (Base 0) (Z.of_nat (length l)) (fun z => match nth_error l (Z.to_nat z) with Some v => Live v | None => Raw end).
Definition typed_heap (a b c : list (tval numbers)) : heap (tval numbers) :=
  mkH 4 (fun k => match k with 1%nat => Some (typed_block a) | 2%nat => Some (typed_block b) | 3%nat => Some (typed_block c) | _ => None end).
Definition dump_t (h : outcome (heap (tval numbers))) (b : nat) : list (option (cell (tval numbers))) :=
  match h with
  | Ok h => match h_blk h b with Some bl => map (fun z => peek h (b, z)) (zseq 0 (Z.to_nat (b_size bl))) | None => [] end
  | _ => []
  end.

(** ** Integers times rationals *)

(** A 2x3 matrix of integers, a 3x4 matrix of halves, and 2x4 integers *)
Definition halves : list (tval numbers) := map (fun z => rat (z # 2)) [1; 2; 3; 90; 4; 5; 6; 91; 7; 8; 9; 92; 10; 11; 12; 93].
Definition mixed : heap (tval numbers) := typed_heap (map int [1; 2; 3; 4; 5; 6]) halves (map int [100; 200; 300; 400; 500; 600; 700; 800]).
Definition any : dimT := mkDT (-9) (-9) (-9).
Definition mixed_mul : texpr numbers Rat :=
  TBin numbers op_mul Int Rat (TArr numbers Int true [any; mkDT 0 3 1] mA [2; 0]%nat) (TArr numbers Rat false [mkDT 0 3 1; mkDT (-9) 4 (-9)] mB [0; 1]%nat).
Definition mR_dims : list dimT := [mkDT 5 2 1; mkDT (-1) 4 2].

Lemma mixed_ranks : ranks_match ((mR, [2; 1]%nat) :: untyped (typed_operands mixed_mul)).
Proof. exact mul_ranks. Qed.
Lemma mixed_loops : loops 3 ([2; 1]%nat ++ typed_labels mixed_mul).
Proof. exact mul_loops. Qed.
Lemma mixed_ranges : ranges mR [2; 1]%nat (untyped (typed_operands mixed_mul)) mul_span.
Proof. exact mul_ranges. Qed.
Lemma mixed_typed : array_of (L:=numbers) mixed Int mR /\ operands_typed mixed (typed_operands mixed_mul).
Proof. split; [apply typedb_ok; vm_compute; reflexivity|]. repeat constructor; apply typedb_ok; vm_compute; reflexivity. Qed.
Lemma mixed_apart : operands_apart mR (untyped (typed_operands mixed_mul)).
Proof. exact mul_apart. Qed.
Lemma mixed_fit : operands_fit (mkOp (L:=numbers) Int mR_dims mR [2; 1]%nat :: typed_operands mixed_mul) /\
  typed_ranks (mkOp (L:=numbers) Int mR_dims mR [2; 1]%nat :: typed_operands mixed_mul).
Proof.
  split; repeat (apply Forall_nil || apply Forall2_nil || apply Forall_cons || apply Forall2_cons); try reflexivity; split; unfold fits; cbn; lia.
Qed.
Lemma mixed_spans : same_spans (untyped (mkOp (L:=numbers) Int mR_dims mR [2; 1]%nat :: typed_operands mixed_mul)).
Proof.
  exists mul_span. intros k d (r & is_ & I & A). cbn in I. destruct I as [E|[E|[E|[]]]]; inv E; cbn in A;
    destruct A as [A|[A|[]]]; inv A; split; reflexivity.
Qed.

(** ** Known bounds *)

(** 3 integers += 3 rationals, all bounds known *)
Definition vR : aref := mkR (3%nat, 0) [mkD 0 3 1].
Definition vB : aref := mkR (2%nat, 0) [mkD 0 3 1].
Definition v3 : list dimT := [mkDT 0 3 1].
Definition copy_halves (is_ : list nat) : texpr numbers Rat := TArr numbers Rat false v3 vB is_.
Lemma known_hyps : ein_compiles numbers op_add_assign Int v3 [0%nat] (copy_halves [0%nat]) = true /\
  operands_fit (mkOp (L:=numbers) Int v3 vR [0%nat] :: typed_operands (copy_halves [0%nat])) /\
  all_known (mkOp (L:=numbers) Int v3 vR [0%nat] :: typed_operands (copy_halves [0%nat])) /\
  dims_ok (untyped (mkOp (L:=numbers) Int v3 vR [0%nat] :: typed_operands (copy_halves [0%nat]))) /\
  distinct (untyped (mkOp (L:=numbers) Int v3 vR [0%nat] :: typed_operands (copy_halves [0%nat]))) /\
  loops 1 ([0%nat] ++ typed_labels (copy_halves [0%nat])) /\
  operands_typed mixed (mkOp (L:=numbers) Int v3 vR [0%nat] :: typed_operands (copy_halves [0%nat])).
Proof.
  split; [reflexivity|]. split.
  { repeat (apply Forall_nil || apply Forall2_nil || apply Forall_cons || apply Forall2_cons); split; unfold fits; cbn; lia. }
  split; [repeat constructor; discriminate|].
  split; [repeat constructor; discriminate|]. split; [repeat constructor; cbn; tauto|].
  split; [split; [repeat constructor|intros _; cbn; auto]|].
  repeat constructor; apply typedb_ok; vm_compute; reflexivity.
Qed.

(** An operand with a larger known extent *)
Definition vR2 : aref := mkR (3%nat, 0) [mkD 0 2 1].
Lemma relaxed_ranges : ranges vR2 [0%nat] [(vB, [0%nat])] (fun k => match k with O => (0, 2) | _ => (0, 1) end).
Proof.
  split; [intros [|k]; cbn; lia|]. split; [|split].
  - intros k d (r & is_ & [E|[]] & A). inv E. destruct A as [A|[]]. inv A. split; reflexivity.
  - intros k d (r & is_ & [E|[]] & A). inv E. destruct A as [A|[]]. inv A. right. split; [cbn; unfold span_within; cbn; lia|]. split.
    + exists (mkD 0 2 1). exists vR2, [0%nat]. split; [left; reflexivity|left; reflexivity].
    + intros D (r & is_ & [E|[]] & A). inv E. destruct A as [A|[]]. inv A. discriminate.
  - intros [|k] N; [|reflexivity]. exfalso. apply (N (mkD 0 2 1)). exists vR2, [0%nat]. split; [left; reflexivity|left; reflexivity].
Qed.

(** Two halves added to an integer *)
Definition two_halves : heap (tval numbers) := typed_heap [] (map rat [(1 # 2)%Q; (1 # 2)%Q]) [int 0].
Definition sR : aref := mkR (3%nat, 0) [].
Definition vH : aref := mkR (2%nat, 0) [mkD 0 2 1].

(** ** Sums *)
Definition mixed_conf : config (tval numbers) := 
  mkC false false false false (fun a => a) 0%nat (-1) (repeat (mkD 0 0 unresolved) 2) (int 0) (fun _ => int (-1)).
Lemma mul_sum_ranges : sum_ranges [2; 1]%nat (untyped (typed_operands mixed_mul)) mul_span.
Proof.
  split; [intros [|[|[|k]]]; cbn; lia|]. split.
  - intros [|[|[|k]]]; cbn; try (split; reflexivity); reflexivity.
  - intros k d (r & is_ & I & A). left. cbn in I. destruct I as [E|[E|[]]]; inv E; cbn in A; destruct A as [A|[A|[]]]; inv A; split; reflexivity.
Qed.
Lemma mixed_sum :
  shape_arg mixed_conf (c_shape0 mixed_conf) /\ length (c_shape0 mixed_conf) = length [2; 1]%nat /\ usable_heap mixed /\
  typed_ranks (typed_operands mixed_mul) /\ operands_fit (typed_operands mixed_mul) /\ loops 3 ([2; 1]%nat ++ typed_labels mixed_mul) /\
  sum_ranges [2; 1]%nat (untyped (typed_operands mixed_mul)) mul_span /\ padded_volume [2; 1]%nat mul_span < 9223372036854775807 /\
  map (result_dimT numbers mixed_mul) [2; 1]%nat = [mkDT (-9) (-9) (-9); mkDT (-9) 4 (-9)] /\
  match t_make_ein_sum numbers mixed_conf 0 mixed 0 Rat [2; 1]%nat mixed_mul (1 # 2)%Q with
  | Ok (h, a) => dump_t (Ok h) (fst (a_base a)) = map (fun q => Some (Live (rat q)))
      [(15 # 2)%Q; (33 # 2)%Q; (33 # 2)%Q; 39%Q; (51 # 2)%Q; (123 # 2)%Q; (69 # 2)%Q; 84%Q] /\
      a_shape a = [mkD 5 2 1; mkD (-1) 4 2]
  | _ => False
  end.
Proof.
  split; [split; [reflexivity|apply properb_ok; reflexivity]|]. split; [reflexivity|].
  split; [split; [repeat constructor|split; [reflexivity|]]|].
  { intros [|[|[|[|k]]]] H; cbn in H; try reflexivity; exfalso; lia. }
  split; [exact (Forall_inv_tail (proj2 mixed_fit))|]. split; [exact (Forall_inv_tail (proj1 mixed_fit))|].
  split; [exact mixed_loops|]. split; [exact mul_sum_ranges|]. split; [reflexivity|]. split; [reflexivity|].
  vm_compute. split; reflexivity.
Qed.

(** ** Counterexamples *)
Definition sum_halves : texpr numbers Rat := TArr numbers Rat false [mkDT 0 2 1] vH [0%nat].
Lemma rounding : exists (h : heap (tval numbers)) (r : aref) (e : texpr numbers Rat) (B : nat -> span) (h' : heap (tval numbers)),
  ranges r [] (untyped (typed_operands e)) B /\ array_of (L:=numbers) h Int r /\ operands_typed h (typed_operands e) /\
  t_computes h [0] e (1 # 2)%Q /\ t_computes h [1] e (1 # 2)%Q /\ (forall env, loop_index B 1 env <-> env = [0] \/ env = [1]) /\
  holds h (elem (r_base r) (r_shape r) []) (int 0) /\
  t_ein_reduce numbers false op_add_assign h Int r [] e = Ok h' /\ holds h' (elem (r_base r) (r_shape r) []) (int 0) /\
  conv numbers Rat Int ((1 # 2) + (1 # 2))%Q = 1.
Proof.
  exists two_halves, sR, sum_halves, (fun k => match k with O => (0, 2) | _ => (0, 1) end),
    (upd (upd two_halves (3%nat, 0) (Live (int 0))) (3%nat, 0) (Live (int 0))).
  split.
  { split; [intros [|k]; cbn; lia|]. split; [|split].
    - intros k d (r & is_ & [E|[]] & A). inv E. contradiction.
    - intros k d (r & is_ & [E|[]] & A). inv E. destruct A as [A|[]]. inv A. left. split; reflexivity.
    - intros [|k] N; [|reflexivity]. exfalso. apply (N (mkD 0 2 1)). exists vH, [0%nat]. split; [right; left; reflexivity|left; reflexivity]. }
  split; [apply typedb_ok; vm_compute; reflexivity|]. split; [repeat constructor; apply typedb_ok; vm_compute; reflexivity|].
  split; [reflexivity|]. split; [reflexivity|]. split.
  { intro env. unfold loop_index. split.
    - intros [Len H]. destruct env as [|z [|]]; try discriminate. specialize (H O). cbn in H.
      assert (z = 0 \/ z = 1) as [->| ->] by lia; auto.
    - intros [->| ->]; (split; [reflexivity|]); intros [|k] Hk; cbn; lia. }
  split; [reflexivity|]. split; [|split; reflexivity]. vm_compute. reflexivity.
Qed.
Lemma relaxed : exists (h : heap (tval numbers)) (r r' : aref) (B : nat -> span) (ts ts' : list dimT),
  let e u := TArr numbers Rat true u r' [0%nat] in
  operands_fit (mkOp (L:=numbers) Int ts r [0%nat] :: typed_operands (e ts')) /\
  ranges r [0%nat] (untyped (typed_operands (e ts'))) B /\ array_of (L:=numbers) h Int r /\ operands_typed h (typed_operands (e ts')) /\
  (exists h', t_ein_reduce numbers false op_add_assign h Int r [0%nat] (e ts') = Ok h') /\
  ein_compiles numbers op_add_assign Int ts [0%nat] (e ts') = false /\ ein_compiles numbers op_add_assign Int ts [0%nat] (e [any]) = true.
Proof.
  exists mixed, vR2, vB, (fun k => match k with O => (0, 2) | _ => (0, 1) end), [mkDT 0 2 1], v3. cbv zeta.
  split.
  { repeat (apply Forall_nil || apply Forall2_nil || apply Forall_cons || apply Forall2_cons); split; unfold fits; cbn; lia. }
  split; [exact relaxed_ranges|].
  assert (A : array_of (L:=numbers) mixed Int vR2) by (apply typedb_ok; vm_compute; reflexivity).
  assert (T : operands_typed mixed (typed_operands (TArr numbers Rat true v3 vB [0%nat]))) by (repeat constructor; apply typedb_ok; vm_compute; reflexivity).
  split; [exact A|]. split; [exact T|]. split; [|split; reflexivity].
  destruct (types_kept numbers false op_add_assign mixed Int vR2 [0%nat] Rat (TArr numbers Rat true v3 vB [0%nat]) _ 1
    ltac:(repeat constructor) ltac:(split; [repeat constructor|intros _; cbn; auto]) relaxed_ranges A T) as (h' & E & _).
  eauto.
Qed.
Lemma copies : exists (r r' : aref) (ts : list dimT),
  let e := TArr numbers Int false ts r' [0%nat] in
  typed_ranks (mkOp (L:=numbers) Int ts r [0%nat] :: typed_operands e) /\ operands_fit (mkOp (L:=numbers) Int ts r [0%nat] :: typed_operands e) /\
  same_spans (untyped (mkOp (L:=numbers) Int ts r [0%nat] :: typed_operands e)) /\
  ein_compiles numbers op_assign Int ts [0%nat] e = false /\ ein_compiles numbers op_add_assign Int ts [0%nat] e = true.
Proof.
  exists vR, vB, [any]. cbv zeta. split; [repeat constructor|]. split.
  { repeat (apply Forall_nil || apply Forall2_nil || apply Forall_cons || apply Forall2_cons); split; unfold fits; cbn; lia. }
  split; [|split; reflexivity]. exists (fun _ => (0, 3)). intros k d (r & is_ & I & A). cbn in I.
  destruct I as [E|[E|[]]]; inv E; destruct A as [A|[]]; inv A; split; reflexivity.
Qed.
Lemma repeated : exists (h : heap (tval numbers)) (r : aref) (e : texpr numbers Int),
  ein_compiles numbers op_add_assign Int [] [] e = true /\ operands_fit (mkOp (L:=numbers) Int [] r [] :: typed_operands e) /\
  all_known (mkOp (L:=numbers) Int [] r [] :: typed_operands e) /\ dims_ok (untyped (mkOp (L:=numbers) Int [] r [] :: typed_operands e)) /\
  loops 1 ([] ++ typed_labels e) /\ operands_typed h (mkOp (L:=numbers) Int [] r [] :: typed_operands e) /\
  t_ein_reduce numbers false op_add_assign h Int r [] e = UB.
Proof.
  exists mixed, sR, (TArr numbers Int false [mkDT 0 3 1; mkDT 0 2 3] (mkR (1%nat, 0) [mkD 0 3 1; mkD 0 2 3]) [0; 0]%nat).
  split; [reflexivity|]. split.
  { repeat (apply Forall_nil || apply Forall2_nil || apply Forall_cons || apply Forall2_cons); split; unfold fits; cbn; lia. }
  split; [repeat constructor; discriminate|]. split; [repeat constructor; discriminate|].
  split; [split; [repeat constructor|intros _; cbn; auto]|].
  split; [repeat constructor; apply typedb_ok; vm_compute; reflexivity|]. vm_compute. reflexivity.
Qed.
Lemma rejects_hyps :
  typed_ranks (mkOp (L:=numbers) Int [mkDT 0 2 1] vR2 [0%nat] :: typed_operands (copy_halves [0%nat])) /\
  distinct (untyped (mkOp (L:=numbers) Int [mkDT 0 2 1] vR2 [0%nat] :: typed_operands (copy_halves [0%nat]))) /\
  In (0%nat, mkDT 0 2 1) (combine [0%nat] [mkDT 0 2 1]) /\ type_addressed (typed_operands (copy_halves [0%nat])) 0 (mkDT 0 3 1) /\
  clash (mkDT 0 2 1) (mkDT 0 3 1).
Proof.
  split; [repeat constructor|]. split; [repeat constructor; cbn; tauto|]. split; [left; reflexivity|].
  split; [eexists; split; [left; reflexivity|left; reflexivity]|].
  intros [d [[_ A] [_ B]]]. unfold fits in *. cbn in *. lia.
Qed.
