(** C87: Einstein reductions on arrays of different types, and what of them is checked at compile time. *)
From Coq Require Import ZArith List Bool QArith.
From Verif Require Import Base Interval Shape Memory Ref Spec SpecMem SpecContainer Static SpecStatic Container Ein SpecEin
  ShapeFacts ContainerCases EinCases EinTyped SpecEinTyped EinTypedFacts EinTypedCases.
Import ListNotations.
Open Scope Z_scope.

(** ** What is computed *)
(** Each operator works on the types of its operands; each assignment converts to the type of the result, one after the other in the
    order of the loops. *)
Theorem C87_reduction : forall (L : language) (nd : bool) (a : asg_op) (h : heap (tval L)) (t : ty L) (r : aref) (out : list nat)
    (t' : ty L) (e : texpr L t') (B : nat -> span) (n : nat),
  ranks_match ((r, out) :: untyped (typed_operands e)) -> loops n (out ++ typed_labels e) ->
  ranges r out (untyped (typed_operands e)) B -> array_of h t r -> operands_typed h (typed_operands e) ->
  operands_apart r (untyped (typed_operands e)) -> injective_layout (r_shape r) ->
  exists h', t_ein_reduce L nd a h t r out e = Ok h' /\ only_changes (is_elem (r_base r) (r_shape r)) h h' /\
    forall o (old : val L t), in_bounds (r_shape r) o -> holds h (elem (r_base r) (r_shape r) o) (existT _ t old) ->
      exists w : val L t, holds h' (elem (r_base r) (r_shape r) o) (existT _ t w) /\
        t_reduces h a t e (fun env => loop_index B n env /\ values_of out env = o) old w.
Proof. exact typed_reduction. Qed.
(** Whatever aliases what: no undefined behaviour, and every object in memory keeps its type. *)
Theorem C87_types : forall (L : language) (nd : bool) (a : asg_op) (h : heap (tval L)) (t : ty L) (r : aref) (out : list nat)
    (t' : ty L) (e : texpr L t') (B : nat -> span) (n : nat),
  ranks_match ((r, out) :: untyped (typed_operands e)) -> loops n (out ++ typed_labels e) ->
  ranges r out (untyped (typed_operands e)) B -> array_of h t r -> operands_typed h (typed_operands e) ->
  exists h', t_ein_reduce L nd a h t r out e = Ok h' /\ forall p t0, object h p t0 -> object h' p t0.
Proof. exact types_kept. Qed.
(** [make_ein_sum<T, ...>]: the types of the result's dims are those the library infers. *)
Theorem C87_sum : forall (L : language) (c : config (tval L)) (x : nat) (h : heap (tval L)) (al : nat) (t : ty L) (out : list nat)
    (t' : ty L) (e : texpr L t') (init : val L t) (B : nat -> span) (n : nat),
  shape_arg c (c_shape0 c) -> length (c_shape0 c) = length out -> usable_heap h ->
  typed_ranks (typed_operands e) -> operands_fit (typed_operands e) -> loops n (out ++ typed_labels e) ->
  sum_ranges out (untyped (typed_operands e)) B -> padded_volume out B < 9223372036854775807 ->
  operands_typed h (typed_operands e) ->
  exists h' a, t_make_ein_sum L c x h al t out e init = Ok (h', a) /\
    Forall2 (fun k d => span_is (B k) d) out (a_shape a) /\ proper_layout (a_shape a) /\
    (forall o, in_bounds (a_shape a) o -> exists w : val L t, holds h' (elem (a_base a) (a_shape a) o) (existT _ t w) /\
       t_reduces h op_add_assign t e (fun env => loop_index B n env /\ values_of out env = o) init w) /\
    (forall p, alive h p -> peek h' p = peek h p /\ ~ is_elem (a_base a) (a_shape a) p) /\
    (forall p, alive h' p <-> alive h p \/ is_elem (a_base a) (a_shape a) p).
Proof. exact typed_sum. Qed.
(** An integer result is truncated at every step: 0 += 1/2 += 1/2 is 0, though the sum is 1. *)
Theorem C87_rounding_refuted : exists (h : heap (tval numbers)) (r : aref) (e : texpr numbers Rat) (B : nat -> span) (h' : heap (tval numbers)),
  ranges r [] (untyped (typed_operands e)) B /\ array_of (L:=numbers) h Int r /\ operands_typed h (typed_operands e) /\
  t_computes h [0] e (1 # 2)%Q /\ t_computes h [1] e (1 # 2)%Q /\ (forall env, loop_index B 1 env <-> env = [0] \/ env = [1]) /\
  holds h (elem (r_base r) (r_shape r) []) (int 0) /\
  t_ein_reduce numbers false op_add_assign h Int r [] e = Ok h' /\ holds h' (elem (r_base r) (r_shape r) []) (int 0) /\
  conv numbers Rat Int ((1 # 2) + (1 # 2))%Q = 1.
Proof. exact rounding. Qed.
(** 2x4 integers += 2x3 integers * 3x4 halves; [max]; a sum of rationals *)
Example C87_example :
  ranks_match ((mR, [2; 1]%nat) :: untyped (typed_operands mixed_mul)) /\ loops 3 ([2; 1]%nat ++ typed_labels mixed_mul) /\
  ranges mR [2; 1]%nat (untyped (typed_operands mixed_mul)) mul_span /\ array_of (L:=numbers) mixed Int mR /\
  operands_typed mixed (typed_operands mixed_mul) /\ operands_apart mR (untyped (typed_operands mixed_mul)) /\
  injective_layout (r_shape mR) /\
  dump_t (t_ein_reduce numbers false op_add_assign mixed Int mR [2; 1]%nat mixed_mul) 3 =
    map (fun z => Some (Live (int z))) [106; 216; 316; 438; 524; 661; 734; 883] /\
  dump_t (t_ein_reduce numbers false op_assign mixed Int mR [2; 1]%nat
    (TMax numbers Int (TFn numbers Int (fun i => nth 0 i 0 - 5) [2]%nat) (TCast numbers Rat Int (TNeg numbers Rat (TArr numbers Rat false [any; any] mB [0; 1]%nat))))) 3 =
    map (fun z => Some (Live (int z))) [0; 1; 0; 1; 0; 1; 0; 1].
Proof.
  split; [exact mixed_ranks|]. split; [exact mixed_loops|]. split; [exact mixed_ranges|]. split; [apply mixed_typed|].
  split; [apply mixed_typed|]. split; [exact mixed_apart|]. split; [exact mul_inj|]. split; vm_compute; reflexivity.
Qed.
Example C87_example_sum :
  shape_arg mixed_conf (c_shape0 mixed_conf) /\ length (c_shape0 mixed_conf) = length [2; 1]%nat /\ usable_heap mixed /\
  typed_ranks (typed_operands mixed_mul) /\ operands_fit (typed_operands mixed_mul) /\ loops 3 ([2; 1]%nat ++ typed_labels mixed_mul) /\
  sum_ranges [2; 1]%nat (untyped (typed_operands mixed_mul)) mul_span /\ padded_volume [2; 1]%nat mul_span < 9223372036854775807 /\
  map (result_dimT numbers mixed_mul) [2; 1]%nat = [mkDT (-9) (-9) (-9); mkDT (-9) 4 (-9)] /\
  match t_make_ein_sum numbers mixed_conf 0 mixed 0 Rat [2; 1]%nat mixed_mul (1 # 2)%Q with
  | Ok (h, a) => dump_t (Ok h) (fst (a_base a)) = map (fun q => Some (Live (rat q)))
      [(15 # 2)%Q; (33 # 2)%Q; (33 # 2)%Q; 39%Q; (51 # 2)%Q; (123 # 2)%Q; (69 # 2)%Q; 84%Q] /\
      a_shape a = [mkD 5 2 1; mkD (-1) 4 2]
  | _ => False
  end.
Proof. exact mixed_sum. Qed.
Print Assumptions C87_reduction.
Print Assumptions C87_types.
Print Assumptions C87_sum.
Print Assumptions C87_rounding_refuted.

(** ** What compiles *)
(** If all dimensions that an index addresses have the same bounds, the reduction compiles, whatever is known of them; but for [=] with
    an operand of the same type and indices. *)
Theorem C87_compiles : forall (L : language) (a : asg_op) (t : ty L) (ts : list dimT) (r : aref) (out : list nat) (t' : ty L) (e : texpr L t'),
  typed_ranks (mkOp t ts r out :: typed_operands e) -> operands_fit (mkOp t ts r out :: typed_operands e) ->
  same_spans (untyped (mkOp t ts r out :: typed_operands e)) -> ~ (a = op_assign /\ is_operand_like t ts out e) ->
  ein_compiles L a t ts out e = true.
Proof. exact same_bounds_compile. Qed.
(** An operand whose type says that it does not have the bounds of the result is rejected. *)
Theorem C87_rejects : forall (L : language) (a : asg_op) (t : ty L) (ts : list dimT) (r : aref) (out : list nat) (t' : ty L) (e : texpr L t')
    (k : nat) (s0 s1 : dimT),
  typed_ranks (mkOp t ts r out :: typed_operands e) -> distinct (untyped (mkOp t ts r out :: typed_operands e)) ->
  In (k, s0) (combine out ts) -> type_addressed (typed_operands e) k s1 -> clash s0 s1 ->
  ein_compiles L a t ts out e = false.
Proof. exact clash_rejected. Qed.
(** If all bounds are known at compile time, what compiles passes the run-time checks and reads nothing out of bounds. *)
Theorem C87_known : forall (L : language) (nd : bool) (a : asg_op) (t : ty L) (ts : list dimT) (r : aref) (out : list nat) (t' : ty L)
    (e : texpr L t') (n : nat) (h : heap (tval L)),
  ein_compiles L a t ts out e = true -> operands_fit (mkOp t ts r out :: typed_operands e) ->
  all_known (mkOp t ts r out :: typed_operands e) -> dims_ok (untyped (mkOp t ts r out :: typed_operands e)) ->
  distinct (untyped (mkOp t ts r out :: typed_operands e)) -> loops n (out ++ typed_labels e) ->
  operands_typed h (mkOp t ts r out :: typed_operands e) ->
  exists h', t_ein_reduce L nd a h t r out e = Ok h' /\ forall p t0, object h p t0 -> object h' p t0.
Proof. exact known_runs. Qed.
(** An operand that is larger than the result is accepted at run time, but rejected if both sizes are known at compile time. *)
Theorem C87_relaxed_refuted : exists (h : heap (tval numbers)) (r r' : aref) (B : nat -> span) (ts ts' : list dimT),
  let e u := TArr numbers Rat true u r' [0%nat] in
  operands_fit (mkOp (L:=numbers) Int ts r [0%nat] :: typed_operands (e ts')) /\
  ranges r [0%nat] (untyped (typed_operands (e ts'))) B /\ array_of (L:=numbers) h Int r /\ operands_typed h (typed_operands (e ts')) /\
  (exists h', t_ein_reduce numbers false op_add_assign h Int r [0%nat] (e ts') = Ok h') /\
  ein_compiles numbers op_add_assign Int ts [0%nat] (e ts') = false /\ ein_compiles numbers op_add_assign Int ts [0%nat] (e [any]) = true.
Proof. exact relaxed. Qed.
(** [ein_reduce(ein<i>(a) = ein<i>(b))] does not compile if [a] and [b] have the same type, though [+=] does. *)
Theorem C87_copy_refuted : exists (r r' : aref) (ts : list dimT),
  let e := TArr numbers Int false ts r' [0%nat] in
  typed_ranks (mkOp (L:=numbers) Int ts r [0%nat] :: typed_operands e) /\ operands_fit (mkOp (L:=numbers) Int ts r [0%nat] :: typed_operands e) /\
  same_spans (untyped (mkOp (L:=numbers) Int ts r [0%nat] :: typed_operands e)) /\
  ein_compiles numbers op_assign Int ts [0%nat] e = false /\ ein_compiles numbers op_add_assign Int ts [0%nat] e = true.
Proof. exact copies. Qed.
(** An index that an operand has twice is checked for the first dimension only, at compile time too: [ein<i, i>(A)] of a 3x2 matrix. *)
Theorem C87_repeated_refuted : exists (h : heap (tval numbers)) (r : aref) (e : texpr numbers Int),
  ein_compiles numbers op_add_assign Int [] [] e = true /\ operands_fit (mkOp (L:=numbers) Int [] r [] :: typed_operands e) /\
  all_known (mkOp (L:=numbers) Int [] r [] :: typed_operands e) /\ dims_ok (untyped (mkOp (L:=numbers) Int [] r [] :: typed_operands e)) /\
  loops 1 ([] ++ typed_labels e) /\ operands_typed h (mkOp (L:=numbers) Int [] r [] :: typed_operands e) /\
  t_ein_reduce numbers false op_add_assign h Int r [] e = UB.
Proof. exact repeated. Qed.
Example C87_example_compiles :
  typed_ranks (mkOp (L:=numbers) Int mR_dims mR [2; 1]%nat :: typed_operands mixed_mul) /\
  operands_fit (mkOp (L:=numbers) Int mR_dims mR [2; 1]%nat :: typed_operands mixed_mul) /\
  same_spans (untyped (mkOp (L:=numbers) Int mR_dims mR [2; 1]%nat :: typed_operands mixed_mul)) /\
  ~ (op_assign = op_assign /\ is_operand_like (L:=numbers) Int mR_dims [2; 1]%nat mixed_mul).
Proof. split; [apply mixed_fit|]. split; [apply mixed_fit|]. split; [exact mixed_spans|]. intros [_ []]. Qed.
Example C87_example_known :
  ein_compiles numbers op_add_assign Int v3 [0%nat] (copy_halves [0%nat]) = true /\
  operands_fit (mkOp (L:=numbers) Int v3 vR [0%nat] :: typed_operands (copy_halves [0%nat])) /\
  all_known (mkOp (L:=numbers) Int v3 vR [0%nat] :: typed_operands (copy_halves [0%nat])) /\
  dims_ok (untyped (mkOp (L:=numbers) Int v3 vR [0%nat] :: typed_operands (copy_halves [0%nat]))) /\
  distinct (untyped (mkOp (L:=numbers) Int v3 vR [0%nat] :: typed_operands (copy_halves [0%nat]))) /\
  loops 1 ([0%nat] ++ typed_labels (copy_halves [0%nat])) /\
  operands_typed mixed (mkOp (L:=numbers) Int v3 vR [0%nat] :: typed_operands (copy_halves [0%nat])).
Proof. exact known_hyps. Qed.
(** The result has 2 elements, the operand 3 *)
Example C87_example_rejects :
  typed_ranks (mkOp (L:=numbers) Int [mkDT 0 2 1] vR2 [0%nat] :: typed_operands (copy_halves [0%nat])) /\
  distinct (untyped (mkOp (L:=numbers) Int [mkDT 0 2 1] vR2 [0%nat] :: typed_operands (copy_halves [0%nat]))) /\
  In (0%nat, mkDT 0 2 1) (combine [0%nat] [mkDT 0 2 1]) /\ type_addressed (typed_operands (copy_halves [0%nat])) 0 (mkDT 0 3 1) /\
  clash (mkDT 0 2 1) (mkDT 0 3 1).
Proof. exact rejects_hyps. Qed.
Print Assumptions C87_compiles.
Print Assumptions C87_rejects.
Print Assumptions C87_known.
Print Assumptions C87_relaxed_refuted.
Print Assumptions C87_copy_refuted.
Print Assumptions C87_repeated_refuted.
