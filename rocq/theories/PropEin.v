(** C38-C40: Einstein reductions. *)
From Coq Require Import ZArith List Bool.
From Verif Require Import Base Interval Shape Memory Ref Spec SpecMem SpecContainer Static SpecStatic Container Ein SpecEin
  ShapeFacts ContainerCases EinFacts EinSum EinMake EinUses EinCases.
Import ListNotations.
Open Scope Z_scope.

(** ** C38: what a reduction computes *)
(** Element [o] of the result is combined, in the order of the loops, with the values of the
    expression at all index values that give [o]. *)
Theorem C38_reduction : forall (V : Type) (nd : bool) (f : V -> V -> V) (h : heap V) (r : aref) (out : list nat)
    (e : expr V) (B : nat -> span) (n : nat),
  ranks_match ((r, out) :: operands e) -> loops n (out ++ labels e) -> ranges r out (operands e) B ->
  operands_alive h ((r, out) :: operands e) -> operands_apart r (operands e) -> injective_layout (r_shape r) ->
  exists h', ein_reduce nd f h r out e = Ok h' /\ only_changes (is_elem (r_base r) (r_shape r)) h h' /\
    forall o old, in_bounds (r_shape r) o -> holds h (elem (r_base r) (r_shape r) o) old ->
      exists w, holds h' (elem (r_base r) (r_shape r) o) w /\
        reduces h f e (fun env => loop_index B n env /\ values_of out env = o) old w.
Proof. exact @ein_reduce_index. Qed.
(** If several indices of the result share an element, it gets all their terms. *)
Theorem C38_shared_elements : forall (V : Type) (nd : bool) (f : V -> V -> V) (h : heap V) (r : aref) (out : list nat)
    (e : expr V) (B : nat -> span) (n : nat),
  ranks_match ((r, out) :: operands e) -> loops n (out ++ labels e) -> ranges r out (operands e) B ->
  operands_alive h ((r, out) :: operands e) -> operands_apart r (operands e) ->
  exists h', ein_reduce nd f h r out e = Ok h' /\ only_changes (is_elem (r_base r) (r_shape r)) h h' /\
    forall p old, is_elem (r_base r) (r_shape r) p -> holds h p old ->
      exists w, holds h' p w /\
        reduces h f e (fun env => loop_index B n env /\ elem (r_base r) (r_shape r) (values_of out env) = p) old w.
Proof. exact @ein_reduce_spec. Qed.
(** If the order of the terms does not matter to [f], any order gives the result. *)
Theorem C38_any_order : forall (V : Type) (nd : bool) (f : V -> V -> V) (h : heap V) (r : aref) (out : list nat)
    (e : expr V) (B : nat -> span) (n : nat),
  (forall a b c, f (f a b) c = f (f a c) b) ->
  ranks_match ((r, out) :: operands e) -> loops n (out ++ labels e) -> ranges r out (operands e) B ->
  operands_alive h ((r, out) :: operands e) -> operands_apart r (operands e) -> injective_layout (r_shape r) ->
  exists h', ein_reduce nd f h r out e = Ok h' /\
    forall o old envs vs, in_bounds (r_shape r) o -> holds h (elem (r_base r) (r_shape r) o) old ->
      enumerates (fun env => loop_index B n env /\ values_of out env = o) envs ->
      Forall2 (fun env v => computes h env e v) envs vs ->
      holds h' (elem (r_base r) (r_shape r) o) (fold_left f vs old).
Proof. exact @ein_reduce_any_order. Qed.
(** Without reduction indices, operands may alias the result where they are read and written
    for the same index values. *)
Theorem C38_in_place : forall (V : Type) (nd : bool) (f : V -> V -> V) (h : heap V) (r : aref) (out : list nat)
    (e : expr V) (B : nat -> span) (n : nat),
  ranks_match ((r, out) :: operands e) -> loops n (out ++ labels e) -> ranges r out (operands e) B ->
  operands_alive h ((r, out) :: operands e) -> injective_layout (r_shape r) ->
  (forall k, (k < n)%nat -> In k out \/ snd (B k) <= 1) ->
  (forall env env' r' is_, loop_index B n env -> loop_index B n env' -> In (r', is_) (operands e) ->
     elem (r_base r') (r_shape r') (values_of is_ env) = elem (r_base r) (r_shape r) (values_of out env') -> env = env') ->
  exists h', ein_reduce nd f h r out e = Ok h' /\
    only_changes (fun p => exists env, loop_index B n env /\ p = elem (r_base r) (r_shape r) (values_of out env)) h h' /\
    forall env old v, loop_index B n env -> holds h (elem (r_base r) (r_shape r) (values_of out env)) old ->
      computes h env e v -> holds h' (elem (r_base r) (r_shape r) (values_of out env)) (f old v).
Proof. exact @ein_in_place. Qed.
(** A 2x4 result += 2x3 matrix * 3x4 matrix *)
Example C38_example :
  ranks_match ((mR, [2; 1]%nat) :: operands mul_expr) /\ loops 3 ([2; 1]%nat ++ labels mul_expr) /\
  ranges mR [2; 1]%nat (operands mul_expr) mul_span /\
  operands_alive ex3 ((mR, [2; 1]%nat) :: operands mul_expr) /\ operands_apart mR (operands mul_expr) /\
  injective_layout (r_shape mR) /\
  dump3 (ein_reduce false Z.add ex3 mR [2; 1]%nat mul_expr) 3 =
    map (fun z => Some (Live z)) [114; 232; 332; 477; 550; 722; 768; 967].
Proof.
  split; [exact mul_ranks|]. split; [exact mul_loops|]. split; [exact mul_ranges|]. split; [exact mul_alive|].
  split; [exact mul_apart|]. split; [exact mul_inj|]. vm_compute. reflexivity.
Qed.
Example C38_example_order : forall a b c : Z, (a + b) + c = (a + c) + b.
Proof. intros. ring. Qed.
(** R(i, j) = R(i, j) * R(i, j) in place *)
Example C38_example_in_place :
  ranks_match ((mR, [0; 1]%nat) :: operands sq_expr) /\ loops 2 ([0; 1]%nat ++ labels sq_expr) /\
  ranges mR [0; 1]%nat (operands sq_expr) sq_span /\ operands_alive ex3 ((mR, [0; 1]%nat) :: operands sq_expr) /\
  (forall k, (k < 2)%nat -> In k [0; 1]%nat \/ snd (sq_span k) <= 1) /\
  (forall env env' r' is_, loop_index sq_span 2 env -> loop_index sq_span 2 env' -> In (r', is_) (operands sq_expr) ->
     elem (r_base r') (r_shape r') (values_of is_ env) = elem (r_base mR) (r_shape mR) (values_of [0; 1]%nat env') -> env = env') /\
  dump3 (ein_reduce false (fun _ v => v) ex3 mR [0; 1]%nat sq_expr) 3 =
  map (fun z => Some (Live z)) [10000; 40000; 90000; 160000; 250000; 360000; 490000; 640000].
Proof.
  split; [exact sq_ranks|]. split; [exact sq_loops|]. split; [exact sq_ranges|]. split; [exact sq_alive|].
  split; [exact sq_free|]. split; [exact sq_apart|]. vm_compute. reflexivity.
Qed.
Print Assumptions C38_reduction.
Print Assumptions C38_shared_elements.
Print Assumptions C38_any_order.
Print Assumptions C38_in_place.

(** ** C39: the dimension checks *)
(** A debug build runs exactly the reductions whose operands agree on the bounds, and stops at
    an assertion for the others. *)
Theorem C39_checks : forall (V : Type) (n : nat) (f : V -> V -> V) (h : heap V) (r : aref) (out : list nat) (e : expr V),
  ranks_match ((r, out) :: operands e) -> dims_ok ((r, out) :: operands e) -> distinct ((r, out) :: operands e) ->
  loops n (out ++ labels e) -> operands_alive h ((r, out) :: operands e) ->
  ((exists B, ranges r out (operands e) B) /\ exists h', ein_reduce false f h r out e = Ok h') \/
  (~ (exists B, ranges r out (operands e) B) /\ ein_reduce false f h r out e = AssertFail).
Proof. exact @ein_debug. Qed.
(** All operands are accessed in range. *)
Theorem C39_accesses : forall (V : Type) (n : nat) (r : aref) (out : list nat) (e : expr V) (s : shape) (env : list Z)
    (r' : aref) (is_ : list nat),
  ranks_match ((r, out) :: operands e) -> dims_ok ((r, out) :: operands e) -> distinct ((r, out) :: operands e) ->
  loops n (out ++ labels e) -> ein_loop_shape false r out e = Ok s -> in_bounds s env ->
  In (r', is_) ((r, out) :: operands e) -> in_bounds (r_shape r') (values_of is_ env).
Proof. exact @ein_accesses. Qed.
(** With agreeing bounds there is no undefined behaviour in either build, whatever aliases
    what, and also with repeated indices. *)
Theorem C39_safe : forall (V : Type) (nd : bool) (f : V -> V -> V) (h : heap V) (r : aref) (out : list nat) (e : expr V)
    (B : nat -> span) (n : nat),
  ranks_match ((r, out) :: operands e) -> loops n (out ++ labels e) -> ranges r out (operands e) B ->
  operands_alive h ((r, out) :: operands e) -> exists h', ein_reduce nd f h r out e = Ok h'.
Proof. exact @ein_reduce_safe. Qed.
(** An index that occurs twice in an operand is only checked against the first dimension it
    addresses: for a 3x2 matrix A, [ein<i, i>(A)] reads outside A in a debug build. *)
Theorem C39_repeated_refuted : exists (h : heap Z) (r A : aref),
  ranks_match [(r, []); (A, [0; 0]%nat)] /\ dims_ok [(r, []); (A, [0; 0]%nat)] /\
  loops 1 ([] ++ labels (EArr (V:=Z) A [0; 0]%nat)) /\ operands_alive h [(r, []); (A, [0; 0]%nat)] /\
  ein_reduce false Z.add h r [] (EArr A [0; 0]%nat) = UB.
Proof.
  exists ex3, (mkR (3%nat, 0) []), (mkR (1%nat, 0) [mkD 0 3 1; mkD 0 2 3]).
  split; [repeat constructor|]. split; [repeat constructor; discriminate|].
  split; [split; [repeat constructor|intros _; cbn; auto]|].
  split; [apply ops_aliveb_ok; vm_compute; reflexivity|vm_compute; reflexivity].
Qed.
(** Operands that have more than the result, and operands that do not agree *)
Example C39_example :
  let wide := mkR (1%nat, 0) [mkD 4 6 1] in
  let part r := ein_reduce false Z.add ex3 r [0%nat] (EArr wide [0%nat]) in
  dims_ok [(mR, [2; 1]%nat); (mA, [2; 0]%nat)] /\ distinct [(mR, [2; 1]%nat); (mA, [2; 0]%nat)] /\
  dump3 (part (mkR (3%nat, 0) [mkD 5 3 1])) 3 = map (fun z => Some (Live z)) [102; 203; 304; 400; 500; 600; 700; 800] /\
  part (mkR (3%nat, 0) [mkD 3 3 1]) = AssertFail /\ part (mkR (3%nat, 0) [mkD 5 6 1]) = AssertFail /\
  part (mkR (3%nat, 0) [mkD 5 3 0]) = AssertFail.
Proof.
  cbv zeta. split; [repeat constructor; discriminate|].
  split; [repeat constructor; cbn; intuition discriminate|].
  split; [vm_compute; reflexivity|]. split; [vm_compute; reflexivity|]. split; vm_compute; reflexivity.
Qed.
Print Assumptions C39_checks.
Print Assumptions C39_accesses.
Print Assumptions C39_safe.
Print Assumptions C39_repeated_refuted.

(** ** C40: make_ein_sum *)
(** The result has the bounds of the first dimension each of its indices addresses; its
    elements are the sums; everything else is as before. *)
Theorem C40_sum : forall (V : Type) (c : config V) (add : V -> V -> V) (x : nat) (h : heap V) (al : nat) (out : list nat)
    (e : expr V) (ts : list dimT) (init : V) (B : nat -> span) (n : nat),
  shape_arg c (c_shape0 c) -> length (c_shape0 c) = length out -> usable_heap h ->
  ranks_match (operands e) -> loops n (out ++ labels e) -> sum_ranges out (operands e) B ->
  Forall2 (result_type (operands e) B) out ts -> padded_volume out B < 9223372036854775807 ->
  operands_alive h (operands e) ->
  exists h' a, make_ein_sum c add x h al out e ts init = Ok (h', a) /\
    Forall2 (fun k d => span_is (B k) d) out (a_shape a) /\ proper_layout (a_shape a) /\
    (forall o, in_bounds (a_shape a) o -> exists w, holds h' (elem (a_base a) (a_shape a) o) w /\
       reduces h add e (fun env => loop_index B n env /\ values_of out env = o) init w) /\
    (forall p, alive h p -> peek h' p = peek h p /\ ~ is_elem (a_base a) (a_shape a) p) /\
    (forall p, alive h' p <-> alive h p \/ is_elem (a_base a) (a_shape a) p) /\ usable_heap h'.
Proof. exact @make_ein_sum_spec. Qed.
Theorem C40_matrix_product : forall (V : Type) (c : config V) (add mul : V -> V -> V) (x : nat) (h : heap V) (al : nat)
    (A C : aref) (d1 d2 d3 d4 : dim) (fA fC : list Z -> V) (i j k : nat) (t1 t2 : dimT) (init : V),
  i <> j -> i <> k -> j <> k -> array_type c 2 -> usable_heap h ->
  r_shape A = [d1; d2] -> r_shape C = [d3; d4] -> extents_ge 0 [d1; d2; d3; d4] -> same_bounds d2 d3 ->
  shows h A fA -> shows h C fC -> bounds_type t1 d1 -> bounds_type t2 d4 ->
  Z.max 1 (dext d1) * Z.max 1 (dext d4) < 9223372036854775807 ->
  exists h' a, make_ein_sum c add x h al [i; j] (EBin mul (EArr A [i; k]) (EArr C [k; j])) [t1; t2] init = Ok (h', a) /\
    new_array h h' a [d1; d4] (fun o =>
      fold_left add (map (fun z => mul (fA [nth 0 o 0; z]) (fC [z; nth 1 o 0])) (range (dmin d2) (dext d2))) init).
Proof. exact @matrix_product. Qed.
Theorem C40_matrix_vector : forall (V : Type) (c : config V) (add mul : V -> V -> V) (x : nat) (h : heap V) (al : nat)
    (A C : aref) (d1 d2 d3 : dim) (fA fC : list Z -> V) (i k : nat) (t1 : dimT) (init : V),
  i <> k -> array_type c 1 -> usable_heap h ->
  r_shape A = [d1; d2] -> r_shape C = [d3] -> extents_ge 0 [d1; d2; d3] -> same_bounds d2 d3 ->
  shows h A fA -> shows h C fC -> bounds_type t1 d1 -> Z.max 1 (dext d1) < 9223372036854775807 ->
  exists h' a, make_ein_sum c add x h al [i] (EBin mul (EArr A [i; k]) (EArr C [k])) [t1] init = Ok (h', a) /\
    new_array h h' a [d1] (fun o =>
      fold_left add (map (fun z => mul (fA [nth 0 o 0; z]) (fC [z])) (range (dmin d2) (dext d2))) init).
Proof. exact @matrix_vector. Qed.
Theorem C40_dot_product : forall (V : Type) (c : config V) (add mul : V -> V -> V) (x : nat) (h : heap V) (al : nat)
    (A C : aref) (d1 d2 : dim) (fA fC : list Z -> V) (k : nat) (init : V),
  array_type c 0 -> usable_heap h -> r_shape A = [d1] -> r_shape C = [d2] -> extents_ge 0 [d1; d2] -> same_bounds d1 d2 ->
  shows h A fA -> shows h C fC ->
  exists h' a, make_ein_sum c add x h al [] (EBin mul (EArr A [k]) (EArr C [k])) [] init = Ok (h', a) /\
    new_array h h' a [] (fun _ =>
      fold_left add (map (fun z => mul (fA [z]) (fC [z])) (range (dmin d1) (dext d1))) init).
Proof. exact @dot_product. Qed.
Theorem C40_trace : forall (V : Type) (c : config V) (add : V -> V -> V) (x : nat) (h : heap V) (al : nat)
    (A : aref) (d1 d2 : dim) (fA : list Z -> V) (k : nat) (init : V),
  array_type c 0 -> usable_heap h -> r_shape A = [d1; d2] -> extents_ge 0 [d1; d2] -> same_bounds d1 d2 -> shows h A fA ->
  exists h' a, make_ein_sum c add x h al [] (EArr A [k; k]) [] init = Ok (h', a) /\
    new_array h h' a [] (fun _ => fold_left add (map (fun z => fA [z; z]) (range (dmin d1) (dext d1))) init).
Proof. exact @trace_sum. Qed.
Theorem C40_outer_product : forall (V : Type) (c : config V) (add mul : V -> V -> V) (x : nat) (h : heap V) (al : nat)
    (A C : aref) (d1 d2 : dim) (fA fC : list Z -> V) (i j : nat) (t1 t2 : dimT) (init : V),
  i <> j -> array_type c 2 -> usable_heap h -> r_shape A = [d1] -> r_shape C = [d2] -> extents_ge 0 [d1; d2] ->
  shows h A fA -> shows h C fC -> bounds_type t1 d1 -> bounds_type t2 d2 ->
  Z.max 1 (dext d1) * Z.max 1 (dext d2) < 9223372036854775807 ->
  exists h' a, make_ein_sum c add x h al [i; j] (EBin mul (EArr A [i]) (EArr C [j])) [t1; t2] init = Ok (h', a) /\
    new_array h h' a [d1; d2] (fun o => add init (mul (fA [nth 0 o 0]) (fC [nth 1 o 0]))).
Proof. exact @outer_product. Qed.
Theorem C40_transpose : forall (V : Type) (c : config V) (add : V -> V -> V) (x : nat) (h : heap V) (al : nat)
    (A : aref) (d1 d2 : dim) (fA : list Z -> V) (i j : nat) (t1 t2 : dimT) (init : V),
  i <> j -> array_type c 2 -> usable_heap h -> r_shape A = [d1; d2] -> extents_ge 0 [d1; d2] ->
  shows h A fA -> bounds_type t1 d2 -> bounds_type t2 d1 ->
  Z.max 1 (dext d2) * Z.max 1 (dext d1) < 9223372036854775807 ->
  exists h' a, make_ein_sum c add x h al [j; i] (EArr A [i; j]) [t1; t2] init = Ok (h', a) /\
    new_array h h' a [d2; d1] (fun o => add init (fA [nth 1 o 0; nth 0 o 0])).
Proof. exact @transpose_sum. Qed.
(** The matrices of C38's example, in every order of the indices *)
Definition product_of (i j k : nat) : list Z * list dim :=
  match make_ein_sum debug2 Z.add 0 ex3 0 [i; j] (EBin Z.mul (EArr mA [i; k]) (EArr mB [k; j])) [mkDT (-9) 2 (-9); mkDT (-9) (-9) (-9)] 0 with
  | Ok (h, a) => (map (fun o => match peek h (elem (a_base a) (a_shape a) o) with Some (Live v) => v | _ => -1 end) (box (a_shape a)), a_shape a)
  | _ => ([], [])
  end.
Example C40_example :
  array_type debug2 2 /\ usable_heap ex3 /\ bounds_type (mkDT (-9) 2 (-9)) (mkD 5 2 3) /\
  bounds_type (mkDT (-9) (-9) (-9)) (mkD (-1) 4 4) /\
  (forall d, In d [mkD 5 2 3; mkD 0 3 1; mkD 0 3 1; mkD (-1) 4 4] -> 0 <= dext d) /\
  product_of 2 1 0 = ([14; 32; 32; 77; 50; 122; 68; 167], [mkD 5 2 1; mkD (-1) 4 2]) /\
  product_of 0 1 2 = product_of 2 1 0 /\ product_of 1 3 4 = product_of 2 1 0.
Proof.
  split; [split; [reflexivity|apply properb_ok; reflexivity]|].
  split; [split; [repeat constructor|split; [reflexivity|]]|].
  { intros [|[|[|[|k]]]] H; cbn in H; try reflexivity; exfalso; repeat apply le_S_n in H; inversion H. }
  split; [split; [reflexivity|split; first [left; reflexivity | right; reflexivity]]|].
  split; [split; [reflexivity|split; first [left; reflexivity | right; reflexivity]]|].
  split; [cbn; intuition (subst; discriminate)|].
  split; [vm_compute; reflexivity|]. split; vm_compute; reflexivity.
Qed.
(** The other sums: matrix * vector, vector * vector, trace, outer product, transpose *)
Example C40_example_others :
  let row := mkR (1%nat, 0) [mkD 0 3 1] in
  let square := mkR (2%nat, 0) [mkD 0 3 1; mkD 0 3 4] in
  array_type (debug_rank 0) 0 /\ array_type (debug_rank 1) 1 /\ array_type (debug_rank 2) 2 /\
  ops_aliveb ex3 [(row, []); (square, []); (mA, [])] = true /\
  sum_of 1 [0%nat] (EBin Z.mul (EArr mA [0; 1]%nat) (EArr row [1]%nat)) = ([14; 32], [mkD 5 2 1]) /\
  sum_of 0 [] (EBin Z.mul (EArr row [0]%nat) (EArr row [0]%nat)) = ([14], []) /\
  sum_of 0 [] (EArr square [0; 0]%nat) = ([15], []) /\
  sum_of 2 [0; 1]%nat (EBin Z.mul (EArr row [0]%nat) (EArr row [1]%nat)) = ([1; 2; 3; 2; 4; 6; 3; 6; 9], [mkD 0 3 1; mkD 0 3 3]) /\
  sum_of 2 [1; 0]%nat (EArr mA [0; 1]%nat) = ([1; 2; 3; 4; 5; 6], [mkD 0 3 1; mkD 5 2 3]).
Proof.
  cbv zeta. split; [split; [reflexivity|apply properb_ok; reflexivity]|]. split; [split; [reflexivity|apply properb_ok; reflexivity]|].
  split; [split; [reflexivity|apply properb_ok; reflexivity]|]. repeat (split; [vm_compute; reflexivity|]). vm_compute. reflexivity.
Qed.
Print Assumptions C40_sum.
Print Assumptions C40_matrix_product.
Print Assumptions C40_matrix_vector.
Print Assumptions C40_dot_product.
Print Assumptions C40_trace.
Print Assumptions C40_outer_product.
Print Assumptions C40_transpose.
