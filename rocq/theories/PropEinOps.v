(** C64: reductions that read their result, scalars, pointers, and the reductions of the README. *)
From Coq Require Import ZArith List Bool Lia.
From Verif Require Import Base Interval Shape Memory Ref Spec SpecMem SpecContainer Static SpecStatic Container Ein SpecEin
  EinOps SpecEinOps ShapeFacts ContainerCases EinFacts EinSum EinMake EinUses EinCases EinOpsFacts.
Import ListNotations.
Open Scope Z_scope.

(** ** C64: more reductions *)
(** [ein_reduce(r = g(r, e))] does what a compound assignment [r g= e] would do, in all cases. *)
Theorem C64_update : forall (V : Type) (nd : bool) (g : V -> V -> V) (h : heap V) (r : aref) (out : list nat) (e : expr V),
  ein_reduce nd (fun _ v => v) h r out (EBin g (EArr r out) e) = ein_reduce nd g h r out e.
Proof. exact @ein_update. Qed.
(** Where the expression reads the element that is assigned to, it reads its latest value. *)
Theorem C64_self : forall (V : Type) (nd : bool) (f : V -> V -> V) (h : heap V) (r : aref) (out : list nat)
    (e : expr V) (B : nat -> span) (n : nat),
  ranks_match ((r, out) :: operands e) -> loops n (out ++ labels e) -> ranges r out (operands e) B ->
  operands_alive h ((r, out) :: operands e) -> self_or_apart r out (operands e) -> injective_layout (r_shape r) ->
  exists h', ein_reduce nd f h r out e = Ok h' /\ only_changes (is_elem (r_base r) (r_shape r)) h h' /\
    forall o old, in_bounds (r_shape r) o -> holds h (elem (r_base r) (r_shape r) o) old ->
      exists w, holds h' (elem (r_base r) (r_shape r) o) w /\
        accumulates h f r out e (fun env => loop_index B n env /\ values_of out env = o) old w.
Proof. exact @ein_reduce_self. Qed.
(** [ein_reduce(r = max(r, e))]: the largest of the old value and all values of [e] *)
Theorem C64_max : forall (V : Type) (nd : bool) (lt : V -> V -> bool) (h : heap V) (r : aref) (out : list nat)
    (e : expr V) (B : nat -> span) (n : nat),
  weak_order lt ->
  ranks_match ((r, out) :: operands e) -> loops n (out ++ labels e) -> ranges r out (operands e) B ->
  operands_alive h ((r, out) :: operands e) -> operands_apart r (operands e) -> injective_layout (r_shape r) ->
  exists h', ein_reduce nd (fun _ v => v) h r out (EBin (max_of lt) (EArr r out) e) = Ok h' /\
    only_changes (is_elem (r_base r) (r_shape r)) h h' /\
    forall o old, in_bounds (r_shape r) o -> holds h (elem (r_base r) (r_shape r) o) old ->
      exists w, holds h' (elem (r_base r) (r_shape r) o) w /\ lt w old = false /\
        (forall env v, loop_index B n env -> values_of out env = o -> computes h env e v -> lt w v = false) /\
        (w = old \/ exists env, loop_index B n env /\ values_of out env = o /\ computes h env e w).
Proof. exact @ein_max. Qed.
(** The cross products of the README, with any numbering of the indices *)
Theorem C64_cross_product : forall (nd : bool) (h : heap Z) (r xs ys : aref) (d0 d1 d2 e0 e1 e2 : dim)
    (fr fx fy : list Z -> Z) (i j k l : nat),
  i <> j -> i <> k -> i <> l -> j <> k -> j <> l -> k <> l ->
  r_shape r = [d0; e0] -> r_shape xs = [d1; e1] -> r_shape ys = [d2; e2] ->
  Forall (fun d => dmin d = 0 /\ dext d = 3) [d0; d1; d2] -> 0 <= dext e0 -> same_bounds e0 e1 -> same_bounds e0 e2 ->
  shows h r fr -> shows h xs fx -> shows h ys fy -> operands_apart r [(xs, [j; l]); (ys, [k; l])] -> injective_layout (r_shape r) ->
  exists h', ein_reduce nd Z.add h r [i; l]
      (EBin Z.mul (EBin Z.mul (EFn epsilon3 [i; j; k]) (EArr xs [j; l])) (EArr ys [k; l])) = Ok h' /\
    only_changes (is_elem (r_base r) (r_shape r)) h h' /\
    forall u v, 0 <= u < 3 -> dmin e0 <= v < dmin e0 + dext e0 ->
      holds h' (elem (r_base r) (r_shape r) [u; v])
        (fr [u; v] + (fx [(u + 1) mod 3; v] * fy [(u + 2) mod 3; v] - fx [(u + 2) mod 3; v] * fy [(u + 1) mod 3; v])).
Proof. exact @cross_product. Qed.
(** [ein_reduce(ein(s) += ein<k>(A) * ein<k>(C))] adds the dot product to the scalar. *)
Theorem C64_scalar : forall (V : Type) (nd : bool) (add mul : V -> V -> V) (h : heap V) (p : ptr) (A C : aref) (d1 d2 : dim)
    (fA fC : list Z -> V) (k : nat) (old : V),
  r_shape A = [d1] -> r_shape C = [d2] -> extents_ge 0 [d1; d2] -> same_bounds d1 d2 ->
  shows h A fA -> shows h C fC -> holds h p old ->
  ~ is_elem (r_base A) (r_shape A) p -> ~ is_elem (r_base C) (r_shape C) p ->
  exists h', ein_reduce nd add h (fst (ein_scalar p)) (snd (ein_scalar p)) (EBin mul (EArr A [k]) (EArr C [k])) = Ok h' /\
    holds h' p (fold_left add (map (fun z => mul (fA [z]) (fC [z])) (range (dmin d1) (dext d1))) old) /\
    forall q, q <> p -> peek h' q = peek h q.
Proof. exact @dot_scalar. Qed.
(** The same with pointers and sizes, or C arrays *)
Theorem C64_pointers : forall (V : Type) (nd : bool) (add mul : V -> V -> V) (h : heap V) (p x y : ptr) (N : Z)
    (ox oy : aref * list nat) (vx vy : Z -> V) (k : nat) (old : V),
  (0 <= N < 2 ^ 63 /\ (ox = ein_pointer k x N \/ ox = ein_carray k x N)) ->
  (0 <= N < 2 ^ 63 /\ (oy = ein_pointer k y N \/ oy = ein_carray k y N)) ->
  objects h x N vx -> objects h y N vy -> holds h p old ->
  (forall i, 0 <= i < N -> after x i <> p /\ after y i <> p) ->
  exists h', ein_reduce nd add h (fst (ein_scalar p)) (snd (ein_scalar p)) (EBin mul (operand ox) (operand oy)) = Ok h' /\
    holds h' p (fold_left add (map (fun z => mul (vx z) (vy z)) (range 0 N)) old) /\
    forall q, q <> p -> peek h' q = peek h q.
Proof. exact @dot_raw. Qed.
(** A debug build stops if the sizes differ. *)
Theorem C64_pointers_reject : forall (V : Type) (add mul : V -> V -> V) (h : heap V) (p x y : ptr) (N M : Z)
    (ox oy : aref * list nat) (k : nat),
  (0 <= N < 2 ^ 63 /\ (ox = ein_pointer k x N \/ ox = ein_carray k x N)) ->
  (0 <= M < 2 ^ 63 /\ (oy = ein_pointer k y M \/ oy = ein_carray k y M)) -> N <> M ->
  ein_reduce false add h (fst (ein_scalar p)) (snd (ein_scalar p)) (EBin mul (operand ox) (operand oy)) = AssertFail.
Proof. exact @dot_raw_rejects. Qed.

(** The size is converted to index_t: sizes of 2^63 or more make negative extents, and the loop does not end. *)
Theorem C64_pointers_huge : forall (V : Type) (nd : bool) (f : V -> V -> V) (h : heap V) (p x : ptr) (N : Z) (k : nat),
  2 ^ 63 <= N < 2 ^ 64 -> ein_reduce nd f h (fst (ein_scalar p)) (snd (ein_scalar p)) (operand (ein_pointer k x N)) = UB.
Proof. exact @raw_huge. Qed.
Example C64_example_huge : 2 ^ 63 <= 2 ^ 64 - 2 < 2 ^ 64 /\ r_shape (fst (ein_pointer 3 (1%nat, 0) (2 ^ 64 - 2))) = [mkD 0 (-2) 1].
Proof. split; [split; [discriminate|reflexivity]|reflexivity]. Qed.

(** The largest element of each row of a 2x3 matrix, starting from 0 and 9; then [r = A - r] *)
Definition ex64 : heap Z := heap3 [1; 2; 3; 4; 5; 6] [7; 8; 10; 0; 1; 0; -2; 0] [0; 9; 0; 0; 0; 0; 40].
Definition row_max : aref := mkR (3%nat, 0) [mkD 5 2 1].
Definition row_span (k : nat) : span := match k with 0%nat => (5, 2) | 1%nat => (0, 3) | _ => (0, 1) end.
Example C64_example_max :
  weak_order Z.ltb /\ ranges row_max [0%nat] [(mA, [0; 1]%nat)] row_span /\ injective_layout (r_shape row_max) /\
  ranks_match ((row_max, [0%nat]) :: operands (EArr (V:=Z) mA [0; 1]%nat)) /\
  loops 2 ([0%nat] ++ labels (EArr (V:=Z) mA [0; 1]%nat)) /\
  operands_alive ex64 [(row_max, [0%nat]); (mA, [0; 1]%nat)] /\ operands_apart row_max [(mA, [0; 1]%nat)] /\
  self_or_apart row_max [0%nat] [(mA, [0; 1]%nat); (row_max, [0%nat])] /\
  dump3 (ein_reduce false (fun _ v => v) ex64 row_max [0%nat] (EBin (max_of Z.ltb) (EArr row_max [0%nat]) (EArr mA [0; 1]%nat))) 3 =
    map (fun z => Some (Live z)) [3; 9; 0; 0; 0; 0; 40] /\
  dump3 (ein_reduce false (fun _ v => v) ex64 row_max [0%nat] (EBin Z.sub (EArr mA [0; 1]%nat) (EArr row_max [0%nat]))) 3 =
    map (fun z => Some (Live z)) [2; -4; 0; 0; 0; 0; 40].
Proof.
  assert (Ap : operands_apart row_max [(mA, [0; 1]%nat)]) by (apply apartb_ok; vm_compute; reflexivity).
  split; [split; intros; lia|].
  split.
  { split; [|split; [|split]].
    - intros [|[|k]]; cbn; lia.
    - intros k d (r & is_ & I & A). destruct I as [I|[]]. inversion I; subst. destruct A as [A|[]]. inversion A; subst. split; reflexivity.
    - intros k d (r & is_ & I & A). left. destruct I as [I|[]]. inversion I; subst. destruct A as [A|[A|[]]]; inversion A; subst; split; reflexivity.
    - intros [|[|k]] N; [| |reflexivity]; exfalso; [apply (N (mkD 5 2 3))|apply (N (mkD 0 3 1))]; exists mA, [0; 1]%nat; cbn; auto. }
  split; [apply (properb_ok (r_shape _)); reflexivity|].
  split; [repeat constructor|]. split; [split; [repeat constructor|intros _; cbn; auto]|].
  split; [apply ops_aliveb_ok; vm_compute; reflexivity|]. split; [exact Ap|].
  split; [intros r is_ [E|[E|[]]]; [right; intros i Hi; apply (Ap r is_ i); [left; exact E|exact Hi]|left; congruence]|].
  split; vm_compute; reflexivity.
Qed.
Example C64_example_cross :
  let xs := mkR (1%nat, 0) [mkD 0 3 1; mkD 7 2 3] in let ys := mkR (2%nat, 0) [mkD 0 3 1; mkD 7 2 4] in
  let r := mkR (3%nat, 0) [mkD 0 3 1; mkD 7 2 3] in
  shows ex64 r (fun i => if Z.eqb (nth 0 i 0) 1 && Z.eqb (nth 1 i 0) 7 then 9 else 0) /\
  operands_apart r [(xs, [1; 3]%nat); (ys, [2; 3]%nat)] /\ injective_layout (r_shape r) /\
  dump3 (ein_reduce false Z.add ex64 r [0; 3]%nat
     (EBin Z.mul (EBin Z.mul (EFn epsilon3 [0; 1; 2]%nat) (EArr xs [1; 3]%nat)) (EArr ys [2; 3]%nat))) 3 =
    map (fun z => Some (Live z)) [2 * 10 - 3 * 8; 9 + (3 * 7 - 1 * 10); 1 * 8 - 2 * 7;
                                  5 * -2 - 6 * 0; 6 * 1 - 4 * -2; 4 * 0 - 5 * 1; 40].
Proof.
  cbv zeta. split.
  { intros i H. cbn [r_base r_shape] in *. apply in_bounds_2 in H. destruct H as (u & v & -> & Hu & Hv). unfold in_dim in *. cbn [dmin dext] in *.
    assert (Qu : u = 0 \/ u = 1 \/ u = 2) by lia. assert (Qv : v = 7 \/ v = 8) by lia.
    destruct Qu as [->|[->| ->]], Qv as [->| ->]; reflexivity. }
  split; [apply apartb_ok; vm_compute; reflexivity|]. split; [apply (properb_ok (r_shape _)); reflexivity|].
  vm_compute. reflexivity.
Qed.
Example C64_example_pointers :
  let p : ptr := (3%nat, 6) in let x : ptr := (1%nat, 1) in let y : ptr := (2%nat, 0) in
  (0 <= 3 < 2 ^ 63 /\ (ein_pointer 4 x 3 = ein_pointer 4 x 3 \/ ein_pointer 4 x 3 = ein_carray 4 x 3)) /\
  objects ex64 x 3 (fun i => i + 2) /\ holds ex64 p 40 /\
  dump3 (ein_reduce false Z.add ex64 (fst (ein_scalar p)) (snd (ein_scalar p))
     (EBin Z.mul (operand (ein_pointer 4 x 3)) (operand (ein_carray 4 y 3)))) 3 =
    map (fun z => Some (Live z)) [0; 9; 0; 0; 0; 0; 40 + 2 * 7 + 3 * 8 + 4 * 10] /\
  ein_reduce false Z.add ex64 (fst (ein_scalar p)) (snd (ein_scalar p))
     (EBin Z.mul (operand (ein_pointer 4 x 3)) (operand (ein_carray 4 y 2))) = AssertFail.
Proof.
  cbv zeta. split; [split; [split; [discriminate|reflexivity]|left; reflexivity]|]. split.
  { intros i H. assert (Q : i = 0 \/ i = 1 \/ i = 2) by lia.
    destruct Q as [->|[->| ->]]; reflexivity. }
  split; [reflexivity|]. split; vm_compute; reflexivity.
Qed.
Print Assumptions C64_update.
Print Assumptions C64_self.
Print Assumptions C64_max.
Print Assumptions C64_cross_product.
Print Assumptions C64_scalar.
Print Assumptions C64_pointers.
Print Assumptions C64_pointers_reject.
Print Assumptions C64_pointers_huge.
