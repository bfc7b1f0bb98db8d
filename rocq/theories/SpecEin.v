(** Specification vocabulary for Einstein reductions.  Of the model only the type of
    expressions is used. *)
From Coq Require Import ZArith List Bool Sorted.
From Verif Require Import Base Interval Shape Memory Ref Spec SpecMem Static SpecStatic Container SpecContainer Ein.
Import ListNotations.
Open Scope Z_scope.

Section Ein.
Context {V : Type}.

(** An assignment of values to the indices, given as a list: index [k] has the k-th value *)
Definition values_of (labels : list nat) (env : list Z) : list Z := map (fun k => nth k env 0) labels.

(** With the indices as in [env], the expression has value [v] *)
Inductive computes (h : heap V) (env : list Z) : expr V -> V -> Prop :=
| c_arr r is_ v : holds h (elem (r_base r) (r_shape r) (values_of is_ env)) v -> computes h env (EArr r is_) v
| c_fn f is_ : computes h env (EFn f is_) (f (values_of is_ env))
| c_un f e v : computes h env e v -> computes h env (EUn f e) (f v)
| c_bin f a b v w : computes h env a v -> computes h env b w -> computes h env (EBin f a b) (f v w).

(** The array operands of an expression with their indices *)
Fixpoint operands (e : expr V) : list (aref * list nat) :=
  match e with
  | EArr r is_ => [(r, is_)]
  | EFn _ _ => []
  | EUn _ e => operands e
  | EBin _ a b => operands a ++ operands b
  end.
(** All indices of an expression *)
Fixpoint labels (e : expr V) : list nat :=
  match e with
  | EArr _ is_ => is_
  | EFn _ is_ => is_
  | EUn _ e => labels e
  | EBin _ a b => labels a ++ labels b
  end.
(** Dimension [d] of one of these operands is addressed by index [k] *)
Definition addressed (ops : list (aref * list nat)) (k : nat) (d : dim) : Prop :=
  exists r is_, In (r, is_) ops /\ In (k, d) (combine is_ (r_shape r)).

(** The numbers [lo, lo + n) *)
Definition span : Type := Z * Z.
Definition span_is (b : span) (d : dim) : Prop := dmin d = fst b /\ dext d = snd b.
Definition span_within (b : span) (d : dim) : Prop :=
  dmin d <= fst b /\ fst b + snd b <= dmin d + dext d.

(** Index [k] ranges over [B k]: for an index of the result these are the bounds of the
    result's dimension, and operands must have at least these (exactly these, if the result's
    dimension has stride 0); for other indices the operands must agree on the bounds; an index
    that no array has is 0.  No bounds have a negative extent. *)
Definition ranges (r : aref) (out : list nat) (ops : list (aref * list nat)) (B : nat -> span) : Prop :=
  (forall k, 0 <= snd (B k)) /\
  (forall k d, addressed [(r, out)] k d -> span_is (B k) d) /\
  (forall k d, addressed ops k d -> span_is (B k) d \/
     (span_within (B k) d /\ (exists D, addressed [(r, out)] k D) /\
      forall D, addressed [(r, out)] k D -> dstr D <> 0)) /\
  (forall k, (forall d, ~ addressed ((r, out) :: ops) k d) -> B k = (0, 1)).
(** One index per dimension *)
Definition ranks_match (ops : list (aref * list nat)) : Prop :=
  Forall (fun o => length (snd o) = length (r_shape (fst o))) ops.

(** [n] is the number of loops: one more than the largest index *)
Definition loops (n : nat) (ls : list nat) : Prop :=
  Forall (fun k => (k < n)%nat) ls /\ (n <> O -> In (pred n) ls).
(** [env] assigns to each of the [n] indices a value in its range *)
Definition loop_index (B : nat -> span) (n : nat) (env : list Z) : Prop :=
  length env = n /\ forall k, (k < n)%nat -> fst (B k) <= nth k env 0 < fst (B k) + snd (B k).

(** Every element of the operands is alive; none is an element of [r] *)
Definition operands_alive (h : heap V) (ops : list (aref * list nat)) : Prop :=
  forall r is_ i, In (r, is_) ops -> in_bounds (r_shape r) i -> alive h (elem (r_base r) (r_shape r) i).
Definition operands_apart (r : aref) (ops : list (aref * list nat)) : Prop :=
  forall r' is_ i, In (r', is_) ops -> in_bounds (r_shape r') i ->
    ~ is_elem (r_base r) (r_shape r) (elem (r_base r') (r_shape r') i).

(** [w] is the result of combining [old] with the values the expression takes, in the order of
    the loops (index 0 is the innermost loop), for the index values satisfying [P] *)
Definition reduces (h : heap V) (f : V -> V -> V) (e : expr V) (P : list Z -> Prop) (old w : V) : Prop :=
  exists envs vs, enumerates P envs /\ StronglySorted colex_lt envs /\
    Forall2 (fun env v => computes h env e v) envs vs /\ w = fold_left f vs old.

(** ** Sums that make their own result *)

(** The first dimension that index [k] addresses, in the order of the expression *)
Definition first_addressed (ops : list (aref * list nat)) (k : nat) : option dim :=
  option_map snd (find (fun kd => (fst kd =? k)%nat) (flat_map (fun o => combine (snd o) (r_shape (fst o))) ops)).
(** Index [k] ranges over [B k]: an index of the result has the bounds of the first dimension
    it addresses, and the other dimensions must have at least these (exactly these, if the
    result is empty); for other indices all must agree; an index that no array has is 0. *)
Definition sum_ranges (out : list nat) (ops : list (aref * list nat)) (B : nat -> span) : Prop :=
  (forall k, 0 <= snd (B k)) /\
  (forall k, match first_addressed ops k with Some d => span_is (B k) d | None => B k = (0, 1) end) /\
  (forall k d, addressed ops k d -> span_is (B k) d \/
     (In k out /\ span_within (B k) d /\ forall j, In j out -> 1 <= snd (B j))).
(** The template arguments of the dimensions of the result, before strides are chosen: what is
    known of the bounds; [dim<0, 1, 0>] for an index that no array has (ein_reduce.h:251-253) *)
Definition result_type (ops : list (aref * list nat)) (B : nat -> span) (k : nat) (t : dimT) : Prop :=
  match first_addressed ops k with
  | Some _ => tstr t = -9 /\ fits (tmin t) (fst (B k)) /\ fits (text t) (snd (B k))
  | None => t = mkDT 0 1 0
  end.
(** The number of elements of the result, counting empty dimensions as one *)
Definition padded_volume (out : list nat) (B : nat -> span) : Z :=
  fold_right Z.mul 1 (map (fun k => Z.max 1 (snd (B k))) out).
(** Block numbers are handed out in order; there is no block 0. *)
Definition usable_heap (h : heap V) : Prop :=
  (1 <= h_next h)%nat /\ h_blk h 0%nat = None /\ (forall k, (h_next h <= k)%nat -> h_blk h k = None).
(** The view [r] has element [f i] at index [i] *)
Definition shows (h : heap V) (r : aref) (f : list Z -> V) : Prop :=
  forall i, in_bounds (r_shape r) i -> holds h (elem (r_base r) (r_shape r) i) (f i).

(** The numbers [lo], [lo + 1], ..., [n] of them *)
Definition range (lo n : Z) : list Z := map (fun k => lo + Z.of_nat k) (seq 0 (Z.to_nat n)).
(** No operand has a negative extent *)
Definition dims_ok (ops : list (aref * list nat)) : Prop := Forall (fun o => extents_ge 0 (r_shape (fst o))) ops.
(** No operand has an index twice *)
Definition distinct (ops : list (aref * list nat)) : Prop := Forall (fun o => NoDup (snd o)) ops.

(** The array type [c] has rank [n], and its default shape is one-to-one *)
Definition array_type (c : config V) (n : nat) : Prop :=
  length (c_shape0 c) = n /\ proper_layout (resolve (c_shape0 c)).
(** A type for the dimension of a result: what is known of the bounds of [d] *)
Definition bounds_type (t : dimT) (d : dim) : Prop := tstr t = -9 /\ fits (tmin t) (dmin d) /\ fits (text t) (dext d).
(** Result of a call: a new array [a] with the bounds [ds] and element [f i] at index [i];
    what was alive before is as it was *)
Definition new_array (h h' : heap V) (a : arr) (ds : list dim) (f : list Z -> V) : Prop :=
  Forall2 same_bounds ds (a_shape a) /\ injective_layout (a_shape a) /\
  (forall i, in_bounds (a_shape a) i -> holds h' (elem (a_base a) (a_shape a) i) (f i)) /\
  (forall p, alive h p -> peek h' p = peek h p) /\
  (forall p, alive h' p <-> alive h p \/ is_elem (a_base a) (a_shape a) p) /\
  (forall p, alive h p -> ~ is_elem (a_base a) (a_shape a) p).

End Ein.
