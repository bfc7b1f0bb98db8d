(** Specification vocabulary for reductions that read their result.  Of the model only the type
    of expressions is used. *)
From Coq Require Import ZArith List Bool Sorted.
From Verif Require Import Base Interval Shape Memory Ref Spec SpecMem Ein SpecEin.
Import ListNotations.
Open Scope Z_scope.

Section Ein.
Context {V : Type}.

(** With the indices as in [env], and the value [old] for the operand [ein<out>(r)], the
    expression has value [v] *)
Inductive computes_with (h : heap V) (r : aref) (out : list nat) (env : list Z) (old : V) : expr V -> V -> Prop :=
| w_self : computes_with h r out env old (EArr r out) old
| w_arr r' is_ v : (r', is_) <> (r, out) -> holds h (elem (r_base r') (r_shape r') (values_of is_ env)) v ->
    computes_with h r out env old (EArr r' is_) v
| w_fn f is_ : computes_with h r out env old (EFn f is_) (f (values_of is_ env))
| w_un f e v : computes_with h r out env old e v -> computes_with h r out env old (EUn f e) (f v)
| w_bin f a b v w : computes_with h r out env old a v -> computes_with h r out env old b w ->
    computes_with h r out env old (EBin f a b) (f v w).
(** From [old], the assignments for these index values, one after the other, lead to [w] *)
Inductive updates (h : heap V) (f : V -> V -> V) (r : aref) (out : list nat) (e : expr V) : list (list Z) -> V -> V -> Prop :=
| u_none old : updates h f r out e [] old old
| u_next env envs old v w : computes_with h r out env old e v -> updates h f r out e envs (f old v) w ->
    updates h f r out e (env :: envs) old w.
(** The same for all index values satisfying [P], in the order of the loops *)
Definition accumulates (h : heap V) (f : V -> V -> V) (r : aref) (out : list nat) (e : expr V) (P : list Z -> Prop)
  (old w : V) : Prop :=
  exists envs, enumerates P envs /\ StronglySorted colex_lt envs /\ updates h f r out e envs old w.
(** Every operand is the result itself, with the indices of the result, or has no element in
    common with the result *)
Definition self_or_apart (r : aref) (out : list nat) (ops : list (aref * list nat)) : Prop :=
  forall r' is_, In (r', is_) ops -> (r', is_) = (r, out) \/
    forall i, in_bounds (r_shape r') i -> ~ is_elem (r_base r) (r_shape r) (elem (r_base r') (r_shape r') i).
(** A strict weak order: values of which neither is less than the other may differ *)
Definition weak_order (lt : V -> V -> bool) : Prop :=
  (forall a b, lt a b = true -> lt b a = false) /\ (forall a b c, lt a b = false -> lt b c = false -> lt a c = false).
(** The pointer [i] positions after [p] *)
Definition after (p : ptr) (i : Z) : ptr := (fst p, snd p + i).
(** [N] objects with values [f 0], [f 1], ... start at [p] *)
Definition objects (h : heap V) (p : ptr) (N : Z) (f : Z -> V) : Prop :=
  forall i, 0 <= i < N -> holds h (after p i) (f i).

End Ein.
