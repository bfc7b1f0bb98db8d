(** Model of Einstein reductions (include/array/ein_reduce.h).  Definitions only.

    Simplifications.  All elements and intermediate results have one type [V], and the
    operators of the expression are arbitrary total functions on it; so [-], [static_cast],
    [+], [-], [*], [/], [min] and [max] (ein_reduce.h:116-191) are all instances of two
    constructors.  Callables that are not arrays are total functions of the index.  The
    compile-time checks of [reconcile_dim] (ein_reduce.h:234-236) are left out: an expression
    they reject does not compile.  EinTyped.v has the types and the checks. *)
From Coq Require Import ZArith List Bool.
From Verif Require Import Base Interval Shape Traverse Memory Ref Static Container.
Import ListNotations.
Open Scope Z_scope.

Section Ein.
Context {V : Type}.

(** Expressions: [EArr] and [EFn] are ein_reduce.h:73-106 [ein_op] of an array_ref and of
    another callable; [EUn] 108-141; [EBin] 143-180 *)
Inductive expr :=
| EArr (r : aref) (is_ : list nat)
| EFn (f : list Z -> V) (is_ : list nat)
| EUn (f : V -> V) (e : expr)
| EBin (f : V -> V -> V) (a b : expr).

(** The right-hand side of [op(std::get<Is>(i)...)], ein_reduce.h:84-87 *)
Definition get_all (is_ : list nat) (idx : index) : index := map (fun k => nth k idx 0) is_.
(** ein_reduce.h:84-87, 121-124, 137-140, 164-167, 176-181 [operator()] *)
Fixpoint eval (h : heap V) (e : expr) (idx : index) : outcome V :=
  match e with
  | EArr r is_ => ref_at h r (get_all is_ idx)
  | EFn f is_ => Ok (f (get_all is_ idx))
  | EUn f e => v <- eval h e idx ;; Ok (f v)
  | EBin f a b => v <- eval h a idx ;; w <- eval h b idx ;; Ok (f v w)
  end.

(** ein_reduce.h:79, 113, 149 [MaxIndex], plus one *)
Definition op_rank (is_ : list nat) : nat := match is_ with [] => 0 | _ => S (list_max is_) end.
(** ein_reduce.h:79, 113, 149 *)
Fixpoint loop_rank (e : expr) : nat :=
  match e with
  | EArr _ is_ => op_rank is_
  | EFn _ is_ => op_rank is_
  | EUn _ e => loop_rank e
  | EBin _ a b => Nat.max (loop_rank a) (loop_rank b)
  end.

(** ein_reduce.h:290-292: what a dim is gathered for *)
Inductive kind := is_inferred_shape | is_result_shape | is_operand_shape.
(** ein_reduce.h:275-287 [with_stride] as used by 295-309; [dim<Min, Extent, dynamic>(min, extent)]
    has an unresolved stride (array.h:413, 422-426) *)
Definition kind_stride (k : kind) (d : dim) : dim :=
  match k with
  | is_result_shape => d
  | is_inferred_shape => mkD (dmin d) (dext d) unresolved
  | is_operand_shape => mkD (dmin d) (dext d) 0
  end.
(** ein_reduce.h:294-319 [gather_dims<Dim>] of one operand; 266-273 [dims_of] *)
Fixpoint gather_dims (D : nat) (k : kind) (e : expr) : list dim :=
  match e with
  | EArr r is_ => map (kind_stride k) (get_or_empty (index_of D is_) (r_shape r))
  | EFn _ _ => []
  | EUn _ e => gather_dims D k e
  | EBin _ a b => gather_dims D k a ++ gather_dims D k b
  end.
(** ein_reduce.h:237-263 [reconcile_dim] *)
Definition reconcile_dim (ndebug : bool) (ds : list dim) : outcome dim :=
  match ds with
  | [] => Ok (mkD 0 1 0)
  | d0 :: ds =>
      if negb (dstr d0 =? 0) then
        _ <- assert_ ndebug (vall (map (fun d => i_in_range_interval (d_interval d) (d_interval d0)) ds)) ;;
        Ok d0
      else
        _ <- assert_ ndebug (vall (map (fun d => dmin d0 =? dmin d) ds)) ;;
        _ <- assert_ ndebug (vall (map (fun d => dext d0 =? dext d) ds)) ;;
        Ok d0
  end.
(** ein_reduce.h:320-328 [make_ein_reduce_shape]: reconcile the dims gathered for each index *)
Definition reconcile_all (ndebug : bool) (is_ : list nat) (dims_for : nat -> list dim) : outcome shape :=
  flat_mapM (fun D => d <- reconcile_dim ndebug (dims_for D) ;; Ok [d]) is_.
(** ein_reduce.h:419-426: the shape of the loops; the result operand is [r] with indices [out] *)
Definition ein_loop_shape (ndebug : bool) (r : aref) (out : list nat) (e : expr) : outcome shape :=
  reconcile_all ndebug (seq 0 (Nat.max (op_rank out) (loop_rank e)))
    (fun D => gather_dims D is_result_shape (EArr r out) ++ gather_dims D is_operand_shape e).
(** ein_reduce.h:158-169, 193-196: one evaluation of the assignment; [f old v] is the value
    assigned: [v] for [=], the sum for [+=], and so on *)
Definition ein_assign (f : V -> V -> V) (r : aref) (out : list nat) (e : expr) (h : heap V) (idx : index)
  : outcome (heap V) :=
  v <- eval h e idx ;;
  old <- ref_at h r (get_all out idx) ;;
  store h (ref_ptr r (get_all out idx)) (f old v).
(** ein_reduce.h:418-443 [ein_reduce] *)
Definition ein_reduce (ndebug : bool) (f : V -> V -> V) (h : heap V) (r : aref) (out : list nat) (e : expr)
  : outcome (heap V) :=
  s <- ein_loop_shape ndebug r out e ;;
  l <- for_each_index_in_order s ;;
  foldM (ein_assign f r out e) l h.

(** ein_reduce.h:445-451 [make_ein_reduce_shape<ResultIs...>]; [ts] are the types of the dims
    the indices are reconciled to *)
Definition ein_result_shape (ndebug : bool) (out : list nat) (e : expr) (ts : list dimT) : outcome shape :=
  s <- reconcile_all ndebug out (fun D => gather_dims D is_inferred_shape e) ;;
  l <- make_compact ndebug (combine ts s) ;;
  Ok (map snd l).
(** ein_reduce.h:475-483 [make_ein_sum]; the result is the array named [x], its type and
    allocator are those of [c] *)
Definition make_ein_sum (c : config V) (add : V -> V -> V) (x : nat) (h : heap V) (al : nat)
  (out : list nat) (e : expr) (ts : list dimT) (init : V) : outcome (heap V * arr) :=
  s <- ein_result_shape (c_ndebug c) out e ts ;;
  ' (h1, a) <- ctor_value c x h al s init ;;
  h2 <- ein_reduce (c_ndebug c) add h1 (aref_of a) out e ;;
  Ok (h2, a).

End Ein.
Arguments expr V : clear implicits.
