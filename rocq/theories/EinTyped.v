(** Einstein reductions on arrays of different types (include/array/ein_reduce.h): the type of every part of an
    expression, conversions, and what is checked at compile time.  Definitions only.

    Memory holds values with their types; reading an object as another type is undefined behaviour.  The types and
    what the language does with them are a parameter; its operators are total functions. *)
From Coq Require Import ZArith List Bool.
From Verif Require Import Base Interval Shape Traverse Memory Ref Static Container Ein.
Import ListNotations.
Open Scope Z_scope.

(** ein_reduce.h:186-189: the operators of expressions that take different types *)
Inductive bin_op := op_add | op_sub | op_mul | op_div.
(** ein_reduce.h:193-196: the assignments *)
Inductive asg_op := op_assign | op_add_assign | op_sub_assign | op_mul_assign.

(** C++ types and operators (not library code) as ein_reduce.h:116-196 uses them: [neg] is -x, [bin] an operator, with the
    types of their results; [less] is <; [conv] is static_cast, and the conversion of an assigned value *)
Record language := mkLa {
  ty : Type;
  ty_dec : forall a b : ty, {a = b} + {a <> b};
  val : ty -> Type;
  neg_ty : ty -> ty;
  neg : forall t, val t -> val (neg_ty t);
  bin_ty : bin_op -> ty -> ty -> ty;
  bin : forall o a b, val a -> val b -> val (bin_ty o a b);
  less : forall t, val t -> val t -> bool;
  conv : forall a b, val a -> val b }.

Section Typed.
Variable L : language.
Notation ty := (ty L).
Notation val := (val L).

(** An object in memory (not library code): a value of some type *)
Definition tval : Type := {t : ty & val t}.
(** The object as one of type [t] *)
Definition as_type (t : ty) (v : tval) : option (val t) :=
  match ty_dec L (projT1 v) t with
  | left e => Some (eq_rect _ val (projT2 v) _ e)
  | right _ => None
  end.

(** ** Expressions *)

(** Expressions by their value types.  [TArr]: ein_reduce.h:73-106 [ein_op] of an array_ref<T, Shape>, or of an array_ref<const T, Shape>
    if [cst]; [ts] are the template arguments of the shape.  [TFn]: [ein_op] of another callable.  [TNeg]: 117-130; [TCast]: 133-141,
    204-209; [TBin]: 143-169, 186-189; [TMin], [TMax]: 171-183, 190-191, 211-219, where array.h:170-178 takes two of one type *)
Inductive texpr : ty -> Type :=
| TArr (t : ty) (cst : bool) (ts : list dimT) (r : aref) (is_ : list nat) : texpr t
| TFn (t : ty) (f : list Z -> val t) (is_ : list nat) : texpr t
| TNeg (t : ty) (e : texpr t) : texpr (neg_ty L t)
| TCast (t t' : ty) (e : texpr t) : texpr t'
| TBin (o : bin_op) (t t' : ty) (a : texpr t) (b : texpr t') : texpr (bin_ty L o t t')
| TMin (t : ty) (a b : texpr t) : texpr t
| TMax (t : ty) (a b : texpr t) : texpr t.

(** array.h:175-178 *)
Definition v_min (t : ty) (a b : val t) : val t := if less L t b a then b else a.
(** array.h:170-173 *)
Definition v_max (t : ty) (a b : val t) : val t := if less L t a b then b else a.
(** ein_reduce.h:84-87, 121-124, 137-140, 164-167, 176-181 [operator()] *)
Fixpoint t_eval (h : heap tval) {t : ty} (e : texpr t) (idx : index) : outcome (val t) :=
  match e with
  | TArr t _ _ r is_ =>
      v <- ref_at h r (get_all is_ idx) ;;
      match as_type t v with Some x => Ok x | None => UB end
  | TFn t f is_ => Ok (f (get_all is_ idx))
  | TNeg t e => v <- t_eval h e idx ;; Ok (neg L t v)
  | TCast t t' e => v <- t_eval h e idx ;; Ok (conv L t t' v)
  | TBin o t t' a b => v <- t_eval h a idx ;; w <- t_eval h b idx ;; Ok (bin L o t t' v w)
  | TMin t a b => v <- t_eval h a idx ;; w <- t_eval h b idx ;; Ok (v_min t v w)
  | TMax t a b => v <- t_eval h a idx ;; w <- t_eval h b idx ;; Ok (v_max t v w)
  end.
(** ein_reduce.h:193-196: the value that [old op= v] stores, for built-in types: computed in the type of the operator, and converted *)
Definition t_stored (a : asg_op) (t t' : ty) (old : val t) (v : val t') : val t :=
  match a with
  | op_assign => conv L t' t v
  | op_add_assign => conv L _ t (bin L op_add t t' old v)
  | op_sub_assign => conv L _ t (bin L op_sub t t' old v)
  | op_mul_assign => conv L _ t (bin L op_mul t t' old v)
  end.

(** The same expression on objects of any type, as in Ein.v, ein_reduce.h:108-141 *)
Definition lift1 (t t' : ty) (f : val t -> val t') (v : tval) : tval :=
  match as_type t v with Some x => existT _ t' (f x) | None => v end.
(** As [lift1], for two operands, ein_reduce.h:143-182 *)
Definition lift2 (t1 t2 t' : ty) (f : val t1 -> val t2 -> val t') (v w : tval) : tval :=
  match as_type t1 v, as_type t2 w with Some x, Some y => existT _ t' (f x y) | _, _ => v end.
(** ein_reduce.h:73-183 *)
Fixpoint erase {t : ty} (e : texpr t) : expr tval :=
  match e with
  | TArr t _ _ r is_ => EArr r is_
  | TFn t f is_ => EFn (fun i => existT _ t (f i)) is_
  | TNeg t e => EUn (lift1 t _ (neg L t)) (erase e)
  | TCast t t' e => EUn (lift1 t t' (conv L t t')) (erase e)
  | TBin o t t' a b => EBin (lift2 t t' _ (bin L o t t')) (erase a) (erase b)
  | TMin t a b => EBin (lift2 t t t (v_min t)) (erase a) (erase b)
  | TMax t a b => EBin (lift2 t t t (v_max t)) (erase a) (erase b)
  end.

(** ein_reduce.h:158-169, 193-196: one evaluation of the assignment to [r], an array of type [t] *)
Definition t_ein_assign (a : asg_op) (t : ty) (r : aref) (out : list nat) {t' : ty} (e : texpr t') (h : heap tval) (idx : index)
  : outcome (heap tval) :=
  v <- t_eval h e idx ;;
  o <- ref_at h r (get_all out idx) ;;
  match as_type t o with
  | Some old => store h (ref_ptr r (get_all out idx)) (existT _ t (t_stored a t t' old v))
  | None => UB
  end.
(** ein_reduce.h:418-443 [ein_reduce]; the loops have the shape of those in Ein.v *)
Definition t_ein_reduce (nd : bool) (a : asg_op) (h : heap tval) (t : ty) (r : aref) (out : list nat) {t' : ty} (e : texpr t')
  : outcome (heap tval) :=
  s <- ein_loop_shape nd r out (erase e) ;;
  l <- for_each_index_in_order s ;;
  foldM (t_ein_assign a t r out e) l h.

(** ** Compile time *)

(** ein_reduce.h:294-319 [gather_dims<Dim>]: the types of the dims, but for the strides *)
Fixpoint gather_types (D : nat) {t : ty} (e : texpr t) : list dimT :=
  match e with
  | TArr _ _ ts _ is_ => get_or_empty (index_of D is_) ts
  | TFn _ _ _ => []
  | TNeg _ e => gather_types D e
  | TCast _ _ e => gather_types D e
  | TBin _ _ _ a b => gather_types D a ++ gather_types D b
  | TMin _ a b => gather_types D a ++ gather_types D b
  | TMax _ a b => gather_types D a ++ gather_types D b
  end.
(** ein_reduce.h:234-236: the constraints of [reconcile_dim] *)
Definition reconciles (ts : list dimT) : bool :=
  match ts with
  | [] => true
  | t0 :: ts => forallb (fun t => negb (not_equal (tmin t0) (tmin t)) && negb (not_equal (text t0) (text t))) ts
  end.
(** ein_reduce.h:338-351: the constraints of [ein], for arrays and references to them *)
Fixpoint ranks_compile {t : ty} (e : texpr t) : bool :=
  match e with
  | TArr _ _ ts _ is_ => (length is_ =? length ts)%nat
  | TFn _ _ _ => true
  | TNeg _ e => ranks_compile e
  | TCast _ _ e => ranks_compile e
  | TBin _ _ _ a b => ranks_compile a && ranks_compile b
  | TMin _ a b => ranks_compile a && ranks_compile b
  | TMax _ a b => ranks_compile a && ranks_compile b
  end.
(** The template arguments of a dim, array.h:395, are the same *)
Definition same_dimT (s t : dimT) : bool := (tmin s =? tmin t) && (text s =? text t) && (tstr s =? tstr t).
(** std::is_same of two lists of types, array.h:1069-1070 *)
Fixpoint same_types (ss ts : list dimT) : bool :=
  match ss, ts with
  | [], [] => true
  | s :: ss, t :: ts => same_dimT s t && same_types ss ts
  | _, _ => false
  end.
(** ein_reduce.h:73-76, 90-93: the right-hand side of [=] has the very type of the left-hand side.  Then the assignment operator that
    the compiler declares for [ein_op] is a better match than the template of 90-93: it assigns the operand, and what it returns is not
    an assignment expression *)
Definition copies_operand (a : asg_op) (t : ty) (ts : list dimT) (out : list nat) {t' : ty} (e : texpr t') : bool :=
  match a, e with
  | op_assign, TArr t' false ts' _ is_ =>
      (if ty_dec L t t' then true else false) && same_types ts ts' && (if list_eq_dec Nat.eq_dec out is_ then true else false)
  | _, _ => false
  end.
(** ein_reduce.h:33-35, 90-106, 418-426: [ein_reduce(ein<out>(r) op= e)] compiles, where [r] is an array_ref of [t] and [ts] are the
    template arguments of its shape *)
Definition ein_compiles (a : asg_op) (t : ty) (ts : list dimT) (out : list nat) {t' : ty} (e : texpr t') : bool :=
  (length out =? length ts)%nat && ranks_compile e && negb (copies_operand a t ts out e) &&
  forallb (fun D => reconciles (get_or_empty (index_of D out) ts ++ gather_types D e))
    (seq 0 (Nat.max (op_rank out) (loop_rank (erase e)))).

(** ein_reduce.h:301-304, 237, 252-254, 446-449: the types of the dims of an inferred shape, before [make_compact] *)
Definition result_dimT {t : ty} (e : texpr t) (D : nat) : dimT :=
  match gather_types D e with
  | t0 :: _ => mkDT (tmin t0) (text t0) dynamic
  | [] => mkDT 0 1 0
  end.
(** ein_reduce.h:475-483 [make_ein_sum<T, ResultIs...>]; the allocator is that of [c] *)
Definition t_make_ein_sum (c : config tval) (x : nat) (h : heap tval) (al : nat) (t : ty) (out : list nat) {t' : ty} (e : texpr t')
  (init : val t) : outcome (heap tval * arr) :=
  s <- ein_result_shape (c_ndebug c) out (erase e) (map (result_dimT e) out) ;;
  ' (h1, a) <- ctor_value c x h al s (existT _ t init) ;;
  h2 <- t_ein_reduce (c_ndebug c) op_add_assign h1 t (aref_of a) out e ;;
  Ok (h2, a).
End Typed.
