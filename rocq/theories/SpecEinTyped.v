(** Specification vocabulary for Einstein reductions on arrays of different types.  Of the model only the types of languages and
    of expressions are used. *)
From Coq Require Import ZArith List Bool Sorted.
From Verif Require Import Base Interval Shape Memory Ref Spec SpecMem Static SpecStatic Container SpecContainer Ein SpecEin EinTyped.
Import ListNotations.
Open Scope Z_scope.

Section Typed.
Variable L : language.
Notation ty := (ty L).
Notation val := (val L).

(** There is an object of type [t] at [p]; the elements of [r] have type [t] *)
Definition object (h : heap (tval L)) (p : ptr) (t : ty) : Prop := exists x : val t, holds h p (existT _ t x).
Definition array_of (h : heap (tval L)) (t : ty) (r : aref) : Prop :=
  forall i, in_bounds (r_shape r) i -> object h (elem (r_base r) (r_shape r) i) t.

(** The array operands of an expression: element type, types of the dims, array, indices *)
Record operand := mkOp { o_type : ty; o_dims : list dimT; o_ref : aref; o_is : list nat }.
Fixpoint typed_operands {t : ty} (e : texpr L t) : list operand :=
  match e with
  | TArr _ t _ ts r is_ => [mkOp t ts r is_]
  | TFn _ _ _ _ => []
  | TNeg _ _ e => typed_operands e
  | TCast _ _ _ e => typed_operands e
  | TBin _ _ _ _ a b => typed_operands a ++ typed_operands b
  | TMin _ _ a b => typed_operands a ++ typed_operands b
  | TMax _ _ a b => typed_operands a ++ typed_operands b
  end.
(** The same without types *)
Definition untyped (ops : list operand) : list (aref * list nat) := map (fun o => (o_ref o, o_is o)) ops.
(** All indices of an expression *)
Fixpoint typed_labels {t : ty} (e : texpr L t) : list nat :=
  match e with
  | TArr _ _ _ _ _ is_ => is_
  | TFn _ _ _ is_ => is_
  | TNeg _ _ e => typed_labels e
  | TCast _ _ _ e => typed_labels e
  | TBin _ _ _ _ a b => typed_labels a ++ typed_labels b
  | TMin _ _ a b => typed_labels a ++ typed_labels b
  | TMax _ _ a b => typed_labels a ++ typed_labels b
  end.
(** The operands are arrays of their types *)
Definition operands_typed (h : heap (tval L)) (ops : list operand) : Prop := Forall (fun o => array_of h (o_type o) (o_ref o)) ops.

(** With the indices as in [env], the expression has value [x]: each operator works on values of the types of its operands and
    gives one of the type that the language says; [min] and [max] give their second operand only if it is less, or greater *)
Fixpoint t_computes (h : heap (tval L)) (env : list Z) {t : ty} (e : texpr L t) : val t -> Prop :=
  match e in texpr _ t return val t -> Prop with
  | TArr _ t _ _ r is_ => fun x => holds h (elem (r_base r) (r_shape r) (values_of is_ env)) (existT _ t x)
  | TFn _ t f is_ => fun x => x = f (values_of is_ env)
  | TNeg _ t e => fun x => exists y, t_computes h env e y /\ x = neg L t y
  | TCast _ t t' e => fun x => exists y, t_computes h env e y /\ x = conv L t t' y
  | TBin _ o t t' a b => fun x => exists y z, t_computes h env a y /\ t_computes h env b z /\ x = bin L o t t' y z
  | TMin _ t a b => fun x => exists y z, t_computes h env a y /\ t_computes h env b z /\
      (less L t z y = true -> x = z) /\ (less L t z y = false -> x = y)
  | TMax _ t a b => fun x => exists y z, t_computes h env a y /\ t_computes h env b z /\
      (less L t y z = true -> x = z) /\ (less L t y z = false -> x = y)
  end.
(** [new] is what an object of type [t] that was [old] is after [=], [+=], [-=], [*=] with a value of type [t'] *)
Definition assigns (a : asg_op) (t t' : ty) (old : val t) (x : val t') (new : val t) : Prop :=
  match a with
  | op_assign => new = conv L t' t x
  | op_add_assign => new = conv L _ t (bin L op_add t t' old x)
  | op_sub_assign => new = conv L _ t (bin L op_sub t t' old x)
  | op_mul_assign => new = conv L _ t (bin L op_mul t t' old x)
  end.
(** One assignment after the other *)
Fixpoint assigns_all (a : asg_op) (t t' : ty) (old : val t) (xs : list (val t')) (new : val t) : Prop :=
  match xs with
  | [] => new = old
  | x :: xs => exists mid, assigns a t t' old x mid /\ assigns_all a t t' mid xs new
  end.
(** [w] is the result of the assignments of the values that the expression takes, in the order of the loops, for the index values
    satisfying [P] *)
Definition t_reduces (h : heap (tval L)) (a : asg_op) (t : ty) {t' : ty} (e : texpr L t') (P : list Z -> Prop) (old w : val t) : Prop :=
  exists envs xs, enumerates P envs /\ StronglySorted colex_lt envs /\
    Forall2 (fun env x => t_computes h env e x) envs xs /\ assigns_all a t t' old xs w.

(** ** Compile time *)

(** A dim type is what is known of the bounds of a dim; these are known *)
Definition bounds_fit (t : dimT) (d : dim) : Prop := fits (tmin t) (dmin d) /\ fits (text t) (dext d).
Definition bounds_known (t : dimT) : Prop := tmin t <> -9 /\ text t <> -9.
(** The shapes of the operands have their types *)
Definition operands_fit (ops : list operand) : Prop := Forall (fun o => Forall2 bounds_fit (o_dims o) (r_shape (o_ref o))) ops.
Definition all_known (ops : list operand) : Prop := Forall (fun o => Forall bounds_known (o_dims o)) ops.
(** One index per dimension *)
Definition typed_ranks (ops : list operand) : Prop := Forall (fun o => length (o_is o) = length (o_dims o)) ops.
(** A dimension with dim type [t] of one of the operands is addressed by index [k] *)
Definition type_addressed (ops : list operand) (k : nat) (t : dimT) : Prop :=
  exists o, In o ops /\ In (k, t) (combine (o_is o) (o_dims o)).
(** Nothing has bounds of both types *)
Definition clash (s t : dimT) : Prop := ~ exists d, bounds_fit s d /\ bounds_fit t d.
(** All dimensions that an index addresses have the same bounds *)
Definition same_spans (ops : list (aref * list nat)) : Prop :=
  exists B : nat -> span, forall k d, addressed ops k d -> span_is (B k) d.
(** The expression is an array operand, which is not const, of the type of the result with the same indices *)
Definition is_operand_like (t : ty) (ts : list dimT) (out : list nat) {t' : ty} (e : texpr L t') : Prop :=
  match e with
  | TArr _ t' cst ts' _ is_ => t' = t /\ cst = false /\ ts' = ts /\ is_ = out
  | _ => False
  end.
End Typed.
Arguments mkOp {L}. Arguments o_type {L}. Arguments o_dims {L}. Arguments o_ref {L}. Arguments o_is {L}.
Arguments untyped {L}.
Arguments object {L}. Arguments array_of {L}. Arguments typed_operands {L} {t}. Arguments typed_labels {L} {t}.
Arguments operands_typed {L}. Arguments t_computes {L} h env {t}. Arguments assigns {L}. Arguments assigns_all {L}.
Arguments t_reduces {L} h a t {t'}. Arguments operands_fit {L}. Arguments all_known {L}. Arguments typed_ranks {L}.
Arguments type_addressed {L}. Arguments is_operand_like {L} t ts out {t'}.
