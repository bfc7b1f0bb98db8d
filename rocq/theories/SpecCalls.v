(** Specification of calls, without overloads or constraints: what an argument is by its type, and the typed value
    it stands for. *)
From Coq Require Import ZArith List.
From Verif Require Import Base Interval Shape Static Typed Calls.
Import ListNotations.
Open Scope Z_scope.

(** An argument that implicitly becomes an index *)
Inductive an_index : argT -> Prop :=
| is_index_t : an_index TyIndex
| is_arithmetic : an_index TyArith
| is_index_like : an_index TyIndexLike.
(** An argument that is a range of indices *)
Inductive a_range : argT -> Prop :=
| is_interval t : a_range (TyInterval t)
| is_dim t : a_range (TyDim t).

(** A value of that type, indices being converted *)
Inductive has_type : argT -> targ -> Prop :=
| value_index a x : an_index a -> has_type a (TIdx x)
| value_interval t i : has_type (TyInterval t) (TInt t i)
| value_dim t d : has_type (TyDim t) (TDim t d).

(** A common value of two template arguments exists, -9 standing for any *)
Definition meet (a b : Z) : Prop := a = b \/ a = -9 \/ b = -9.
(** A dim of one type can be a dim of the other *)
Definition dims_meet (a b : dimT) : Prop := meet (tmin a) (tmin b) /\ meet (text a) (text b) /\ meet (tstr a) (tstr b).
