(** Specification vocabulary for programs that use arrays and algorithms: which are legal. *)
From Coq Require Import ZArith List Bool.
From Verif Require Import Base Interval Shape Memory Ref Container Program Spec SpecMem SpecContainer.
Import ListNotations.
Open Scope Z_scope.

Section Program.
Context {V : Type}.

(** What the caller has to observe *)
Definition legal_act (c : config V) (w : world V) (o : act V) : Prop :=
  match o with
  | Run o => legal_op c w o
  | Fill x _ | Generate x _ | Transform x _ => exists_arr w x
  | FillElem x y i => exists_arr w x /\ exists b, w_arr w y = Some b /\ in_bounds (a_shape b) i
  | CopyTo y x => exists a b, w_arr w x = Some a /\ w_arr w y = Some b /\ within (a_shape a) (a_shape b)
  | MoveTo y x => y <> x /\ exists a b, w_arr w x = Some a /\ w_arr w y = Some b /\ within (a_shape a) (a_shape b)
  | MoveAll y x => exists_arr w x /\ may_copy c w y
  | AssignElem x s y i => exists_arr w x /\ shape_arg c s /\ y <> x /\
                          exists b, w_arr w y = Some b /\ in_bounds (a_shape b) i
  end.
(** Every statement is legal in the state it starts from *)
Fixpoint alegal (c : config V) (w : world V) (ops : list (act V)) : Prop :=
  match ops with
  | [] => True
  | o :: r => legal_act c w o /\ forall w', astep c w o = Ok w' -> alegal c w' r
  end.
(** States of legal programs *)
Definition areachable (c : config V) (w : world V) : Prop :=
  exists ops, alegal c empty_world ops /\ arun c ops empty_world = Ok w.
End Program.
