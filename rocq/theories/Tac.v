(** Tactics shared by the proof files. *)
From Coq Require Export ZArith List Bool Lia ZifyBool ZifyNat Permutation Sorted.
From Verif Require Export Base.

Ltac inv H := inversion H; subst; clear H.
(** Turn [if]s and boolean tests into cases. *)
Ltac ifs :=
  repeat match goal with
  | |- context [if ?b then _ else _] => destruct b eqn:?
  | H : context [if ?b then _ else _] |- _ => destruct b eqn:?
  end.
