(** Concrete programs for the examples of PropUninit.v. *)
From Coq Require Import ZArith List Bool Lia.
From Verif Require Import Base Interval Shape Memory Ref Container Program Uninit Spec SpecMem SpecContainer SpecProgram SpecParam Tac
  ContainerCases ProgramFacts ProgramCases UninitFacts.
Import ListNotations.
Open Scope Z_scope.

Definition elements {V} (w : world V) (x : nat) : list (option V) :=
  match w_arr w x with
  | Some a => map (fun i => match peek (w_heap w) (elem (a_base a) (a_shape a) i) with Some (Live v) => Some v | _ => None end)
                  (rect (a_shape a))
  | None => []
  end.
Definition result {V} (r : outcome (world V)) : world V := match r with Ok w => w | _ => empty_world end.
(** The same arrays with 1000 - v in place of v *)
Definition mirror2 : config Z := mkC false false false false (fun a => a) 0 (-1) dyn2 1000 (fun _ => 1001).
Definition mirror (o : act Z) : act Z :=
  match o with
  | Fill x v => Fill x (1000 - v)
  | Generate x g => Generate x (fun k => 1000 - g k)
  | Transform x g => Transform x (fun i => 1000 - g i)
  | o => o
  end.
Lemma mirror_config : rel_config (fun v v' => v' = 1000 - v) debug2 mirror2.
Proof. repeat split; auto. Qed.
Lemma mirror_rels : Forall2 (rel_act (fun v v' => v' = 1000 - v)) aprog (map mirror aprog).
Proof. repeat constructor; simpl; auto. Qed.
(** Ordinary numbers; moving leaves the source as it was *)
Definition plain2 (dv : Z) : config Z := mkC false false false false (fun a => a) 0 (-1) dyn2 dv (fun v => v).
Lemma plain_fair dv : fair (plain2 dv).
Proof. apply (fair2 false false false false (-1)). left. reflexivity. Qed.
Definition uprog : list (act Z) :=
  [ Run (New shapeA 0);                       (* 0 *)
    Run (Write 0%nat [3; 0] 7);
    Run (NewMoveAlloc 0%nat 1);               (* 1 *)
    Run (NewValue small 2 0);                 (* 2 *)
    Run (MakeCopy 2%nat small 1);             (* 3 *)
    Run (Reshape 2%nat shapeA) ].
