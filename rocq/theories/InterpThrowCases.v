(** Concrete cases for C82. *)
From Coq Require Import ZArith List Bool.
From Verif Require Import Base Interval Shape Memory Ref Container Throw Spec SpecMem SpecContainer SpecThrow SpecInterp SpecInterpThrow
  ContainerCases ThrowCases InterpThrowStep.
Import ListNotations.
Open Scope Z_scope.

(** Tests: no counterpart in the code. An array the interpreter leaves: allocator, whether it has memory, shape, elements at [l] *)
Definition left_of (c : config Z) (ops : list (op Z * option nat)) (x : nat) (l : list (list Z)) :=
  match vs_arr (xinterps c ops no_values) x with
  | Some a => Some (v_al a, v_mem a, v_shape a, map (v_at a) l)
  | None => None
  end.
Definition at_A : list (list Z) := [[2; -1]; [3; -1]; [4; -1]; [2; 0]; [3; 0]; [4; 0]].

Lemma example :
  fair debug2 /\ xlegal debug2 empty_world (xprog ++ xrecover) /\ xlegal auto2 empty_world (xprog ++ xrecover) /\
  xthrows debug2 (xprog ++ xrecover) no_values = [false; true; false; false; true; true; true; true; true; true; false; true; false] /\
  xthrows auto2 (xprog ++ xrecover) no_values = [false; true; false; false; true; false; true; true; true; true; false; true; false] /\
  left_of debug2 xprog 0%nat at_A = Some (0%nat, true, [mkD 2 3 1; mkD (-1) 2 (-7)], [5; 9; 5; 5; 5; 5]) /\
  left_of debug2 xprog 2%nat [] = Some (1%nat, false, [mkD 2 3 1; mkD (-1) 2 (-7)], []) /\
  left_of debug2 (xprog ++ xrecover) 2%nat at_A = Some (1%nat, true, [mkD 2 3 1; mkD (-1) 2 (-7)], [5; 9; 5; 5; 5; 5]) /\
  contents (xstate debug2 (xprog ++ xrecover)) 2%nat = map Some [5; 9; 5; 5; 5; 5] /\
  length (requests debug2 (xinterps debug2 (xprog ++ xrecover) no_values) (Swap 0%nat 2%nat)) = 2%nat.
Proof.
  split; [apply fair2; left; reflexivity|].
  split; [apply xlegalb_ok; vm_compute; reflexivity|]. split; [apply xlegalb_ok; vm_compute; reflexivity|].
  repeat split; vm_compute; reflexivity.
Qed.
