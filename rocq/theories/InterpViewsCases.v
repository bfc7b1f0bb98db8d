(** Concrete programs for the examples of PropInterpViews.v. *)
From Coq Require Import ZArith List Bool.
From Verif Require Import Base Interval Shape Memory Ref Container Program Views Spec SpecMem SpecContainer SpecProgram SpecViews SpecInterp
  SpecInterpViews ContainerCases ProgramCases ViewsCases InterpFacts InterpViewsFacts.
Import ListNotations.
Open Scope Z_scope.

(** The interpreter's state after a program *)
Definition istate_of (c : config Z) (ops : list (vact Z)) : view_state Z := vinterps c visits orders ops nothing.
(** The elements of array [x] at some indices *)
Definition elements (is : view_state Z) (x : nat) (l : list (list Z)) : option (list Z) :=
  option_map (fun a => map (v_at a) l) (vs_arr (is_vals is) x).
(** A square, and a copy of a column to a row, which share an element: what is copied from there depends on the order *)
Definition square : list dim := [mkD 0 3 3; mkD 0 3 1].
Definition at_square : list (list Z) := [[0; 0]; [0; 1]; [0; 2]; [1; 0]; [1; 1]; [1; 2]; [2; 0]; [2; 1]; [2; 2]].
Definition overlap (row column : Z) : list (vact Z) :=
  [ Do (Run (New square 0));                          (* array 0 *)
    Do (Transform 0%nat (fun i => match i with [x; y] => 10 * x + y | _ => 0 end));
    Ref 0%nat;                                        (* array_ref 0: all of it *)
    Slice 0%nat [AAll; AIdx column];                  (* array_ref 1 *)
    Slice 0%nat [AIdx row; AAll];                     (* array_ref 2 *)
    CopyRef 1%nat 2%nat;
    Get 2%nat [2];
    Get 2%nat [0] ].
