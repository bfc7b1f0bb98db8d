(** Legal programs with arrays and array_refs compute what a reference interpreter computes in which an array_ref is the
    name of an array and a function from its indices to indices of that array. *)
From Coq Require Import ZArith List Bool.
From Verif Require Import Base Interval Shape Memory Ref Container Program Views Spec SpecMem SpecContainer SpecProgram SpecViews SpecInterp SpecRelate
  SpecInterpViews ContainerCases ProgramCases ViewsCases InterpViewsFacts InterpViewsCases.
Import ListNotations.
Open Scope Z_scope.

(** ** C79: a reference interpreter for array_refs *)

(** The legal programs are those the interpreter allows; they read what it reads, and end with its arrays and
    array_refs. *)
Theorem C79_programs : exists visit order, numbering visit /\ copy_sequence order /\
  forall V (c : config V) ops, fair c ->
    (vlegal c vempty [] ops <-> all_vallowed c visit order nothing ops) /\
    (vlegal c vempty [] ops -> exists st, vrun c ops vempty = Ok st /\ shows_state c st (vinterps c visit order ops nothing)).
Proof. exact view_interpreter. Qed.
Print Assumptions C79_programs.
(** A program that is legal in a debug build is legal in a release build, and reads the same. *)
Theorem C79_builds : forall V (c : config V), fair c -> forall ops, vlegal c vempty [] ops ->
  vlegal (release c) vempty [] ops /\
  exists st st', vrun c ops vempty = Ok st /\ vrun (release c) ops vempty = Ok st' /\ vs_out st = vs_out st' /\
    w_next (vs_world st) = w_next (vs_world st') /\ forall x, same_array (vs_world st) (vs_world st') x.
Proof. exact view_builds. Qed.
Print Assumptions C79_builds.

(** A program whose array_refs follow their elements through a move and a swap, until they are destroyed *)
Example C79_example :
  fair debug2 /\ vlegal debug2 vempty [] vprog /\
  map (@vv_of) (is_refs (istate_of debug2 vprog)) = [None; None; None; None; Some 1%nat] /\
  is_out (istate_of debug2 vprog) = vs_out (vstate_of debug2 vprog) /\
  is_out (istate_of debug2 vprog) = [7; 40; 39] /\
  vs_out (vstate_of (release debug2) vprog) = [7; 40; 39] /\
  elements (istate_of debug2 (firstn 15 vprog)) 2 [[2; -1]; [2; 0]; [3; 0]; [4; -1]] = Some [5; 5; 7; 19] /\
  elements (istate_of debug2 vprog) 2 [[3; -1]] = Some [1].
Proof.
  split; [apply fair2; left; reflexivity|]. split; [apply vlegalb_ok; vm_compute; reflexivity|]. vm_compute. auto 10.
Qed.
(** Overlapping copies: the last element of row 2 gets the 0 that its first element was just given, not the 20 it had *)
Example C79_example_overlap :
  vlegal debug2 vempty [] (overlap 0 2) /\ vlegal debug2 vempty [] (overlap 2 0) /\
  is_out (istate_of debug2 (overlap 0 2)) = [2; 22] /\ vs_out (vstate_of debug2 (overlap 0 2)) = [2; 22] /\
  is_out (istate_of debug2 (overlap 2 0)) = [0; 0] /\ vs_out (vstate_of debug2 (overlap 2 0)) = [0; 0] /\
  elements (istate_of debug2 (overlap 2 0)) 0 at_square = Some [0; 1; 2; 10; 11; 12; 0; 10; 0].
Proof.
  split; [apply vlegalb_ok; vm_compute; reflexivity|]. split; [apply vlegalb_ok; vm_compute; reflexivity|]. vm_compute. auto 10.
Qed.
