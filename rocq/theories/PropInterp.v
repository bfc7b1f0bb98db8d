(** Legal programs with arrays compute what a reference interpreter computes that has no memory, no pointers and no
    layouts: an array is its allocator, its shape, whether it has memory, and a function from indices to elements. *)
From Coq Require Import ZArith List Bool.
From Verif Require Import Base Interval Shape Memory Ref Container Program Spec SpecMem SpecContainer SpecProgram SpecInterp SpecRelate
  ContainerCases ProgramCases InterpFacts RelateFacts InterpCases.
Import ListNotations.
Open Scope Z_scope.

(** ** C77: a reference interpreter *)

(** The legal programs are those the interpreter allows, and they end with the arrays it computes. *)
Theorem C77_programs : exists visit, numbering visit /\
  forall V (c : config V) ops, fair c ->
    (alegal c empty_world ops <-> all_allowed c visit no_values ops) /\
    (alegal c empty_world ops -> exists w, arun c ops empty_world = Ok w /\ shows_values c w (interps c visit ops no_values)).
Proof. exact interpreter. Qed.
Print Assumptions C77_programs.
Theorem C77_statements : exists visit, numbering visit /\
  forall V (c : config V) w vs o, fair c -> areachable c w -> shows_values c w vs ->
    (legal_act c w o <-> allowed c vs o) /\
    (legal_act c w o -> exists w', astep c w o = Ok w' /\ shows_values c w' (interp c visit vs o)).
Proof. exact statements. Qed.
Print Assumptions C77_statements.
Theorem C77_states : forall V (c : config V), fair c -> forall w, areachable c w -> exists vs, shows_values c w vs.
Proof. exact (@reach_shows). Qed.
Print Assumptions C77_states.
(** A program that is legal in a debug build is legal in a release build, and ends with the same arrays. *)
Theorem C77_builds : forall V (c : config V), fair c -> forall ops, alegal c empty_world ops ->
  alegal (release c) empty_world ops /\
  exists w w', arun c ops empty_world = Ok w /\ arun (release c) ops empty_world = Ok w' /\
    w_next w = w_next w' /\ forall x, same_array w w' x.
Proof. exact (@builds). Qed.
Print Assumptions C77_builds.

(** A program with every algorithm, and one with a swap, a reshape and a self-assignment: the interpreter's arrays
    and those of the model with memory *)
Example C77_example :
  fair debug2 /\ alegal debug2 empty_world aprog /\ alegal debug2 empty_world bprog /\
  outcome_of debug2 aprog 3 at_A = Some (1%nat, true, [mkD 2 3 1; mkD (-1) 2 (-7)], [100; -1; -1; 101; -1; -1]) /\
  contents (astate debug2 aprog) 3%nat = map Some [100; -1; -1; 101; -1; -1] /\
  outcome_of debug2 bprog 0 at_small = Some (0%nat, false, dyn2, [0; 0; 0; 0]) /\ contents (astate debug2 bprog) 0%nat = [] /\
  outcome_of debug2 bprog 1 at_small = Some (1%nat, true, [mkD 3 2 1; mkD (-1) 2 2], [29; 39; 30; 40]) /\
  contents (astate debug2 bprog) 1%nat = map Some [29; 39; 30; 40] /\
  outcome_of debug2 bprog 4 at_small = Some (0%nat, true, [mkD 3 2 1; mkD (-1) 2 2], [7; 7; 7; 7]) /\
  contents (astate debug2 bprog) 4%nat = map Some [7; 7; 7; 7] /\
  contents (astate (release debug2) bprog) 1%nat = map Some [29; 39; 30; 40].
Proof.
  split; [apply fair2; left; reflexivity|]. split; [apply alegalb_ok; vm_compute; reflexivity|].
  split; [apply alegalb_ok; vm_compute; reflexivity|].
  vm_compute. auto 20.
Qed.
