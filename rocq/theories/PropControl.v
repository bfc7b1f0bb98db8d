(** Programs with control flow: each statement is chosen from the program's variables and from what it has read and seen
    so far, so they include conditionals, loops and programs that do not end. *)
From Coq Require Import ZArith List Bool.
From Verif Require Import Base Interval Shape Memory Ref Container Program Views Control Spec SpecMem SpecContainer SpecProgram SpecViews SpecInterp SpecRelate
  SpecInterpViews SpecControl ContainerCases ProgramCases ViewsCases InterpFacts InterpViewsFacts ControlFacts ControlCases.
Import ListNotations.
Open Scope Z_scope.

(** ** C81: programs with control flow *)

(** After any number of statements, the program and the program run by the interpreter have the same variables, have seen
    the same, and so go on with the same statement or have both ended; their arrays and array_refs are the same.  The
    program is legal if and only if the interpreter allows it. *)
Theorem C81_programs : exists visit order, numbering visit /\ copy_sequence order /\
  forall V K (c : config V) (turn : K -> sight V -> option (vact V * K)) n k, fair c ->
    (legal_play c turn n k vempty [] <-> allowed_play c turn visit order n k nothing) /\
    (legal_play c turn n k vempty [] -> exists k' st is,
      play c turn n k vempty = Ok (k', st) /\ iplay c turn visit order n k nothing = (k', is) /\ shows_state c st is /\ sees st = isees is).
Proof. exact control_interpreter. Qed.
Print Assumptions C81_programs.
(** Its states are states of legal programs without control flow, so all that is proved of these (C73) is true of it. *)
Theorem C81_states : forall V K (c : config V) (turn : K -> sight V -> option (vact V * K)) n k, fair c ->
  legal_play c turn n k vempty [] -> exists k' st own, play c turn n k vempty = Ok (k', st) /\ vreachable c st own.
Proof. exact control_reachable. Qed.
Print Assumptions C81_states.
(** A program that is legal in a debug build is legal in a release build, and does the same there. *)
Theorem C81_builds : forall V K (c : config V), fair c -> forall (turn : K -> sight V -> option (vact V * K)) n k,
  legal_play c turn n k vempty [] ->
  legal_play (release c) turn n k vempty [] /\
  exists k' st st', play c turn n k vempty = Ok (k', st) /\ play (release c) turn n k vempty = Ok (k', st') /\ sees st = sees st' /\
    forall x, same_array (vs_world st) (vs_world st') x.
Proof. exact @control_builds. Qed.
Print Assumptions C81_builds.
(** A program that has ended stays as it is. *)
Theorem C81_end : forall V K (c : config V) (turn : K -> sight V -> option (vact V * K)) n k k' st,
  play c turn n k vempty = Ok (k', st) -> turn k' (sees st) = None ->
  forall m, (n <= m)%nat -> play c turn m k vempty = Ok (k', st).
Proof. exact (fun V K c turn n k k' st => play_end c turn n k vempty k' st). Qed.
Print Assumptions C81_end.

(** A program that sorts a column of an array through an array_ref.  How many statements it runs depends on the elements:
    it has ended after 34, having read 22 elements. *)
Example C81_example :
  fair debug2 /\ legal_play debug2 (sort table 0 numbers) 40 Declare vempty [] /\
  option_map (fun r => (fst r, length (s_read (sees (snd r))))) (after_play debug2 34) = Some (Decide 7, 22%nat) /\
  match after_play debug2 34 with Some (k, st) => sort table 0 numbers k (sees st) = None | None => False end /\
  elements_after debug2 4 = Some [3; 9; 3; 1; 0] /\ elements_after debug2 20 = Some [3; 3; 1; 9; 0] /\
  elements_after debug2 34 = Some [1; 3; 3; 9; 0].
Proof.
  split; [apply fair2; left; reflexivity|]. split; [apply legal_playb_ok; vm_compute; reflexivity|]. vm_compute. auto 10.
Qed.
