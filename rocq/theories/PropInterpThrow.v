(** Programs in which allocations fail compute what a reference interpreter without memory computes: which statements
    throw, and what is left of the arrays. *)
From Coq Require Import ZArith List Bool.
From Verif Require Import Base Interval Shape Memory Ref Container Throw Spec SpecMem SpecContainer SpecThrow SpecInterp SpecInterpThrow
  ContainerCases ThrowCases InterpThrowStep InterpThrowCases.
Import ListNotations.
Open Scope Z_scope.

(** ** C82: a reference interpreter for programs in which allocations fail *)

(** The legal programs are those the interpreter allows; the statements throw that it says, and they end with the
    arrays it computes. *)
Theorem C82_programs : forall V (c : config V), fair c -> forall ops,
  (xlegal c empty_world ops <-> all_xallowed c no_values ops) /\
  (xlegal c empty_world ops -> exists w, xrun c (with_allocs ops) empty_world = Ok w /\
     shows_xvalues c w (xinterps c ops no_values) /\ exceptions c ops empty_world = xthrows c ops no_values).
Proof. exact (@xprograms). Qed.
Print Assumptions C82_programs.
Theorem C82_statements : forall V (c : config V), fair c -> forall w vs o n, xreachable c w -> shows_xvalues c w vs ->
  (xlegal_op c w o <-> xallowed c vs o) /\
  (xlegal_op c w o -> exists r, xstep c w o (allocs n) = Ok r /\ shows_xvalues c (fst (settle r)) (fst (xinterp c vs o n)) /\
     snd (settle r) = snd (xinterp c vs o n)).
Proof. exact (@xstatements). Qed.
Print Assumptions C82_statements.
(** A statement throws exactly when one of its requests for memory fails. *)
Theorem C82_counts : forall V (c : config V), fair c -> forall w vs o n, xreachable c w -> shows_xvalues c w vs -> xlegal_op c w o ->
  exists r, xstep c w o (allocs n) = Ok r /\
    (snd (settle r) = true <-> exists k, n = Some k /\ (k < length (requests c vs o))%nat).
Proof. exact (@xcounts). Qed.
Print Assumptions C82_counts.
(** What is left then depends on the request that failed. *)
Theorem C82_thrown : forall V (c : config V), fair c -> forall w vs o k w', xreachable c w -> shows_xvalues c w vs -> xlegal_op c w o ->
  xstep c w o (allocs (Some k)) = Ok (Threw w') -> exists vs', nth_error (requests c vs o) k = Some vs' /\ shows_xvalues c w' vs'.
Proof. exact (@xthrown). Qed.
Print Assumptions C82_thrown.
Theorem C82_states : forall V (c : config V), fair c -> forall w, xreachable c w -> exists vs, shows_xvalues c w vs.
Proof. exact (@xstates). Qed.
Print Assumptions C82_states.

(** The program with failures everywhere, with two kinds of allocators: which statements throw, and the arrays *)
Example C82_example :
  fair debug2 /\ xlegal debug2 empty_world (xprog ++ xrecover) /\ xlegal auto2 empty_world (xprog ++ xrecover) /\
  xthrows debug2 (xprog ++ xrecover) no_values = [false; true; false; false; true; true; true; true; true; true; false; true; false] /\
  xthrows auto2 (xprog ++ xrecover) no_values = [false; true; false; false; true; false; true; true; true; true; false; true; false] /\
  left_of debug2 xprog 0%nat at_A = Some (0%nat, true, [mkD 2 3 1; mkD (-1) 2 (-7)], [5; 9; 5; 5; 5; 5]) /\
  left_of debug2 xprog 2%nat [] = Some (1%nat, false, [mkD 2 3 1; mkD (-1) 2 (-7)], []) /\
  left_of debug2 (xprog ++ xrecover) 2%nat at_A = Some (1%nat, true, [mkD 2 3 1; mkD (-1) 2 (-7)], [5; 9; 5; 5; 5; 5]) /\
  contents (xstate debug2 (xprog ++ xrecover)) 2%nat = map Some [5; 9; 5; 5; 5; 5] /\
  length (requests debug2 (xinterps debug2 (xprog ++ xrecover) no_values) (Swap 0%nat 2%nat)) = 2%nat.
Proof. exact example. Qed.
