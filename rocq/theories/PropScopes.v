(** Threads that declare arrays of their own. *)
From Coq Require Import ZArith List Bool Lia Arith.
From Verif Require Import Base Interval Shape Memory Ref Container Program Scopes Spec SpecMem SpecContainer SpecProgram SpecRelate SpecScopes
  ContainerCases ProgramCases InterpFacts InterpCases ScopesFacts ScopesCases.
Import ListNotations.
Open Scope Z_scope.

(** ** C89: threads that declare arrays *)

(** Threads that share no array when they begin, whatever arrays they declare: in every schedule no assertion fails and
    there is no UB, and each thread sees what it sees alone after as many statements as it had turns. *)
Theorem C89_threads : forall V (c : config V), fair c ->
  forall w P sched, areachable c w ->
  (forall j k x, j <> k -> (x < w_next w)%nat -> mentions (P j) x -> ~ mentions (P k) x) ->
  (forall k, alegal c w (P k)) ->
  exists T w', run_threads c sched (start (w_next w) P) w = Ok (T, w') /\
    (forall k, exists w1,
       arun c (firstn (count_occ Nat.eq_dec sched k) (P k)) w = Ok w1 /\
       snd (T k) = skipn (count_occ Nat.eq_dec sched k) (P k) /\ sc_next (fst (T k)) = w_next w1 /\
       forall x, (x < w_next w)%nat /\ mentions (P k) x \/ (w_next w <= x < w_next w1)%nat ->
         looks_like w1 x w' (sc_name (fst (T k)) x)) /\
    (forall x, (x < w_next w)%nat -> (forall k, ~ mentions (P k) x) -> looks_like w x w' x).
Proof. exact (@scopes_run). Qed.
Print Assumptions C89_threads.
(** The state reached is that of a legal program; the names of a thread stand for the arrays it began with and for
    arrays declared since, and each of these has one name in one thread. *)
Theorem C89_names : forall V (c : config V), fair c ->
  forall w P sched T w', areachable c w ->
  (forall j k x, j <> k -> (x < w_next w)%nat -> mentions (P j) x -> ~ mentions (P k) x) ->
  (forall k, alegal c w (P k)) ->
  run_threads c sched (start (w_next w) P) w = Ok (T, w') ->
  areachable c w' /\
  (forall k x, (x < w_next w)%nat -> sc_name (fst (T k)) x = x) /\
  (forall k x, (w_next w <= x < sc_next (fst (T k)))%nat -> (w_next w <= sc_name (fst (T k)) x < w_next w')%nat) /\
  (forall z, (w_next w <= z < w_next w')%nat ->
     exists! kx, (w_next w <= snd kx < sc_next (fst (T (fst kx))))%nat /\ sc_name (fst (T (fst kx))) (snd kx) = z).
Proof. exact (@scopes_names). Qed.
Print Assumptions C89_names.
(** In two schedules that run as many statements of a thread, it sees the same. *)
Theorem C89_order : forall V (c : config V), fair c ->
  forall w P s1 s2 T1 w1 T2 w2 k, areachable c w ->
  (forall j k x, j <> k -> (x < w_next w)%nat -> mentions (P j) x -> ~ mentions (P k) x) ->
  (forall k, alegal c w (P k)) ->
  run_threads c s1 (start (w_next w) P) w = Ok (T1, w1) -> run_threads c s2 (start (w_next w) P) w = Ok (T2, w2) ->
  Nat.min (count_occ Nat.eq_dec s1 k) (length (P k)) = Nat.min (count_occ Nat.eq_dec s2 k) (length (P k)) ->
  sc_next (fst (T1 k)) = sc_next (fst (T2 k)) /\
  forall x, (x < w_next w)%nat /\ mentions (P k) x \/ (w_next w <= x < sc_next (fst (T1 k)))%nat ->
    looks_like w1 (sc_name (fst (T1 k)) x) w2 (sc_name (fst (T2 k)) x).
Proof. exact (@scopes_order). Qed.
Print Assumptions C89_order.

(** Two threads with arrays of their own under the same names, in two schedules *)
Example C89_example :
  let w := astate debug2 start2 in
  let r1 := run_threads debug2 turns1 (start 3 scoped) w in let r2 := run_threads debug2 turns2 (start 3 scoped) w in
  fair debug2 /\ areachable debug2 w /\ w_next w = 3%nat /\
  (forall j k x, j <> k -> (x < 3)%nat -> mentions (scoped j) x -> ~ mentions (scoped k) x) /\
  (forall k, alegal debug2 w (scoped k)) /\
  map (sees r1 0) [0; 3]%nat = [Some (0%nat, map Some [9; 9; 9; 9; 8; 9]); Some (4%nat, map Some [1; 1; 1; 1; 1; 1])] /\
  map (sees r2 0) [0; 3]%nat = [Some (0%nat, map Some [9; 9; 9; 9; 8; 9]); Some (3%nat, map Some [1; 1; 1; 1; 1; 1])] /\
  map (sees r1 1) [1; 3; 4]%nat = [Some (1%nat, map Some [4; 4; 5; 4]); Some (3%nat, []); Some (6%nat, map Some [6; 6; 6; 6; 6; 6])] /\
  map (sees r2 1) [1; 3; 4]%nat = [Some (1%nat, map Some [4; 4; 5; 4]); Some (5%nat, []); Some (6%nat, map Some [6; 6; 6; 6; 6; 6])].
Proof.
  cbv zeta. split; [apply fair2; left; reflexivity|].
  split; [apply astate_reachable; [apply fair2; left; reflexivity|vm_compute; reflexivity]|].
  split; [vm_compute; reflexivity|]. split; [exact scoped_apart|]. split; [exact scoped_legal|].
  vm_compute. auto.
Qed.
