(** Specification vocabulary for threads: executions, data races, and which elements a call may
    read and write.  Of the model only types, memory and single steps of programs are used. *)
From Coq Require Import ZArith List Bool.
From Verif Require Import Base Interval Shape Memory Ref Ein Spec SpecMem SpecEin SpecMatrix Threads.
Import ListNotations.
Open Scope Z_scope.

Section Threads.
Context {V A : Type}.

(** One thread makes one step *)
Inductive step : heap V * list (prog V A) -> heap V * list (prog V A) -> Prop :=
| a_thread h ms k m h' m' : nth_error ms k = Some m -> advance h m = Ok (Some (h', m')) ->
    step (h, ms) (h', set_nth k m' ms).
(** An execution of [n] steps; which thread goes next is arbitrary *)
Inductive steps : nat -> heap V * list (prog V A) -> heap V * list (prog V A) -> Prop :=
| no_steps s : steps 0 s s
| more_steps n s s' s'' : steps n s s' -> step s' s'' -> steps (S n) s s''.

(** All threads have returned *)
Definition finished (s : heap V * list (prog V A)) : Prop := Forall (fun m => exists a, m = Ret a) (snd s).
(** Some thread is about to fail an assertion or to access something that is not an object *)
Definition fails (s : heap V * list (prog V A)) : Prop :=
  exists m, In m (snd s) /\ (advance (fst s) m = AssertFail \/ advance (fst s) m = UB).
(** The next access of a program: where, and whether it writes *)
Definition next_access (m : prog V A) : option (ptr * bool) :=
  match m with
  | Ld p _ => Some (p, false)
  | St p _ _ => Some (p, true)
  | _ => None
  end.
(** Two threads are about to access the same element, one of them to write it *)
Definition race (s : heap V * list (prog V A)) : Prop :=
  exists j k mj mk p wj wk, j <> k /\ nth_error (snd s) j = Some mj /\ nth_error (snd s) k = Some mk /\
    next_access mj = Some (p, wj) /\ next_access mk = Some (p, wk) /\ (wj = true \/ wk = true).

(** The accesses of a program that runs alone from [h] *)
Fixpoint accesses (m : prog V A) (h : heap V) : list (ptr * bool) :=
  match m with
  | Ld p k => (p, false) :: match load h p with Ok v => accesses (k v) h | _ => [] end
  | St p v k => (p, true) :: match store h p v with Ok h' => accesses k h' | _ => [] end
  | _ => []
  end.
Definition reads_elem (m : prog V A) (h : heap V) (p : ptr) : Prop := In (p, false) (accesses m h).
Definition writes_elem (m : prog V A) (h : heap V) (p : ptr) : Prop := In (p, true) (accesses m h).
(** No thread, run alone from [h], writes what another, run alone from [h], reads or writes *)
Definition independent (h : heap V) (ms : list (prog V A)) : Prop :=
  forall j k mj mk p, j <> k -> nth_error ms j = Some mj -> nth_error ms k = Some mk ->
    writes_elem mj h p -> ~ reads_elem mk h p /\ ~ writes_elem mk h p.
(** Each thread, run alone from [h], returns *)
Definition each_returns (h : heap V) (ms : list (prog V A)) : Prop :=
  Forall (fun m => exists r, run m h = Ok r) ms.
(** How many accesses the threads make, each run alone *)
Definition work (h : heap V) (ms : list (prog V A)) : nat := list_sum (map (fun m => length (accesses m h)) ms).
(** [s] is what the threads do together: each returns what it returns alone and leaves in the
    elements it writes what it leaves there alone; nothing else changes *)
Definition together (h : heap V) (ms : list (prog V A)) (s : heap V * list (prog V A)) : Prop :=
  length (snd s) = length ms /\
  (forall k m a hk, nth_error ms k = Some m -> run m h = Ok (a, hk) ->
     nth_error (snd s) k = Some (Ret a) /\ (forall p, writes_elem m h p -> peek (fst s) p = peek hk p)) /\
  only_changes (fun p => exists m, In m ms /\ writes_elem m h p) h (fst s).
(** One after the other, in the order of the list *)
Fixpoint one_by_one (ms : list (prog V A)) (h : heap V) : outcome (heap V) :=
  match ms with
  | [] => Ok h
  | m :: r => ' (_, h') <- run m h ;; one_by_one r h'
  end.
End Threads.

(** The same memory *)
Definition same_memory {V : Type} (h h' : heap V) : Prop := only_changes (fun _ => False) h h'.

Section Calls.
Context {V : Type}.

(** The elements of the view are objects *)
Definition view_alive (h : heap V) (r : aref) : Prop :=
  forall i, in_bounds (r_shape r) i -> alive h (elem (r_base r) (r_shape r) i).
(** Element of [src] at an index of [dst] *)
Definition is_source (src dst : aref) (p : ptr) : Prop :=
  exists i, in_bounds (r_shape dst) i /\ p = elem (r_base src) (r_shape src) i.
(** The index of a reduction takes the values [env] *)
Definition reduce_index (r : aref) (out : list nat) (e : expr V) (env : list Z) : Prop :=
  exists B n, ranges r out (operands e) B /\ loops n (out ++ labels e) /\ loop_index B n env.
(** The rows and columns of C and the sums of a product of matrices *)
Definition product_index (A B C : aref) (i j k : Z) : Prop :=
  exists ai ak bk bj ci cj, r_shape A = [ai; ak] /\ r_shape B = [bk; bj] /\ r_shape C = [ci; cj] /\
    in_dim ci i /\ in_dim cj j /\ in_dim ak k.
(** What is required of a call *)
Definition legal_call (h : heap V) (c : call V) : Prop :=
  match c with
  | KFill dst _ | KGenerate dst _ | KEach dst _ | KTransform dst _ | KUpdate dst _ =>
      extents_ge 0 (r_shape dst) /\ view_alive h dst
  | KCopy src dst | KMove _ src dst =>
      length (r_shape src) = length (r_shape dst) /\ extents_ge 0 (r_shape dst) /\
      within (r_shape dst) (r_shape src) /\ view_alive h src /\ view_alive h dst
  | KEqual _ a b =>
      length (r_shape a) = length (r_shape b) /\ extents_ge 0 (r_shape a) /\ extents_ge 0 (r_shape b) /\
      view_alive h a /\ view_alive h b
  | KReduce _ r out e =>
      ranks_match ((r, out) :: operands e) /\ operands_alive h ((r, out) :: operands e) /\
      exists B n, ranges r out (operands e) B /\ loops n (out ++ labels e)
  | KMultiply _ _ _ A B C =>
      (exists ai ak bk bj ci cj, r_shape A = [ai; ak] /\ r_shape B = [bk; bj] /\ r_shape C = [ci; cj] /\
         0 <= dext ci /\ 0 <= dext cj /\ 0 <= dext ak /\ inside ci ai /\ inside ak bk /\ inside cj bj) /\
      view_alive h A /\ view_alive h B /\ view_alive h C
  end.
(** The elements a call reads *)
Definition call_reads (c : call V) (p : ptr) : Prop :=
  match c with
  | KFill _ _ | KGenerate _ _ | KTransform _ _ => False
  | KEach dst _ | KUpdate dst _ => is_elem (r_base dst) (r_shape dst) p
  | KCopy src dst | KMove _ src dst => is_source src dst p
  | KEqual _ a b => map dmin (r_shape a) = map dmin (r_shape b) /\ map dext (r_shape a) = map dext (r_shape b) /\
      (is_elem (r_base a) (r_shape a) p \/ is_elem (r_base b) (r_shape b) p)
  | KReduce _ r out e => exists env r' is_, reduce_index r out e env /\ In (r', is_) ((r, out) :: operands e) /\
      p = elem (r_base r') (r_shape r') (values_of is_ env)
  | KMultiply _ _ _ A B C => exists i j k, product_index A B C i j k /\
      (p = elem (r_base A) (r_shape A) [i; k] \/ p = elem (r_base B) (r_shape B) [k; j] \/ p = elem (r_base C) (r_shape C) [i; j])
  end.
(** The elements a call writes *)
Definition call_writes (c : call V) (p : ptr) : Prop :=
  match c with
  | KFill dst _ | KGenerate dst _ | KEach dst _ | KTransform dst _ | KUpdate dst _ | KCopy _ dst
  | KMultiply _ _ _ _ _ dst => is_elem (r_base dst) (r_shape dst) p
  | KMove _ src dst => is_elem (r_base dst) (r_shape dst) p \/ is_source src dst p
  | KEqual _ _ _ => False
  | KReduce _ r out e => exists env, reduce_index r out e env /\ p = elem (r_base r) (r_shape r) (values_of out env)
  end.
(** No call writes what another reads or writes *)
Definition no_conflict (cs : list (call V)) : Prop :=
  forall j k cj ck p, j <> k -> nth_error cs j = Some cj -> nth_error cs k = Some ck -> call_writes cj p ->
    ~ call_reads ck p /\ ~ call_writes ck p.
(** One call after the other *)
Fixpoint calls_in_order (nd : bool) (cs : list (call V)) (h : heap V) : outcome (heap V) :=
  match cs with
  | [] => Ok h
  | c :: r => ' (_, h') <- call_seq nd c h ;; calls_in_order nd r h'
  end.
End Calls.
