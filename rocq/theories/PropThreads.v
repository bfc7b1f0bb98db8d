(** C76: threads that use the library at the same time. *)
From Coq Require Import ZArith List Bool Permutation.
From Verif Require Import Base Interval Shape Memory Ref Ein Matrix Tiling Spec SpecMem SpecStatic SpecContainer SpecEin SpecMatrix
  ContainerCases EinCases MatrixCases Threads SpecThreads ThreadsFacts ThreadsCalls ThreadsTiles ThreadsCases.
Import ListNotations.
Open Scope Z_scope.

(** ** What a call does to memory *)
(** Run alone, the programs are the algorithms of the sequential model. *)
Theorem C76_sequential : forall (V : Type) (nd : bool) (c : call V) (h : heap V), run (call_prog nd c) h = call_seq nd c h.
Proof. exact @calls_sequential. Qed.
(** A legal call returns.  It reads and writes exactly the elements the specification names. *)
Theorem C76_footprint : forall (V : Type) (nd : bool) (h : heap V) (c : call V), legal_call h c ->
  (exists r, run (call_prog nd c) h = Ok r) /\
  (forall p, reads_elem (call_prog nd c) h p <-> call_reads c p) /\
  (forall p, writes_elem (call_prog nd c) h p <-> call_writes c p).
Proof. exact @footprint_is. Qed.

(** ** Calls at the same time *)
(** No call writes what another reads or writes: whatever the schedule, nothing races, nothing
    fails, and after finitely many steps each call has returned what it returns when it is
    made alone, and left behind what it leaves behind alone. *)
Theorem C76_calls : forall (V : Type) (nd : bool) (h : heap V) (cs : list (call V)) (n : nat) s,
  Forall (legal_call h) cs -> no_conflict cs -> steps n (h, map (call_prog nd) cs) s ->
  ~ race s /\ ~ fails s /\ (n <= work h (map (call_prog nd) cs))%nat /\ (finished s \/ exists s', step s s') /\
  (finished s -> forall k c, nth_error cs k = Some c ->
     exists a hk, call_seq nd c h = Ok (a, hk) /\ nth_error (snd s) k = Some (Ret a) /\
       (forall p, call_writes c p -> peek (fst s) p = peek hk p)) /\
  (finished s -> forall p, (forall c, In c cs -> ~ call_writes c p) -> peek (fst s) p = peek h p).
Proof. exact @calls_parallel. Qed.
(** Some execution finishes. *)
Theorem C76_finishes : forall (V : Type) (nd : bool) (h : heap V) (cs : list (call V)),
  Forall (legal_call h) cs -> no_conflict cs ->
  exists s, steps (work h (map (call_prog nd) cs)) (h, map (call_prog nd) cs) s /\ finished s.
Proof. exact @calls_complete. Qed.
(** One after the other, in any order, the calls leave the same memory. *)
Theorem C76_any_order : forall (V : Type) (nd : bool) (h : heap V) (cs cs' : list (call V)),
  Forall (legal_call h) cs -> no_conflict cs -> Permutation cs cs' ->
  exists h', calls_in_order nd cs' h = Ok h' /\
    forall n s, steps n (h, map (call_prog nd) cs) s -> finished s -> same_memory h' (fst s).
Proof. exact @calls_any_order. Qed.
(** If two calls are in conflict, there is a data race. *)
Theorem C76_race_iff : forall (V : Type) (nd : bool) (h : heap V) (cs : list (call V)), Forall (legal_call h) cs ->
  (no_conflict cs <-> forall n s, steps n (h, map (call_prog nd) cs) s -> ~ race s).
Proof. exact @calls_race. Qed.
Theorem C76_conflict : forall (V : Type) (nd : bool) (h : heap V) (cs : list (call V)) (j k : nat) (cj ck : call V) (p : ptr),
  Forall (legal_call h) cs -> j <> k -> nth_error cs j = Some cj -> nth_error cs k = Some ck ->
  call_writes cj p -> call_reads ck p \/ call_writes ck p ->
  exists n s, steps n (h, map (call_prog nd) cs) s /\ race s.
Proof. exact @calls_conflict. Qed.
Example C76_calls_example :
  Forall (legal_call ex3) three_calls /\ no_conflict three_calls /\
  work ex3 (map (call_prog false) three_calls) = 112%nat /\
  dump3 (calls_in_order false three_calls ex3) 3 = map (fun z => Some (Live z)) [114; 232; 332; 477; 550; 722; 768; 967] /\
  dump3 (calls_in_order false (rev three_calls) ex3) 2 =
    map (fun z => Some (Live z)) [1; 2; 3; 0; 4; 5; 6; 0; 7; 8; 9; 0; 10; 11; 12; 0].
Proof.
  split; [exact three_legal|]. split; [exact three_apart|]. split; [vm_compute; reflexivity|]. split; vm_compute; reflexivity.
Qed.
(** The same reduction while one of its operands is filled *)
Example C76_conflict_example :
  Forall (legal_call ex3) two_calls /\ nth_error two_calls 1 = Some (KFill mB 0) /\
  nth_error two_calls 0 = Some (KReduce Z.add mR [2; 1]%nat mul_expr) /\
  call_writes (KFill mB 0) (2%nat, 4) /\ call_reads (KReduce Z.add mR [2; 1]%nat mul_expr) (2%nat, 4).
Proof. split; [exact two_legal|]. split; [reflexivity|]. split; [reflexivity|]. exact two_clash. Qed.

(** ** Programs that make several accesses of their own choice *)
Theorem C76_programs : forall (V A : Type) (h : heap V) (ms : list (prog V A)) (n : nat) s,
  each_returns h ms -> independent h ms -> steps n (h, ms) s ->
  ~ race s /\ ~ fails s /\ (n <= work h ms)%nat /\ (finished s <-> n = work h ms) /\ (finished s -> together h ms s).
Proof. exact @threads_safe. Qed.
Theorem C76_programs_race : forall (V A : Type) (h : heap V) (ms : list (prog V A)), each_returns h ms ->
  (independent h ms <-> forall n s, steps n (h, ms) s -> ~ race s).
Proof. exact @threads_race. Qed.

(** ** Tiles *)
(** Each tile updated by a thread of its own: if no tiles overlap, the result is that of the
    loop over the whole array. *)
Theorem C76_update_tiles : forall (V : Type) (nd : bool) (u : list Z -> V -> V) (C : aref) (sps : list splitter) (h : heap V) (g : list Z -> V),
  injective_layout (r_shape C) -> Forall2 splits sps (r_shape C) -> Forall2 splits_evenly sps (r_shape C) ->
  usable_heap h -> shows h C g ->
  exists T N, tiles_of nd sps (r_shape C) = Ok T /\
    forall n s, steps n (h, map (fun t => call_prog nd (KUpdate (ref_slice C t) u)) T) s ->
      ~ race s /\ ~ fails s /\ (n <= N)%nat /\ (finished s \/ exists s', step s s') /\
      (finished s -> shows (fst s) C (fun i => u i (g i)) /\ forall p, ~ is_elem (r_base C) (r_shape C) p -> peek (fst s) p = peek h p).
Proof. exact @update_tiles. Qed.
(** [split<N>] of an extent that is not a multiple of [N] makes tiles that overlap.  Threads race for them, whatever they write. *)
Theorem C76_update_tiles_race : forall (V : Type) (nd : bool) (u : list Z -> V -> V) (C : aref) (sps : list splitter) (h : heap V) T,
  Forall2 splits sps (r_shape C) -> extents_ge 1 (r_shape C) -> ~ Forall2 splits_evenly sps (r_shape C) -> view_alive h C ->
  tiles_of nd sps (r_shape C) = Ok T ->
  exists n s, steps n (h, map (fun t => call_prog nd (KUpdate (ref_slice C t) u)) T) s /\ race s.
Proof. exact @update_tiles_race. Qed.
(** Then updates can be lost: "the threads leave what the loop over the tiles leaves" is false. *)
Theorem C76_lost_update_refuted :
  exists (C : aref) (sps : list splitter) (u : list Z -> Z -> Z) (h : heap Z) (g : list Z -> Z) T n s h',
  injective_layout (r_shape C) /\ Forall2 splits sps (r_shape C) /\ usable_heap h /\ shows h C g /\ tiles_of false sps (r_shape C) = Ok T /\
  steps n (h, map (fun t => call_prog false (KUpdate (ref_slice C t) u)) T) s /\ finished s /\
  calls_in_order false (map (fun t => KUpdate (ref_slice C t) u) T) h = Ok h' /\ ~ same_memory h' (fst s).
Proof. exact lost_update. Qed.
Example C76_tiles_example :
  injective_layout (r_shape tT) /\ Forall2 splits [SStatic 3; SDynamic 3] (r_shape tT) /\
  Forall2 splits_evenly [SStatic 3; SDynamic 3] (r_shape tT) /\ usable_heap heapT /\ shows heapT tT (view_of heapT tT) /\
  tiles_of false [SStatic 3; SDynamic 3] (r_shape tT) = Ok [[AInt (mkI 5 3); AInt (mkI (-1) 3)]; [AInt (mkI 5 3); AInt (mkI 2 1)]] /\
  Forall2 splits [SStatic 2; SAll] (r_shape tT) /\ extents_ge 1 (r_shape tT) /\ ~ Forall2 splits_evenly [SStatic 2; SAll] (r_shape tT) /\
  view_alive heapT tT /\
  tiles_of false [SStatic 2; SAll] (r_shape tT) = Ok [[AInt (mkI 5 2); AAll]; [AInt (mkI 6 2); AAll]].
Proof.
  split; [apply (properb_ok (r_shape tT)); reflexivity|]. split; [repeat constructor; discriminate|]. split; [repeat constructor|].
  split; [apply heap3_usable|]. split; [apply viewb_ok; reflexivity|]. split; [vm_compute; reflexivity|].
  split; [repeat constructor; discriminate|]. split; [repeat constructor; discriminate|].
  split; [intro H; inversion H as [|? ? ? ? Q]; cbn in Q; discriminate|]. split; [apply viewb_alive; reflexivity|]. vm_compute. reflexivity.
Qed.
(** Each tile of a product of matrices by a thread of its own *)
Theorem C76_product_tiles : forall (V : Type) (zero : V) (add mul : V -> V -> V) (nd : bool) (h : heap V) (A B C : aref) (f g : list Z -> V)
    (ai ak bk bj ci cj : dim), setting h A B C f g ai ak bk bj ci cj -> forall sps : list splitter,
  Forall2 splits sps (r_shape C) -> Forall2 splits_evenly sps (r_shape C) ->
  exists T N, tiles_of nd sps (r_shape C) = Ok T /\
    forall n s, steps n (h, map (fun t => call_prog nd (KMultiply zero add mul A B (ref_slice C t))) T) s ->
      ~ race s /\ ~ fails s /\ (n <= N)%nat /\ (finished s \/ exists s', step s s') /\
      (finished s -> multiplies zero add mul h (Ok (fst s)) C f g (range (dmin ak) (dext ak))).
Proof. exact @product_tiles. Qed.
Theorem C76_product_tiles_race : forall (V : Type) (zero : V) (add mul : V -> V -> V) (nd : bool) (h : heap V) (A B C : aref) (f g : list Z -> V)
    (ai ak bk bj ci cj : dim), setting h A B C f g ai ak bk bj ci cj -> forall (sps : list splitter) T,
  Forall2 splits sps (r_shape C) -> extents_ge 1 (r_shape C) -> ~ Forall2 splits_evenly sps (r_shape C) ->
  tiles_of nd sps (r_shape C) = Ok T ->
  exists n s, steps n (h, map (fun t => call_prog nd (KMultiply zero add mul A B (ref_slice C t))) T) s /\ race s.
Proof. exact @product_tiles_race. Qed.
Example C76_product_example :
  setting heapM tA tB tC (view_of heapM tA) (view_of heapM tB)
    (mkD 1 3 2) (mkD 0 2 1) (mkD 0 2 3) (mkD 0 3 1) (mkD 1 3 3) (mkD 0 3 1) /\
  Forall2 splits [SDynamic 2; SStatic 1] (r_shape tC) /\ Forall2 splits_evenly [SDynamic 2; SStatic 1] (r_shape tC) /\
  option_map (fun T => result_of (calls_in_order false (map (fun t => KMultiply 0 Z.add Z.mul tA tB (ref_slice tC t)) (rev T)) heapM) tC)
    (match tiles_of false [SDynamic 2; SStatic 1] (r_shape tC) with Ok T => Some T | _ => None end) =
    Some (Ok [9; 19; 29; 12; 26; 40; 15; 33; 51]) /\
  Forall2 splits [SDynamic 2; SStatic 2] (r_shape tC) /\ extents_ge 1 (r_shape tC) /\ ~ Forall2 splits_evenly [SDynamic 2; SStatic 2] (r_shape tC).
Proof.
  split; [exact setting_M|]. split; [repeat constructor; discriminate|]. split; [repeat constructor|]. split; [vm_compute; reflexivity|].
  split; [repeat constructor; discriminate|]. split; [repeat constructor; discriminate|].
  intro H; inversion H as [|? ? ? ? Q1 Q2]; inversion Q2 as [|? ? ? ? Q3]; cbn in Q3; discriminate.
Qed.
Print Assumptions C76_sequential.
Print Assumptions C76_footprint.
Print Assumptions C76_calls.
Print Assumptions C76_finishes.
Print Assumptions C76_any_order.
Print Assumptions C76_race_iff.
Print Assumptions C76_conflict.
Print Assumptions C76_programs.
Print Assumptions C76_programs_race.
Print Assumptions C76_update_tiles.
Print Assumptions C76_update_tiles_race.
Print Assumptions C76_lost_update_refuted.
Print Assumptions C76_product_tiles.
Print Assumptions C76_product_tiles_race.
