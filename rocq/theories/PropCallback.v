(** Function objects passed to the library: when they are called, what an array filled with their results has, and what is left of
    the caller's object. *)
From Coq Require Import ZArith List Bool Lia Permutation Sorted.
From Verif Require Import Base Interval Shape Traverse Memory Ref Callback Spec SpecMem SpecAbort SpecCallback CallbackFacts CallbackCases.
Import ListNotations.
Open Scope Z_scope.

(** ** C80: function objects *)

(** Calls are made one after the other, for every index once, first dimension innermost, until one throws.  for_each_index calls
    the caller's object, for_all_indices one that it has moved it to. *)
Theorem C80_index_calls : forall (V F S : Type) (s : shape), extents_ge 0 s ->
  exists l, enumerates (in_bounds s) l /\ StronglySorted colex_lt l /\
  forall (k : callable V F S index unit) f m,
    (forall x, for_each_index_f k s f m = x <-> in_turn (call k) l f m x) /\
    (keeps k f -> forall x, for_all_indices_f k s f m = x <-> exists y, in_turn (call k) l f m y /\ x = in_outcome (with_object (moved k f)) y).
Proof. exact @index_calls. Qed.
Print Assumptions C80_index_calls.
(** With a loop order *)
Theorem C80_index_order_calls : forall (V F S : Type) (s : shape) (order : list nat), extents_ge 0 s -> (0 < length s)%nat ->
  Permutation order (seq 0 (length s)) ->
  exists l, enumerates (in_bounds s) l /\
    StronglySorted (fun i j => colex_lt (map (fun k => nth k i 0) order) (map (fun k => nth k j 0) order)) l /\
    forall (k : callable V F S index unit) f m, keeps k f ->
    forall x, for_each_index_order_f order k s f m = Some x <-> exists y, in_turn (call k) l f m y /\ x = in_outcome (with_object (moved k f)) y.
Proof. exact @index_order_calls. Qed.
Print Assumptions C80_index_order_calls.
(** for_each_value calls the caller's object with every element once, *)
Theorem C80_value_calls : forall (V F S : Type) (nd : bool) (dst : aref), extents_ge 0 (r_shape dst) ->
  is_null (r_base dst) = false \/ (forall i, ~ in_bounds (r_shape dst) i) ->
  exists l, memory_order (r_shape dst) l /\
  forall (k : callable V F S ptr unit) f m x,
    for_each_value_f nd k dst f m = x <-> in_turn (call k) (map (elem (r_base dst) (r_shape dst)) l) f m x.
Proof. exact @value_calls. Qed.
Print Assumptions C80_value_calls.
(** except those of matrices and of chunky images whose type has a stride in x, which move it. *)
Theorem C80_matrix_calls : forall (V F S : Type) (i j : dim) (base : ptr), 0 <= dext i -> 0 <= dext j ->
  exists l, enumerates (in_bounds [i; j]) l /\ StronglySorted lex_lt l /\
  forall (k : callable V F S ptr unit) f m, keeps k f -> forall x,
    for_each_value_matrix_f k i j base f m = x <->
    exists y, in_turn (call k) (map (elem base [i; j]) l) f m y /\ x = in_outcome (with_object (moved k f)) y.
Proof. exact @matrix_calls. Qed.
Print Assumptions C80_matrix_calls.
Theorem C80_chunky_calls : forall (V F S : Type) (x y c : dim) (base : ptr), 0 <= dext x -> 0 <= dext y -> 0 <= dext c ->
  exists l, enumerates (in_bounds [x; y; c]) l /\
    StronglySorted (fun i j => lex_lt (map (fun k => nth k i 0) [1%nat; 0%nat; 2%nat]) (map (fun k => nth k j 0) [1%nat; 0%nat; 2%nat])) l /\
  forall (k : callable V F S ptr unit) f m, keeps k f -> forall r,
    for_each_value_chunky_f k x y c base f m = r <->
    exists r0, in_turn (call k) (map (elem base [x; y; c]) l) f m r0 /\ r = in_outcome (with_object (moved k f)) r0.
Proof. exact @chunky_calls. Qed.
Print Assumptions C80_chunky_calls.

(** What for_each_value leaves: an object that changes itself, the program's state and the elements it is called with *)
Theorem C80_visit : forall (V F S : Type) (nd : bool) (dst : aref) (h : heap V) g, extents_ge 0 (r_shape dst) ->
  injective_layout (r_shape dst) -> shows_elems h (r_base dst) (r_shape dst) g ->
  exists l, memory_order (r_shape dst) l /\
  forall (k : callable V F S ptr unit) acc up f s, visits_each k acc up ->
    exists h', for_each_value_f nd k dst f (h, s) =
        Ok (Gives tt (fst (fold_left acc (map g l) (f, s))) (h', snd (fold_left acc (map g l) (f, s)))) /\
      (forall n i, nth_error l n = Some i ->
        holds h' (elem (r_base dst) (r_shape dst) i) (up (fold_left acc (map g (firstn n l)) (f, s)) (g i))) /\
      only_changes (is_elem (r_base dst) (r_shape dst)) h h'.
Proof. exact @visit_values. Qed.
Print Assumptions C80_visit.

(** Arrays filled with results of calls, which may depend on the elements so far, on other memory and on a state, and may throw *)
Theorem C80_generate : forall (V F S : Type) (nd : bool) (dst : aref) (h : heap V) g, extents_ge 0 (r_shape dst) ->
  injective_layout (r_shape dst) -> shows_elems h (r_base dst) (r_shape dst) g ->
  exists l, memory_order (r_shape dst) l /\
  forall (k : callable V F S unit V) f phi s, computes_from h (r_base dst) (r_shape dst) k f (fun _ => tt) phi ->
    exists r, generate_f nd k dst f (h, s) = Ok r /\ filled_by h (r_base dst) (r_shape dst) (moved k f) phi l g s r.
Proof. exact @generate_fills. Qed.
Print Assumptions C80_generate.
Theorem C80_transform : forall (V F S : Type) (dst : aref) (h : heap V) g, extents_ge 0 (r_shape dst) ->
  injective_layout (r_shape dst) -> shows_elems h (r_base dst) (r_shape dst) g ->
  exists l, enumerates (in_bounds (r_shape dst)) l /\ StronglySorted colex_lt l /\
  forall (k : callable V F S index V) f phi s, computes_from h (r_base dst) (r_shape dst) k f (fun i => i) phi ->
    exists r, transform_index_f k dst f (h, s) = Ok r /\ transform_indices_f k dst f (h, s) = Ok r /\
      filled_by h (r_base dst) (r_shape dst) (moved k f) phi l g s r.
Proof. exact @transform_fills. Qed.
Print Assumptions C80_transform.
(** transform_index in place: the result at an index is computed from new elements at the indices before it, old ones from it on *)
Theorem C80_recurrence : forall (V F S : Type) (dst : aref) (h : heap V) g (k : callable V F S index V) f phi s,
  extents_ge 0 (r_shape dst) -> injective_layout (r_shape dst) -> shows_elems h (r_base dst) (r_shape dst) g ->
  computes_from h (r_base dst) (r_shape dst) k f (fun i => i) (fun g s i => (Some (phi g i), s)) ->
  exists h' g', transform_index_f k dst f (h, s) = Ok (Gives tt (moved k f) (h', s)) /\
    shows_elems h' (r_base dst) (r_shape dst) g' /\ only_changes (is_elem (r_base dst) (r_shape dst)) h h' /\
    forall i u, in_bounds (r_shape dst) i ->
      (forall j, in_bounds (r_shape dst) j -> colex_lt j i -> u j = g' j) ->
      (forall j, in_bounds (r_shape dst) j -> ~ colex_lt j i -> u j = g j) ->
      g' i = phi u i.
Proof. exact @recurrence. Qed.
Print Assumptions C80_recurrence.

(** Callables that compute their result from the index, or from a state: the models of Ref.v, for all arrays *)
Theorem C80_pure_transform : forall (V F S : Type) (dst : aref) (h : heap V) (k : callable V F S index V) f (fn : list Z -> V) s,
  (forall h i, exists f', call k f (h, s) i = Ok (Gives (fn i) f' (h, s))) ->
  transform_index_f k dst f (h, s) = (h' <- transform_index h dst fn ;; Ok (Gives tt (moved k f) (h', s))).
Proof. exact @pure_transform. Qed.
Print Assumptions C80_pure_transform.
Theorem C80_pure_generate : forall (V F S : Type) (nd : bool) (dst : aref) (h : heap V) (k : callable V F S unit V) f out next s,
  generator k f out next ->
  generate_f nd k dst f (h, s) =
  (' (h', n) <- generate nd h dst (fun n => out (Nat.iter n next s)) ;; Ok (Gives tt (moved k f) (h', Nat.iter n next s))).
Proof. exact @pure_generate. Qed.
Print Assumptions C80_pure_generate.

(** The caller's object has been moved from after all of these, also if a call throws *)
Theorem C80_object : forall (V F S : Type) (nd : bool) f (m : mem V S) dst s order i j x y c base
  (ki : callable V F S index unit) (kp : callable V F S ptr unit) (kg : callable V F S unit V) (kt : callable V F S index V) r,
  (for_all_indices_f ki s f m = Ok r -> object r = moved ki f) /\
  (for_each_index_order_f order ki s f m = Some (Ok r) -> object r = moved ki f) /\
  (for_each_value_matrix_f kp i j base f m = Ok r -> object r = moved kp f) /\
  (for_each_value_chunky_f kp x y c base f m = Ok r -> object r = moved kp f) /\
  (generate_f nd kg dst f m = Ok r -> object r = moved kg f) /\
  (transform_index_f kt dst f m = Ok r -> object r = moved kt f) /\
  (transform_indices_f kt dst f m = Ok r -> object r = moved kt f).
Proof. exact @objects. Qed.
Print Assumptions C80_object.
(** An object whose move leaves it as it is can be used for another array, which gets the results that follow *)
Theorem C80_reuse : forall (V F S : Type) (nd : bool) (dst1 dst2 : aref) (h : heap V),
  extents_ge 0 (r_shape dst1) -> injective_layout (r_shape dst1) -> extents_ge 0 (r_shape dst2) -> injective_layout (r_shape dst2) ->
  (forall i, in_bounds (r_shape dst1) i -> alive h (elem (r_base dst1) (r_shape dst1) i)) ->
  (forall i, in_bounds (r_shape dst2) i -> alive h (elem (r_base dst2) (r_shape dst2) i)) ->
  (forall p, is_elem (r_base dst1) (r_shape dst1) p -> ~ is_elem (r_base dst2) (r_shape dst2) p) ->
  exists l1 l2, memory_order (r_shape dst1) l1 /\ memory_order (r_shape dst2) l2 /\
  forall (k : callable V F S unit V) f out next s, generator k f out next -> moved k f = f ->
    exists h1 h2, generate_f nd k dst1 f (h, s) = Ok (Gives tt f (h1, Nat.iter (length l1) next s)) /\
      generate_f nd k dst2 f (h1, Nat.iter (length l1) next s) = Ok (Gives tt f (h2, Nat.iter (length l1 + length l2) next s)) /\
      (forall n i, nth_error l1 n = Some i -> holds h2 (elem (r_base dst1) (r_shape dst1) i) (out (Nat.iter n next s))) /\
      (forall n i, nth_error l2 n = Some i -> holds h2 (elem (r_base dst2) (r_shape dst2) i) (out (Nat.iter (length l1 + n) next s))).
Proof. exact @generate_twice. Qed.
Print Assumptions C80_reuse.
(** Others cannot: a std::function is empty after it was used, although it was passed as an lvalue, and throws if it is used
    again *)
Theorem C80_reuse_refuted : exists (k : callable Z bool Z unit Z) f h dst1 dst2 s f1 m1 f2 m2,
  generator k f (fun s => s) (fun s => 2 * s + 1) /\ dst1 <> dst2 /\
  generate_f false k dst1 f (h, s) = Ok (Gives tt f1 m1) /\
  generate_f false k dst2 f1 m1 = Ok (Fails f2 m2) /\ m2 = m1.
Proof.
  exists wrapped, true, cb_heap, cb_other, cb_dst, 0. do 4 eexists. split; [exact wrapped_generates|]. split; [discriminate|].
  split; [reflexivity|]. split; [reflexivity|]. reflexivity.
Qed.
Print Assumptions C80_reuse_refuted.

(** *** Examples *)

(** for_each_index calls the caller's object, which has the list; for_all_indices calls another, and leaves an empty one *)
Example C80_index_example : extents_ge 0 (r_shape cb_dst) /\ keeps noter true /\
  for_each_index_f lister (r_shape cb_dst) [100] (cb_heap, tt) = Ok (Gives tt [100; 0; 1; 1; 2; 2; 3] (cb_heap, tt)) /\
  for_all_indices_f noter (r_shape cb_dst) true (cb_heap, []) = Ok (Gives tt false (cb_heap, [0; 1; 1; 2; 2; 3])) /\
  for_each_index_order_f [1; 0]%nat noter (r_shape cb_dst) true (cb_heap, []) = Some (Ok (Gives tt false (cb_heap, [0; 1; 2; 1; 2; 3]))).
Proof. split; [exact cb_extents|]. split; [exact (noter_keeps true)|]. repeat split; reflexivity. Qed.
(** The object ends with the sum of the old elements, the program with their number; the elements are negated *)
Example C80_visit_example : visits_each adder (fun (fs : Z * Z) v => (fst fs + v, snd fs + 1)) (fun _ v => - v) /\
  shows_elems cb_heap (r_base cb_dst) (r_shape cb_dst) cb_g /\
  exists h', for_each_value_f false adder cb_dst 1000 (cb_heap, 0) = Ok (Gives tt 1075 (h', 6)) /\
    cb_read h' = map (fun v => Some (Live v)) [-10; -11; -12; -13; -14; -15; 16; 17].
Proof. split; [exact adder_visits|]. split; [exact cb_shows|]. eexists. split; reflexivity. Qed.
(** Rows of running sums, made in place; the second stops at the element 13 with an exception *)
Example C80_transform_example :
  computes_from cb_heap (r_base cb_dst) (r_shape cb_dst) row_sum_total tt (fun i => i) (fun g s i => (Some (row_total g i), s)) /\
  computes_from cb_heap (r_base cb_dst) (r_shape cb_dst) (row_sum 13) tt (fun i => i) (row_phi 13) /\
  injective_layout (r_shape cb_dst) /\
  (exists h', transform_index_f row_sum_total cb_dst tt (cb_heap, 0) = Ok (Gives tt tt (h', 0)) /\
    cb_read h' = map (fun v => Some (Live v)) [10; 11; 22; 24; 36; 39; 16; 17]) /\
  (exists h', transform_indices_f (row_sum 13) cb_dst tt (cb_heap, 0) = Ok (Fails tt (h', 0)) /\
    cb_read h' = map (fun v => Some (Live v)) [10; 11; 22; 13; 14; 15; 16; 17]).
Proof.
  split; [exact row_total_computes|]. split; [exact (row_sum_computes 13)|]. split; [exact cb_injective|].
  split; eexists; split; reflexivity.
Qed.
(** One generator for two arrays *)
Example C80_generate_example : generator counter tt (fun s => s) (fun s => 2 * s + 1) /\ moved counter tt = tt /\
  injective_layout (r_shape cb_other) /\
  (forall i, in_bounds (r_shape cb_other) i -> alive cb_heap (elem (r_base cb_other) (r_shape cb_other) i)) /\
  (forall p, is_elem (r_base cb_dst) (r_shape cb_dst) p -> ~ is_elem (r_base cb_other) (r_shape cb_other) p) /\
  exists h1 h2, generate_f false counter cb_dst tt (cb_heap, 0) = Ok (Gives tt tt (h1, 63)) /\
    generate_f false counter cb_other tt (h1, 63) = Ok (Gives tt tt (h2, 255)) /\
    cb_read h2 = map (fun v => Some (Live v)) [0; 1; 3; 7; 15; 31; 63; 127].
Proof.
  split; [exact counter_generates|]. split; [reflexivity|]. split; [exact cb_other_injective|]. split; [exact cb_other_alive|].
  split; [exact cb_apart|]. do 2 eexists. repeat split; reflexivity.
Qed.
(** A matrix that is visited by rows, and an image that is visited with channels innermost *)
Example C80_matrix_example : keeps pointer_noter true /\
  for_each_value_matrix_f pointer_noter (mkD 0 2 1) (mkD 0 3 2) (1%nat, 0) true (cb_heap, []) =
  Ok (Gives tt false (cb_heap, [0; 2; 4; 1; 3; 5])) /\
  for_each_value_chunky_f pointer_noter (mkD 0 2 4) (mkD 0 2 10) (mkD 0 3 1) (1%nat, 0) true (cb_heap, []) =
  Ok (Gives tt false (cb_heap, [0; 1; 2; 4; 5; 6; 10; 11; 12; 14; 15; 16])).
Proof. split; [exact (pointer_noter_keeps true)|split; reflexivity]. Qed.
