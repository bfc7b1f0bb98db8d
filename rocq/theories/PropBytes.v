(** Elements as bytes: C72. *)
From Coq Require Import ZArith List Bool Lia.
From Verif Require Import Base Interval Shape Traverse Memory Ref Spec SpecMem Bytes SpecBytes ShapeFacts ResolveFacts BytesFacts BytesRefine.
Import ListNotations.
Open Scope Z_scope.

(** Types for the examples: two chars, a short of two bytes, and a struct of two chars with padding *)
Definition pair_enc (v : Z * Z) : list (option Z) := [Some (fst v); Some (snd v)].
Definition pair_dec (l : list (option Z)) : option (Z * Z) :=
  match l with [Some a; Some b] => Some (a, b) | _ => None end.
Definition chars2 : ctype (Z * Z) := mkCT 2 1 pair_enc pair_dec.
Definition short2 : ctype (Z * Z) := mkCT 2 2 pair_enc pair_dec.
Definition padded : ctype (Z * Z) := mkCT 4 2 (fun v => [Some (fst v); None; Some (snd v); None])
  (fun l => match l with [Some a; _; Some b; _] => Some (a, b) | _ => None end).
Lemma chars2_good : good_type chars2.
Proof. split; [exists 0; split; [lia|reflexivity]|]. split; [reflexivity|]. split; [exists 2; reflexivity|]. split; [reflexivity|]. intros [a b]. reflexivity. Qed.
Lemma short2_good : good_type short2.
Proof. split; [exists 1; split; [lia|reflexivity]|]. split; [reflexivity|]. split; [exists 1; reflexivity|]. split; [reflexivity|]. intros [a b]. reflexivity. Qed.
Lemma padded_good : good_type padded.
Proof. split; [exists 1; split; [lia|reflexivity]|]. split; [reflexivity|]. split; [exists 2; reflexivity|]. split; [reflexivity|]. intros [a b]. reflexivity. Qed.
Lemma short2_exact : exact_type short2.
Proof. intros [|[a|] [|[b|] [|]]] [x y] H; cbn in H; try discriminate. injection H as -> ->. reflexivity. Qed.
(** The bytes of a block *)
Definition dump (m : outcome bmem) (k : nat) : list (option Z) :=
  match m with
  | Ok m => match m k with Some b => bytes_from (bb_byte b) 0 (Z.to_nat (bb_size b)) | None => [] end
  | _ => []
  end.
(** Memory with a block of 12 bytes at address 8 and one of 16 bytes at address 102 *)
Definition ex_mem : bmem := fun k =>
  match k with
  | 1%nat => Some (mkBB 8 12 (fun x => Some x))
  | 2%nat => Some (mkBB 102 16 (fun _ => None))
  | _ => None
  end.
(** Three elements of block 1, backwards, and three of block 2 *)
Definition ex_src : aref := mkR (1%nat, 10) [mkD 0 3 (-2)].
Definition ex_dst : aref := mkR (2%nat, 2) [mkD 0 3 1].

(** ** Access *)
Theorem C72_load : forall (V : Type) (t : ctype V) (m : bmem) (p : ptr) (v : V), good_type t ->
  (bload t m p = Ok v <-> shows t m p v).
Proof. exact bload_spec. Qed.
Print Assumptions C72_load.
Theorem C72_load_else : forall (V : Type) (t : ctype V) (m : bmem) (p : ptr), good_type t ->
  bload t m p = UB \/ exists v, shows t m p v.
Proof. exact bload_ub. Qed.
Print Assumptions C72_load_else.
(** Writing an element does not change what elements show that have no byte in common with it *)
Theorem C72_store : forall (U V : Type) (t : ctype V) (u : ctype U) (m : bmem) (p : ptr) (v : V), good_type t -> writable t m p ->
  exists m', bstore t m p v = Ok m' /\ shows t m' p v /\ storage t m' p (t_enc t v) /\
    (forall q w, apart u q t p -> shows u m q w -> shows u m' q w) /\ only_bytes (covers t p) m m'.
Proof. exact access. Qed.
Print Assumptions C72_store.
Example C72_access_example : good_type short2 /\ good_type padded /\
  bload short2 ex_mem (1%nat, 4) = Ok (4, 5) /\ bload short2 ex_mem (1%nat, 5) = UB /\ bload short2 ex_mem (1%nat, 12) = UB /\
  bload short2 ex_mem (2%nat, 4) = UB /\ writable padded ex_mem (2%nat, 4) /\
  dump (bstore padded ex_mem (1%nat, 4) (70, 71)) 1 =
  [Some 0; Some 1; Some 2; Some 3; Some 70; None; Some 71; None; Some 8; Some 9; Some 10; Some 11].
Proof.
  split; [exact short2_good|]. split; [exact padded_good|]. do 4 (split; [reflexivity|]). split; [|reflexivity].
  eexists. split; [discriminate|]. eexists. split; [reflexivity|]. cbn. split; [lia|]. split; [lia|]. split; [exists 53; reflexivity|reflexivity].
Qed.

(** Elements of a layout without collisions have no byte in common *)
Theorem C72_separated : forall (V : Type) (t : ctype V) (b : ptr) (s : shape), 0 < t_size t -> injective_layout s -> separated t b s.
Proof. exact layout_separate. Qed.
Print Assumptions C72_separated.
Example C72_separated_example : 0 < t_size padded /\ injective_layout [mkD 0 3 (-2); mkD 1 2 1].
Proof. split; [reflexivity|]. apply nested_injective. split; repeat constructor; cbn; lia. Qed.

(** A new array has aligned storage for each of its elements *)
Theorem C72_allocate : forall (V : Type) (t : ctype V) (m : bmem) (k : nat) (a : Z) (s : shape), good_type t -> k <> 0%nat ->
  (t_align t | a) ->
  let '(m', r) := ballocate t m k a s in
  r_shape r = resolve s /\
  (forall i, in_bounds (resolve s) i -> writable t m' (belem t (r_base r) (resolve s) i) /\ fst (belem t (r_base r) (resolve s) i) = k) /\
  (forall k', k' <> k -> m' k' = m k').
Proof. exact ballocate_spec. Qed.
Print Assumptions C72_allocate.
Example C72_allocate_example : good_type padded /\ 3%nat <> 0%nat /\ (t_align padded | 6) /\
  r_base (snd (ballocate padded ex_mem 3 6 [mkD 1 2 unresolved; mkD (-1) 3 (-1)])) = (3%nat, 8) /\
  option_map bb_size (fst (ballocate padded ex_mem 3 6 [mkD 1 2 unresolved; mkD (-1) 3 (-1)]) 3%nat) = Some 24.
Proof. split; [exact padded_good|]. split; [discriminate|]. split; [exists 3; reflexivity|]. split; reflexivity. Qed.

(** ** The algorithms, on elements of any size *)
(** copy and move between arrays whose elements have different types *)
Theorem C72_copy : forall (U V : Type) (tu : ctype U) (tv : ctype V) (conv : U -> V) (ndebug : bool) (m : bmem) (src dst : aref) (f : index -> U),
  good_type tu -> good_type tv -> length (r_shape src) = length (r_shape dst) ->
  extents_ge 0 (r_shape dst) -> within (r_shape dst) (r_shape src) -> injective_layout (r_shape dst) ->
  (forall i, in_bounds (r_shape dst) i -> shows tu m (belem tu (r_base src) (r_shape src) i) (f i)) ->
  (forall i, in_bounds (r_shape dst) i -> writable tv m (belem tv (r_base dst) (r_shape dst) i)) ->
  (forall i j, in_bounds (r_shape dst) i -> in_bounds (r_shape dst) j ->
     apart tu (belem tu (r_base src) (r_shape src) i) tv (belem tv (r_base dst) (r_shape dst) j)) ->
  exists m', bcopy tu tv conv ndebug m src dst = Ok m' /\
    (forall i, in_bounds (r_shape dst) i -> shows tv m' (belem tv (r_base dst) (r_shape dst) i) (conv (f i))) /\
    only_bytes (view_bytes tv (r_base dst) (r_shape dst)) m m'.
Proof. exact bcopy_spec. Qed.
Print Assumptions C72_copy.
Theorem C72_copy_rejects : forall (U V : Type) (tu : ctype U) (tv : ctype V) (conv : U -> V) (m : bmem) (src dst : aref),
  length (r_shape src) = length (r_shape dst) -> extents_ge 1 (r_shape dst) ->
  ~ within (r_shape dst) (r_shape src) -> bcopy tu tv conv false m src dst = AssertFail.
Proof. exact bcopy_rejects. Qed.
Print Assumptions C72_copy_rejects.
Example C72_copy_rejects_example : length [mkD 0 3 (-2)] = length [mkD 1 3 1] /\ extents_ge 1 [mkD 1 3 1] /\
  ~ within [mkD 1 3 1] [mkD 0 3 (-2)] /\
  bcopy short2 padded (fun v => v) false ex_mem ex_src (mkR (2%nat, 2) [mkD 1 3 1]) = AssertFail.
Proof.
  split; [reflexivity|]. split; [repeat constructor; cbn; lia|]. split; [|reflexivity].
  intros W. specialize (W [3]). assert (B : in_bounds [mkD 1 3 1] [3]) by (apply box_In; vm_compute; tauto).
  apply W, box_In in B. vm_compute in B. destruct B as [B|[B|[B|[]]]]; discriminate B.
Qed.
Lemma ex_bounds i : in_bounds [mkD 0 3 1] i -> i = [0] \/ i = [1] \/ i = [2].
Proof. intros H. apply box_In in H. vm_compute in H. intuition. Qed.
Lemma ex_src_shows i : in_bounds [mkD 0 3 1] i -> shows short2 ex_mem (belem short2 (r_base ex_src) (r_shape ex_src) i) (10 - 4 * hd 0 i, 11 - 4 * hd 0 i).
Proof.
  intros H. apply ex_bounds in H. apply bload_spec; [exact short2_good|]. destruct H as [->|[->| ->]]; reflexivity.
Qed.
Lemma ex_dst_writable i : in_bounds [mkD 0 3 1] i -> writable padded ex_mem (belem padded (r_base ex_dst) (r_shape ex_dst) i).
Proof.
  intros H. apply ex_bounds in H. destruct H as [->|[->| ->]]; (eexists; split; [discriminate|]; eexists; split; [reflexivity|]; cbn;
    split; [lia|]; split; [lia|]; split; [|reflexivity]).
  - exists 52; reflexivity.
  - exists 54; reflexivity.
  - exists 56; reflexivity.
Qed.
Example C72_copy_example : length (r_shape ex_src) = length (r_shape ex_dst) /\ extents_ge 0 (r_shape ex_dst) /\
  within (r_shape ex_dst) (r_shape ex_src) /\ injective_layout (r_shape ex_dst) /\
  (forall i, in_bounds (r_shape ex_dst) i -> shows short2 ex_mem (belem short2 (r_base ex_src) (r_shape ex_src) i) (10 - 4 * hd 0 i, 11 - 4 * hd 0 i)) /\
  (forall i, in_bounds (r_shape ex_dst) i -> writable padded ex_mem (belem padded (r_base ex_dst) (r_shape ex_dst) i)) /\
  (forall i j, in_bounds (r_shape ex_dst) i -> in_bounds (r_shape ex_dst) j ->
     apart short2 (belem short2 (r_base ex_src) (r_shape ex_src) i) padded (belem padded (r_base ex_dst) (r_shape ex_dst) j)) /\
  dump (bcopy short2 padded (fun v => (snd v, fst v)) false ex_mem ex_src ex_dst) 2 =
  [None; None; Some 11; None; Some 10; None; Some 7; None; Some 6; None; Some 3; None; Some 2; None; None; None].
Proof.
  split; [reflexivity|]. split; [repeat constructor; cbn; lia|]. split; [intros i H; apply ex_bounds in H; apply box_In; destruct H as [->|[->| ->]]; vm_compute; tauto|].
  split; [apply nested_injective; split; repeat constructor; cbn; lia|]. split; [exact ex_src_shows|]. split; [exact ex_dst_writable|].
  split; [|reflexivity]. intros i j _ _ k x [[A _] [B _]]. cbn in A, B. congruence.
Qed.

Theorem C72_fill : forall (V : Type) (t : ctype V) (ndebug : bool) (m : bmem) (dst : aref) (v : V),
  good_type t -> extents_ge 0 (r_shape dst) -> injective_layout (r_shape dst) ->
  (forall i, in_bounds (r_shape dst) i -> writable t m (belem t (r_base dst) (r_shape dst) i)) ->
  exists m', bfill t ndebug m dst v = Ok m' /\
    (forall i, in_bounds (r_shape dst) i -> shows t m' (belem t (r_base dst) (r_shape dst) i) v) /\
    only_bytes (view_bytes t (r_base dst) (r_shape dst)) m m'.
Proof. exact bfill_spec. Qed.
Print Assumptions C72_fill.
Theorem C72_transform_index : forall (V : Type) (t : ctype V) (m : bmem) (dst : aref) (fn : index -> V),
  good_type t -> extents_ge 0 (r_shape dst) -> injective_layout (r_shape dst) ->
  (forall i, in_bounds (r_shape dst) i -> writable t m (belem t (r_base dst) (r_shape dst) i)) ->
  exists m', btransform t m dst fn = Ok m' /\
    (forall i, in_bounds (r_shape dst) i -> shows t m' (belem t (r_base dst) (r_shape dst) i) (fn i)) /\
    only_bytes (view_bytes t (r_base dst) (r_shape dst)) m m'.
Proof. exact btransform_spec. Qed.
Print Assumptions C72_transform_index.
Example C72_fill_example : good_type padded /\ extents_ge 0 (r_shape ex_dst) /\ injective_layout (r_shape ex_dst) /\
  (forall i, in_bounds (r_shape ex_dst) i -> writable padded ex_mem (belem padded (r_base ex_dst) (r_shape ex_dst) i)) /\
  dump (btransform padded ex_mem ex_dst (fun i => (hd 0 i, 7))) 2 =
  [None; None; Some 0; None; Some 7; None; Some 1; None; Some 7; None; Some 2; None; Some 7; None; None; None].
Proof.
  split; [exact padded_good|]. split; [repeat constructor; cbn; lia|]. split; [apply nested_injective; split; repeat constructor; cbn; lia|].
  split; [exact ex_dst_writable|reflexivity].
Qed.

Theorem C72_equal : forall (U V : Type) (tu : ctype U) (tv : ctype V) (eqb : U -> V -> bool) (ndebug : bool) (m : bmem) (a b : aref)
  (f : index -> U) (g : index -> V), good_type tu -> good_type tv -> length (r_shape a) = length (r_shape b) ->
  extents_ge 0 (r_shape a) -> extents_ge 0 (r_shape b) ->
  (forall i, in_bounds (r_shape a) i -> shows tu m (belem tu (r_base a) (r_shape a) i) (f i)) ->
  (forall i, in_bounds (r_shape b) i -> shows tv m (belem tv (r_base b) (r_shape b) i) (g i)) ->
  exists r, bequal tu tv eqb ndebug m a b = Ok r /\
    (r = true <-> map dmin (r_shape a) = map dmin (r_shape b) /\ map dext (r_shape a) = map dext (r_shape b) /\
       forall i, in_bounds (r_shape a) i -> eqb (f i) (g i) = true).
Proof. exact bequal_spec. Qed.
Print Assumptions C72_equal.
Example C72_equal_example : good_type short2 /\ good_type chars2 /\
  (forall i, in_bounds [mkD 0 3 (-2)] i -> shows short2 ex_mem (belem short2 (1%nat, 10) [mkD 0 3 (-2)] i) (10 - 4 * hd 0 i, 11 - 4 * hd 0 i)) /\
  (let eqb (x y : Z * Z) := fst x =? fst y in
   bequal short2 chars2 eqb false ex_mem ex_src (mkR (1%nat, 10) [mkD 0 3 (-2)]) = Ok true /\
   bequal short2 chars2 eqb false ex_mem ex_src (mkR (1%nat, 9) [mkD 0 3 (-2)]) = Ok false /\
   bequal short2 short2 eqb false ex_mem ex_src (mkR (1%nat, 9) [mkD 0 3 (-2)]) = UB).
Proof.
  split; [exact short2_good|]. split; [exact chars2_good|]. split; [intros i H; apply ex_src_shows; apply box_In; apply box_In in H; exact H|]. split; [reflexivity|]. split; reflexivity.
Qed.

(** ** reinterpret *)
(** The view has the same elements, and reinterpreting back gives the original; storage that is aligned for the old type is aligned
    for the new one if its alignment is not stricter *)
Theorem C72_reinterpret : forall (U V : Type) (t : ctype V) (u : ctype U) (r r' : aref), reinterpret t u r = Some r' ->
  reinterpret u t r' = Some r /\
  (forall i, belem u (r_base r') (r_shape r') i = belem t (r_base r) (r_shape r) i) /\
  (forall m p l, (t_align u | t_align t) -> storage t m p l -> storage u m p l).
Proof. exact reinterpret_spec. Qed.
Print Assumptions C72_reinterpret.
(** Reading shows the bits of what was written *)
Theorem C72_reinterpret_read : forall (U V : Type) (t : ctype V) (u : ctype U) (m m' : bmem) (p : ptr) (v : V) (w : U),
  good_type t -> good_type u -> t_size t = t_size u -> (t_align u | t_align t) -> writable t m p ->
  bstore t m p v = Ok m' -> (bload u m' p = Ok w <-> t_dec u (t_enc t v) = Some w).
Proof. exact reinterpret_read. Qed.
Print Assumptions C72_reinterpret_read.
(** Copying through reinterpreted views copies the elements, if the other type has no padding *)
Theorem C72_copy_bits : forall (U V : Type) (t : ctype V) (u : ctype U) (ndebug : bool) (m : bmem) (src dst src' dst' : aref)
  (f : index -> V) (g : index -> U),
  good_type t -> good_type u -> exact_type u -> (t_align u | t_align t) ->
  reinterpret t u src = Some src' -> reinterpret t u dst = Some dst' ->
  length (r_shape src) = length (r_shape dst) ->
  extents_ge 0 (r_shape dst) -> within (r_shape dst) (r_shape src) -> injective_layout (r_shape dst) ->
  (forall i, in_bounds (r_shape dst) i -> shows t m (belem t (r_base src) (r_shape src) i) (f i)) ->
  (forall i, in_bounds (r_shape dst) i -> shows u m (belem t (r_base src) (r_shape src) i) (g i)) ->
  (forall i, in_bounds (r_shape dst) i -> writable t m (belem t (r_base dst) (r_shape dst) i)) ->
  (forall i j, in_bounds (r_shape dst) i -> in_bounds (r_shape dst) j ->
     apart t (belem t (r_base src) (r_shape src) i) t (belem t (r_base dst) (r_shape dst) j)) ->
  exists m', bcopy u u (fun w => w) ndebug m src' dst' = Ok m' /\
    (forall i, in_bounds (r_shape dst) i -> shows t m' (belem t (r_base dst) (r_shape dst) i) (f i)) /\
    only_bytes (view_bytes t (r_base dst) (r_shape dst)) m m'.
Proof. exact bcopy_bits. Qed.
Print Assumptions C72_copy_bits.
(** A type like chars2 whose values are numbers *)
Definition number : ctype (Z * Z) := mkCT 2 2 (fun v => [Some (snd v); Some (fst v)]) (fun l => option_map (fun v => (snd v, fst v)) (pair_dec l)).
Example C72_reinterpret_example : reinterpret number short2 ex_src = Some ex_src /\ reinterpret number padded ex_src = None /\
  exact_type short2 /\ (t_align short2 | t_align number) /\
  bload number ex_mem (1%nat, 4) = Ok (5, 4) /\ t_dec short2 (t_enc number (5, 4)) = Some (4, 5) /\
  dump (bcopy short2 short2 (fun w => w) false ex_mem ex_src (mkR (2%nat, 2) [mkD 0 3 2])) 2 =
  [None; None; Some 10; Some 11; None; None; Some 6; Some 7; None; None; Some 2; Some 3; None; None; None; None].
Proof. split; [reflexivity|]. split; [reflexivity|]. split; [exact short2_exact|]. split; [exists 1; reflexivity|]. repeat split; reflexivity. Qed.
(** [reinterpret] compares sizes, not alignments *)
Theorem C72_misaligned_refuted : exists (U V : Type) (t : ctype V) (u : ctype U) (m m' : bmem) (r r' : aref) (v : V) (w : U),
  good_type t /\ good_type u /\ (m, r) = ballocate t (fun _ => None) 1 3 [mkD 0 4 unresolved] /\ (t_align t | 3) /\
  bfill t false m r v = Ok m' /\ t_dec u (t_enc t v) = Some w /\ reinterpret t u r = Some r' /\
  forall i, in_bounds (r_shape r') i -> bload t m' (bref_ptr t r i) = Ok v /\ bload u m' (bref_ptr u r' i) = UB.
Proof.
  exists (Z * Z)%type, (Z * Z)%type, chars2, short2.
  set (x := ballocate chars2 (fun _ => None) 1 3 [mkD 0 4 unresolved]).
  set (m' := match bfill chars2 false (fst x) (snd x) (1, 2) with Ok m => m | _ => fst x end).
  exists (fst x), m', (snd x), (snd x), (1, 2), (1, 2).
  split; [exact chars2_good|]. split; [exact short2_good|]. split; [reflexivity|]. split; [exists 3; reflexivity|].
  split; [reflexivity|]. split; [reflexivity|]. split; [reflexivity|]. intros i H.
  apply box_In in H. vm_compute in H. destruct H as [<-|[<-|[<-|[<-|[]]]]]; split; reflexivity.
Qed.
Print Assumptions C72_misaligned_refuted.

(** ** The buffer of auto_allocator *)
(** Is aligned wherever the array is exactly if the Alignment asked for is not less than that of the element type *)
Theorem C72_auto_alignment : forall (V : Type) (t : ctype V) (n alignment : Z), good_type t -> alignas_ok alignment = true ->
  ((forall a, (alignment | a) -> exists size, auto_buffer t n alignment a = Some (a, size) /\ (t_align t | a) /\ size = n * t_size t) <->
   t_align t <= alignment).
Proof. exact auto_aligned. Qed.
Print Assumptions C72_auto_alignment.
(** The default of auto_allocator is right; the one of uninitialized_auto_allocator is if it compiles, which it does if the size of
    the elements is a power of two *)
Theorem C72_auto_defaults : forall (V : Type) (t : ctype V) (n a : Z), good_type t ->
  (alignas_ok (auto_alignment t) = true) /\
  (auto_buffer t n (uninit_auto_alignment t) a <> None <-> exists k, 0 <= k /\ t_size t = 2 ^ k) /\
  t_align t <= uninit_auto_alignment t.
Proof. exact auto_defaults. Qed.
Print Assumptions C72_auto_defaults.
Example C72_auto_example : auto_buffer padded 10 8 24 = Some (24, 40) /\ alignas_ok 8 = true /\ t_align padded <= 8 /\
  auto_buffer padded 10 (uninit_auto_alignment padded) 24 = Some (24, 40).
Proof. split; [reflexivity|]. split; [reflexivity|]. split; [cbn; lia|reflexivity]. Qed.
(** Three chars, a colour: uninitialized_auto_allocator asks for alignas(3) *)
Theorem C72_uninit_auto_refuted : exists (V : Type) (t : ctype V), good_type t /\
  (forall n a, auto_buffer t n (auto_alignment t) a <> None) /\ (forall n a, auto_buffer t n (uninit_auto_alignment t) a = None).
Proof.
  exists (Z * Z * Z)%type, (mkCT 3 1 (fun v => [Some (fst (fst v)); Some (snd (fst v)); Some (snd v)])
    (fun l => match l with [Some a; Some b; Some c] => Some (a, b, c) | _ => None end)).
  split; [|split; [intros n a; discriminate|reflexivity]].
  split; [exists 0; split; [lia|reflexivity]|]. split; [reflexivity|]. split; [exists 3; reflexivity|]. split; [reflexivity|]. intros [[a b] c]. reflexivity.
Qed.
Print Assumptions C72_uninit_auto_refuted.

(** ** One cell per element *)
(** What the memory of cells of the other models does, memory of bytes does as well *)
Theorem C72_refines_memory : forall (V : Type) (t : ctype V), good_type t -> forall (h h' : heap V) (m : bmem), represents t h m ->
  (forall p v, load h p = Ok v -> bload t m (in_bytes t p) = Ok v) /\
  (forall p v, store h p v = Ok h' -> exists m', bstore t m (in_bytes t p) v = Ok m' /\ represents t h' m') /\
  (forall p v, construct_at h p v = Ok h' -> exists m', bstore t m (in_bytes t p) v = Ok m' /\ represents t h' m') /\
  (forall p, destroy_at h p = Ok h' -> represents t h' m) /\
  (forall o n a, (t_align t | a) -> represents t (fst (alloc_block h o n)) (balloc t m (h_next h) a n)) /\
  (forall o p n, free_block h o p n = Ok h' -> represents t h' m).
Proof. exact @memory_sim. Qed.
Print Assumptions C72_refines_memory.
Theorem C72_refines_copy : forall (V : Type) (t : ctype V), good_type t ->
  forall (ndebug : bool) (h h' : heap V) (m : bmem) (src dst : aref), length (r_shape src) = length (r_shape dst) ->
  represents t h m -> copy ndebug h src dst = Ok h' ->
  exists m', bcopy t t (fun v => v) ndebug m (bref t src) (bref t dst) = Ok m' /\ represents t h' m'.
Proof. exact @copy_sim. Qed.
Print Assumptions C72_refines_copy.
Theorem C72_refines_fill : forall (V : Type) (t : ctype V), good_type t ->
  forall (ndebug : bool) (h h' : heap V) (m : bmem) (dst : aref) (v : V),
  represents t h m -> fill ndebug h dst v = Ok h' -> exists m', bfill t ndebug m (bref t dst) v = Ok m' /\ represents t h' m'.
Proof. exact @fill_sim. Qed.
Print Assumptions C72_refines_fill.
Theorem C72_refines_transform : forall (V : Type) (t : ctype V), good_type t ->
  forall (h h' : heap V) (m : bmem) (dst : aref) (fn : index -> V),
  represents t h m -> transform_index h dst fn = Ok h' -> exists m', btransform t m (bref t dst) fn = Ok m' /\ represents t h' m'.
Proof. exact @transform_sim. Qed.
Print Assumptions C72_refines_transform.
Theorem C72_refines_equal : forall (V : Type) (t : ctype V), good_type t ->
  forall (ndebug : bool) (eqb : V -> V -> bool) (h : heap V) (m : bmem) (a b : aref) (r : bool),
  length (r_shape a) = length (r_shape b) -> represents t h m -> equal ndebug eqb h a b = Ok r ->
  bequal t t eqb ndebug m (bref t a) (bref t b) = Ok r.
Proof. exact @equal_sim. Qed.
Print Assumptions C72_refines_equal.
(** A block of three elements, and an overlapping copy in it *)
Definition cells : heap (Z * Z) := mkH 2 (fun k => if (k =? 1)%nat then Some (mkB (Base 0) 3 (fun x => Live (x, 10 + x))) else None).
Definition cell_bytes : bmem := fun k =>
  if (k =? 1)%nat then Some (mkBB 6 12 (fun x => if x mod 4 =? 0 then Some (x / 4) else if x mod 4 =? 2 then Some (10 + x / 4) else None)) else None.
Example C72_refines_example : good_type padded /\ represents padded cells cell_bytes /\
  (exists h', copy false cells (mkR (1%nat, 1) [mkD 0 2 1]) (mkR (1%nat, 0) [mkD 0 2 1]) = Ok h' /\ load h' (1%nat, 0) = Ok (1, 11) /\ load h' (1%nat, 1) = Ok (2, 12)) /\
  dump (bcopy padded padded (fun v => v) false cell_bytes (mkR (1%nat, 4) [mkD 0 2 1]) (mkR (1%nat, 0) [mkD 0 2 1])) 1 =
  [Some 1; None; Some 11; None; Some 2; None; Some 12; None; Some 2; None; Some 12; None].
Proof.
  split; [exact padded_good|]. split.
  - intros k blk H. unfold cells in H. cbn [h_blk] in H. unfold cell_bytes. destruct (k =? 1)%nat; [|discriminate]. injection H as <-.
    eexists. split; [reflexivity|]. split; [reflexivity|]. split; [exists 3; reflexivity|]. cbn [b_size b_cell].
    intros x v Hx [= <-]. assert (C : x = 0 \/ x = 1 \/ x = 2) by lia. destruct C as [->|[->| ->]]; reflexivity.
  - split; [|reflexivity]. eexists. split; [reflexivity|]. split; reflexivity.
Qed.
