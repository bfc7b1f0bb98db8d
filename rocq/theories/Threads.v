(** The algorithms of Ref.v, Tiling.v, Ein.v and Matrix.v again, as programs that read and write
    one element at a time, and threads that run such programs on one memory.  The library
    starts no threads; this is what a program does that calls it from several.  Definitions only.

    Simplifications.  A thread neither allocates nor releases memory.  Each read or write of an
    element is one step, threads take turns in any order (sequential consistency).  C++ promises
    that only to programs without data races, which SpecThreads.v defines. *)
From Coq Require Import ZArith List Bool.
From Verif Require Import Base Interval Shape Traverse Memory Ref Ein Matrix Tiling.
Import ListNotations.
Open Scope Z_scope.

(** C++ threads (not library code): what remains to be run: return, read an element and go on with its value,
    write an element and go on, a failed assertion, undefined behaviour *)
Inductive prog (V A : Type) : Type :=
| Ret (a : A)
| Ld (p : ptr) (k : V -> prog V A)
| St (p : ptr) (v : V) (k : prog V A)
| FailAssert
| Undefined.
Arguments Ret {V A} a.
Arguments Ld {V A} p k.
Arguments St {V A} p v k.
Arguments FailAssert {V A}.
Arguments Undefined {V A}.

Section Prog.
Context {V : Type}.

(** C++ threads (not library code): one piece of code after another *)
Fixpoint pbind {A B : Type} (m : prog V A) (f : A -> prog V B) : prog V B :=
  match m with
  | Ret a => f a
  | Ld p k => Ld p (fun v => pbind (k v) f)
  | St p v k => St p v (pbind k f)
  | FailAssert => FailAssert
  | Undefined => Undefined
  end.
(** C++ threads (not library code): code that does not access elements *)
Definition lift {A : Type} (o : outcome A) : prog V A :=
  match o with Ok a => Ret a | AssertFail => FailAssert | UB => Undefined end.
(** C++ threads (not library code): the calls of a callback on the elements of [l], in order, array.h:1436-1447 *)
Fixpoint pfold {A S : Type} (f : S -> A -> prog V S) (l : list A) (s : S) : prog V S :=
  match l with
  | [] => Ret s
  | a :: r => pbind (f s a) (fun s' => pfold f r s')
  end.
(** C++ threads (not library code): run to the end, with nothing else running *)
Fixpoint run {A : Type} (m : prog V A) (h : heap V) : outcome (A * heap V) :=
  match m with
  | Ret a => Ok (a, h)
  | Ld p k => v <- load h p ;; run (k v) h
  | St p v k => h' <- store h p v ;; run k h'
  | FailAssert => AssertFail
  | Undefined => UB
  end.

(** ** The algorithms *)

(** array.h:1421-1424 [copy_assign] *)
Definition p_copy_assign (_ : unit) (ab : ptr * ptr) : prog V unit := Ld (fst ab) (fun v => St (snd ab) v (Ret tt)).
(** array.h:1416-1419 [move_assign] *)
Definition p_move_assign (mv : V -> V) (_ : unit) (ab : ptr * ptr) : prog V unit :=
  Ld (fst ab) (fun v => St (snd ab) v (St (fst ab) (mv v) (Ret tt))).
(** array.h:2763-2772 [copy] and 2834-2843 [move], with the assignment of an element *)
Definition p_transfer (each : unit -> ptr * ptr -> prog V unit) (ndebug : bool) (src dst : aref) : prog V unit :=
  if empty (r_shape dst) then Ret tt
  else
    pbind (lift (assert_ ndebug (index_in_range (r_shape src) (mins (r_shape dst)) &&
                                 index_in_range (r_shape src) (maxs (r_shape dst))))) (fun _ =>
    pbind (lift (values_copy ndebug (r_shape src) (r_base src) (r_shape dst) (r_base dst))) (fun l =>
    pfold each l tt)).
(** array.h:2763-2772 [copy] *)
Definition p_copy : bool -> aref -> aref -> prog V unit := p_transfer p_copy_assign.
(** array.h:2834-2843 [move] *)
Definition p_move (ndebug : bool) (mv : V -> V) : aref -> aref -> prog V unit := p_transfer (p_move_assign mv) ndebug.
(** array.h:2905-2908 [fill] *)
Definition p_fill (ndebug : bool) (dst : aref) (v : V) : prog V unit :=
  pbind (lift (values ndebug (r_shape dst) (r_base dst))) (fun l =>
  pfold (fun _ p => St p v (Ret tt)) l tt).
(** array.h:2917-2920 [generate] *)
Definition p_generate (ndebug : bool) (dst : aref) (g : nat -> V) : prog V nat :=
  pbind (lift (values ndebug (r_shape dst) (r_base dst))) (fun l =>
  pfold (fun n p => St p (g n) (Ret (S n))) l O).
(** array.h:2104-2107 [for_each_value] with a callback that assigns [u v] to an element with value [v] *)
Definition p_for_each_value (ndebug : bool) (dst : aref) (u : V -> V) : prog V unit :=
  pbind (lift (values ndebug (r_shape dst) (r_base dst))) (fun l =>
  pfold (fun _ p => Ld p (fun v => St p (u v) (Ret tt))) l tt).
(** array.h:2930-2935 [transform_index] *)
Definition p_transform_index (dst : aref) (fn : index -> V) : prog V unit :=
  pbind (lift (for_each_index (r_shape dst))) (fun l =>
  pfold (fun _ i => St (ref_ptr dst i) (fn i) (Ret tt)) l tt).
(** r(i) = u(i, r(i)) for all indices of a view, array.h:1943-1948 *)
Definition p_update_view (u : list Z -> V -> V) (r : aref) : prog V unit :=
  pbind (lift (for_each_index (r_shape r))) (fun l =>
  pfold (fun _ i => Ld (ref_ptr r i) (fun old => St (ref_ptr r i) (u i old) (Ret tt))) l tt).
(** array.h:2956-2968 [equal] *)
Definition p_equal (ndebug : bool) (eqb : V -> V -> bool) (a b : aref) : prog V bool :=
  if negb (list_eqb (mins (r_shape a)) (mins (r_shape b))) ||
     negb (list_eqb (extents (r_shape a)) (extents (r_shape b))) then Ret false
  else
    pbind (lift (values_copy ndebug (r_shape a) (r_base a) (r_shape b) (r_base b))) (fun l =>
    pfold (fun result ab => Ld (fst ab) (fun x => Ld (snd ab) (fun y => Ret (if eqb x y then result else false)))) l true).
(** ein_reduce.h:84-87, 121-124, 137-140, 164-167, 176-181 [operator()] *)
Fixpoint p_eval (e : expr V) (idx : index) : prog V V :=
  match e with
  | EArr r is_ => Ld (ref_ptr r (get_all is_ idx)) (fun v => Ret v)
  | EFn f is_ => Ret (f (get_all is_ idx))
  | EUn f e => pbind (p_eval e idx) (fun v => Ret (f v))
  | EBin f a b => pbind (p_eval a idx) (fun v => pbind (p_eval b idx) (fun w => Ret (f v w)))
  end.
(** ein_reduce.h:158-169, 193-196: one evaluation of the assignment *)
Definition p_ein_assign (f : V -> V -> V) (r : aref) (out : list nat) (e : expr V) (_ : unit) (idx : index) : prog V unit :=
  pbind (p_eval e idx) (fun v =>
  Ld (ref_ptr r (get_all out idx)) (fun old =>
  St (ref_ptr r (get_all out idx)) (f old v) (Ret tt))).
(** ein_reduce.h:418-443 [ein_reduce] *)
Definition p_ein_reduce (ndebug : bool) (f : V -> V -> V) (r : aref) (out : list nat) (e : expr V) : prog V unit :=
  pbind (lift (ein_loop_shape ndebug r out e)) (fun s =>
  pbind (lift (for_each_index_in_order s)) (fun l =>
  pfold (p_ein_assign f r out e) l tt)).
(** for (... : l) body, matrix.cpp:38-45 *)
Definition p_for {A : Type} (l : outcome (list A)) (body : A -> prog V unit) : prog V unit :=
  pbind (lift l) (fun l' => pfold (fun _ a => body a) l' tt).
(** C(i, j) += A(i, k) * B(k, j), matrix.cpp:42 *)
Definition p_mac (add mul : V -> V -> V) (A B C : aref) (i j k : Z) : prog V unit :=
  Ld (ref_ptr A [i; k]) (fun a => Ld (ref_ptr B [k; j]) (fun b => Ld (ref_ptr C [i; j]) (fun old =>
  St (ref_ptr C [i; j]) (add old (mul a b)) (Ret tt)))).
(** matrix.cpp:36-46 [multiply_reduce_cols] *)
Definition p_multiply_reduce_cols (zero : V) (add mul : V -> V -> V) (A B C : aref) : prog V unit :=
  p_for (for_dim (row_dim C)) (fun i =>
    p_for (for_dim (col_dim C)) (fun j =>
      St (ref_ptr C [i; j]) zero
        (p_for (for_dim (col_dim A)) (fun k => p_mac add mul A B C i j k)))).

(** ** Calls *)

(** A call of one of the algorithms, with its line in array.h: [fill] 2905, [generate] 2917, [for_each_value] 2105,
    [transform_index] 2930, a loop over indices 1943, [copy] 2763, [move] 2834, [equal] 2956; [ein_reduce] ein_reduce.h:418; [multiply_reduce_cols] matrix.cpp:36 *)
Inductive call :=
| KFill (dst : aref) (v : V)
| KGenerate (dst : aref) (g : nat -> V)
| KEach (dst : aref) (u : V -> V)
| KTransform (dst : aref) (fn : index -> V)
| KUpdate (dst : aref) (u : list Z -> V -> V)
| KCopy (src dst : aref)
| KMove (mv : V -> V) (src dst : aref)
| KEqual (eqb : V -> V -> bool) (a b : aref)
| KReduce (f : V -> V -> V) (r : aref) (out : list nat) (e : expr V)
| KMultiply (zero : V) (add mul : V -> V -> V) (A B C : aref).
(** What a call returns: nothing, a number of calls of the generator (array.h:2919), or a truth value (array.h:2967) *)
Inductive answer := Nothing | Count (n : nat) | Truth (b : bool).
(** The call as a program that accesses one element at a time, array.h:2763-2968 *)
Definition call_prog (nd : bool) (c : call) : prog V answer :=
  match c with
  | KFill dst v => pbind (p_fill nd dst v) (fun _ => Ret Nothing)
  | KGenerate dst g => pbind (p_generate nd dst g) (fun n => Ret (Count n))
  | KEach dst u => pbind (p_for_each_value nd dst u) (fun _ => Ret Nothing)
  | KTransform dst fn => pbind (p_transform_index dst fn) (fun _ => Ret Nothing)
  | KUpdate dst u => pbind (p_update_view u dst) (fun _ => Ret Nothing)
  | KCopy src dst => pbind (p_copy nd src dst) (fun _ => Ret Nothing)
  | KMove mv src dst => pbind (p_move nd mv src dst) (fun _ => Ret Nothing)
  | KEqual eqb a b => pbind (p_equal nd eqb a b) (fun t => Ret (Truth t))
  | KReduce f r out e => pbind (p_ein_reduce nd f r out e) (fun _ => Ret Nothing)
  | KMultiply zero add mul A B C => pbind (p_multiply_reduce_cols zero add mul A B C) (fun _ => Ret Nothing)
  end.
(** The same call in the sequential model, Ref.v, Tiling.v, Ein.v and Matrix.v, array.h:2763-2968 *)
Definition call_seq (nd : bool) (c : call) (h : heap V) : outcome (answer * heap V) :=
  match c with
  | KFill dst v => h' <- fill nd h dst v ;; Ok (Nothing, h')
  | KGenerate dst g => ' (h', n) <- generate nd h dst g ;; Ok (Count n, h')
  | KEach dst u => l <- values nd (r_shape dst) (r_base dst) ;;
                   h' <- foldM (fun h p => v <- load h p ;; store h p (u v)) l h ;; Ok (Nothing, h')
  | KTransform dst fn => h' <- transform_index h dst fn ;; Ok (Nothing, h')
  | KUpdate dst u => h' <- update_view u dst h ;; Ok (Nothing, h')
  | KCopy src dst => h' <- copy nd h src dst ;; Ok (Nothing, h')
  | KMove mv src dst => h' <- move nd mv h src dst ;; Ok (Nothing, h')
  | KEqual eqb a b => t <- equal nd eqb h a b ;; Ok (Truth t, h)
  | KReduce f r out e => h' <- ein_reduce nd f h r out e ;; Ok (Nothing, h')
  | KMultiply zero add mul A B C => h' <- multiply_reduce_cols zero add mul A B C h ;; Ok (Nothing, h')
  end.

(** The tiles of a loop nest over the splits of each dimension, README.md:225-248: what the body is called with, in order *)
Definition tiles_of (nd : bool) (sps : list splitter) (ds : shape) : outcome (list (list sarg)) :=
  for_tiles_nd nd sps ds (fun args l => Ok (l ++ [args])) [].

(** ** Threads *)

(** C++ threads (not library code): the memory and what the threads have still to run *)
Definition state (A : Type) : Type := heap V * list (prog V A).
(** C++ threads (not library code): the next step of a program; no step of a finished program *)
Definition advance {A : Type} (h : heap V) (m : prog V A) : outcome (option (heap V * prog V A)) :=
  match m with
  | Ret _ => Ok None
  | Ld p k => v <- load h p ;; Ok (Some (h, k v))
  | St p v k => h' <- store h p v ;; Ok (Some (h', k))
  | FailAssert => AssertFail
  | Undefined => UB
  end.
(** C++ threads (not library code): replace the program of thread [k] *)
Fixpoint set_nth {A : Type} (k : nat) (x : A) (l : list A) : list A :=
  match l, k with
  | [], _ => []
  | _ :: r, O => x :: r
  | y :: r, S k' => y :: set_nth k' x r
  end.

End Prog.
Arguments call V : clear implicits.
