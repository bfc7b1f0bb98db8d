(** Model of programs that use arrays together with the algorithms of array.h: fill, copy, move,
    generate, transform_index (include/array/array.h:2527-2537, 2757-2949).  Definitions only.

    Simplifications.  As in Container.v and Ref.v. *)
From Coq Require Import ZArith List Bool.
From Verif Require Import Base Interval Shape Memory Ref Container.
Import ListNotations.
Open Scope Z_scope.

Section Program.
Context {V : Type}.
Variable c : config V.

(** One statement of a program; the functions called are array.h:2527-2537 and 2757-2949. *)
Inductive act :=
| Run (o : op V)                                      (* an operation of Container.v *)
| Fill (x : nat) (v : V)                              (* fill(x, v); *)
| FillElem (x y : nat) (i : index)                    (* fill(x, y[i]); *)
| CopyTo (y x : nat)                                  (* copy(y, x); *)
| MoveTo (y x : nat)                                  (* move(y, x); *)
| MoveAll (y x : nat)                                 (* move(std::move(y), x); *)
| Generate (x : nat) (g : nat -> V)                   (* generate(x, g); *)
| Transform (x : nat) (fn : index -> V)               (* transform_index(x, fn); *)
| AssignElem (x : nat) (s : shape) (y : nat) (i : index). (* x.assign(s, y[i]); *)

(** The statements of [act]: array.h:2527-2537 [assign], 2763-2789 [copy], 2834-2862 [move], 2905-2912
    [fill] (the callback has a copy of the value), 2917-2924 [generate], 2930-2941 [transform_index].
    y[i] is passed by reference: it is read when it is used. *)
Definition astep (w : world V) (o : act) : outcome (world V) :=
  let h := w_heap w in
  let with_heap (r : outcome (heap V)) := h' <- r ;; Ok (mkW h' (w_arr w) (w_next w)) in
  match o with
  | Run o => step c w o
  | Fill x v => a <- get w x ;; with_heap (fill (c_ndebug c) h (aref_of a) v)
  | FillElem x y i => a <- get w x ;; b <- get w y ;; v <- ref_at h (aref_of b) i ;;
                      with_heap (fill (c_ndebug c) h (aref_of a) v)
  | CopyTo y x => b <- get w y ;; a <- get w x ;; with_heap (copy (c_ndebug c) h (aref_of b) (aref_of a))
  | MoveTo y x => b <- get w y ;; a <- get w x ;; with_heap (move (c_ndebug c) (c_mv c) h (aref_of b) (aref_of a))
  | MoveAll y x => step c w (MoveAssign x y)
  | Generate x g => a <- get w x ;; with_heap (r <- generate (c_ndebug c) h (aref_of a) g ;; Ok (fst r))
  | Transform x fn => a <- get w x ;; with_heap (transform_index h (aref_of a) fn)
  | AssignElem x s y i => a <- get w x ;; b <- get w y ;;
                          change w x (assign_value c x h a s (fun h' => ref_at h' (aref_of b) i))
  end.
(** Not library code: a program *)
Definition arun (ops : list act) (w : world V) : outcome (world V) := foldM astep ops w.

End Program.
Arguments act V : clear implicits.
