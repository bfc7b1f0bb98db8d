(** Threads that run whole statements of Program.v and declare arrays of their own.  Not library code: the statements call
    the library (include/array/array.h, as cited in Container.v and Program.v), this file is the program around them.

    A thread names arrays as if it ran alone: those of the start, and those it declares.  Its scope says which arrays of the
    program these are.  Simplified: one statement at a time is executed.  Definitions only. *)
From Coq Require Import ZArith List Bool Arith.
From Verif Require Import Base Interval Shape Memory Ref Container Program.
Import ListNotations.

Section Scopes.
Context {V : Type}.
Variable c : config V.

(** Not library code: the statement on other arrays, array.h:2362-2705 *)
Definition rename_op (f : nat -> nat) (o : op V) : op V :=
  match o with
  | New s al => New s al
  | NewValue s v al => NewValue s v al
  | NewCopy y => NewCopy (f y)
  | NewCopyAlloc y al => NewCopyAlloc (f y) al
  | NewMove y => NewMove (f y)
  | NewMoveAlloc y al => NewMoveAlloc (f y) al
  | MakeCopy y s al => MakeCopy (f y) s al
  | MakeMove y s al => MakeMove (f y) s al
  | CopyAssign x y => CopyAssign (f x) (f y)
  | MoveAssign x y => MoveAssign (f x) (f y)
  | AssignCopy x y => AssignCopy (f x) (f y)
  | AssignMove x y => AssignMove (f x) (f y)
  | AssignValue x s v => AssignValue (f x) s v
  | Clear x => Clear (f x)
  | Reshape x s => Reshape (f x) s
  | Swap x y => Swap (f x) (f y)
  | Write x i v => Write (f x) i v
  | Delete x => Delete (f x)
  end.
(** Not library code: the same for the statements of Program.v, array.h:2527-2537, 2757-2949 *)
Definition rename (f : nat -> nat) (o : act V) : act V :=
  match o with
  | Run o => Run (rename_op f o)
  | Fill x v => Fill (f x) v
  | FillElem x y i => FillElem (f x) (f y) i
  | CopyTo y x => CopyTo (f y) (f x)
  | MoveTo y x => MoveTo (f y) (f x)
  | MoveAll y x => MoveAll (f y) (f x)
  | Generate x g => Generate (f x) g
  | Transform x fn => Transform (f x) fn
  | AssignElem x s y i => AssignElem (f x) s (f y) i
  end.

(** Not library code: the next name of a thread, and the array each of its names stands for *)
Record scope := mkScope { sc_next : nat; sc_name : nat -> nat }.
(** Not library code: a thread begins with the arrays of the program, of which there are [n] *)
Definition first_scope (n : nat) : scope := mkScope n (fun x => x).
(** Not library code: the arrays from [n] to [n' - 1] were declared *)
Definition declared (sc : scope) (n n' : nat) : scope :=
  mkScope (sc_next sc + (n' - n))
    (fun x => if ((sc_next sc <=? x) && (x <? sc_next sc + (n' - n)))%nat then (n + (x - sc_next sc))%nat else sc_name sc x).
(** Not library code: one statement of a thread *)
Definition scope_step (sc : scope) (w : world V) (o : act V) : outcome (scope * world V) :=
  w' <- astep c w (rename (sc_name sc) o) ;; Ok (declared sc (w_next w) (w_next w'), w').
(** Not library code: the threads, each with its scope and what it has left to do *)
Definition threads := nat -> scope * list (act V).
(** Not library code: the threads before they begin *)
Definition start (n : nat) (P : nat -> list (act V)) : threads := fun k => (first_scope n, P k).
(** Not library code: [sched] says whose turn it is; a thread that is done does nothing *)
Fixpoint run_threads (sched : list nat) (T : threads) (w : world V) : outcome (threads * world V) :=
  match sched with
  | [] => Ok (T, w)
  | k :: r =>
      match T k with
      | (_, []) => run_threads r T w
      | (sc, o :: l) =>
          ' (sc', w') <- scope_step sc w o ;;
          run_threads r (fun j => if (j =? k)%nat then (sc', l) else T j) w'
      end
  end.
End Scopes.
