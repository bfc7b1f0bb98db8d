(** Common definitions: outcomes of C++ functions, small list helpers and the
    64-bit index type.  No proofs in this file. *)
From Coq Require Import ZArith List Bool.
Import ListNotations.
Open Scope Z_scope.

(** Result of running a piece of C++: a value, a failed [assert] (only in builds
    without NDEBUG), or undefined behaviour / non-termination. *)
Inductive outcome (A : Type) : Type :=
| Ok (a : A)
| AssertFail
| UB.
Arguments Ok {A} _.
Arguments AssertFail {A}.
Arguments UB {A}.

(** Not library code: running one piece of C++ after another; neither a failed assert nor undefined behaviour is survived. *)
Definition bind {A B : Type} (m : outcome A) (f : A -> outcome B) : outcome B :=
  match m with
  | Ok a => f a
  | AssertFail => AssertFail
  | UB => UB
  end.

Notation "x <- m ;; f" := (bind m (fun x => f))
  (at level 61, m at next level, right associativity).
Notation "' p <- m ;; f" := (bind m (fun p => f))
  (at level 61, p pattern, m at next level, right associativity).

(** [assert(b)] of <cassert>, e.g. array.h:1013: fails in debug builds, is skipped when NDEBUG is defined. *)
Definition assert_ (ndebug : bool) (b : bool) : outcome unit :=
  if b then Ok tt else if ndebug then Ok tt else AssertFail.

(** Not library code: run [f] on every element of [l] in order and concatenate the results.  It is the body of the loops over indices, array.h:1371-1377. *)
Fixpoint flat_mapM {A B : Type} (f : A -> outcome (list B)) (l : list A) : outcome (list B) :=
  match l with
  | [] => Ok []
  | a :: r => x <- f a ;; y <- flat_mapM f r ;; Ok (x ++ y)
  end.

(** Not library code: the calls of a callback on the elements of [l], in order, array.h:1436-1447. *)
Fixpoint foldM {A S : Type} (f : S -> A -> outcome S) (l : list A) (s : S) : outcome S :=
  match l with
  | [] => Ok s
  | a :: r => s' <- f s a ;; foldM f r s'
  end.

(** Not library code: the expansion of two parameter packs together, e.g. array.h:1018-1022. *)
Fixpoint map2 {A B C : Type} (f : A -> B -> C) (la : list A) (lb : list B) : list C :=
  match la, lb with
  | a :: ra, b :: rb => f a b :: map2 f ra rb
  | _, _ => []
  end.

(** [lo, lo+1, ..., lo+n-1]: the values of [i_] under array.h:202 [++] *)
Fixpoint zseq (lo : Z) (n : nat) : list Z :=
  match n with
  | O => []
  | S n' => lo :: zseq (lo + 1) n'
  end.

(** index_t is std::ptrdiff_t, 64 bits (array.h:87; the NDARRAY_INT_INDICES configuration of array.h:84 is not modelled). *)
Definition index_min : Z := -9223372036854775808.
(** array.h:87: the largest index_t *)
Definition index_max : Z := 9223372036854775807.
