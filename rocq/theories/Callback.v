(** Model of the functions that take a function object: where the object is called, and where it is
    moved from (include/array/array.h:1887-1898, 1943-1972, 2104-2107, 2576-2583, 2914-2953; matrix.h:80-84; image.h:78-82).
    The callable can read and write elements, and other state of the program.  Definitions only.

    Simplifications.  As in Ref.v and Traverse.v.  Objects are passed as lvalues: rvalues are not used again.
    Lambdas of the library that hold the object are not mutable, so that they call it as a const object;
    a call that changes the object does not compile there. *)
From Coq Require Import ZArith List Bool.
From Verif Require Import Base Interval Shape Traverse Memory Ref.
Import ListNotations.
Open Scope Z_scope.

Section Callback.
(** [F] are the values of the function object, [S] is the state of the program other than elements of arrays *)
Context {V F S : Type}.
(** Not library code: what a call can read and write *)
Definition mem : Type := heap V * S.
(** Not library code: a call returns, or throws; the object and the memory afterwards *)
Inductive reply (R : Type) : Type :=
| Gives (r : R) (f : F) (m : mem)
| Fails (f : F) (m : mem).
Arguments Gives {R} r f m.
Arguments Fails {R} f m.
(** Not library code: the type of a function object: its call operator, and what its move constructor leaves of the object
    that was moved from *)
Record callable (A R : Type) := mkCall { call : F -> mem -> A -> outcome (reply R); moved : F -> F }.
Arguments mkCall {A R} call moved.
Arguments call {A R} c f m a.
Arguments moved {A R} c f.

(** array.h:1364-1377, 1426-1486: loops that call [fn] by reference; nothing is caught *)
Fixpoint call_each {A : Type} (one : F -> mem -> A -> outcome (reply unit)) (l : list A) (f : F) (m : mem) : outcome (reply unit) :=
  match l with
  | [] => Ok (Gives tt f m)
  | a :: r => x <- one f m a ;;
              match x with Gives _ f' m' => call_each one r f' m' | Fails f' m' => Ok (Fails f' m') end
  end.
(** C++ (not library code): a call of the object held by a lambda that is not mutable, e.g. array.h:1954, 2919 *)
Definition const_call {A R : Type} (k : callable A R) (f : F) (m : mem) (a : A) : outcome (reply R) :=
  x <- call k f m a ;; Ok (match x with Gives r _ m' => Gives r f m' | Fails _ m' => Fails f m' end).
(** C++ (not library code): [fn = std::move(fn)] in a capture, array.h:1954, 1962, 1969, 2919, 2934, 2948: the lambda calls its
    own object, the caller's has been moved from *)
Definition captured {A R : Type} (k : callable A R) (f : F) (r : outcome (reply unit)) : outcome (reply unit) :=
  x <- r ;; Ok (match x with Gives r _ m' => Gives r (moved k f) m' | Fails _ m' => Fails (moved k f) m' end).

(** array.h:1943-1948, 1887-1890 [for_each_index] *)
Definition for_each_index_f (k : callable index unit) (s : shape) (f : F) (m : mem) : outcome (reply unit) :=
  l <- for_each_index s ;; call_each (call k) l f m.
(** array.h:1949-1955 [for_all_indices] *)
Definition for_all_indices_f (k : callable index unit) (s : shape) (f : F) (m : mem) : outcome (reply unit) :=
  captured k f (l <- for_each_index s ;; call_each (const_call k) l f m).
(** array.h:1956-1963 [for_each_index<LoopOrder...>], 1964-1972 [for_all_indices<LoopOrder...>] *)
Definition for_each_index_order_f (order : list nat) (k : callable index unit) (s : shape) (f : F) (m : mem)
  : option (outcome (reply unit)) :=
  match for_each_index_loop_order order s with
  | Some l => Some (captured k f (l <- l ;; call_each (const_call k) l f m))
  | None => None
  end.
(** array.h:2104-2107, 2576-2583, 1895-1899 [for_each_value] *)
Definition for_each_value_f (ndebug : bool) (k : callable ptr unit) (dst : aref) (f : F) (m : mem) : outcome (reply unit) :=
  l <- values ndebug (r_shape dst) (r_base dst) ;; call_each (call k) l f m.
(** matrix.h:80-84 [for_each_value] of matrices *)
Definition for_each_value_matrix_f (k : callable ptr unit) (i j : dim) (base : ptr) (f : F) (m : mem) : outcome (reply unit) :=
  captured k f (l <- values_matrix i j base ;; call_each (const_call k) l f m).
(** image.h:78-82 [for_each_value] of chunky images with a stride in x of their own *)
Definition for_each_value_chunky_f (k : callable ptr unit) (x y c : dim) (base : ptr) (f : F) (m : mem) : outcome (reply unit) :=
  captured k f (l <- values_chunky_general x y c base ;; call_each (const_call k) l f m).

(** array.h:2919, 2934: [element = fn(...)] *)
Definition assign_result {A : Type} (k : callable A V) (at_ : ptr) (a : A) (f : F) (m : mem) : outcome (reply unit) :=
  x <- const_call k f m a ;;
  match x with
  | Gives v f' (h, s) => h' <- store h at_ v ;; Ok (Gives tt f' (h', s))
  | Fails f' m' => Ok (Fails f' m')
  end.
(** array.h:2917-2925 [generate] *)
Definition generate_f (ndebug : bool) (k : callable unit V) (dst : aref) (f : F) (m : mem) : outcome (reply unit) :=
  captured k f (l <- values ndebug (r_shape dst) (r_base dst) ;; call_each (fun f m p => assign_result k p tt f m) l f m).
(** array.h:2930-2939 [transform_index] *)
Definition transform_index_f (k : callable index V) (dst : aref) (f : F) (m : mem) : outcome (reply unit) :=
  captured k f (l <- for_each_index (r_shape dst) ;; call_each (fun f m i => assign_result k (ref_ptr dst i) i f m) l f m).
(** array.h:2944-2953 [transform_indices]: the lambda that holds the object is moved into the one of [transform_index] *)
Definition transform_indices_f (k : callable index V) (dst : aref) (f : F) (m : mem) : outcome (reply unit) :=
  captured k f (transform_index_f (mkCall (const_call k) (moved k)) dst f m).
End Callback.
Arguments mem V S : clear implicits.
Arguments reply V F S R : clear implicits.
Arguments Gives {V F S R} r f m.
Arguments Fails {V F S R} f m.
Arguments callable V F S A R : clear implicits.
Arguments mkCall {V F S A R} call moved.
Arguments call {V F S A R} c f m a.
Arguments moved {V F S A R} c f.
