(** Model of programs that hold array_refs as well as arrays: array_refs are made from arrays and
    from other array_refs, are used to read, write, fill and copy, and the arrays are operated on
    meanwhile (include/array/array.h:2012-2099, 2707-2716, 2757-2912).  Definitions only.

    Simplifications.  As in Container.v, Program.v and Ref.v.  An array_ref is a pointer and a shape,
    it keeps nothing alive; its type (const or not) is not modelled. *)
From Coq Require Import ZArith List Bool.
From Verif Require Import Base Interval Shape Memory Ref Container Program.
Import ListNotations.
Open Scope Z_scope.

Section Views.
Context {V : Type}.
Variable c : config V.

(** Not library code: a program's arrays, its array_refs (by number, in order of creation) and what it
    has read so far (the last one first); array.h:2048-2049 the members of array_ref *)
Record vstate := mkVS { vs_world : world V; vs_refs : list aref; vs_out : list V }.

(** One statement; the functions called are array.h:2080-2099, 2707-2716, 2757-2789, 2905-2912. *)
Inductive vact :=
| Do (o : act V)                          (* a statement about arrays *)
| Ref (x : nat)                           (* array_ref v = x.ref(); *)
| Slice (v : nat) (args : list sarg)      (* array_ref u = v(args...); *)
| Get (v : nat) (i : index)               (* out << v[i]; *)
| Put (v : nat) (i : index) (e : V)       (* v[i] = e; *)
| FillRef (v : nat) (e : V)               (* fill(v, e); *)
| CopyRef (u v : nat).                    (* copy(u, v); *)

(** Not library code: use of an array_ref by its number *)
Definition get_ref (st : vstate) (v : nat) : outcome aref :=
  match nth_error (vs_refs st) v with Some r => Ok r | None => UB end.
(** Not library code: the heap changes. *)
Definition set_heap (st : vstate) (h : heap V) : vstate :=
  mkVS (mkW h (w_arr (vs_world st)) (w_next (vs_world st))) (vs_refs st) (vs_out st).
(** The statements of [vact]: array.h:2707-2716 [ref], 2080-2086 [operator[]], 2088-2099
    [operator()] with slices, 2905-2912 [fill], 2763-2789 [copy]. *)
Definition vstep (st : vstate) (o : vact) : outcome vstate :=
  let w := vs_world st in
  match o with
  | Do o => w' <- astep c w o ;; Ok (mkVS w' (vs_refs st) (vs_out st))
  | Ref x => a <- get w x ;; Ok (mkVS w (vs_refs st ++ [aref_of a]) (vs_out st))
  | Slice v args => r <- get_ref st v ;; Ok (mkVS w (vs_refs st ++ [ref_slice r args]) (vs_out st))
  | Get v i => r <- get_ref st v ;; e <- ref_at (w_heap w) r i ;; Ok (mkVS w (vs_refs st) (e :: vs_out st))
  | Put v i e => r <- get_ref st v ;; h' <- store (w_heap w) (ref_ptr r i) e ;; Ok (set_heap st h')
  | FillRef v e => r <- get_ref st v ;; h' <- fill (c_ndebug c) (w_heap w) r e ;; Ok (set_heap st h')
  | CopyRef u v => s <- get_ref st u ;; r <- get_ref st v ;;
                   h' <- copy (c_ndebug c) (w_heap w) s r ;; Ok (set_heap st h')
  end.
(** Not library code: a program *)
Definition vrun (ops : list vact) (st : vstate) : outcome vstate := foldM vstep ops st.
(** Not library code: the start of a program *)
Definition vempty : vstate := mkVS empty_world [] [].

End Views.
Arguments vstate V : clear implicits.
Arguments vact V : clear implicits.
