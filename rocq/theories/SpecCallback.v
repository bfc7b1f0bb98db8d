(** Specification vocabulary for calls of function objects: the calls of a list one after the other, and what filling an
    array with results of calls gives, without memory.  Of the model only types are used. *)
From Coq Require Import ZArith List Bool.
From Verif Require Import Base Interval Shape Memory Callback Spec SpecMem.
Import ListNotations.
Open Scope Z_scope.

Section Spec.
Context {V F S : Type}.
Notation reply := (reply V F S).
Notation mem := (mem V S).

(** The outcome [x] of calling the object with the arguments [l], until a call throws or is undefined; each call acts on
    the object and the memory that the call before left *)
Inductive in_turn {A} (one : F -> mem -> A -> outcome (reply unit)) : list A -> F -> mem -> outcome (reply unit) -> Prop :=
| turn_end f m : in_turn one [] f m (Ok (Gives tt f m))
| turn_gives a l f m f' m' x : one f m a = Ok (Gives tt f' m') -> in_turn one l f' m' x -> in_turn one (a :: l) f m x
| turn_fails a l f m f' m' : one f m a = Ok (Fails f' m') -> in_turn one (a :: l) f m (Ok (Fails f' m'))
| turn_ub a l f m : one f m a = UB -> in_turn one (a :: l) f m UB
| turn_assert a l f m : one f m a = AssertFail -> in_turn one (a :: l) f m AssertFail.

(** The object after the call *)
Definition object {R} (r : reply R) : F := match r with Gives _ f _ | Fails f _ => f end.
Definition with_object {R} (f : F) (r : reply R) : reply R := match r with Gives r _ m => Gives r f m | Fails _ m => Fails f m end.
Definition in_outcome {A B} (g : A -> B) (x : outcome A) : outcome B :=
  match x with Ok a => Ok (g a) | UB => UB | AssertFail => AssertFail end.
(** Calls leave the object as it is *)
Definition keeps {A R} (k : callable V F S A R) (f : F) : Prop := forall m a r, call k f m a = Ok r -> object r = f.

(** [g] except at [i] *)
Definition put (g : list Z -> V) (i : list Z) (v : V) : list Z -> V := fun j => if list_eq_dec Z.eq_dec j i then v else g j.
(** Without memory: elements are set, in the order of [l], to results computed from the elements so far and a state;
    [None] is an exception, which ends it: [false] *)
Fixpoint fills (phi : (list Z -> V) -> S -> list Z -> option V * S) (l : list (list Z)) (g : list Z -> V) (s : S)
  : (list Z -> V) * S * bool :=
  match l with
  | [] => (g, s, true)
  | i :: r => match phi g s i with
              | (Some v, s') => fills phi r (put g i v) s'
              | (None, s') => (g, s', false)
              end
  end.
(** The elements of the view are those of [g] *)
Definition shows_elems (h : heap V) (b : ptr) (sh : list dim) (g : list Z -> V) : Prop :=
  forall i, in_bounds sh i -> holds h (elem b sh i) (g i).
(** The object [f] computes [phi] from the elements of the view and the state, while memory outside the view is as in [h0]; it
    does not write elements *)
Definition computes_from {A} (h0 : heap V) (b : ptr) (sh : list dim) (k : callable V F S A V) (f : F) (arg : list Z -> A)
  (phi : (list Z -> V) -> S -> list Z -> option V * S) : Prop :=
  forall h g s i, only_changes (is_elem b sh) h0 h -> shows_elems h b sh g -> in_bounds sh i ->
    exists f', call k f (h, s) (arg i) =
      Ok (match phi g s i with (Some v, s') => Gives v f' (h, s') | (None, s') => Fails f' (h, s') end).
(** The reply [r] is that of filling, in the order of [l]; the caller's object is [f] *)
Definition filled_by (h0 : heap V) (b : ptr) (sh : list dim) (f : F) (phi : (list Z -> V) -> S -> list Z -> option V * S)
  (l : list (list Z)) (g : list Z -> V) (s : S) (r : reply unit) : Prop :=
  let '(g', s', done) := fills phi l g s in
  exists h', r = (if done then Gives tt f (h', s') else Fails f (h', s')) /\
    shows_elems h' b sh g' /\ only_changes (is_elem b sh) h0 h'.
(** The object returns a result computed from a state, which it changes; it does not read or write elements *)
Definition generator (k : callable V F S unit V) (f : F) (out : S -> V) (next : S -> S) : Prop :=
  forall h s, exists f', call k f (h, s) tt = Ok (Gives (out s) f' (h, next s)).
(** Called with an element, the object changes itself and the state by [acc], and the element by [up] *)
Definition visits_each (k : callable V F S ptr unit) (acc : F * S -> V -> F * S) (up : F * S -> V -> V) : Prop :=
  forall h p v f s, holds h p v ->
    exists h', call k f (h, s) p = Ok (Gives tt (fst (acc (f, s) v)) (h', snd (acc (f, s) v))) /\
      holds h' p (up (f, s) v) /\ only_changes (eq p) h h'.
End Spec.
