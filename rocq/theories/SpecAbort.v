(** Specification vocabulary for algorithms that an exception stops. *)
From Coq Require Import ZArith List Bool Sorted.
From Verif Require Import Base Interval Shape Memory Ref Container Program Abort Ein Spec SpecMem SpecAlias SpecContainer SpecProgram SpecEin.
Import ListNotations.
Open Scope Z_scope.

Section Abort.
Context {V : Type}.

(** [l] has every index once; if the dims go up in memory without interleaving, in the order of
    the addresses of the elements *)
Definition memory_order (s : list dim) (l : list (list Z)) : Prop :=
  enumerates (in_bounds s) l /\ (nested s -> ascending s -> StronglySorted (fun i j => offset s i < offset s j) l).
(** What is left of an element [old] that is assigned [v] *)
Definition left_of (tear : V -> V -> V) (f : fault) (old v : V) : V :=
  match f with InValue => old | InAssign => tear old v end.

(** The elements at the indices [I] of the view (b, s) have the values [val] *)
Definition assigned (b : ptr) (s : list dim) (h' : heap V) (val : list Z -> V) (I : list (list Z)) : Prop :=
  forall i, In i I -> holds h' (elem b s i) (val i).
(** The elements of the view (b, s) are assigned [val] in the order of the list [l] of their indices, of
    which [k] are completed: if these are all, the algorithm returns with all elements assigned;
    otherwise it throws, and then the first [k] elements have their new values, the next one is what
    [left] says, and nothing else has changed. *)
Definition stops (b : ptr) (s : list dim) (l : list (list Z)) (k : nat) (val : list Z -> V) (left : V -> V -> V)
  (h : heap V) (r : ended (heap V)) : Prop :=
  match r with
  | Returned h' => (length l <= k)%nat /\ assigned b s h' val l /\
      only_changes (fun p => exists i, In i l /\ p = elem b s i) h h'
  | Raised h' => exists l1 i l2, l = l1 ++ i :: l2 /\ length l1 = k /\ assigned b s h' val l1 /\
      (forall old, holds h (elem b s i) old -> holds h' (elem b s i) (left old (val i))) /\
      only_changes (fun p => exists j, In j (l1 ++ [i]) /\ p = elem b s j) h h'
  end.
(** The same for moves: the elements of the view (a, t) that have been moved hold [mv] of their
    values, the one whose move threw what [spoil] says *)
Definition stops2 (b : ptr) (s : list dim) (a : ptr) (t : list dim) (l : list (list Z)) (k : nat) (val : list Z -> V)
  (left : V -> V -> V) (mv spoil : V -> V) (h : heap V) (r : ended (heap V)) : Prop :=
  match r with
  | Returned h' => (length l <= k)%nat /\ assigned b s h' val l /\ assigned a t h' (fun i => mv (val i)) l /\
      only_changes (fun p => exists i, In i l /\ (p = elem b s i \/ p = elem a t i)) h h'
  | Raised h' => exists l1 i l2, l = l1 ++ i :: l2 /\ length l1 = k /\
      assigned b s h' val l1 /\ assigned a t h' (fun i => mv (val i)) l1 /\
      (forall old, holds h (elem b s i) old -> holds h' (elem b s i) (left old (val i))) /\
      holds h' (elem a t i) (spoil (val i)) /\
      only_changes (fun p => exists j, In j (l1 ++ [i]) /\ (p = elem b s j \/ p = elem a t j)) h h'
  end.

(** The same for the calls of a generator, whose [n]-th result is [g n]: [n] calls have returned *)
Definition stops_calls (b : ptr) (s : list dim) (l : list (list Z)) (k : nat) (val : list Z -> V) (tear : V -> V -> V) (f : fault)
  (h : heap V) (r : ended (heap V * nat)) : Prop :=
  match r with
  | Returned (h', n) => n = length l /\ stops b s l k val (left_of tear f) h (Returned h')
  | Raised (h', n) => n = (match f with InValue => k | InAssign => S k end) /\ stops b s l k val (left_of tear f) h (Raised h')
  end.
(** A reduction over the loop indices [l], of which [k] are completed *)
Definition stops_reduction (r : aref) (out : list nat) (e : expr V) (op : V -> V -> V) (l : list (list Z)) (k : nat)
  (left : V -> V -> V) (h : heap V) (res : ended (heap V)) : Prop :=
  let addr env := elem (r_base r) (r_shape r) (values_of out env) in
  match res with
  | Returned h' => (length l <= k)%nat /\ only_changes (is_elem (r_base r) (r_shape r)) h h' /\
      forall p old, is_elem (r_base r) (r_shape r) p -> holds h p old ->
        exists w, holds h' p w /\ reduces h op e (fun env => In env l /\ addr env = p) old w
  | Raised h' => exists l1 last l2, l = l1 ++ last :: l2 /\ length l1 = k /\
      only_changes (is_elem (r_base r) (r_shape r)) h h' /\
      forall p old, is_elem (r_base r) (r_shape r) p -> holds h p old ->
        exists w, reduces h op e (fun env => In env l1 /\ addr env = p) old w /\
          (p <> addr last -> holds h' p w) /\
          (p = addr last -> exists v, computes h last e v /\ holds h' p (left w (op w v)))
  end.

(** ** Programs that catch the exceptions of every statement *)

(** The arrays whose elements a statement assigns to, other than new ones *)
Definition targets (o : act V) : list nat :=
  match o with
  | Fill x _ | FillElem x _ _ | CopyTo _ x | Generate x _ | Transform x _ | Run (Reshape x _) => [x]
  | MoveTo y x => [x; y]
  | Run (MakeMove y _ _) => [y]
  | _ => []
  end.
(** An array with the elements [f] has the elements [g] after those at [l1] have been moved from
    it, and moving the one at [i] threw *)
Definition remains (mv spoil : V -> V) (f g : list Z -> V) (l1 : list (list Z)) (i : list Z) : Prop :=
  (forall j, In j l1 -> g j = mv (f j)) /\ g i = spoil (f i) /\ forall j, ~ In j (l1 ++ [i]) -> g j = f j.

Fixpoint tlegal (tear : V -> V -> V) (spoil : V -> V) (c : config V) (w : world V) (ops : list (act V * fault * nat)) : Prop :=
  match ops with
  | [] => True
  | (o, f, k) :: r => legal_act c w o /\
      forall e, tstep tear spoil c w o f k = Ok e ->
        match e with Returned w' | Raised w' => tlegal tear spoil c w' r end
  end.
(** States of legal programs *)
Definition treachable (tear : V -> V -> V) (spoil : V -> V) (c : config V) (w : world V) : Prop :=
  exists ops, tlegal tear spoil c empty_world ops /\ trun tear spoil c ops empty_world = Ok w.

End Abort.
