(** Specification vocabulary.  Only the types [interval], [dim] and [sarg] are shared with
    the model; none of the model's functions is used here. *)
From Coq Require Import ZArith List Bool Sorted Permutation.
From Verif Require Import Base Interval Shape.
Import ListNotations.
Open Scope Z_scope.

(** [x] is one of the indices min, min+1, ..., min+extent-1 *)
Definition in_interval (i : interval) (x : Z) : Prop := imin i <= x < imin i + iext i.
Definition in_dim (d : dim) (x : Z) : Prop := dmin d <= x < dmin d + dext d.
(** [i] is an in-range index of the shape with dims [s] *)
Definition in_bounds (s : list dim) (i : list Z) : Prop := Forall2 in_dim s i.

(** Sum of (i_d - min_d) * stride_d *)
Fixpoint offset (s : list dim) (i : list Z) : Z :=
  match s, i with
  | d :: s', x :: i' => (x - dmin d) * dstr d + offset s' i'
  | _, _ => 0
  end.

(** All extents are at least [n] *)
Definition extents_ge (n : Z) (s : list dim) : Prop := Forall (fun d => n <= dext d) s.

(** Two different in-range indices never have the same offset *)
Definition injective_layout (s : list dim) : Prop :=
  forall i j, in_bounds s i -> in_bounds s j -> offset s i = offset s j -> i = j.

(** [l] lists the elements satisfying [P], each exactly once *)
Definition enumerates {A : Type} (P : A -> Prop) (l : list A) : Prop :=
  NoDup l /\ forall x, In x l <-> P x.

(** Number of elements satisfying [P] *)
Definition has_count {A : Type} (P : A -> Prop) (n : Z) : Prop :=
  exists l, enumerates P l /\ Z.of_nat (length l) = n.

(** Reversed lexicographic order: the last coordinate is the most significant one *)
Fixpoint colex_lt (a b : list Z) : Prop :=
  match a, b with
  | x :: a', y :: b' => colex_lt a' b' \/ (a' = b' /\ x < y)
  | _, _ => False
  end.

(** Lexicographic order: the first coordinate is the most significant one *)
Fixpoint lex_lt (a b : list Z) : Prop :=
  match a, b with
  | x :: a', y :: b' => x < y \/ (x = y /\ lex_lt a' b')
  | _, _ => False
  end.

(** ** Strides *)

(** The marker for "stride not given" (std::numeric_limits<index_t>::min()). *)
Definition unknown_stride (d : dim) : Prop := dstr d = -9223372036854775808.
Definition unknown_strideb (d : dim) : bool := dstr d =? -9223372036854775808.
Definition known_dims (s : list dim) : list dim := filter (fun d => negb (unknown_strideb d)) s.

(** Largest span (extent times |stride|) of a dimension with a given stride, at least 1 *)
Definition max_known_span (s : list dim) : Z :=
  fold_right Z.max 1 (map (fun d => Z.abs (dstr d) * dext d) (known_dims s)).
(** Product of the extents of the dimensions without a stride *)
Definition unknown_extents (s : list dim) : Z :=
  fold_right Z.mul 1 (map (fun d => Z.max 1 (dext d)) (filter unknown_strideb s)).
(** No intermediate stride of the search can exceed this. *)
Definition stride_budget (s : list dim) : Z := max_known_span s * unknown_extents s.

(** One dimension's whole span fits in the other one's stride. *)
Definition nested2 (a b : dim) : Prop :=
  dext a * Z.abs (dstr a) <= Z.abs (dstr b) \/ dext b * Z.abs (dstr b) <= Z.abs (dstr a).
(** Dims of extent > 1 have a non-zero stride and are pairwise nested. *)
Definition nested (s : list dim) : Prop :=
  Forall (fun d => 1 < dext d -> dstr d <> 0) s /\
  ForallOrdPairs (fun a b => 1 < dext a -> 1 < dext b -> nested2 a b) s.

(** Dimensions that tile a block of [n] elements: the innermost has stride +-1, each next
    one has the block built so far as its stride. The list is given outermost first. *)
Inductive tiles : Z -> list dim -> Prop :=
| tiles_nil : tiles 1 []
| tiles_cons n d l : tiles n l -> Z.abs (dstr d) = n -> tiles (n * dext d) (d :: l).

(** What an argument of a slicing operation stands for. *)
Definition arg_contains (a : sarg) (x : Z) : Prop :=
  match a with
  | AIdx y => x = y
  | AInt i => in_interval i x
  | ADim c => in_dim c x
  | AAll => False
  end.
Definition arg_nonempty (a : sarg) : Prop :=
  match a with
  | AIdx _ => True
  | AInt i => 1 <= iext i
  | ADim c => 1 <= dext c
  | AAll => False
  end.

(** The intervals of the list follow each other from [a] up to (excluding) [b] *)
Inductive consecutive : Z -> Z -> list interval -> Prop :=
| cons_nil a : consecutive a a []
| cons_next a e b l : consecutive (a + e) b l -> consecutive a b (mkI a e :: l).
