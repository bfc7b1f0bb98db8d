(** Model of shapes (include/array/array.h:649-1320, 1324-1360, 1547-1594).
    A shape is the list of its dims; rank is the length.  Definitions only. *)
From Coq Require Import ZArith List Bool.
From Verif Require Import Base Interval.
Import ListNotations.
Open Scope Z_scope.

(** array.h:674-681 [sum], four arguments at a time *)
Fixpoint vsum (l : list Z) : Z :=
  match l with
  | [] => 0
  | [x0] => x0
  | [x0; x1] => x0 + x1
  | [x0; x1; x2] => x0 + x1 + x2
  | x0 :: x1 :: x2 :: x3 :: rest => x0 + x1 + x2 + x3 + vsum rest
  end.
(** array.h:683-687 [product] *)
Fixpoint vproduct (l : list Z) : Z :=
  match l with
  | [] => 1
  | x :: rest => x * vproduct rest
  end.
(** array.h:689-693 [variadic_min] *)
Fixpoint variadic_min (l : list Z) : Z :=
  match l with
  | [] => index_max
  | x :: rest => cmin x (variadic_min rest)
  end.
(** array.h:695-699 [variadic_max] *)
Fixpoint variadic_max (l : list Z) : Z :=
  match l with
  | [] => index_min
  | x :: rest => cmax x (variadic_max rest)
  end.
(** array.h:708-711 [all]: counts the false arguments *)
Definition vall (bs : list bool) : bool := vsum (map (fun b : bool => if b then 0 else 1) bs) =? 0.
(** array.h:712-715 [any]: counts the true arguments *)
Definition vany (bs : list bool) : bool := negb (vsum (map (fun b : bool => if b then 1 else 0) bs) =? 0).

(** array.h:1071-1092 [shape] *)
Definition shape := list dim.
(** array.h:1060-1061 [index_of_rank] *)
Definition index := list Z.

(** array.h:718-722 [flat_offset], 1179-1185 [shape::operator[]] *)
Definition flat_offset (s : shape) (i : index) : Z := vsum (map2 dim_flat_offset s i).
(** array.h:725-728, 1231 [flat_min] *)
Definition flat_min (s : shape) : Z := vsum (map (fun d => (dext d - 1) * cmin 0 (dstr d)) s).
(** array.h:730-734, 1232 [flat_max] *)
Definition flat_max (s : shape) : Z := vsum (map (fun d => (dext d - 1) * cmax 0 (dstr d)) s).
(** array.h:1233-1236 [shape::flat_extent] *)
Definition flat_extent (s : shape) : Z :=
  let e := flat_max s - flat_min s + 1 in if e <? 0 then 0 else e.
(** array.h:816-819, 1223 [shape::min] *)
Definition mins (s : shape) : index := map dmin s.
(** array.h:831-834, 1224 [shape::max] *)
Definition maxs (s : shape) : index := map dmax s.
(** array.h:821-824, 1225 [shape::extent] *)
Definition extents (s : shape) : list Z := map dext s.
(** array.h:826-829, 1226 [shape::stride] *)
Definition strides (s : shape) : list Z := map dstr s.
(** array.h:1239-1242 [shape::size] *)
Definition size (s : shape) : Z :=
  let p := vproduct (extents s) in if p <? 0 then 0 else p.
(** array.h:1245 [shape::empty] *)
Definition empty (s : shape) : bool := size s =? 0.
(** array.h:1250 [is_compact] *)
Definition is_compact (s : shape) : bool := flat_extent s <=? size s.
(** array.h:1256-1259 [is_one_to_one] *)
Definition is_one_to_one (s : shape) : bool := flat_extent s >=? size s.
(** array.h:1265-1268 [is_subset_of] *)
Definition is_subset_of (s other : shape) (offset : Z) : bool :=
  (flat_min s >=? flat_min other + offset) && (flat_max s <=? flat_max other + offset).
(** array.h:1313-1320 [operator==] *)
Fixpoint shape_eqb (a b : shape) : bool :=
  match a, b with
  | [], [] => true
  | x :: ra, y :: rb => dim_eqb x y && shape_eqb ra rb
  | _, _ => false
  end.
(** array.h:1035-1038, 1306-1308 [bounds] *)
Definition bounds (s : shape) : shape := map (fun d => mkD (dmin d) (dext d) unresolved) s.

(** ** Automatic strides *)

(** array.h:841-867 [is_stride_ok] *)
Definition is_stride_ok (stride extent : Z) (d : dim) : bool :=
  if is_unresolved (dstr d) then true
  else if (extent =? 1) && (cabs stride =? cabs (dstr d)) && (dext d >? 1) then false
  else if dext d * cabs (dstr d) <=? stride then true
  else if cabs (dstr d) >=? extent * stride then true
  else false.
(** array.h:871-878 [filter_stride] *)
Definition filter_stride (stride extent : Z) (dims : list dim) : Z :=
  if vall (map (is_stride_ok stride extent) dims) then stride else index_max.
(** array.h:882-889 [candidate_stride] *)
Definition candidate_stride (d : dim) : Z :=
  if is_unresolved (dstr d) then index_max else cmax 1 (cabs (dstr d) * dext d).
(** array.h:892-896 [find_stride] *)
Definition find_stride (extent : Z) (dims : list dim) : Z :=
  variadic_min (filter_stride 1 extent dims ::
                map (fun d => filter_stride (candidate_stride d) extent dims) dims).
(** array.h:899-913 [resolve_unknown_strides]: [before] are the dims already handled,
    [todo] the remaining ones; all dims (in their current state) are passed to
    [find_stride]. *)
Fixpoint resolve_from (before todo : list dim) : list dim :=
  match todo with
  | [] => before
  | d :: rest =>
      let d' := if is_unresolved (dstr d)
                then set_stride d (find_stride (dext d) (before ++ d :: rest)) else d in
      resolve_from (before ++ [d']) rest
  end.
(** array.h:1161 [shape::resolve] *)
Definition resolve (s : shape) : shape := resolve_from [] s.
(** array.h:915-918, 1164-1166 [is_resolved] *)
Definition is_resolved (s : shape) : bool := vall (map (fun d => is_resolved_stride (dstr d)) s).

(** ** Slicing *)

(** Arguments of a slicing operator: an index, an interval, a dim, or the placeholder
    (the overloads of array.h:738-756). *)
Inductive sarg :=
| AIdx (x : Z)
| AInt (i : interval)
| ADim (d : dim)
| AAll.
(** array.h:738-756 [range_with_stride] *)
Definition range_with_stride (a : sarg) (d : dim) : dim :=
  match a with
  | AIdx x => mkD x 1 (dstr d)
  | AInt i => mkD (imin i) (iext i) (dstr d)
  | ADim c => mkD (dmin c) (dext c) (dstr d)
  | AAll => d
  end.
(** array.h:758-762 [intervals_with_strides] *)
Definition intervals_with_strides (args : list sarg) (dims : list dim) : list dim :=
  map2 range_with_stride args dims.
(** array.h:765-777 [skip_slices_impl] *)
Definition skip_slices_impl (d : dim) (a : sarg) : list dim :=
  match a with AIdx _ => [] | _ => [d] end.
(** array.h:779-783 [skip_slices] (tuple_cat) *)
Definition skip_slices (dims : list dim) (args : list sarg) : list dim :=
  concat (map2 skip_slices_impl dims args).
(** array.h:1191-1195 [shape::operator[]] with slices *)
Definition shape_slice (s : shape) (args : list sarg) : shape :=
  skip_slices (intervals_with_strides args s) args.
(** array.h:793-808 [min_of_range] *)
Definition min_of_range (a : sarg) (d : dim) : Z :=
  match a with
  | AIdx x => x
  | AInt i => imin i
  | ADim c => dmin c
  | AAll => dmin d
  end.
(** array.h:810-814 [mins_of_intervals] *)
Definition mins_of_intervals (args : list sarg) (s : shape) : index := map2 min_of_range args s.
(** array.h:305-319, 786-790: one argument of [shape::is_in_range].  The placeholder is
    an ordinary [interval<0,-1>] here. *)
Definition arg_in_range (d : dim) (a : sarg) : bool :=
  match a with
  | AIdx x => i_in_range (d_interval d) x
  | AInt i => i_in_range_interval (d_interval d) i
  | ADim c => i_in_range_interval (d_interval d) (d_interval c)
  | AAll => i_in_range_interval (d_interval d) all_placeholder
  end.
(** array.h:1169-1176 [shape::is_in_range] *)
Definition is_in_range (s : shape) (args : list sarg) : bool := vall (map2 arg_in_range s args).
(** array.h:1173-1176 [shape::is_in_range] with indices only *)
Definition index_in_range (s : shape) (i : index) : bool := is_in_range s (map AIdx i).

(** ** Reordering *)

(** array.h:1202-1209 [shape::dim<I>]: [std::get<I>] on the dims; ill-typed (compile error) if out of bounds: [None] *)
Definition get_dims (s : shape) (is_ : list nat) : option shape :=
  fold_right (fun i acc => match nth_error s i, acc with
                           | Some d, Some l => Some (d :: l)
                           | _, _ => None
                           end) (Some []) is_.
(** array.h:1357-1360 [reorder] *)
Definition reorder (is_ : list nat) (s : shape) : option shape := get_dims s is_.
(** array.h:1324-1348 [transpose]: the listed dims, then the dims after the first
    [length is_] ones unchanged *)
Definition transpose (is_ : list nat) (s : shape) : option shape :=
  match get_dims s is_ with
  | Some l => Some (l ++ skipn (length is_) s)
  | None => None
  end.
(** array.h:984 [factorial] *)
Fixpoint factorial (n : nat) : Z :=
  match n with
  | O => 1 (* not reached: array.h:989-990 calls it with Rank + 1 *)
  | S O => 1
  | S n' => Z.of_nat n * factorial n'
  end.
(** array.h:988-990 [enable_if_permutation] *)
Definition permutation_check (rank : nat) (is_ : list nat) : bool :=
  (length is_ =? rank)%nat && vall (map (fun i => (i <? rank)%nat) is_)
  && (vproduct (map (fun i => Z.of_nat i + 2) is_) =? factorial (rank + 1)).

(** array.h:1564-1573 [index_of] *)
Fixpoint index_of (i : nat) (is_ : list nat) : nat :=
  match is_ with
  | [] => 10000
  | i0 :: rest => if (i =? i0)%nat then 0 else 1 + index_of i rest
  end.
(** array.h:1577-1584 [get_or_empty] *)
Definition get_or_empty {A : Type} (i : nat) (t : list A) : list A :=
  match nth_error t i with Some x => [x] | None => [] end.
(** array.h:1587-1594 [unshuffle]; [variadic_max(Is...) + 1] positions *)
Definition unshuffle {A : Type} (is_ : list nat) (t : list A) : list A :=
  concat (map (fun j => get_or_empty (index_of j is_) t) (seq 0 (list_max is_ + 1))).

(** array.h:1547-1556 [clamp_dims]: run-time part *)
Definition clamp_dim (a b : dim) : dim :=
  let mn := cmax (dmin a) (dmin b) in
  let mx := cmin (dmax a) (dmax b) in
  mkD mn (mx - mn + 1) (dstr a).
(** array.h:1558-1561 [clamp] *)
Definition clamp_dims (a b : shape) : shape := map2 clamp_dim a b.
