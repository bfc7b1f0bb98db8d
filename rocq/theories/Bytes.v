(** Elements as bytes: sizes, alignment and representation of elements, array_refs over bytes, the algorithms on
    them, [reinterpret], and the buffer of auto_allocator
    (include/array/array.h:1421-1424, 2012-2057, 2080-2086, 2281-2292, 2763-2772, 2905-2968, 2982-3019, 3110-3179,
    3226-3237).  Elements are of trivially copyable types, so that assignment copies the representation.
    Definitions only. *)
From Coq Require Import ZArith List Bool.
From Verif Require Import Base Interval Shape Traverse Memory Ref.
Import ListNotations.
Open Scope Z_scope.

(** C++ types (not library code), e.g. the [T] of array.h:2012: sizeof, alignof and the representation of values.  A byte is [None] if it is
    indeterminate: padding, or storage not written to.  [t_dec] is [None] on bytes that are no value. *)
Record ctype (V : Type) : Type := mkCT {
  t_size : Z;
  t_align : Z;
  t_enc : V -> list (option Z);
  t_dec : list (option Z) -> option V }.
Arguments mkCT {V} _ _ _ _.
Arguments t_size {V} _.
Arguments t_align {V} _.
Arguments t_enc {V} _ _.
Arguments t_dec {V} _ _.

(** C++ memory (not library code): a block has an address, a size and bytes.  A pointer [ptr] is a block and a
    position in bytes; block 0 does not exist, array.h:1873-1875. *)
Record bblock := mkBB { bb_addr : Z; bb_size : Z; bb_byte : Z -> option Z }.
(** C++ memory (not library code), array.h:2281-2292: the blocks *)
Definition bmem := nat -> option bblock.
(** C++ memory (not library code), e.g. array.h:1423: the block in which [p] points to storage for a [T] that is suitably aligned *)
Definition room {V : Type} (t : ctype V) (m : bmem) (p : ptr) : option bblock :=
  match fst p, m (fst p) with
  | S _, Some bb =>
      if (0 <=? snd p) && (snd p + t_size t <=? bb_size bb) && ((bb_addr bb + snd p) mod t_align t =? 0)
      then Some bb else None
  | _, _ => None
  end.
(** C++ memory (not library code), e.g. array.h:1423: reading a [T] *)
Definition bload {V : Type} (t : ctype V) (m : bmem) (p : ptr) : outcome V :=
  match room t m p with
  | Some bb => match t_dec t (map (bb_byte bb) (zseq (snd p) (Z.to_nat (t_size t)))) with
               | Some v => Ok v
               | None => UB
               end
  | None => UB
  end.
(** C++ memory (not library code), e.g. array.h:1423: writing a [T] *)
Definition bstore {V : Type} (t : ctype V) (m : bmem) (p : ptr) (v : V) : outcome bmem :=
  match room t m p with
  | Some bb =>
      Ok (fun k => if (k =? fst p)%nat
                   then Some (mkBB (bb_addr bb) (bb_size bb)
                                (fun x => if (snd p <=? x) && (x <? snd p + t_size t)
                                          then nth (Z.to_nat (x - snd p)) (t_enc t v) None else bb_byte bb x))
                   else m k)
  | None => UB
  end.

(** array.h:2080-2086 [operator[]]: address of an element; pointer arithmetic multiplies by sizeof *)
Definition bref_ptr {V : Type} (t : ctype V) (r : aref) (i : index) : ptr :=
  ptr_off (r_base r) (flat_offset (r_shape r) i * t_size t).
(** The argument of the callback, array.h:1443: [n] elements from [base] *)
Definition step {V : Type} (t : ctype V) (base : ptr) (n : Z) : ptr := ptr_off base (n * t_size t).
(** array.h:1692-1704, 1895-1899 [for_each_value] *)
Definition bvalues {V : Type} (t : ctype V) (ndebug : bool) (r : aref) : outcome (list ptr) :=
  if is_null (r_base r) then _ <- assert_ ndebug (empty (optimize_shape (r_shape r))) ;; Ok []
  else Ok (map (fun l => step t (r_base r) (nth 0 l 0)) (for_each_value (r_shape r) 0)).
(** array.h:1714-1730, 1914-1924 [for_each_value] of two arrays, whose elements may have different types *)
Definition bvalues_copy {U V : Type} (tu : ctype U) (tv : ctype V) (ndebug : bool) (src dst : aref)
  : outcome (list (ptr * ptr)) :=
  if is_null (r_base src) || is_null (r_base dst)
  then _ <- assert_ ndebug (empty (snd (optimize_copy_shapes (r_shape src) (r_shape dst)))) ;; Ok []
  else Ok (map (fun l => (step tu (r_base src) (nth 0 l 0), step tv (r_base dst) (nth 1 l 0)))
             (for_each_value_copy (r_shape src) 0 (r_shape dst) 0)).

(** array.h:2763-2772 [copy], 2834-2843 [move]; [conv] is the conversion from the type of the source elements *)
Definition bcopy {U V : Type} (tu : ctype U) (tv : ctype V) (conv : U -> V) (ndebug : bool) (m : bmem) (src dst : aref)
  : outcome bmem :=
  if empty (r_shape dst) then Ok m
  else
    _ <- assert_ ndebug (index_in_range (r_shape src) (mins (r_shape dst)) &&
                         index_in_range (r_shape src) (maxs (r_shape dst))) ;;
    l <- bvalues_copy tu tv ndebug src dst ;;
    foldM (fun m ab => u <- bload tu m (fst ab) ;; bstore tv m (snd ab) (conv u)) l m.
(** array.h:2905-2908 [fill] *)
Definition bfill {V : Type} (t : ctype V) (ndebug : bool) (m : bmem) (dst : aref) (v : V) : outcome bmem :=
  l <- bvalues t ndebug dst ;; foldM (fun m p => bstore t m p v) l m.
(** array.h:2930-2935 [transform_index] *)
Definition btransform {V : Type} (t : ctype V) (m : bmem) (dst : aref) (fn : index -> V) : outcome bmem :=
  l <- for_each_index (r_shape dst) ;; foldM (fun m i => bstore t m (bref_ptr t dst i) (fn i)) l m.
(** array.h:2956-2968 [equal]; [eqb] compares elements of different types *)
Definition bequal {U V : Type} (tu : ctype U) (tv : ctype V) (eqb : U -> V -> bool) (ndebug : bool) (m : bmem) (a b : aref)
  : outcome bool :=
  if negb (list_eqb (mins (r_shape a)) (mins (r_shape b))) ||
     negb (list_eqb (extents (r_shape a)) (extents (r_shape b))) then Ok false
  else
    l <- bvalues_copy tu tv ndebug a b ;;
    foldM (fun result ab => x <- bload tu m (fst ab) ;; y <- bload tv m (snd ab) ;;
                            Ok (if eqb x y then result else false)) l true.

(** array.h:2998-3012 [reinterpret]: base and shape stay; [None]: does not compile *)
Definition reinterpret {U V : Type} (t : ctype V) (u : ctype U) (r : aref) : option aref :=
  if t_size t =? t_size u then Some r else None.

(** std::allocator::allocate(n), array.h:2281-2292, at address [a] and as block [k]: storage for [n] elements, indeterminate *)
Definition balloc {V : Type} (t : ctype V) (m : bmem) (k : nat) (a n : Z) : bmem :=
  fun k' => if (k' =? k)%nat then Some (mkBB a (n * t_size t) (fun _ => None)) else m k'.
(** array.h:2281-2292 [allocate]: the array_ref to a new array with shape [s], at address [a] and as block [k] *)
Definition ballocate {V : Type} (t : ctype V) (m : bmem) (k : nat) (a : Z) (s : shape) : bmem * aref :=
  let s := resolve s in
  if flat_extent s >? 0
  then (balloc t m k a (flat_extent s), mkR (k, - (flat_min s * t_size t)) s)
  else (m, mkR (0%nat, - (flat_min s * t_size t)) s).

(** C++ (not library code): alignas(a), array.h:3116, is well formed for powers of two *)
Definition alignas_ok (a : Z) : bool := (0 <? a) && (a =? 2 ^ Z.log2 a).
(** array.h:3116, 3149-3156: the storage that auto_allocator<T, N, Alignment> returns if it is at address [a]; the buffer is its first
    member.  [None]: does not compile *)
Definition auto_buffer {V : Type} (t : ctype V) (n alignment a : Z) : option (Z * Z) :=
  if alignas_ok alignment then Some (a, n * t_size t) else None.
(** array.h:3114: default of Alignment *)
Definition auto_alignment {V : Type} (t : ctype V) : Z := t_align t.
(** array.h:3235: default of Alignment in uninitialized_auto_allocator *)
Definition uninit_auto_alignment {V : Type} (t : ctype V) : Z := t_size t.
