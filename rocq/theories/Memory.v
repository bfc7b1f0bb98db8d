(** Memory: blocks of element-sized cells, with the lifetime of each element.
    This is the part of the C++ abstract machine the library runs on, not library code;
    [pointer_add] is array.h:1873-1875.  Definitions only. *)
From Coq Require Import ZArith List Bool.
From Verif Require Import Base.
Import ListNotations.
Open Scope Z_scope.

(** A pointer: block number and position in elements.  Block 0 does not exist: the null
    pointer is (0, 0), and arithmetic on a null pointer (array.h:2290 does it) gives
    pointers into block 0, which cannot be dereferenced. *)
Definition ptr : Type := nat * Z.
(** [nullptr], array.h:2141, 2324 *)
Definition null : ptr := (0%nat, 0).
(** [==] of pointers, array.h:1873-1875 *)
Definition ptr_eqb (p q : ptr) : bool := (fst p =? fst q)%nat && (snd p =? snd q).
(** [p == nullptr], array.h:1692-1704, 1873-1875 *)
Definition is_null (p : ptr) : bool := ptr_eqb p null.
(** C++ pointer plus integer, array.h:1874 (only moves the position; bounds are checked on access) *)
Definition ptr_off (p : ptr) (n : Z) : ptr := (fst p, snd p + n).
(** array.h:1873-1875 [pointer_add]: null stays null *)
Definition pointer_add (p : ptr) (n : Z) : ptr := if is_null p then p else ptr_off p n.

(** C++ object lifetime (not library code): a cell is raw storage or holds a live object. *)
Inductive cell (V : Type) : Type :=
| Raw
| Live (v : V).
Arguments Raw {V}.
Arguments Live {V} v.

(** Where a block comes from: allocator number [a] (allocators that can release each other's
    memory have the same number), or the inline buffer of the allocator that is a member of
    the object named [x] (auto_allocator, array.h:3114-3179). *)
Inductive owner := Base (a : nat) | Inline (x : nat).
(** Allocators that can release each other's memory, array.h:3155-3164 *)
Definition owner_eqb (o o' : owner) : bool :=
  match o, o' with
  | Base a, Base b => (a =? b)%nat
  | Inline a, Inline b => (a =? b)%nat
  | _, _ => false
  end.
(** C++ memory (not library code): where a block comes from, its size, its cells *)
Record block (V : Type) : Type := mkB { b_owner : owner; b_size : Z; b_cell : Z -> cell V }.
Arguments mkB {V} _ _ _.
Arguments b_owner {V} _.
Arguments b_size {V} _.
Arguments b_cell {V} _ _.

(** C++ memory (not library code): next unused block number and the live blocks *)
Record heap (V : Type) : Type := mkH { h_next : nat; h_blk : nat -> option (block V) }.
Arguments mkH {V} _ _.
Arguments h_next {V} _.
Arguments h_blk {V} _ _.

(** C++ memory (not library code): the cell at [p]; [None] outside of every block *)
Definition peek {V : Type} (h : heap V) (p : ptr) : option (cell V) :=
  match fst p with
  | O => None
  | S _ => match h_blk h (fst p) with
           | Some b => if (0 <=? snd p) && (snd p <? b_size b) then Some (b_cell b (snd p)) else None
           | None => None
           end
  end.
(** C++ memory (not library code): overwrite the cell at [p] *)
Definition upd {V : Type} (h : heap V) (p : ptr) (c : cell V) : heap V :=
  mkH (h_next h) (fun k => if (k =? fst p)%nat
                           then match h_blk h k with
                                | Some b => Some (mkB (b_owner b) (b_size b)
                                                   (fun x => if x =? snd p then c else b_cell b x))
                                | None => None
                                end
                           else h_blk h k).

(** C++ memory (not library code): read an object, e.g. array.h:1423; it must be live. *)
Definition load {V : Type} (h : heap V) (p : ptr) : outcome V :=
  match peek h p with Some (Live v) => Ok v | _ => UB end.
(** C++ memory (not library code): assign to an object, e.g. array.h:1423; it must be live. *)
Definition store {V : Type} (h : heap V) (p : ptr) (v : V) : outcome (heap V) :=
  match peek h p with Some (Live _) => Ok (upd h p (Live v)) | _ => UB end.
(** alloc_traits::construct, array.h:2296, 2300, 2306, 2313: the storage must not hold a live object. *)
Definition construct_at {V : Type} (h : heap V) (p : ptr) (v : V) : outcome (heap V) :=
  match peek h p with Some Raw => Ok (upd h p (Live v)) | _ => UB end.
(** alloc_traits::destroy, array.h:2320: the object must be live. *)
Definition destroy_at {V : Type} (h : heap V) (p : ptr) : outcome (heap V) :=
  match peek h p with Some (Live _) => Ok (upd h p Raw) | _ => UB end.
(** alloc_traits::allocate(n), array.h:2288: a new block from [o] *)
Definition alloc_block {V : Type} (h : heap V) (o : owner) (n : Z) : heap V * ptr :=
  (mkH (S (h_next h)) (fun k => if (k =? h_next h)%nat then Some (mkB o n (fun _ => Raw))
                                else h_blk h k),
   (h_next h, 0)).
(** Not library code: no object lives in the block.  Freeing the block would end their lifetime without
    running the destructor. *)
Definition no_live {V : Type} (b : block V) : bool :=
  forallb (fun x => match b_cell b x with Raw => true | Live _ => false end)
    (zseq 0 (Z.to_nat (b_size b))).
(** alloc_traits::deallocate(p, n) to [o], array.h:2328: [p] must be the start of a block that comes from
    there and has that size.  The block must hold no live object. *)
Definition free_block {V : Type} (h : heap V) (o : owner) (p : ptr) (n : Z) : outcome (heap V) :=
  match fst p, h_blk h (fst p) with
  | S _, Some b =>
      if (snd p =? 0) && (b_size b =? n) && owner_eqb (b_owner b) o && no_live b
      then Ok (mkH (h_next h) (fun k => if (k =? fst p)%nat then None else h_blk h k))
      else UB
  | _, _ => UB
  end.
(** C++ memory (not library code): the heap at program start *)
Definition empty_heap {V : Type} : heap V := mkH 1 (fun _ => None).
