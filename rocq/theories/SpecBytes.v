(** Specification vocabulary for elements as bytes.  Of the model only the types are used: [ctype], [bmem], [ptr], [aref]. *)
From Coq Require Import ZArith List Bool.
From Verif Require Import Base Interval Shape Memory Ref Spec Bytes.
Import ListNotations.
Open Scope Z_scope.

(** What C++ requires of a type: alignof is a power of two and divides sizeof, and a representation stands for its value *)
Definition good_type {V : Type} (t : ctype V) : Prop :=
  (exists k, 0 <= k /\ t_align t = 2 ^ k) /\ 0 < t_size t /\ (t_align t | t_size t) /\
  (forall v, Z.of_nat (length (t_enc t v)) = t_size t) /\ (forall v, t_dec t (t_enc t v) = Some v).

(** The [n] bytes from [x] on *)
Fixpoint bytes_from (f : Z -> option Z) (x : Z) (n : nat) : list (option Z) :=
  match n with
  | O => []
  | S n' => f x :: bytes_from f (x + 1) n'
  end.
(** [p] points to aligned storage for a [T] with these bytes *)
Definition storage {V : Type} (t : ctype V) (m : bmem) (p : ptr) (l : list (option Z)) : Prop :=
  fst p <> 0%nat /\ exists bb, m (fst p) = Some bb /\ 0 <= snd p /\ snd p + t_size t <= bb_size bb /\
    (t_align t | bb_addr bb + snd p) /\ l = bytes_from (bb_byte bb) (snd p) (Z.to_nat (t_size t)).
(** [p] can be written to; [p] holds the value [v] *)
Definition writable {V : Type} (t : ctype V) (m : bmem) (p : ptr) : Prop := exists l, storage t m p l.
Definition shows {V : Type} (t : ctype V) (m : bmem) (p : ptr) (v : V) : Prop :=
  exists l, storage t m p l /\ t_dec t l = Some v.

(** Byte [x] of block [k] belongs to the element at [p] *)
Definition covers {V : Type} (t : ctype V) (p : ptr) (k : nat) (x : Z) : Prop := k = fst p /\ snd p <= x < snd p + t_size t.
Definition apart {U V : Type} (t : ctype U) (p : ptr) (u : ctype V) (q : ptr) : Prop :=
  forall k x, ~ (covers t p k x /\ covers u q k x).
(** Address of an element of a view *)
Definition belem {V : Type} (t : ctype V) (b : ptr) (s : list dim) (i : list Z) : ptr := (fst b, snd b + t_size t * offset s i).
(** Only bytes satisfying [P] differ; blocks stay where they are *)
Definition only_bytes (P : nat -> Z -> Prop) (m m' : bmem) : Prop :=
  forall k, match m k, m' k with
            | Some a, Some b => bb_addr b = bb_addr a /\ bb_size b = bb_size a /\
                                forall x, ~ P k x -> bb_byte b x = bb_byte a x
            | None, None => True
            | _, _ => False
            end.
(** The bytes of the elements of a view *)
Definition view_bytes {V : Type} (t : ctype V) (b : ptr) (s : list dim) (k : nat) (x : Z) : Prop :=
  exists i, in_bounds s i /\ covers t (belem t b s i) k x.
(** Different elements have no byte in common *)
Definition separated {V : Type} (t : ctype V) (b : ptr) (s : list dim) : Prop :=
  forall i j, in_bounds s i -> in_bounds s j -> i <> j -> apart t (belem t b s i) t (belem t b s j).
(** Different representations are different values, and every byte counts *)
Definition exact_type {V : Type} (t : ctype V) : Prop := forall l v, t_dec t l = Some v -> t_enc t v = l.
(** Memory [m] holds the elements of [h]: blocks have the same numbers, and cell [x] is at byte [sizeof * x] *)
Definition represents {V : Type} (t : ctype V) (h : heap V) (m : bmem) : Prop :=
  forall k blk, h_blk h k = Some blk -> exists bb, m k = Some bb /\ bb_size bb = t_size t * b_size blk /\ (t_align t | bb_addr bb) /\
    forall x v, 0 <= x < b_size blk -> b_cell blk x = Live v ->
      t_dec t (bytes_from (bb_byte bb) (t_size t * x) (Z.to_nat (t_size t))) = Some v.
(** A pointer counted in elements, in bytes *)
Definition in_bytes {V : Type} (t : ctype V) (p : ptr) : ptr := (fst p, t_size t * snd p).
(** The same view of the bytes *)
Definition bref {V : Type} (t : ctype V) (r : aref) : aref := mkR (in_bytes t (r_base r)) (r_shape r).
