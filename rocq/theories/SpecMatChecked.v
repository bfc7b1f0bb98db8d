(** Specification vocabulary for matrix products, convolutions and z-order traversals in 64 bits. *)
From Coq Require Import ZArith List.
From Verif Require Import Interval Shape Memory Ref SpecChecked SpecViewChecked.
Import ListNotations.
Open Scope Z_scope.

(** Distances within each of the matrices fit in index_t *)
Definition matrices_fit (A B C : aref) : Prop := roomy (r_shape A) /\ roomy (r_shape B) /\ roomy (r_shape C).
(** [d] can be cut into tiles of extent [N] without leaving index_t: a tile may begin at the end of [d] *)
Definition tiles_fit (N : Z) (d : dim) : Prop := 1 <= N <= dext d /\ dmin d + dext d - 1 + N <= 9223372036854775807.
(** ... and the tiles can be counted *)
Definition tiles_count (N : Z) (d : dim) : Prop :=
  1 <= N <= dext d /\ dext d <= 2 ^ 62 /\ dext d + 2 * N <= 2 ^ 63 /\ dmin d + dext d + N <= 9223372036854775807.
(** The buffer of a tile, and one more dimension of [N2] such buffers, fit in index_t *)
Definition buffer_fits (N1 N2 : Z) : Prop := N1 * N2 * N2 <= 9223372036854775807.
(** [d] with [n] more indices at its end *)
Definition wider (n : Z) (d : dim) : dim := mkD (dmin d) (dext d + n) (dstr d).

(** The blocks of [n] indices of [d] *)
Definition blocks_fit (n : Z) (d : dim) : Prop := 1 <= n <= 9223372036854775807 /\ dmin d + dext d + n <= 9223372036854775807.
(** The addresses of the prefetches, 8 columns ahead in A and 4 rows ahead in B, fit in index_t *)
Definition prefetch_fits (line N1 N2 : Z) (A B : aref) : Prop :=
  1 <= line /\ N1 + line <= 9223372036854775807 /\ N2 + line <= 9223372036854775807 /\
  match r_shape A, r_shape B with
  | [ai; ak], [bk; bj] => roomy [ai; wider 8 ak] /\ roomy [wider 4 bk; bj]
  | _, _ => False
  end.
