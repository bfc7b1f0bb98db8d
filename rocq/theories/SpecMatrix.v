(** Specification vocabulary for matrix products and tiled loops. *)
From Coq Require Import ZArith List Bool.
From Verif Require Import Base Interval Shape Memory Ref Spec SpecMem SpecEin SpecStatic Tiling.
Import ListNotations.
Open Scope Z_scope.

(** Every index of [d] is one of [d'] *)
Definition inside (d d' : dim) : Prop := forall x, in_dim d x -> in_dim d' x.

(** In how many tiles of extent [N] an index [x] of [d] is, if the last tile is moved back so
    that it ends with [d] *)
Definition tile_count (N : Z) (d : dim) (x : Z) : nat :=
  if (dext d mod N =? 0) || (x <? dmin d + dext d - N) || (dmin d + N * (dext d / N) <=? x) then 1%nat else 2%nat.

(** What is required of the way [d] is split *)
Definition splits (sp : splitter) (d : dim) : Prop :=
  match sp with
  | SStatic N => 1 <= N <= dext d
  | SDynamic n => 1 <= n /\ 0 <= dext d
  | SAll => 0 <= dext d
  end.
(** In how many tiles the index [i] is *)
Fixpoint visits (sps : list splitter) (ds : list dim) (i : list Z) : nat :=
  match sps, ds, i with
  | SStatic N :: sps', d :: ds', x :: i' => tile_count N d x * visits sps' ds' i'
  | _ :: sps', _ :: ds', _ :: i' => visits sps' ds' i'
  | _, _, _ => 1
  end%nat.
(** No tile overlaps another *)
Definition splits_evenly (sp : splitter) (d : dim) : Prop :=
  match sp with SStatic N => dext d mod N = 0 | _ => True end.

(** Loops over [d] find all they need in [d'] (see C38) *)
Definition spans (d d' : dim) : Prop :=
  same_bounds d d' \/ (dmin d' <= dmin d /\ dmin d + dext d <= dmin d' + dext d' /\ dstr d <> 0).
(** The row-major matrix of [m] rows and [n] columns at [p] *)
Definition flat_matrix (p : ptr) (m n : Z) : aref := mkR p [mkD 0 m n; mkD 0 n 1].

Section Matrix.
Context {V : Type} (zero : V) (add mul : V -> V -> V).

(** The sum over [ks] of products, added up from the left *)
Definition inner_product (f g : list Z -> V) (ks : list Z) (i j : Z) : V :=
  fold_left add (map (fun k => mul (f [i; k]) (g [k; j])) ks) zero.
(** [run] leaves in C the product of A and B, and nothing else is changed *)
Definition multiplies (h : heap V) (run : outcome (heap V)) (C : aref) (f g : list Z -> V) (ks : list Z) : Prop :=
  exists h', run = Ok h' /\
    (forall i j, in_bounds (r_shape C) [i; j] -> holds h' (elem (r_base C) (r_shape C) [i; j]) (inner_product f g ks i j)) /\
    (forall p, ~ is_elem (r_base C) (r_shape C) p -> peek h' p = peek h p).
(** A and B hold [f] and [g]; the elements of C are alive, distinct, and not elements of A or B *)
Definition operands_of (h : heap V) (A B C : aref) (f g : list Z -> V) : Prop :=
  shows h A f /\ shows h B g /\
  (forall i, in_bounds (r_shape C) i -> alive h (elem (r_base C) (r_shape C) i)) /\
  injective_layout (r_shape C) /\
  (forall i, in_bounds (r_shape A) i -> ~ is_elem (r_base C) (r_shape C) (elem (r_base A) (r_shape A) i)) /\
  (forall i, in_bounds (r_shape B) i -> ~ is_elem (r_base C) (r_shape C) (elem (r_base B) (r_shape B) i)).
(** C(i, j) = sum of A(i, k) * B(k, j): the dims of the matrices, and what is in memory *)
Record setting (h : heap V) (A B C : aref) (f g : list Z -> V) (ai ak bk bj ci cj : dim) : Prop := mkSet {
  s_A : r_shape A = [ai; ak]; s_B : r_shape B = [bk; bj]; s_C : r_shape C = [ci; cj];
  s_ext : 0 <= dext ci /\ 0 <= dext cj /\ 0 <= dext ak;
  s_in : inside ci ai /\ inside ak bk /\ inside cj bj;
  s_op : operands_of h A B C f g;
  s_us : usable_heap h }.
End Matrix.
