(** Specification vocabulary for rounding errors. *)
From Coq Require Import ZArith QArith Qabs List Bool.
From Verif Require Import Base Interval Shape Memory Ref Spec SpecMem SpecMatrix SpecConv Rounding.
Import ListNotations.
Local Open Scope Q_scope.

(** Rounding changes a number by a fraction of at most [u], and tiny numbers by at most [e] (0 if there is no underflow) *)
Definition rounds (u e : Q) (rnd : Q -> Q) : Prop := 0 <= u /\ 0 <= e /\ forall x, Qabs (rnd x - x) <= u * Qabs x + e.
(** Integers up to [m] are numbers of the format *)
Definition keeps_integers (m : Z) (rnd : Q -> Q) : Prop := forall x z, x == inject_Z z -> (Z.abs z <= m)%Z -> rnd x == x.

(** The [d]-th power of 1 + u *)
Fixpoint grow (u : Q) (d : nat) : Q := match d with O => 1 | S d => (1 + u) * grow u d end.
(** What [d] roundings in succession, and [m] in all, can add to a sum of numbers whose absolute values sum up to [a] *)
Definition error_bound (u e : Q) (d m : nat) (a : Q) : Q := (grow u d - 1) * a + inject_Z (Z.of_nat m) * grow u d * e.

(** The sum that is meant, and the sum of absolute values *)
Fixpoint meant (t : sum_tree) : Q :=
  match t with
  | Zero => 0
  | Given a => a
  | Times a b => a * b
  | Plus x y => meant x + meant y
  | Fused a b x => a * b + meant x
  end.
Fixpoint size (t : sum_tree) : Q :=
  match t with
  | Zero => 0
  | Given a => Qabs a
  | Times a b => Qabs (a * b)
  | Plus x y => size x + size y
  | Fused a b x => Qabs (a * b) + size x
  end.
(** How many roundings there are, in succession and in all *)
Fixpoint depth (t : sum_tree) : nat :=
  match t with
  | Zero | Given _ => 0
  | Times _ _ => 1
  | Plus x y => S (Nat.max (depth x) (depth y))
  | Fused _ _ x => S (depth x)
  end.
Fixpoint roundings (t : sum_tree) : nat :=
  match t with
  | Zero | Given _ => 0
  | Times _ _ => 1
  | Plus x y => S (roundings x + roundings y)
  | Fused _ _ x => S (roundings x)
  end.
(** The numbers in it are integers *)
Definition integer (x : Q) : Prop := exists z, x == inject_Z z.
Fixpoint integers (t : sum_tree) : Prop :=
  match t with
  | Zero => True
  | Given a => integer a
  | Times a b => integer a /\ integer b
  | Plus x y => integers x /\ integers y
  | Fused a b x => integer a /\ integer b /\ integers x
  end.

(** The exact product of two matrices, and that of the absolute values *)
Definition product (f g : list Z -> Q) (ks : list Z) (i j : Z) : Q := inner_product 0 Qplus Qmult f g ks i j.
Definition abs_product (f g : list Z -> Q) (ks : list Z) (i j : Z) : Q :=
  inner_product 0 Qplus Qmult (fun p => Qabs (f p)) (fun p => Qabs (g p)) ks i j.
(** [run] leaves in C numbers [v] with [P i j v], and nothing else is changed *)
Definition leaves (h : heap Q) (run : outcome (heap Q)) (C : aref) (P : Z -> Z -> Q -> Prop) : Prop :=
  exists h', run = Ok h' /\
    (forall i j, in_bounds (r_shape C) [i; j] -> exists v, holds h' (elem (r_base C) (r_shape C) [i; j]) v /\ P i j v) /\
    (forall p, ~ is_elem (r_base C) (r_shape C) p -> peek h' p = peek h p).
(** [v] is the element of the product up to [d] roundings in succession, and [m] in all *)
Definition near (u e : Q) (d m : nat) (f g : list Z -> Q) (ks : list Z) (i j : Z) (v : Q) : Prop :=
  Qabs (v - product f g ks i j) <= error_bound u e d m (abs_product f g ks i j).
(** The exact convolution, and that of the absolute values *)
Definition convolution (f g b : list Z -> Q) (cis dys dxs : list Z) (co x y n : Z) : Q := conv_sum Qplus Qmult f g b cis dys dxs co x y n.
Definition abs_convolution (f g b : list Z -> Q) (cis dys dxs : list Z) (co x y n : Z) : Q :=
  conv_sum Qplus Qmult (fun p => Qabs (f p)) (fun p => Qabs (g p)) (fun p => Qabs (b p)) cis dys dxs co x y n.
(** The larger of a number and 0 *)
Definition relu (s : Q) : Q := if Qlt_le_dec s 0 then 0 else s.
