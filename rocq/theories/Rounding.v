(** Floating point arithmetic as exact arithmetic whose results are rounded, the sums a compiler may make of a sum of
    products (examples/linear_algebra/Makefile:1 has -ffast-math), and the comparison of products in the examples' main
    functions.

    Simplified: numbers are rationals and rounding is a function on them, so there is no overflow, infinity or NaN, and
    the comparison itself is exact.  Definitions only. *)
From Coq Require Import ZArith QArith Qabs List Bool.
Import ListNotations.
Local Open Scope Q_scope.

Section Rounding.
Variable rnd : Q -> Q.
(** Not library code: the sum of two floats, as in matrix.cpp:42, 66, 84, 111, 182, 195, 307, 326 *)
Definition radd (x y : Q) : Q := rnd (x + y).
(** Not library code: their product, as in matrix.cpp:42, 66, 84, 111, 182, 195, 307 *)
Definition rmul (x y : Q) : Q := rnd (x * y).

(** Not library code: ways to compute a sum of products, examples/linear_algebra/Makefile:1.  The operations may be in any
    order, and a multiplication and an addition may be one operation. *)
Inductive sum_tree :=
| Zero                               (** an accumulator before the loop *)
| Given (a : Q)                      (** a bias *)
| Times (a b : Q)
| Plus (x y : sum_tree)
| Fused (a b : Q) (x : sum_tree).    (** a * b + x, rounded once *)
(** Not library code: what is computed *)
Fixpoint computed (t : sum_tree) : Q :=
  match t with
  | Zero => 0
  | Given a => a
  | Times a b => rmul a b
  | Plus x y => radd (computed x) (computed y)
  | Fused a b x => rnd (a * b + computed x)
  end.
End Rounding.
(** Not library code: the comparison of std::max, examples/linear_algebra/conv2d_relu.cpp:41, 87 *)
Definition less (a b : Q) : bool := negb (Qle_bool b a).

(** examples/linear_algebra/matrix.cpp:342, 392 and conv2d_relu.cpp:100, 134: [relative_error(a, b) > tol].  0 / 0 is NaN, which
    is not greater than anything; another number divided by 0 is infinite. *)
Definition differs (tol a b : Q) : bool :=
  let m := if Qle_bool a b then b else a in
  if Qeq_bool m 0 then negb (Qeq_bool a b) else negb (Qle_bool (Qabs (a - b) / m) tol).
(** examples/linear_algebra/matrix.cpp:390-398: main goes on to the next version if no element differs *)
Definition accepts (tol : Q) (M N : Z) (c_ref c : Z -> Z -> Q) : bool :=
  forallb (fun i => forallb (fun j => negb (differs tol (c_ref i j) (c i j))) (map Z.of_nat (seq 0 (Z.to_nat N)))) (map Z.of_nat (seq 0 (Z.to_nat M))).
