(** Specification vocabulary for B-splines. *)
From Coq Require Import QArith.
Local Open Scope Q_scope.

(** The recursion of de Boor and Cox: [k'], of degree [d], from [k], of degree [d - 1], for positions 1 apart; both centred at 0 *)
Definition next_spline (d : Q) (k k' : Q -> Q) (s : Q) : Prop :=
  d * k' s == ((d + 1) / 2 + s) * k (s + (1 # 2)) + ((d + 1) / 2 - s) * k (s - (1 # 2)).
