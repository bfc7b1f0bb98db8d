(** Model of examples/resample/rational.h with T = index_t.  Arithmetic is in Z, except that the
    sign masks are computed with the 64-bit shifts of the code; division by zero and
    INT64_MIN / -1 are UB.  Definitions only. *)
From Coq Require Import ZArith List Bool.
From Verif Require Import Base.
Open Scope Z_scope.

(** C++ [a / b], rational.h:23, 53-54 *)
Definition c_div (a b : Z) : outcome Z :=
  if (b =? 0) || ((a =? index_min) && (b =? -1)) then UB else Ok (Z.quot a b).
(** C++ [a % b], rational.h:32 *)
Definition c_mod (a b : Z) : outcome Z :=
  if (b =? 0) || ((a =? index_min) && (b =? -1)) then UB else Ok (Z.rem a b).

(** rational.h:21-28 [euclidean_div] *)
Definition euclidean_div (a b : Z) : outcome Z :=
  q <- c_div a b ;;
  let r := a - q * b in
  let bs := Z.shiftr b 63 in
  let rs := Z.shiftr r 63 in
  Ok (q - Z.land rs bs + Z.land rs (Z.lnot bs)).
(** rational.h:30-35 [euclidean_mod] *)
Definition euclidean_mod (a b : Z) : outcome Z :=
  r <- c_mod a b ;;
  let sign_mask := Z.shiftr r 63 in
  Ok (r + Z.land sign_mask (Z.abs b)).
(** rational.h:37-44 [gcd]; the fuel bounds the recursion depth *)
Fixpoint gcd_loop (fuel : nat) (a b : Z) : outcome Z :=
  if b =? 0 then Ok a
  else match fuel with
       | O => UB
       | S f => m <- euclidean_mod a b ;; gcd_loop f b m
       end.
(** rational.h:37-44 [gcd] *)
Definition gcd (a b : Z) : outcome Z := gcd_loop (S (Z.to_nat (Z.abs b))) a b.

(** rational.h:47-49 [rational] *)
Record rational := mkQ { numerator : Z; denominator : Z }.
(** rational.h:51-55 [reduce], 59 constructor from numerator and denominator *)
Definition make_rational (n d : Z) : outcome rational :=
  r <- gcd n d ;; n' <- c_div n r ;; d' <- c_div d r ;; Ok (mkQ n' d').
(** rational.h:58 *)
Definition of_int (x : Z) : rational := mkQ x 1.

(** rational.h:64 [operator*] *)
Definition q_mul (l r : rational) : outcome rational :=
  make_rational (numerator l * numerator r) (denominator l * denominator r).
(** rational.h:65 [operator/] *)
Definition q_div (l r : rational) : outcome rational :=
  make_rational (numerator l * denominator r) (denominator l * numerator r).
(** rational.h:66 [operator+] *)
Definition q_add (l r : rational) : outcome rational :=
  make_rational (numerator l * denominator r + numerator r * denominator l) (denominator l * denominator r).
(** rational.h:67 [operator-] *)
Definition q_sub (l r : rational) : outcome rational :=
  make_rational (numerator l * denominator r - numerator r * denominator l) (denominator l * denominator r).
(** rational.h:69 [operator<] *)
Definition q_lt (l r : rational) : bool := numerator l * denominator r <? numerator r * denominator l.
(** rational.h:70 [operator<=] *)
Definition q_le (l r : rational) : bool := numerator l * denominator r <=? numerator r * denominator l.
(** rational.h:71 [operator>] *)
Definition q_gt (l r : rational) : bool := numerator l * denominator r >? numerator r * denominator l.
(** rational.h:72 [operator>=] *)
Definition q_ge (l r : rational) : bool := numerator l * denominator r >=? numerator r * denominator l.
(** rational.h:73 [operator==] *)
Definition q_eq (l r : rational) : bool := numerator l * denominator r =? numerator r * denominator l.
(** rational.h:74 [operator!=] *)
Definition q_ne (l r : rational) : bool := negb (numerator l * denominator r =? numerator r * denominator l).
(** rational.h:94-97 [min] *)
Definition q_min (l r : rational) : rational := if q_lt l r then l else r.
(** rational.h:98-101 [max] *)
Definition q_max (l r : rational) : rational := if q_gt l r then l else r.
(** rational.h:103-106 [floor] *)
Definition q_floor (r : rational) : outcome Z := euclidean_div (numerator r) (denominator r).
(** rational.h:107-110 [round] *)
Definition q_round (r : rational) : outcome Z :=
  euclidean_div (2 * numerator r + denominator r) (2 * denominator r).
(** rational.h:111-114 [ceil] *)
Definition q_ceil (r : rational) : outcome Z :=
  euclidean_div (numerator r + denominator r - 1) (denominator r).
(** rational.h:115-118 [frac] *)
Definition q_frac (r : rational) : outcome rational :=
  m <- euclidean_mod (numerator r) (denominator r) ;; make_rational m (denominator r).
