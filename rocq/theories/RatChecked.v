(** Rational numbers with overflow: as in Checked.v, an operation of index_t whose result does
    not fit in 64 bits is undefined behaviour.  The functions are those of Rational.v, which
    compute in unbounded integers.  Definitions only. *)
From Coq Require Import ZArith List Bool.
From Verif Require Import Base Interval Checked Overflow Rational.
Open Scope Z_scope.

(** rational.h:21-28 [euclidean_div] *)
Definition k_euclidean_div (a b : Z) : outcome Z :=
  q <- c_div a b ;; p <- chk (q * b) ;; r <- chk (a - p) ;;
  let bs := Z.shiftr b 63 in
  let rs := Z.shiftr r 63 in
  s <- chk (q - Z.land rs bs) ;; chk (s + Z.land rs (Z.lnot bs)).
(** rational.h:30-35 [euclidean_mod]; std::abs of INT64_MIN is undefined *)
Definition k_euclidean_mod (a b : Z) : outcome Z :=
  r <- c_mod a b ;;
  let sign_mask := Z.shiftr r 63 in
  m <- k_abs b ;; chk (r + Z.land sign_mask m).
(** rational.h:37-44 [gcd]; running out of fuel is reported as [UB] *)
Fixpoint k_gcd_loop (fuel : nat) (a b : Z) : outcome Z :=
  if b =? 0 then Ok a
  else match fuel with
       | O => UB
       | S f => m <- k_euclidean_mod a b ;; k_gcd_loop f b m
       end.
(** rational.h:37-44 [gcd] *)
Definition k_gcd (a b : Z) : outcome Z := k_gcd_loop (S (Z.to_nat (Z.abs b))) a b.
(** rational.h:51-55 [reduce], 59 constructor from numerator and denominator *)
Definition k_make_rational (n d : Z) : outcome rational :=
  r <- k_gcd n d ;; n' <- c_div n r ;; d' <- c_div d r ;; Ok (mkQ n' d').

(** rational.h:64 [operator*] *)
Definition k_q_mul (l r : rational) : outcome rational :=
  n <- chk (numerator l * numerator r) ;; d <- chk (denominator l * denominator r) ;; k_make_rational n d.
(** rational.h:65 [operator/] *)
Definition k_q_div (l r : rational) : outcome rational :=
  n <- chk (numerator l * denominator r) ;; d <- chk (denominator l * numerator r) ;; k_make_rational n d.
(** rational.h:66 [operator+] *)
Definition k_q_add (l r : rational) : outcome rational :=
  a <- chk (numerator l * denominator r) ;; b <- chk (numerator r * denominator l) ;; n <- chk (a + b) ;;
  d <- chk (denominator l * denominator r) ;; k_make_rational n d.
(** rational.h:67 [operator-] *)
Definition k_q_sub (l r : rational) : outcome rational :=
  a <- chk (numerator l * denominator r) ;; b <- chk (numerator r * denominator l) ;; n <- chk (a - b) ;;
  d <- chk (denominator l * denominator r) ;; k_make_rational n d.
(** rational.h:69-74: the two products, compared by [cmp] *)
Definition k_q_cmp (cmp : Z -> Z -> bool) (l r : rational) : outcome bool :=
  a <- chk (numerator l * denominator r) ;; b <- chk (numerator r * denominator l) ;; Ok (cmp a b).
(** rational.h:69 [operator<] *)
Definition k_q_lt : rational -> rational -> outcome bool := k_q_cmp Z.ltb.
(** rational.h:70 [operator<=] *)
Definition k_q_le : rational -> rational -> outcome bool := k_q_cmp Z.leb.
(** rational.h:71 [operator>] *)
Definition k_q_gt : rational -> rational -> outcome bool := k_q_cmp Z.gtb.
(** rational.h:72 [operator>=] *)
Definition k_q_ge : rational -> rational -> outcome bool := k_q_cmp Z.geb.
(** rational.h:73 [operator==] *)
Definition k_q_eq : rational -> rational -> outcome bool := k_q_cmp Z.eqb.
(** rational.h:74 [operator!=] *)
Definition k_q_ne : rational -> rational -> outcome bool := k_q_cmp (fun a b => negb (a =? b)).
(** rational.h:94-97 [min] *)
Definition k_q_min (l r : rational) : outcome rational := b <- k_q_lt l r ;; Ok (if (b : bool) then l else r).
(** rational.h:98-101 [max] *)
Definition k_q_max (l r : rational) : outcome rational := b <- k_q_gt l r ;; Ok (if (b : bool) then l else r).
(** rational.h:103-106 [floor] *)
Definition k_q_floor (r : rational) : outcome Z := k_euclidean_div (numerator r) (denominator r).
(** rational.h:107-110 [round] *)
Definition k_q_round (r : rational) : outcome Z :=
  a <- chk (2 * numerator r) ;; n <- chk (a + denominator r) ;; d <- chk (2 * denominator r) ;; k_euclidean_div n d.
(** rational.h:111-114 [ceil] *)
Definition k_q_ceil (r : rational) : outcome Z :=
  a <- chk (numerator r + denominator r) ;; n <- chk (a - 1) ;; k_euclidean_div n (denominator r).
(** rational.h:115-118 [frac] *)
Definition k_q_frac (r : rational) : outcome rational :=
  m <- k_euclidean_mod (numerator r) (denominator r) ;; k_make_rational m (denominator r).

(** resample.h:106, 122: (x + half) / rate - half *)
Definition k_sample_position (rate : rational) (x : Z) : outcome rational :=
  half <- k_make_rational 1 2 ;;
  a <- k_q_add (of_int x) half ;;
  b <- k_q_div a rate ;;
  k_q_sub b half.
(** resample.h:119-122: the positions for all of [out] *)
Definition k_positions (rate : rational) (out : interval) : outcome (list rational) :=
  xs <- k_for_interval out ;; mapM (k_sample_position rate) xs.
(** resample.cpp:95-96: the rate for an input of width [n] and an output of width [m]; then
    resample.h:119-122 for the output *)
Definition k_scale (n m : Z) : outcome (list rational) :=
  rate <- k_make_rational m n ;; k_positions rate (mkI 0 m).
