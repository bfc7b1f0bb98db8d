(** Specification vocabulary for printed text. *)
From Coq Require Import ZArith List Bool String Ascii.
From Verif Require Import Base Interval Shape.
Import ListNotations.
Open Scope Z_scope.

(** The digit a character stands for *)
Definition digit (c : ascii) : option Z :=
  let n := Z.of_nat (nat_of_ascii c) in
  if (48 <=? n) && (n <=? 57) then Some (n - 48) else None.
(** Reading digits from left to right *)
Fixpoint read_digits (acc : Z) (s : string) : option Z :=
  match s with
  | EmptyString => Some acc
  | String c r => match digit c with Some d => read_digits (10 * acc + d) r | None => None end
  end.
(** Reading an integer in decimal notation *)
Definition read (s : string) : option Z :=
  match s with
  | EmptyString => None
  | String "-" EmptyString => None
  | String "-" r => option_map Z.opp (read_digits 0 r)
  | _ => read_digits 0 s
  end.
