(** Model of the text absl prints for intervals, dims and shapes (absl/absl.h:12-39).
    Definitions only. *)
From Coq Require Import ZArith List Bool String DecimalString.
From Verif Require Import Base Interval Shape Checked.
Import ListNotations.
Open Scope string_scope.
Open Scope Z_scope.

(** absl's %v and %d of an integer: its decimal notation (not library code) *)
Definition dec (z : Z) : string := NilZero.string_of_int (Z.to_int z).
(** absl.h:15-18 interval; the end is computed in 64 bits.  The interval of a [dim] is its min and
    extent. *)
Definition interval_text (d : dim) : outcome string :=
  e <- chk (dmin d + dext d) ;;
  Ok ("[" ++ dec (dmin d) ++ ", " ++ dec e ++ ")")%string.
(** absl.h:23-30 dim; array.h:117 [is_resolved] *)
Definition dim_text (d : dim) : string :=
  if negb (dstr d =? unresolved)
  then "dim(" ++ dec (dmin d) ++ ", " ++ dec (dext d) ++ ", " ++ dec (dstr d) ++ ")"
  else "dim(" ++ dec (dmin d) ++ ", " ++ dec (dext d) ++ ")".
(** absl.h:36-39 [absl::StrJoin] *)
Fixpoint join (sep : string) (l : list string) : string :=
  match l with
  | [] => ""
  | [x] => x
  | x :: r => x ++ sep ++ join sep r
  end.
(** absl.h:36-39 shape *)
Definition shape_text (s : shape) : string :=
  "shape<" ++ dec (Z.of_nat (List.length s)) ++ ">(" ++ join ", " (map dim_text s) ++ ")".
