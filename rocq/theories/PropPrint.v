(** Printing: C63. *)
From Coq Require Import ZArith List Bool String.
From Verif Require Import Base Interval Shape Print SpecPrint PrintFacts.
Import ListNotations.
Open Scope Z_scope.

(** ** C63: the text of intervals, dims and shapes *)

(** The text determines the values. *)
Theorem C63_shape_injective : forall s s' : list dim, shape_text s = shape_text s' -> s = s'.
Proof. exact shape_text_inj. Qed.
Theorem C63_dim_injective : forall d d' : dim, dim_text d = dim_text d' -> d = d'.
Proof. exact dim_text_inj. Qed.
Theorem C63_interval_injective : forall (d d' : dim) (t : string), interval_text d = Ok t -> interval_text d' = Ok t ->
  dmin d = dmin d' /\ dext d = dext d'.
Proof. exact interval_text_inj. Qed.
(** The format, with numbers in decimal notation *)
Theorem C63_interval : forall d : dim, index_min <= dmin d + dext d <= index_max ->
  exists a b, interval_text d = Ok ("[" ++ a ++ ", " ++ b ++ ")")%string /\
    read a = Some (dmin d) /\ read b = Some (dmin d + dext d).
Proof. exact interval_text_ok. Qed.
Theorem C63_dim : forall d : dim,
  exists a b c, read a = Some (dmin d) /\ read b = Some (dext d) /\ read c = Some (dstr d) /\
    dim_text d = if dstr d =? unresolved then ("dim(" ++ a ++ ", " ++ b ++ ")")%string
                 else ("dim(" ++ a ++ ", " ++ b ++ ", " ++ c ++ ")")%string.
Proof. exact dim_text_format. Qed.
Theorem C63_shape : forall s : list dim,
  exists n, read n = Some (Z.of_nat (List.length s)) /\
    shape_text s = ("shape<" ++ n ++ ">(" ++ String.concat ", " (map dim_text s) ++ ")")%string.
Proof. exact shape_text_format. Qed.
(** The end of an interval may not fit, though every index of it does. *)
Theorem C63_interval_ub : forall d : dim, ~ index_min <= dmin d + dext d <= index_max -> interval_text d = UB.
Proof. exact interval_text_ub. Qed.
Example C63_example :
  shape_text [mkD 0 3 1; mkD (-2) 40 unresolved; mkD 7 0 (-120)] = "shape<3>(dim(0, 3, 1), dim(-2, 40), dim(7, 0, -120))"%string /\
  shape_text [] = "shape<0>()"%string /\
  interval_text (mkD (-5) 12 1) = Ok "[-5, 7)"%string /\ index_min <= -5 + 12 <= index_max /\
  interval_text (mkD 1 index_max 1) = UB /\ read "-120" = Some (-120) /\ read "0" = Some 0 /\ read "-" = None /\ read "1a" = None.
Proof. repeat split; try reflexivity; vm_compute; discriminate. Qed.
Print Assumptions C63_shape_injective.
Print Assumptions C63_dim_injective.
Print Assumptions C63_interval_injective.
Print Assumptions C63_interval.
Print Assumptions C63_dim.
Print Assumptions C63_shape.
Print Assumptions C63_interval_ub.
