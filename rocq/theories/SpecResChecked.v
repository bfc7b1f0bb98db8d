(** Specification vocabulary for resampling in 64 bits: which images are small enough. *)
From Coq Require Import ZArith List.
From Verif Require Import Interval Shape SpecChecked SpecViewChecked.
Import ListNotations.
Open Scope Z_scope.

(** The larger distance of the ends of [d] from 0 *)
Definition farthest (d : dim) : Z := Z.max (Z.abs (dmin d)) (Z.abs (dmin d + dext d)).
(** A side of the input: arrays over parts of it fit in index_t, with a factor 3 to spare *)
Definition side_fits (d : dim) : Prop := 1 <= dext d /\ 3 * (farthest d * dext d) <= 9223372036854775807.
(** 64 rows of [y], of width [x] and with the channels [c]: size and distances fit in index_t, with a
    factor 3 to spare *)
Definition strip_fits (x y c : dim) : Prop :=
  3 * ((1 + Z.abs (dmin x) + farthest y + Z.abs (dmin c)) * (64 * dext x * dext c)) <= 9223372036854775807.
(** The images are small enough to be resampled *)
Record sizes_fit (ix iy ic ox oy oc : dim) : Prop := mkSf {
  sf_in : roomy [ix; iy; ic];
  sf_out : roomy [ox; oy; oc];
  sf_ext : 1 <= dext ox /\ 1 <= dext oy /\ 1 <= dext oc;
  sf_x : side_fits ix;
  sf_y : side_fits iy;
  sf_rows : dmin oy + dext oy - 1 + 64 <= 9223372036854775807;
  sf_strip : strip_fits ix oy oc;
  sf_strip_out : strip_fits ox oy oc }.
(** A dimension that begins at 0, with at most [n] indices and a stride of at most 2^37 *)
Definition modest (n : Z) (d : dim) : Prop := dmin d = 0 /\ 1 <= dext d <= n /\ Z.abs (dstr d) <= 2 ^ 37.
