(** Model of the rest of examples/resample: the Lanczos kernel (resample.h:76-92), and of resample.cpp the choice of
    the kernel (24-38) and the part of main that works on arrays (95-100).  Definitions only.

    Simplifications.  As in Resample.v; std::sin and M_PI are parameters, and M_PI (a double) is a float.  Kernel names
    are strings without the terminating null character.  The images of main are given as array_refs: reading and
    writing files (40-71, 77-94, 102-103) is not modelled. *)
From Coq Require Import ZArith List Bool String.
From Verif Require Import Base Interval Shape Memory Ref Callback Conv Rational Resample.
Import ListNotations.
Open Scope Z_scope.

Section Lanczos.
Context {F : Type} (fl : floats F) (m_pi : F) (f_sin : F -> F).

(** resample.h:76-79 [sinc] *)
Definition sinc (s0 : F) : F :=
  let s := f_mul fl s0 m_pi in
  if f_lt fl (lit fl 1 1000000) (f_abs fl s) then f_div fl (f_sin s) s else f1 fl.
(** resample.h:82-92 [lanczos] *)
Definition lanczos (side_lobes : Z) (s : F) : F :=
  if f_le fl (f_abs fl s) (f_int fl side_lobes)
  then f_mul fl (sinc s) (sinc (f_div fl s (f_int fl side_lobes)))
  else f0 fl.
(** resample.cpp:24-38 [parse_kernel] *)
Definition parse_kernel (name : string) : option (F -> F) :=
  if String.eqb name "box" then Some (box_kernel fl)
  else if String.eqb name "linear" then Some (linear fl)
  else if String.eqb name "quadratic" then Some (interpolating_quadratic fl)
  else if String.eqb name "cubic" then Some (interpolating_cubic fl)
  else if String.eqb name "lanczos" then Some (lanczos 4)
  else None.

(** std::max(std::min(i, max_quantum), 0.0f), resample.cpp:100 *)
Definition clamp (max_quantum v : F) : F := f_max fl (f_min fl v max_quantum) (f0 fl).
(** The lambda of resample.cpp:100; it has no state but [max_quantum] *)
Definition clamping (max_quantum : F) : callable F unit unit ptr unit :=
  mkCall (fun f m p => v <- load (fst m) p ;; h <- store (fst m) p (clamp max_quantum v) ;; Ok (Gives tt f (h, snd m)))
    (fun f => f).
(** resample.cpp:95-100 *)
Definition resize (nd : bool) (max_quantum : F) (kernel : F -> F) (input output : aref) (h : heap F) : outcome (heap F) :=
  rate_x <- make_rational (dext (dim_of output 0)) (dext (dim_of input 0)) ;;
  rate_y <- make_rational (dext (dim_of output 1)) (dext (dim_of input 1)) ;;
  h1 <- resample fl nd input output rate_x rate_y kernel h ;;
  r <- for_each_value_f nd (clamping max_quantum) output tt (h1, tt) ;;
  match r with
  | Gives _ _ m => Ok (fst m)
  | Fails _ _ => UB
  end.
End Lanczos.
