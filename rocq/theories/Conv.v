(** Model of the convolutions of examples/linear_algebra/conv2d_relu.cpp.  Definitions only.

    Simplifications.  The element type is [V] with [zero], [add], [mul] and the comparison
    [ltb]; nothing is assumed of them here.  The tile sizes are parameters. *)
From Coq Require Import ZArith List Bool.
From Verif Require Import Base Interval Shape Traverse Memory Ref Matrix.
Import ListNotations.
Open Scope Z_scope.

(** array.h:2122-2129 [dim<D>()] of an array_ref *)
Definition dim_of (r : aref) (k : nat) : dim := nth k (r_shape r) (mkD 0 0 0).

Section Conv.
Context {V : Type} (zero : V) (add mul : V -> V -> V) (ltb : V -> V -> bool).

(** std::max(a, b), conv2d_relu.cpp:41, 87: returns the first argument unless it is less than the second one *)
Definition std_max (a b : V) : V := if ltb a b then b else a.
(** out[o] += filter(co, dx, dy, ci) * input(ci, x + dx, y + dy, n), conv2d_relu.cpp:35, 77;
    [out] is the output or a tile of it *)
Definition conv_mac (input filter out : aref) (o : index) (co x y n ci dy dx : Z) (h : heap V) : outcome (heap V) :=
  a <- ref_at h filter [co; dx; dy; ci] ;; b <- ref_at h input [ci; x + dx; y + dy; n] ;;
  old <- ref_at h out o ;; store h (ref_ptr out o) (add old (mul a b)).
(** out[o] = f(out[o]), conv2d_relu.cpp:41, 87 *)
Definition apply_at (out : aref) (f : V -> V) (o : index) (h : heap V) : outcome (heap V) :=
  v <- ref_at h out o ;; store h (ref_ptr out o) (f v).

(** conv2d_relu.cpp:23-46 [conv2d_naive] *)
Definition conv2d_naive (input filter bias output : aref) (h : heap V) : outcome (heap V) :=
  for_in (for_dim (dim_of output 3)) (fun h n =>
  for_in (for_dim (dim_of output 2)) (fun h y =>
  for_in (for_dim (dim_of output 1)) (fun h x =>
  for_in (for_dim (dim_of output 0)) (fun h co =>
    b <- ref_at h bias [co] ;;
    h1 <- store h (ref_ptr output [co; x; y; n]) b ;;
    h2 <- for_in (for_dim (dim_of filter 3)) (fun h ci =>
          for_in (for_dim (dim_of filter 2)) (fun h dy =>
          for_in (for_dim (dim_of filter 1)) (fun h dx =>
            conv_mac input filter output [co; x; y; n] co x y n ci dy dx h) h) h) h1 ;;
    apply_at output (fun v => std_max v zero) [co; x; y; n] h2) h) h) h) h.

(** conv2d_relu.cpp:48-94 [conv2d_tiled]; [tile_co] and [tile_x] are the constants of lines
    58-59 *)
Definition conv2d_tiled (nd : bool) (tile_co tile_x : Z) (input filter bias output : aref) (h : heap V) : outcome (heap V) :=
  for_in (for_dim (dim_of output 3)) (fun h n =>
  for_in (for_dim (dim_of output 2)) (fun h y =>
    rx <- split_static nd tile_x (d_interval (dim_of output 1)) ;;
  for_in (for_split (Some tile_x) rx) (fun h xo =>
    rc <- split_static nd tile_co (d_interval (dim_of output 0)) ;;
  for_in (for_split (Some tile_co) rc) (fun h coo =>
    let tile := ref_slice output [AInt coo; AInt xo; AIdx y; AIdx n] in
    h1 <- for_in (for_interval coo) (fun h co =>
            b <- ref_at h bias [co] ;; fill nd h (ref_slice tile [AIdx co; AAll]) b) h ;;
    h2 <- for_in (for_dim (dim_of filter 3)) (fun h ci =>
          for_in (for_dim (dim_of filter 2)) (fun h dy =>
          for_in (for_dim (dim_of filter 1)) (fun h dx =>
          for_in (for_interval xo) (fun h x =>
          for_in (for_interval coo) (fun h co =>
            conv_mac input filter tile [co; x] co x y n ci dy dx h) h) h) h) h) h1 ;;
    for_in (for_interval xo) (fun h x =>
    for_in (for_interval coo) (fun h co =>
      apply_at tile (fun v => std_max zero v) [co; x] h) h) h2) h) h) h) h.
End Conv.
