(** Model of examples/resample/resample.h.  Definitions only.

    Simplifications.  [float] is a type [F] with the operations of [floats]; nothing is assumed
    of them here.  TIn and TOut are float.  The kernel is any function; of those in the file,
    sinc and lanczos (resample.h:76-92) are in Lanczos.v.  kernel_array, an array
    of arrays, is the list of its elements; each of them has a name (see Container.v).
    Arithmetic on index_t is in Z, except as in Rational.v.  The dimensions of [in] and [out]
    have no static bounds. *)
From Coq Require Import ZArith List Bool.
From Verif Require Import Base Interval Shape Traverse Memory Ref Container Ein Matrix Conv Rational.
Import ListNotations.
Open Scope Z_scope.

(** C++ [float], resample.h:31-157: 0.0f, 1.0f, conversion from index_t, [+], [-], [*], [/], [<], [!=] *)
Record floats (F : Type) := mkFl {
  f0 : F; f1 : F; f_int : Z -> F;
  f_add : F -> F -> F; f_sub : F -> F -> F; f_mul : F -> F -> F; f_div : F -> F -> F;
  f_lt : F -> F -> bool; f_ne : F -> F -> bool }.
Arguments f0 {F} _.
Arguments f1 {F} _.
Arguments f_int {F} _ _.
Arguments f_add {F} _ _ _.
Arguments f_sub {F} _ _ _.
Arguments f_mul {F} _ _ _.
Arguments f_div {F} _ _ _.
Arguments f_lt {F} _ _ _.
Arguments f_ne {F} _ _ _.

(** kernels(x) = ..., resample.h:153: [l] with the k-th element replaced by [a] *)
Fixpoint set_nth {A : Type} (l : list A) (k : nat) (a : A) : list A :=
  match l, k with
  | [], _ => []
  | _ :: r, O => a :: r
  | b :: r, S k' => b :: set_nth r k' a
  end.

Section Resample.
Context {F : Type} (fl : floats F) (nd : bool).

(** rational.h:119-122 [to_float] *)
Definition to_float (r : rational) : F := f_div fl (f_int fl (numerator r)) (f_int fl (denominator r)).
(** std::min(a, b) of floats, resample.h:117 *)
Definition f_min (a b : F) : F := if f_lt fl b a then b else a.

(** dense_array<float, 1> of resample.h:112 and, with [make_array] (array.h:2744-2747), the arrays of
    185-188: std::allocator propagates on move assignment only; [s0] is the default shape *)
Definition std_config (s0 : shape) : config F :=
  mkC nd false true false (fun al => al) 0 (-1) s0 (f0 fl) (fun v => v).
(** resample.h:98: auto_allocator<float, 16> (array.h:3123-3130) *)
Definition kernel_config : config F :=
  mkC nd false false false (fun _ => O) 0 16 [mkD 0 0 1] (f0 fl) (fun v => v).
(** resample.h:112: the type of [buffer] *)
Definition buffer_config : config F := std_config [mkD 0 0 1].
(** resample.h:185-188: the type of the temporary images *)
Definition image_config : config F := std_config [mkD 0 0 1; mkD 0 0 unresolved; mkD 0 0 unresolved].

(** ** Reconstruction kernels *)

(** The literal n / d; those of resample.h:31-78 are floats *)
Definition lit (n d : Z) : F := f_div fl (f_int fl n) (f_int fl d).
(** std::abs, resample.h:31-92 *)
Definition f_abs (a : F) : F := if f_lt fl a (f0 fl) then f_sub fl (f0 fl) a else a.
(** a <= b of numbers, resample.h:31 *)
Definition f_le (a b : F) : bool := negb (f_lt fl b a).
(** std::max, resample.h:34 *)
Definition f_max (a b : F) : F := if f_lt fl a b then b else a.
Notation "x +. y" := (f_add fl x y) (at level 50, left associativity).
Notation "x -. y" := (f_sub fl x y) (at level 50, left associativity).
Notation "x *. y" := (f_mul fl x y) (at level 40, left associativity).
Notation "x /. y" := (f_div fl x y) (at level 40, left associativity).
(** resample.h:31 [box] *)
Definition box_kernel (s : F) : F := if f_le (f_abs s) (lit 1 2) then f1 fl else f0 fl.
(** resample.h:34 [linear] *)
Definition linear (s : F) : F := f_max (f0 fl) (f1 fl -. f_abs s).
(** resample.h:38-48 [quadratic_family] *)
Definition quadratic_family (s0 r : F) : F :=
  let s := f_abs s0 in
  let s2 := s *. s in
  if f_lt fl s (lit 1 2) then lit (-2) 1 *. r *. s2 +. lit 1 2 *. (r +. f1 fl)
  else if f_lt fl s (lit 3 2) then r *. s2 +. (lit (-2) 1 *. r -. lit 1 2) *. s +. lit 3 4 *. (r +. f1 fl)
  else f0 fl.
(** resample.h:50-62 [cubic_family] *)
Definition cubic_family (s0 B C : F) : F :=
  let s := f_abs s0 in
  let s2 := s *. s in
  let s3 := s2 *. s in
  if f_le s (f1 fl)
  then (lit 2 1 -. B *. lit 3 2 -. C) *. s3 +. (lit (-3) 1 +. lit 2 1 *. B +. C) *. s2 +. (f1 fl -. B /. lit 3 1)
  else if f_le s (lit 2 1)
  then (f_sub fl (f0 fl) B /. lit 6 1 -. C) *. s3 +. (B +. lit 5 1 *. C) *. s2 +. (lit (-2) 1 *. B -. lit 8 1 *. C) *. s +.
       (B *. lit 4 1 /. lit 3 1 +. lit 4 1 *. C)
  else f0 fl.
(** resample.h:65 [interpolating_quadratic] *)
Definition interpolating_quadratic (s : F) : F := quadratic_family s (f1 fl).
(** resample.h:68 [interpolating_cubic] *)
Definition interpolating_cubic (s : F) : F := cubic_family s (f0 fl) (lit 1 2).
(** resample.h:71 [quadratic_bspline] *)
Definition quadratic_bspline (s : F) : F := quadratic_family s (lit 1 2).
(** resample.h:74 [cubic_bspline] *)
Definition cubic_bspline (s : F) : F := cubic_family s (f1 fl) (f0 fl).

(** ** Kernels at each position *)

(** resample.h:106, 122: (x + half) / rate - half *)
Definition sample_position (rate : rational) (x : Z) : outcome rational :=
  half <- make_rational 1 2 ;;
  a <- q_add (of_int x) half ;;
  b <- q_div a rate ;;
  q_sub b half.
(** State of the loop of resample.h:133-141: the heap, [min], [max] and [sum] *)
Record window := mkWi { wi_heap : heap F; wi_min : Z; wi_max : Z; wi_sum : F }.
(** resample.h:133-141: one iteration, with the value [k] of the kernel *)
Definition sample_kernel (buffer : arr) (k : Z -> F) (w : window) (rx : Z) : outcome window :=
  let k_rx := k rx in
  h <- store (wi_heap w) (ref_ptr (aref_of buffer) [rx]) k_rx ;;
  Ok (if f_ne fl k_rx (f0 fl)
      then mkWi h (cmin (wi_min w) rx) (cmax (wi_max w) rx) (f_add fl (wi_sum w) k_rx)
      else mkWi h (wi_min w) (wi_max w) (wi_sum w)).
(** resample.h:119-154: one iteration of the loop over [out]; the elements of [kernels] are named
    by [name], kernel_x is named [tmp] *)
Definition build_kernel (name : nat -> nat) (tmp : nat) (kernel : F -> F) (rate : rational) (scale : F)
  (in_ out : interval) (buffer : arr) (st : heap F * list arr) (x : Z) : outcome (heap F * list arr) :=
  let '(h, kernels) := st in
  q <- sample_position rate x ;;
  let in_x := to_float q in
  w <- for_in (for_interval in_)
         (sample_kernel buffer (fun rx => kernel (f_mul fl (f_sub fl (f_int fl rx) in_x) scale)))
         (mkWi h (imax in_) (imin in_) (f0 fl)) ;;
  let extent := wi_max w - wi_min w + 1 in
  _ <- assert_ nd (0 <? extent) ;;
  _ <- assert_ nd (f_lt fl (f0 fl) (wi_sum w)) ;;
  ' (h1, kernel_x) <- ctor_shape kernel_config tmp (wi_heap w) 0 [mkD (wi_min w) extent 1] ;;
  h2 <- for_in (for_dim (nth 0 (a_shape kernel_x) (mkD 0 0 0))) (fun h rx =>
          b <- ref_at h (aref_of buffer) [rx] ;;
          store h (ref_ptr (aref_of kernel_x) [rx]) (f_div fl b (wi_sum w))) h1 ;;
  let k := Z.to_nat (x - imin out) in
  match nth_error kernels k with
  | Some a =>
      ' (h3, a', kernel_x') <- move_assign_op kernel_config (name k) h2 a tmp kernel_x ;;
      ' (h4, _) <- deallocate kernel_config tmp h3 kernel_x' ;;
      Ok (h4, set_nth kernels k a')
  | None => UB
  end.
(** resample.h:109: the elements of [kernels] are default constructed (array.h:2294-2297) *)
Definition default_kernels (name : nat -> nat) (n : nat) (h : heap F) : outcome (heap F * list arr) :=
  foldM (fun st k => ' (h', a) <- ctor_shape kernel_config (name k) (fst st) 0 [mkD 0 0 1] ;; Ok (h', snd st ++ [a]))
    (seq 0 n) (h, []).
(** resample.h:101-157 [build_kernels] *)
Definition build_kernels (name : nat -> nat) (tmp : nat) (kernel : F -> F) (rate : rational) (in_ out : interval)
  (h : heap F) : outcome (heap F * list arr) :=
  ' (h1, kernels) <- default_kernels name (Z.to_nat (iext out)) h ;;
  ' (h2, buffer) <- ctor_shape buffer_config O h1 0 [mkD (imin in_) (iext in_) 1] ;;
  let scale := f_min (to_float rate) (f1 fl) in
  ' (h3, kernels') <- for_in (for_interval out) (build_kernel name tmp kernel rate scale in_ out buffer) (h2, kernels) ;;
  ' (h4, _) <- deallocate buffer_config O h3 buffer ;;
  Ok (h4, kernels').
(** The destructor of a kernel_array, resample.h:99 and array.h:2426 *)
Definition free_kernels (name : nat -> nat) (kernels : list arr) (h : heap F) : outcome (heap F) :=
  foldM (fun h ka => ' (h', _) <- deallocate kernel_config (name (fst ka)) h (snd ka) ;; Ok h')
    (combine (seq 0 (length kernels)) kernels) h.

(** ** Images *)

(** resample.h:160-172 [resample_y]; [lo] is the min of [kernels].  out(_, y, _), in(_, k, _):
    array.h:2092-2099 *)
Definition resample_y (in_ out : aref) (kernels : list arr) (lo : Z) (h : heap F) : outcome (heap F) :=
  for_in (for_dim (dim_of out 1)) (fun h y =>
    match nth_error kernels (Z.to_nat (y - lo)) with
    | Some kernel_y =>
        if (y <? lo)%Z then UB else
        let row := ref_slice out [AAll; AIdx y; AAll] in
        h1 <- fill nd h row (f0 fl) ;;
        ein_reduce nd (f_add fl) h1 row [0; 2]%nat
          (EBin (f_mul fl)
            (EArr (ref_slice in_ [AAll; ADim (nth 0 (a_shape kernel_y) (mkD 0 0 0)); AAll]) [0; 1; 2]%nat)
            (EArr (aref_of kernel_y) [1]%nat))
    | None => UB
    end) h.
(** resample.h:174-183 [without_stride], [make_temp_image_shape] *)
Definition temp_shape (x y c : dim) : shape :=
  [mkD (dmin x) (dext x) 1; mkD (dmin y) (dext y) unresolved; mkD (dmin c) (dext c) unresolved].
(** resample.h:185-188 [make_temp_image] *)
Definition make_temp_image (h : heap F) (x y c : dim) : outcome (heap F * arr) :=
  ctor_shape image_config O h 0 (temp_shape x y c).
(** ein_reduce(ein<x, y, c>(dst) = ein<y, x, c>(src)), resample.h:215, 222 *)
Definition transpose_image (src dst : aref) (h : heap F) : outcome (heap F) :=
  ein_reduce nd (fun _ v => v) h dst [0; 1; 2]%nat (EArr src [1; 0; 2]%nat).
(** resample.h:206-222: one strip; the temporaries are destroyed at the end, the last one first *)
Definition resample_strip (in_ out : aref) (kernels_x kernels_y : list arr) (h : heap F) (yo : interval) : outcome (heap F) :=
  let out_y := ref_slice out [ADim (dim_of out 0); AInt yo; ADim (dim_of out 2)] in
  ' (h1, strip) <- make_temp_image h (dim_of in_ 0) (dim_of out_y 1) (dim_of out_y 2) ;;
  h2 <- resample_y in_ (aref_of strip) kernels_y (dmin (dim_of out 1)) h1 ;;
  ' (h3, strip_tr) <- make_temp_image h2 (dim_of out_y 1) (dim_of in_ 0) (dim_of out_y 2) ;;
  h4 <- transpose_image (aref_of strip) (aref_of strip_tr) h3 ;;
  ' (h5, out_tr) <- make_temp_image h4 (dim_of out_y 1) (dim_of out_y 0) (dim_of out_y 2) ;;
  h6 <- resample_y (aref_of strip_tr) (aref_of out_tr) kernels_x (dmin (dim_of out 0)) h5 ;;
  h7 <- transpose_image (aref_of out_tr) out_y h6 ;;
  ' (h8, _) <- deallocate image_config O h7 out_tr ;;
  ' (h9, _) <- deallocate image_config O h8 strip_tr ;;
  ' (h10, _) <- deallocate image_config O h9 strip ;;
  Ok h10.
(** resample.h:198: names for the elements of [kernels_x] *)
Definition name_x (k : nat) : nat := (2 * k + 2)%nat.
(** resample.h:200: names for the elements of [kernels_y] *)
Definition name_y (k : nat) : nat := (2 * k + 3)%nat.
(** resample.h:192-224 [resample]; [StripSize] is 64 *)
Definition resample (in_ out : aref) (rate_x rate_y : rational) (kernel : F -> F) (h : heap F) : outcome (heap F) :=
  ' (h1, kernels_x) <- build_kernels name_x 1 kernel rate_x (d_interval (dim_of in_ 0)) (d_interval (dim_of out 0)) h ;;
  ' (h2, kernels_y) <- build_kernels name_y 1 kernel rate_y (d_interval (dim_of in_ 1)) (d_interval (dim_of out 1)) h1 ;;
  r <- split_static nd 64 (d_interval (dim_of out 1)) ;;
  h3 <- for_in (for_split (Some 64) r) (resample_strip in_ out kernels_x kernels_y) h2 ;;
  h4 <- free_kernels name_y kernels_y h3 ;;
  free_kernels name_x kernels_x h4.
End Resample.
