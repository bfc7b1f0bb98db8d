(** The resampling of Resample.v and Lanczos.v with overflow: as in Checked.v, an operation of index_t whose
    result does not fit in 64 bits is undefined behaviour.  Conversions from index_t to float are defined for
    all values; pointers stay unbounded.  The list that stands for a kernel_array has the bounds of [out]: what
    the array computes from them is here too.  Definitions only. *)
From Coq Require Import ZArith List Bool.
From Verif Require Import Base Interval Shape Traverse Memory Ref Container Callback Ein Matrix Conv Rational Resample Lanczos
  Checked Overflow ViewChecked ContChecked RatChecked MatChecked.
Import ListNotations.
Open Scope Z_scope.

Section Resample.
Context {F : Type} (fl : floats F) (nd : bool).

(** resample.h:99: the shape of a kernel_array over [out] *)
Definition kernels_dim (out : interval) : dim := mkD (imin out) (iext out) 1.
(** resample.h:109: the constructor of the kernel_array (array.h:2366-2375, 2282-2297), but for the elements *)
Definition k_kernel_array (out : interval) : outcome unit :=
  s <- k_resolve [kernels_dim out] ;; _ <- k_flat_extent s ;; _ <- k_flat_min s ;; _ <- k_optimize_shape s ;; Ok tt.
(** resample.h:153, 164: kernels(x), array.h:2543-2552 *)
Definition k_kernel_at (out : interval) (x : Z) : outcome Z := k_flat_offset [kernels_dim out] [x].

(** ** Kernels at each position *)

(** resample.h:133-141: one iteration, with the value [k] of the kernel *)
Definition k_sample_kernel (buffer : arr) (k : Z -> F) (w : window) (rx : Z) : outcome window :=
  let k_rx := k rx in
  p <- k_ref_ptr (aref_of buffer) [rx] ;;
  h <- store (wi_heap w) p k_rx ;;
  Ok (if f_ne fl k_rx (f0 fl)
      then mkWi h (cmin (wi_min w) rx) (cmax (wi_max w) rx) (f_add fl (wi_sum w) k_rx)
      else mkWi h (wi_min w) (wi_max w) (wi_sum w)).
(** resample.h:119-154: one iteration of the loop over [out] *)
Definition k_build_kernel (name : nat -> nat) (tmp : nat) (kernel : F -> F) (rate : rational) (scale : F)
  (in_ out : interval) (buffer : arr) (st : heap F * list arr) (x : Z) : outcome (heap F * list arr) :=
  let '(h, kernels) := st in
  q <- k_sample_position rate x ;;
  let in_x := to_float fl q in
  m <- k_imax in_ ;;
  w <- for_in (k_for_interval in_)
         (k_sample_kernel buffer (fun rx => kernel (f_mul fl (f_sub fl (f_int fl rx) in_x) scale)))
         (mkWi h m (imin in_) (f0 fl)) ;;
  d <- chk (wi_max w - wi_min w) ;;
  extent <- chk (d + 1) ;;
  _ <- assert_ nd (0 <? extent) ;;
  _ <- assert_ nd (f_lt fl (f0 fl) (wi_sum w)) ;;
  ' (h1, kernel_x) <- k_ctor_shape (kernel_config fl nd) tmp (wi_heap w) 0 [mkD (wi_min w) extent 1] ;;
  h2 <- for_in (k_for_dim (nth 0 (a_shape kernel_x) (mkD 0 0 0))) (fun h rx =>
          b <- k_ref_at h (aref_of buffer) [rx] ;;
          p <- k_ref_ptr (aref_of kernel_x) [rx] ;;
          store h p (f_div fl b (wi_sum w))) h1 ;;
  i <- k_kernel_at out x ;;
  let k := Z.to_nat i in
  match nth_error kernels k with
  | Some a =>
      ' (h3, a', kernel_x') <- k_move_assign_op (kernel_config fl nd) (name k) h2 a tmp kernel_x ;;
      ' (h4, _) <- k_deallocate (kernel_config fl nd) tmp h3 kernel_x' ;;
      Ok (h4, set_nth kernels k a')
  | None => UB
  end.
(** resample.h:109: the elements of [kernels] are default constructed (array.h:2294-2297) *)
Definition k_default_kernels (name : nat -> nat) (n : nat) (h : heap F) : outcome (heap F * list arr) :=
  foldM (fun st k => ' (h', a) <- k_ctor_shape (kernel_config fl nd) (name k) (fst st) 0 [mkD 0 0 1] ;; Ok (h', snd st ++ [a]))
    (seq 0 n) (h, []).
(** resample.h:101-157 [build_kernels] *)
Definition k_build_kernels (name : nat -> nat) (tmp : nat) (kernel : F -> F) (rate : rational) (in_ out : interval)
  (h : heap F) : outcome (heap F * list arr) :=
  _ <- k_kernel_array out ;;
  ' (h1, kernels) <- k_default_kernels name (Z.to_nat (iext out)) h ;;
  ' (h2, buffer) <- k_ctor_shape (buffer_config fl nd) O h1 0 [mkD (imin in_) (iext in_) 1] ;;
  let scale := f_min fl (to_float fl rate) (f1 fl) in
  ' (h3, kernels') <- for_in (k_for_interval out) (k_build_kernel name tmp kernel rate scale in_ out buffer) (h2, kernels) ;;
  ' (h4, _) <- k_deallocate (buffer_config fl nd) O h3 buffer ;;
  Ok (h4, kernels').
(** The destructor of a kernel_array over [out], resample.h:99 and array.h:2426, 2318-2321 *)
Definition k_free_kernels (name : nat -> nat) (out : interval) (kernels : list arr) (h : heap F) : outcome (heap F) :=
  _ <- k_optimize_shape [kernels_dim out] ;;
  foldM (fun h ka => ' (h', _) <- k_deallocate (kernel_config fl nd) (name (fst ka)) h (snd ka) ;; Ok h')
    (combine (seq 0 (length kernels)) kernels) h.

(** ** Images *)

(** resample.h:160-172 [resample_y]; [kernels] is over [ks] *)
Definition k_resample_y (in_ out : aref) (kernels : list arr) (ks : interval) (h : heap F) : outcome (heap F) :=
  for_in (k_for_dim (dim_of out 1)) (fun h y =>
    i <- k_kernel_at ks y ;;
    match nth_error kernels (Z.to_nat i) with
    | Some kernel_y =>
        if (y <? imin ks)%Z then UB else
        row <- k_ref_slice out [AAll; AIdx y; AAll] ;;
        h1 <- k_fill nd h row (f0 fl) ;;
        row' <- k_ref_slice out [AAll; AIdx y; AAll] ;;
        col <- k_ref_slice in_ [AAll; ADim (nth 0 (a_shape kernel_y) (mkD 0 0 0)); AAll] ;;
        k_ein_reduce nd (f_add fl) h1 row' [0; 2]%nat
          (EBin (f_mul fl) (EArr col [0; 1; 2]%nat) (EArr (aref_of kernel_y) [1]%nat))
    | None => UB
    end) h.
(** resample.h:185-188 [make_temp_image] *)
Definition k_make_temp_image (h : heap F) (x y c : dim) : outcome (heap F * arr) :=
  k_ctor_shape (image_config fl nd) O h 0 (temp_shape x y c).
(** ein_reduce(ein<x, y, c>(dst) = ein<y, x, c>(src)), resample.h:215, 222 *)
Definition k_transpose_image (src dst : aref) (h : heap F) : outcome (heap F) :=
  k_ein_reduce nd (fun _ v => v) h dst [0; 1; 2]%nat (EArr src [1; 0; 2]%nat).
(** resample.h:206-222: one strip *)
Definition k_resample_strip (in_ out : aref) (kernels_x kernels_y : list arr) (h : heap F) (yo : interval) : outcome (heap F) :=
  out_y <- k_ref_slice out [ADim (dim_of out 0); AInt yo; ADim (dim_of out 2)] ;;
  ' (h1, strip) <- k_make_temp_image h (dim_of in_ 0) (dim_of out_y 1) (dim_of out_y 2) ;;
  h2 <- k_resample_y in_ (aref_of strip) kernels_y (d_interval (dim_of out 1)) h1 ;;
  ' (h3, strip_tr) <- k_make_temp_image h2 (dim_of out_y 1) (dim_of in_ 0) (dim_of out_y 2) ;;
  h4 <- k_transpose_image (aref_of strip) (aref_of strip_tr) h3 ;;
  ' (h5, out_tr) <- k_make_temp_image h4 (dim_of out_y 1) (dim_of out_y 0) (dim_of out_y 2) ;;
  h6 <- k_resample_y (aref_of strip_tr) (aref_of out_tr) kernels_x (d_interval (dim_of out 0)) h5 ;;
  h7 <- k_transpose_image (aref_of out_tr) out_y h6 ;;
  ' (h8, _) <- k_deallocate (image_config fl nd) O h7 out_tr ;;
  ' (h9, _) <- k_deallocate (image_config fl nd) O h8 strip_tr ;;
  ' (h10, _) <- k_deallocate (image_config fl nd) O h9 strip ;;
  Ok h10.
(** resample.h:192-224 [resample]; [StripSize] is 64 *)
Definition k_resample (in_ out : aref) (rate_x rate_y : rational) (kernel : F -> F) (h : heap F) : outcome (heap F) :=
  let x := d_interval (dim_of out 0) in
  let y := d_interval (dim_of out 1) in
  ' (h1, kernels_x) <- k_build_kernels name_x 1 kernel rate_x (d_interval (dim_of in_ 0)) x h ;;
  ' (h2, kernels_y) <- k_build_kernels name_y 1 kernel rate_y (d_interval (dim_of in_ 1)) y h1 ;;
  r <- k_split_static nd 64 y ;;
  h3 <- for_in (k_for_split (Some 64) r) (k_resample_strip in_ out kernels_x kernels_y) h2 ;;
  h4 <- k_free_kernels name_y y kernels_y h3 ;;
  k_free_kernels name_x x kernels_x h4.
(** resample.cpp:95-100; for_each_value: array.h:2576-2583 *)
Definition k_resize (max_quantum : F) (kernel : F -> F) (input output : aref) (h : heap F) : outcome (heap F) :=
  rate_x <- k_make_rational (dext (dim_of output 0)) (dext (dim_of input 0)) ;;
  rate_y <- k_make_rational (dext (dim_of output 1)) (dext (dim_of input 1)) ;;
  h1 <- k_resample input output rate_x rate_y kernel h ;;
  l <- k_values nd (r_shape output) (r_base output) ;;
  r <- call_each (call (clamping fl max_quantum)) l tt (h1, tt) ;;
  match r with
  | Gives _ _ m => Ok (fst m)
  | Fails _ _ => UB
  end.
End Resample.
