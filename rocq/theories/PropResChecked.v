(** C86: resampling, in 64 bits. *)
From Coq Require Import ZArith QArith String List Bool Reals.
From Verif Require Import Base Interval Shape Memory Ref Spec SpecMem SpecEin SpecChecked SpecViewChecked SpecOverflow Container Rational SpecRational
  Resample ResChecked SpecResample SpecResChecked Lanczos SpecLanczos ResampleFacts ResampleCases ResCheckedFacts ResCheckedCases LanczosWhole ResCheckedReal.
Import ListNotations.
Open Scope Z_scope.

(** The kernels are built as in C55, and no computation overflows. *)
Theorem C86_build_kernels : forall (F : Type) (fl : floats F) (nd : bool) (name : nat -> nat) (tmp : nat) (kernel : F -> F) (rate : rational)
    (id od : dim) (h : heap F),
  (forall k, name k <> tmp) -> roomy [id] -> side_fits id -> roomy [od] -> rate_ok rate (dmin od) (dext od) -> usable_heap h ->
  (forall x, in_dim od x -> usable_weights fl (weight fl kernel rate x) (dmin id) (dext id)) ->
  exists h' ks, k_build_kernels fl nd name tmp kernel rate (d_interval id) (d_interval od) h = Ok (h', ks) /\ length ks = Z.to_nat (dext od) /\
    (forall x, in_dim od x -> exists a, nth_error ks (Z.to_nat (x - dmin od)) = Some a /\
      kernel_is fl h' (aref_of a) (weight fl kernel rate x) (dmin id) (dext id)) /\
    (forall k, (k < h_next h)%nat -> h_blk h' k = h_blk h k) /\ usable_heap h'.
Proof. exact @k_build_means. Qed.
Print Assumptions C86_build_kernels.
(** Each pixel is the weighted sum in x of the weighted sums in y, nothing else changes and all temporary memory is freed, as in C56, and
    no computation overflows; *)
Theorem C86_resample : forall (F : Type) (fl : floats F) (nd : bool) (h : heap F) (I O : aref) (f : list Z -> F) (rx ry : rational)
    (kernel : F -> F) (ix iy ic ox oy oc : dim),
  resampling fl h I O f rx ry kernel ix iy ic ox oy oc -> sizes_fit ix iy ic ox oy oc ->
  makes_image h (k_resample fl nd I O rx ry kernel h) O (pixel fl f rx ry kernel ix iy).
Proof. exact @k_resample_ok. Qed.
Print Assumptions C86_resample.
(** fewer than 64 rows, or a position without weights, are rejected before anything can overflow. *)
Theorem C86_rejected : forall (F : Type) (fl : floats F) (nd : bool) (h : heap F) (I O : aref) (rx ry : rational) (kernel : F -> F)
    (ix iy ic ox oy oc : dim),
  r_shape I = [ix; iy; ic] -> r_shape O = [ox; oy; oc] -> roomy [ix; iy; ic] -> roomy [ox; oy; oc] -> side_fits ix -> side_fits iy ->
  rate_ok rx (dmin ox) (dext ox) -> rate_ok ry (dmin oy) (dext oy) -> usable_heap h -> f_lt fl (f0 fl) (f0 fl) = false -> nd = false ->
  dext oy < 64 \/ (exists x, in_dim ox x /\ ~ usable_weights fl (weight fl kernel rx x) (dmin ix) (dext ix)) \/
    (exists y, in_dim oy y /\ ~ usable_weights fl (weight fl kernel ry y) (dmin iy) (dext iy)) ->
  k_resample fl nd I O rx ry kernel h = AssertFail.
Proof. exact @k_resample_rejects. Qed.
Print Assumptions C86_rejected.
(** The program, from the sizes of the images to the limits of the pixels, as in C83. *)
Theorem C86_resize : forall (nd : bool) (h : heap R) (I O : aref) (f : list Z -> R) (ix iy ic ox oy oc : dim) (name : String.string) (kernel : R -> R) (b : R),
  images h I O f ix iy ic ox oy oc -> sizes_fit ix iy ic ox oy oc -> loops_fit [ox; oy; oc] -> parse_kernel reals PI sin name = Some kernel ->
  makes_image h (k_resize reals nd b kernel I O h) O (fun x y c =>
    limited b (pixel reals f (mkQ (dext ox) (dext ix)) (mkQ (dext oy) (dext iy)) kernel ix iy x y c)).
Proof. exact k_resize_named. Qed.
Print Assumptions C86_resize.
(** Images that begin at 0, with sides of up to 2^24 pixels, up to 128 channels and strides of up to 2^37, are small enough. *)
Theorem C86_sizes : forall ix iy ic ox oy oc : dim, modest (2 ^ 24) ix -> modest (2 ^ 24) iy -> modest 128 ic ->
  modest (2 ^ 24) ox -> modest (2 ^ 24) oy -> modest 128 oc -> sizes_fit ix iy ic ox oy oc /\ loops_fit [ox; oy; oc].
Proof. exact modest_fits. Qed.
Print Assumptions C86_sizes.
(** It is not enough that the images are in memory and the positions can be computed: rows far from 0 overflow in the temporary images. *)
Theorem C86_far_refuted : exists (h : heap Q) (I O : aref) (f : list Z -> Q) (rx ry : rational) (kernel : Q -> Q) (ix iy ic ox oy oc : dim),
  resampling exact h I O f rx ry kernel ix iy ic ox oy oc /\ roomy [ix; iy; ic] /\ roomy [ox; oy; oc] /\ side_fits ix /\ side_fits iy /\
  k_resample exact false I O rx ry kernel h = UB.
Proof. exact far_overflows. Qed.
Print Assumptions C86_far_refuted.
Example C86_example :
  resampling exact heapR rI rO rF rateX rateY (linear exact) (mkD 0 2 1) (mkD 0 4 2) (mkD 0 1 8) (mkD 0 3 1) (mkD 0 65 3) (mkD 0 1 195) /\
  sizes_fit (mkD 0 2 1) (mkD 0 4 2) (mkD 0 1 8) (mkD 0 3 1) (mkD 0 65 3) (mkD 0 1 195) /\
  (exists h' q, k_resample exact false rI rO rateX rateY (linear exact) heapR = Ok h' /\ holds h' (2%nat, 100) q /\ (q == 3)%Q) /\
  match k_build_kernels exact false name_x 1 (linear exact) rateX (mkI 0 2) (mkI 0 3) heapR with
  | Ok (h, ks) => map a_shape ks = [[mkD 0 1 1]; [mkD 0 2 1]; [mkD 1 1 1]]
  | _ => False
  end /\
  k_resample exact false rI (mkR (2%nat, 0) [mkD 0 3 1; mkD 0 63 3; mkD 0 1 189]) rateX rateY (linear exact) heapR = AssertFail /\
  sizes_fit (mkD 0 16777216 3) (mkD 0 16777216 50331648) (mkD 0 3 1) (mkD 0 16777216 3) (mkD 0 16777216 50331648) (mkD 0 3 1) /\
  sizes_fit (mkD 1000000 640 1) (mkD (-5000) 480 640) (mkD 0 3 307200) (mkD (-30) 64 4) (mkD 7 64 256) (mkD 1 2 1).
Proof. exact resample_checked_example. Qed.
Example C86_resize_example :
  images heapL (lI 4) (lO 3 65) (lF 4) (mkD 0 2 1) (mkD 0 4 2) (mkD 0 1 128) (mkD 0 3 1) (mkD 0 65 3) (mkD 0 1 195) /\
  sizes_fit (mkD 0 2 1) (mkD 0 4 2) (mkD 0 1 128) (mkD 0 3 1) (mkD 0 65 3) (mkD 0 1 195) /\ loops_fit [mkD 0 3 1; mkD 0 65 3; mkD 0 1 195] /\
  exists kernel, parse_kernel reals PI sin "lanczos"%string = Some kernel.
Proof. exact resize_checked_example. Qed.
