(** Compile-time parameters: C28, C29, C45. *)
From Coq Require Import ZArith List Bool.
From Verif Require Import Base Interval Shape Spec Static SpecStatic StaticFacts.
Import ListNotations.
Open Scope Z_scope.

(** ** C45: static arithmetic *)
Theorem C45_static_arithmetic : forall a b va vb : Z, fits a va -> fits b vb ->
  fits (static_add a b) (va + vb) /\ fits (static_sub a b) (va - vb) /\
  fits (static_mul a b) (va * vb) /\ fits (static_min a b) (Z.min va vb) /\
  fits (static_max a b) (Z.max va vb) /\ fits (static_abs a) (Z.abs va).
Proof. exact static_ops_fit. Qed.
Theorem C45_dynamic_contagious : forall a : Z, static_add a (-9) = -9 /\ static_add (-9) a = -9 /\
  static_sub a (-9) = -9 /\ static_sub (-9) a = -9 /\ static_mul a (-9) = -9 /\ static_mul (-9) a = -9 /\
  static_min a (-9) = -9 /\ static_min (-9) a = -9 /\ static_max a (-9) = -9 /\ static_max (-9) a = -9 /\
  static_abs (-9) = -9.
Proof. exact static_ops_contagious. Qed.
Theorem C45_static_max : forall (t : dimT) (d : dim), dim_fits t d -> fits (tmax t) (dmin d + dext d - 1).
Proof. exact tmax_fits. Qed.
(** A dim can be constructed from exactly the values its type allows. *)
Theorem C45_constructor : forall (nd : bool) (t : dimT) (mn ex st : Z), dim_fits t (mkD mn ex st) ->
  make_dim nd t mn ex st = Ok (mkD mn ex st).
Proof. exact make_dim_ok. Qed.
Theorem C45_constructor_rejects : forall (t : dimT) (mn ex st : Z), ~ dim_fits t (mkD mn ex st) ->
  make_dim false t mn ex st = AssertFail.
Proof. exact make_dim_rejects. Qed.
(** Without assertions a dim still has the static values of its type. *)
Theorem C45_constructor_release : forall (t : dimT) (mn ex st : Z), exists d, make_dim true t mn ex st = Ok d /\ dim_fits t d /\
  forced (tmin t) mn (dmin d) /\ forced (text t) ex (dext d) /\ forced (tstr t) st (dstr d).
Proof. exact make_dim_release. Qed.
Theorem C45_default : forall (nd : bool) (t : dimT), exists d, default_dim nd t = Ok d /\ dim_fits t d /\
  (tmin t = -9 -> dmin d = 0) /\ (text t = -9 -> dext d = 0) /\ (tstr t = -9 -> unknown_stride d).
Proof. exact default_dim_values. Qed.
(** The compile-time bounds computed by clamp agree with the run-time intersection. *)
Theorem C45_clamp : forall (nd : bool) (ta tb : dimT) (a b : dim), dim_fits ta a -> dim_fits tb b ->
  exists d, clamp_typed nd ta tb a b = Ok d /\ dim_fits (clamp_T ta tb) d /\ dstr d = dstr a /\
    forall x, in_dim d x <-> in_dim a x /\ in_dim b x.
Proof. exact clamp_typed_ok. Qed.
(** Conversions are disabled exactly between parameters no value has in common. *)
Theorem C45_not_equal : forall a b : Z, not_equal a b = true <-> ~ exists v, fits a v /\ fits b v.
Proof. exact not_equal_iff. Qed.
Example C45_not_equal_example : not_equal 3 4 = true /\ not_equal 3 3 = false /\ not_equal 3 (-9) = false.
Proof. repeat split. Qed.
(** A static parameter -9 is not recognised: [dim<-9, 3, 1>] starts at 0 by default. *)
Theorem C45_marker_refuted : exists (t : dimT) (d : dim), tmin t = -9 /\ text t = 3 /\ tstr t = 1 /\
  default_dim false t = Ok d /\ dmin d <> -9.
Proof. exists (mkDT (-9) 3 1), (mkD 0 3 1). repeat split. discriminate. Qed.
Example C45_example :
  let ta := mkDT 2 10 1 in let tb := mkDT (-3) 8 (-9) in
  dim_fits ta (mkD 2 10 1) /\ dim_fits tb (mkD (-3) 8 40) /\ tmax ta = 11 /\ tmax tb = 4 /\
  clamp_T ta tb = mkDT 2 3 1 /\ clamp_typed false ta tb (mkD 2 10 1) (mkD (-3) 8 40) = Ok (mkD 2 3 1) /\
  clamp_T ta (mkDT (-9) 8 (-9)) = mkDT (-9) (-9) 1 /\
  make_dim false ta 3 10 1 = AssertFail /\ make_dim true ta 3 10 1 = Ok (mkD 2 10 1) /\
  fits (static_sub 4 13) (4 - 13) /\ static_add 4 3 = 7.
Proof. cbv zeta. repeat split; first [left; reflexivity | right; reflexivity]. Qed.
Print Assumptions C45_static_arithmetic.
Print Assumptions C45_dynamic_contagious.
Print Assumptions C45_static_max.
Print Assumptions C45_constructor.
Print Assumptions C45_constructor_rejects.
Print Assumptions C45_constructor_release.
Print Assumptions C45_default.
Print Assumptions C45_clamp.
Print Assumptions C45_not_equal.
Print Assumptions C45_marker_refuted.

(** ** C29: conversions between shape types *)
Theorem C29_convert : forall (nd : bool) (ts : list dimT) (s : shape), Forall2 dim_converts ts s ->
  exists s', shape_from nd ts s = Ok s' /\ length s' = length s /\
    (forall k t d d', nth_error ts k = Some t -> nth_error s k = Some d -> nth_error s' k = Some d' ->
       converted t d d').
Proof. exact shape_from_ok. Qed.
Theorem C29_convert_rejects : forall (ts : list dimT) (s : shape), length ts = length s ->
  ~ Forall2 dim_converts ts s -> shape_from false ts s = AssertFail.
Proof. exact shape_from_rejects. Qed.
(** Without assertions the result still has the type's static values, and the other values of the
    source. *)
Theorem C29_convert_release : forall (ts : list dimT) (s : shape), length ts = length s ->
  exists s', shape_from true ts s = Ok s' /\ Forall2 dim_fits ts s' /\
    Forall2 (fun d t_d' => forced (tmin (fst t_d')) (dmin d) (dmin (snd t_d')) /\ forced (text (fst t_d')) (dext d) (dext (snd t_d')) /\
                           forced (tstr (fst t_d')) (dstr d) (dstr (snd t_d'))) s (combine ts s').
Proof. exact shape_from_release. Qed.
Example C29_release_example :
  shape_from true [mkDT 1 (-9) 1; mkDT (-9) 3 (-9)] [mkD 0 4 7; mkD 5 2 28] = Ok [mkD 1 4 1; mkD 5 3 28].
Proof. reflexivity. Qed.
(** With all strides known, what passes the assertions denotes the same elements. *)
Theorem C29_same_shape : forall (ts : list dimT) (s s' : shape), length ts = length s ->
  Forall (fun d => ~ unknown_stride d) s -> shape_from false ts s = Ok s' ->
  s' = s /\ Forall2 dim_fits ts s.
Proof. exact shape_from_resolved. Qed.
Theorem C29_drop_dims : forall (nd : bool) (ts : list dimT) (s : shape), (length ts <= length s)%nat ->
  Forall (fun d => dext d = 1) (skipn (length ts) s) -> Forall2 dim_fits ts (firstn (length ts) s) ->
  convert_shape nd ts s = Ok (firstn (length ts) s) /\
  forall i, in_bounds s i -> offset (firstn (length ts) s) (firstn (length ts) i) = offset s i.
Proof. exact convert_shape_drop. Qed.
Theorem C29_drop_rejects : forall (ts : list dimT) (s : shape),
  ~ Forall (fun d => dext d = 1) (skipn (length ts) s) -> convert_shape false ts s = AssertFail.
Proof. exact convert_shape_drop_rejects. Qed.
Theorem C29_add_dims : forall (nd : bool) (ts1 ts2 : list dimT) (s : shape), Forall2 dim_fits ts1 s ->
  Forall (fun t => fits (text t) 1) ts2 ->
  exists e, convert_shape nd (ts1 ++ ts2) s = Ok (s ++ e) /\ Forall2 added ts2 e /\
    forall i j, in_bounds s i -> in_bounds e j ->
      in_bounds (s ++ e) (i ++ j) /\ offset (s ++ e) (i ++ j) = offset s i.
Proof. exact convert_shape_add. Qed.
Theorem C29_is_compatible : forall (nd : bool) (ts : list dimT) (s : shape), length ts = length s ->
  is_compatible ts s = true -> shape_from nd ts s = Ok s.
Proof. exact is_compatible_sound. Qed.
Theorem C29_is_compatible_complete : forall (ts : list dimT) (s s' : shape), length ts = length s ->
  Forall (fun d => ~ unknown_stride d) s -> shape_from false ts s = Ok s' -> is_compatible ts s = true.
Proof. exact is_compatible_complete. Qed.
(** is_compatible rejects a missing stride although the conversion accepts it. *)
Theorem C29_is_compatible_unresolved_refuted : exists (ts : list dimT) (s s' : shape),
  length ts = length s /\ shape_from false ts s = Ok s' /\ is_compatible ts s = false.
Proof. exists [mkDT (-9) (-9) 1], [mkD 0 4 unresolved], [mkD 0 4 1]. repeat split. Qed.
(** Without assertions an incompatible conversion silently changes the elements. *)
Theorem C29_release_refuted : exists (ts : list dimT) (s s' : shape) (i : index),
  length ts = length s /\ Forall (fun d => ~ unknown_stride d) s /\
  shape_from true ts s = Ok s' /\ in_bounds s i /\ in_bounds s' i /\ offset s' i <> offset s i.
Proof.
  exists [mkDT (-9) (-9) 1], [mkD 0 4 7], [mkD 0 4 1], [2].
  repeat split; try (repeat constructor; discriminate); discriminate.
Qed.
Example C29_example :
  let s := [mkD 0 4 1; mkD 5 3 4; mkD 2 1 100] in
  let ts := [mkDT 0 (-9) 1; mkDT (-9) 3 (-9); mkDT (-9) 1 (-9)] in
  Forall2 dim_fits ts s /\ Forall2 dim_converts ts s /\ shape_from false ts s = Ok s /\ is_compatible ts s = true /\
  shape_from false [mkDT 1 (-9) (-9); mkDT (-9) 3 (-9); mkDT (-9) 1 (-9)] s = AssertFail /\
  shape_from false [mkDT (-9) (-9) 1] [mkD 3 4 unresolved] = Ok [mkD 3 4 1] /\
  convert_shape false [mkDT 0 4 1; mkDT (-9) (-9) (-9)] s = Ok [mkD 0 4 1; mkD 5 3 4] /\
  convert_shape false [mkDT 0 4 1] s = AssertFail /\
  convert_shape false (ts ++ [mkDT 7 (-9) 0; mkDT (-9) (-9) (-9)]) s = Ok (s ++ [mkD 7 1 0; mkD 0 1 unresolved]) /\
  offset s [3; 6; 2] = 7 /\ offset [mkD 0 4 1; mkD 5 3 4] [3; 6] = 7.
Proof.
  cbv zeta.
  assert (F : Forall2 dim_fits [mkDT 0 (-9) 1; mkDT (-9) 3 (-9); mkDT (-9) 1 (-9)] [mkD 0 4 1; mkD 5 3 4; mkD 2 1 100]).
  { repeat (constructor; [repeat split; cbn; unfold fits; auto|]). constructor. }
  split; [exact F|]. split; [apply fits_converts, F|]. repeat split.
Qed.
Print Assumptions C29_convert.
Print Assumptions C29_convert_rejects.
Print Assumptions C29_convert_release.
Print Assumptions C29_same_shape.
Print Assumptions C29_drop_dims.
Print Assumptions C29_drop_rejects.
Print Assumptions C29_add_dims.
Print Assumptions C29_is_compatible.
Print Assumptions C29_is_compatible_complete.
Print Assumptions C29_is_compatible_unresolved_refuted.
Print Assumptions C29_release_refuted.

(** ** C28: make_compact *)
Theorem C28_bounds : forall (nd : bool) (l : tshape), Forall (fun td => dim_fits (fst td) (snd td)) l ->
  exists r, make_compact nd l = Ok r /\ Forall2 same_bounds (map snd l) (map snd r) /\
    map tmin (map fst r) = map tmin (map fst l) /\ map text (map fst r) = map text (map fst l).
Proof. exact make_compact_bounds. Qed.
Theorem C28_compact : forall (nd : bool) (l : tshape), Forall (fun td => dim_fits (fst td) (snd td)) l ->
  Forall (fun td => tstr (fst td) = -9) l -> extents_ge 1 (map snd l) ->
  volume (map snd l) < 9223372036854775807 ->
  exists r, make_compact nd l = Ok r /\ Forall2 same_bounds (map snd l) (map snd r) /\
    gapless (map snd r) /\ Forall (fun d => 1 <= dstr d) (map snd r) /\ is_compact (map snd r) = true.
Proof. exact make_compact_gapless. Qed.
Theorem C28_fixed_dense_shape : forall (nd : bool) (exts : list Z), Forall (fun e => 1 <= e) exts ->
  exists r, fixed_dense_shape nd exts = Ok r /\ map dext (map snd r) = exts /\
    (forall k t d, nth_error r k = Some (t, d) -> tmin t = 0 /\ dmin d = 0 /\ text t = dext d /\ tstr t = dstr d /\
       dstr d = fold_right Z.mul 1 (firstn k exts)) /\
    gapless (map snd r).
Proof. exact fixed_dense_ok. Qed.
(** One dense dimension anywhere and no other static stride: no two indices collide. *)
Theorem C28_one_dense : forall (nd : bool) (a : tshape) (t : dimT) (d : dim) (b : tshape),
  let l := a ++ (t, d) :: b in
  Forall (fun td => dim_fits (fst td) (snd td)) l ->
  Forall (fun td => tstr (fst td) = -9) a -> Forall (fun td => tstr (fst td) = -9) b -> tstr t = 1 ->
  extents_ge 1 (map snd l) -> dext d * volume (map snd l) < 9223372036854775807 ->
  exists r, make_compact nd l = Ok r /\ Forall2 same_bounds (map snd l) (map snd r) /\
    injective_layout (map snd r).
Proof. exact make_compact_one_dense. Qed.
(** A dense first dimension of static extent leads to needless padding... *)
Theorem C28_padding_refuted : exists (l r : tshape), Forall (fun td => dim_fits (fst td) (snd td)) l /\
  extents_ge 1 (map snd l) /\ make_compact false l = Ok r /\
  flat_extent (map snd r) = 68 /\ size (map snd r) = 20.
Proof.
  exists [(mkDT (-9) 4 1, mkD 0 4 1); (mkDT (-9) 5 (-9), mkD 0 5 unresolved)],
         [(mkDT (-9) 4 1, mkD 0 4 1); (mkDT (-9) 5 16, mkD 0 5 16)].
  split; [repeat (constructor; [repeat split; cbn; unfold fits; auto|]); constructor|]. repeat split; try reflexivity; repeat constructor; discriminate.
Qed.
(** ... and a static negative stride of magnitude greater than one to a collision. *)
Theorem C28_collision_refuted : exists (l r : tshape) (i j : index),
  Forall (fun td => dim_fits (fst td) (snd td)) l /\ extents_ge 1 (map snd l) /\ make_compact false l = Ok r /\
  in_bounds (map snd r) i /\ in_bounds (map snd r) j /\ i <> j /\ offset (map snd r) i = offset (map snd r) j.
Proof.
  exists [(mkDT (-9) 5 (-9), mkD 0 5 unresolved); (mkDT 0 4 1, mkD 0 4 1); (mkDT 0 3 (-4), mkD 0 3 (-4))],
         [(mkDT (-9) 5 4, mkD 0 5 4); (mkDT 0 4 1, mkD 0 4 1); (mkDT 0 3 (-4), mkD 0 3 (-4))],
         [0; 0; 0], [1; 0; 1].
  split; [repeat (constructor; [repeat split; cbn; unfold fits; auto|]); constructor|].
  repeat split; try reflexivity; try discriminate; repeat constructor; discriminate.
Qed.
Example C28_example :
  let l := [(mkDT 0 3 (-9), mkD 0 3 99); (mkDT (-9) (-9) (-9), mkD 5 4 7); (mkDT (-9) 2 (-9), mkD 1 2 unresolved)] in
  Forall (fun td => dim_fits (fst td) (snd td)) l /\ volume (map snd l) = 24 /\
  make_compact false l = Ok [(mkDT 0 3 1, mkD 0 3 1); (mkDT (-9) (-9) 3, mkD 5 4 3); (mkDT (-9) 2 (-9), mkD 1 2 12)] /\
  fixed_dense_shape false [2; 3; 4] = Ok [(mkDT 0 2 1, mkD 0 2 1); (mkDT 0 3 2, mkD 0 3 2); (mkDT 0 4 6, mkD 0 4 6)] /\
  make_compact false [(mkDT (-9) 5 (-9), mkD 0 5 unresolved); (mkDT 0 4 1, mkD 0 4 1)] =
    Ok [(mkDT (-9) 5 4, mkD 0 5 4); (mkDT 0 4 1, mkD 0 4 1)].
Proof. cbv zeta. split; [repeat (constructor; [repeat split; cbn; unfold fits; auto|]); constructor|]. repeat split; reflexivity. Qed.
Print Assumptions C28_bounds.
Print Assumptions C28_compact.
Print Assumptions C28_fixed_dense_shape.
Print Assumptions C28_one_dense.
Print Assumptions C28_padding_refuted.
Print Assumptions C28_collision_refuted.
