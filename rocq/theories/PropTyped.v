(** C60: intervals, dims and slices with compile-time parameters. *)
From Coq Require Import ZArith List Bool.
From Verif Require Import Base Interval Shape Spec Static SpecStatic StaticFacts Typed SpecTyped TypedFacts.
Import ListNotations.
Open Scope Z_scope.

(** ** Intervals *)
(** An interval can be constructed from exactly the values its type allows. *)
Theorem C60_constructor : forall (nd : bool) (t : intT) (mn ex : Z), int_fits t (mkI mn ex) ->
  make_interval nd t mn ex = Ok (mkI mn ex).
Proof. exact make_interval_ok. Qed.
Theorem C60_constructor_rejects : forall (t : intT) (mn ex : Z), ~ int_fits t (mkI mn ex) ->
  make_interval false t mn ex = AssertFail.
Proof. exact make_interval_rejects. Qed.
(** The defaults: the static values, else min 0 and extent 1. *)
Theorem C60_default_extent : forall (nd : bool) (t : intT) (mn : Z), fits (itmin t) mn ->
  exists i, make_interval_min nd t mn = Ok i /\ int_fits t i /\ imin i = mn /\ kept_or (itext t) 1 (iext i).
Proof. exact make_interval_min_value. Qed.
Theorem C60_default : forall (nd : bool) (t : intT), exists i, default_interval nd t = Ok i /\ int_fits t i /\
  kept_or (itmin t) 0 (imin i) /\ kept_or (itext t) 1 (iext i).
Proof. exact default_interval_value. Qed.
Theorem C60_range : forall (nd : bool) (E b : Z), E <> -9 -> range_T nd E b = Ok (mkI b E).
Proof. exact range_T_value. Qed.
(** An extent of -9 is taken to be missing. *)
Theorem C60_range_marker_refuted : exists E b i, range_T false E b = Ok i /\ iext i <> E.
Proof. exists (-9), 4, (mkI 4 1). split; [reflexivity|discriminate]. Qed.
(** Setters accept exactly the values the type allows. *)
Theorem C60_setters : forall (nd : bool) (t : intT) (i : interval) (v : Z), int_fits t i ->
  (fits (itmin t) v -> set_min_T nd t i v = Ok (mkI v (iext i))) /\
  (fits (itext t) v -> set_extent_T nd t i v = Ok (mkI (imin i) v)) /\
  (fits (itext t) (v - imin i + 1) -> exists i', set_max_T nd t i v = Ok i' /\ int_fits t i' /\
     imin i' = imin i /\ imin i' + iext i' - 1 = v).
Proof. exact setters_values. Qed.
Theorem C60_setters_reject : forall (t : intT) (i : interval) (v : Z), int_fits t i ->
  (~ fits (itmin t) v -> set_min_T false t i v = AssertFail) /\
  (~ fits (itext t) v -> set_extent_T false t i v = AssertFail) /\
  (~ fits (itext t) (v - imin i + 1) -> set_max_T false t i v = AssertFail).
Proof. exact setters_reject. Qed.
(** Without assertions a static value stays what it is. *)
Theorem C60_release : forall (t : intT) (mn ex : Z), exists i, make_interval true t mn ex = Ok i /\ int_fits t i /\
  kept_or (itmin t) mn (imin i) /\ kept_or (itext t) ex (iext i).
Proof. exact make_interval_release. Qed.
Theorem C60_setters_release : forall (t : intT) (i : interval) (v : Z), int_fits t i ->
  (exists i', set_min_T true t i v = Ok i' /\ int_fits t i' /\ kept_or (itmin t) v (imin i') /\ iext i' = iext i) /\
  (exists i', set_extent_T true t i v = Ok i' /\ int_fits t i' /\ imin i' = imin i /\ kept_or (itext t) v (iext i')).
Proof. exact setters_release. Qed.
(** Assigning an interval is converting it, whatever was there before. *)
Theorem C60_assign_interval : forall (nd : bool) (t : intT) (i other : interval), int_fits t i ->
  assign_interval nd t i other = convert_interval nd t other /\
  (int_fits t other -> assign_interval nd t i other = Ok other).
Proof. exact assign_interval_ok. Qed.
Theorem C60_assign_interval_rejects : forall (t : intT) (i other : interval), int_fits t i ->
  ~ int_fits t other -> assign_interval false t i other = AssertFail.
Proof. exact assign_interval_rejects. Qed.
Example C60_interval_example :
  let t := mkIT 2 (-9) in let i := mkI 2 5 in
  int_fits t i /\ make_interval false t 2 5 = Ok i /\ make_interval false t 3 5 = AssertFail /\
  make_interval true t 3 5 = Ok i /\ default_interval false t = Ok (mkI 2 1) /\
  set_max_T false t i 9 = Ok (mkI 2 8) /\ set_max_T false (mkIT (-9) 5) i 9 = AssertFail /\
  set_min_T false t i 3 = AssertFail /\ set_min_T false (mkIT (-9) 5) i 3 = Ok (mkI 3 5) /\
  assign_interval false t i (mkI 2 7) = Ok (mkI 2 7) /\ assign_interval false t i (mkI 1 7) = AssertFail /\
  assign_interval true t i (mkI 1 7) = Ok (mkI 2 7) /\ range_T false 8 40 = Ok (mkI 40 8).
Proof. cbv zeta. split; [split; [right|left]; reflexivity|]. repeat split. Qed.
Print Assumptions C60_constructor.
Print Assumptions C60_constructor_rejects.
Print Assumptions C60_default_extent.
Print Assumptions C60_default.
Print Assumptions C60_range.
Print Assumptions C60_range_marker_refuted.
Print Assumptions C60_setters.
Print Assumptions C60_setters_reject.
Print Assumptions C60_release.
Print Assumptions C60_setters_release.
Print Assumptions C60_assign_interval.
Print Assumptions C60_assign_interval_rejects.

(** ** Dims *)
Theorem C60_assign_dim : forall (nd : bool) (t : dimT) (d other : dim), dim_fits t d -> dim_converts t other ->
  exists d', assign_dim nd t d other = Ok d' /\ converted t other d'.
Proof. exact assign_dim_ok. Qed.
Theorem C60_assign_dim_rejects : forall (t : dimT) (d other : dim), dim_fits t d -> ~ dim_converts t other ->
  assign_dim false t d other = AssertFail.
Proof. exact assign_dim_rejects. Qed.
Theorem C60_dim_of_interval : forall (nd : bool) (t : dimT) (i : interval) (st : option Z),
  int_fits (mkIT (tmin t) (text t)) i -> match st with Some s => fits (tstr t) s | None => True end ->
  exists d, dim_of_interval nd t i st = Ok d /\ dim_fits t d /\ dmin d = imin i /\ dext d = iext i /\
    match st with
    | Some s => dstr d = s
    | None => (tstr t = -9 -> unknown_stride d) /\ (tstr t <> -9 -> dstr d = tstr t)
    end.
Proof. exact dim_of_interval_ok. Qed.
Example C60_dim_example :
  let t := mkDT (-9) 4 1 in let d := mkD 0 4 1 in
  dim_fits t d /\ dim_converts t (mkD 7 4 unresolved) /\
  assign_dim false t d (mkD 7 4 unresolved) = Ok (mkD 7 4 1) /\ assign_dim false t d (mkD 7 4 2) = AssertFail /\
  assign_dim false t d (mkD 7 5 1) = AssertFail /\ assign_dim true t d (mkD 7 5 2) = Ok (mkD 7 4 1) /\
  assign_dim false (mkDT (-9) (-9) (-9)) d (mkD 7 5 unresolved) = Ok (mkD 7 5 unresolved) /\
  dim_of_interval false t (mkI 3 4) None = Ok (mkD 3 4 1) /\
  dim_of_interval false (mkDT (-9) (-9) (-9)) (mkI 3 4) None = Ok (mkD 3 4 unresolved) /\
  dim_of_interval false (mkDT (-9) (-9) (-9)) (mkI 3 4) (Some 6) = Ok (mkD 3 4 6).
Proof.
  cbv zeta. split; [repeat split; cbn; unfold fits; auto|].
  split; [split; [left; reflexivity|split; [right; reflexivity|left; reflexivity]]|]. repeat split.
Qed.
Print Assumptions C60_assign_dim.
Print Assumptions C60_assign_dim_rejects.
Print Assumptions C60_dim_of_interval.

(** ** Slices *)
(** Slicing a typed shape: no assertion fails, every dim has the bounds (static and run-time) of its
    argument and the stride (static and run-time) of its parent, holds values its type allows,
    and the dims are those of the untyped slice. *)
Theorem C60_slice : forall (nd : bool) (l : tshape) (args : list targ), length args = length l ->
  Forall (fun td => dim_fits (fst td) (snd td)) l -> Forall arg_fits args ->
  exists r, shape_slice_T nd l args = Ok r /\ slice_of l args r /\
    Forall (fun td => dim_fits (fst td) (snd td)) r /\
    map snd r = shape_slice (map snd l) (map erase args).
Proof. exact shape_slice_T_ok. Qed.
Example C60_slice_example :
  let l := [(mkDT 0 3 1, mkD 0 3 1); (mkDT 0 4 3, mkD 0 4 3); (mkDT (-9) (-9) 12, mkD 2 5 12); (mkDT (-9) (-9) (-9), mkD 0 9 60)] in
  let args := [placeholder; TIdx 3; TInt (mkIT (-9) 2) (mkI 4 2); TDim (mkDT 1 (-9) 7) (mkD 1 5 7)] in
  length args = length l /\ Forall (fun td => dim_fits (fst td) (snd td)) l /\ Forall arg_fits args /\
  shape_slice_T false l args =
    Ok [(mkDT 0 3 1, mkD 0 3 1); (mkDT (-9) 2 12, mkD 4 2 12); (mkDT 1 (-9) (-9), mkD 1 5 60)] /\
  map erase args = [AAll; AIdx 3; AInt (mkI 4 2); ADim (mkD 1 5 7)].
Proof.
  cbv zeta. split; [reflexivity|]. split; [repeat (constructor; [repeat split; cbn; unfold fits; auto|]); constructor|].
  split; [repeat (constructor; [repeat split; cbn; unfold fits; auto|]); constructor|]. repeat split.
Qed.
(** The placeholder is recognised by its type: a variable of type [interval<0, -1>] selects the
    whole dimension, the same values in an [interval<>] select nothing. *)
Theorem C60_placeholder_by_type_refuted : exists (l : tshape) (a b : targ) (i : interval) (ra rb : tshape),
  a = TInt (mkIT 0 (-1)) i /\ b = TInt (mkIT (-9) (-9)) i /\ arg_fits a /\ arg_fits b /\
  shape_slice_T false l [a] = Ok ra /\ shape_slice_T false l [b] = Ok rb /\ map snd ra <> map snd rb.
Proof.
  exists [(mkDT (-9) (-9) 1, mkD 0 3 1)], (TInt (mkIT 0 (-1)) (mkI 0 (-1))), (TInt (mkIT (-9) (-9)) (mkI 0 (-1))),
    (mkI 0 (-1)), [(mkDT (-9) (-9) 1, mkD 0 3 1)], [(mkDT (-9) (-9) 1, mkD 0 (-1) 1)].
  repeat split; cbn; unfold fits; auto; discriminate.
Qed.
Print Assumptions C60_slice.
Print Assumptions C60_placeholder_by_type_refuted.
