(** C88: which overload a call selects, and when it compiles. *)
From Coq Require Import ZArith List Bool.
From Verif Require Import Base Interval Shape Static Typed Calls SpecCalls CallsFacts.
Import ListNotations.
Open Scope Z_scope.

(** ** Calls of arrays, views and shapes *)
(** [a(args...)], [a[tuple]], [s(args...)] and [s[tuple]] give an element exactly if there are as many arguments as dims, all of them
    indices. *)
Theorem C88_element : forall (rank : nat) (args : list argT) (op : nat -> list argT -> call),
  In op [array_paren; array_bracket; shape_paren; shape_bracket] ->
  (op rank args = Compiles Element <-> length args = rank /\ Forall an_index args).
Proof. exact elements_agree. Qed.
Example C88_element_example :
  array_paren 3 [TyArith; TyIndex; TyIndexLike] = Compiles Element /\ array_paren 0 [] = Compiles Element /\
  Forall an_index [TyArith; TyIndex; TyIndexLike].
Proof. split; [reflexivity|]. split; [reflexivity|]. repeat constructor. Qed.
(** They give a view exactly if each argument is an index, an interval or a dim, and not all are indices. *)
Theorem C88_view : forall (rank : nat) (args : list argT) (op : nat -> list argT -> call),
  In op [array_paren; array_bracket; shape_paren; shape_bracket] ->
  (op rank args = Compiles View <-> length args = rank /\ Forall (fun a => an_index a \/ a_range a) args /\ Exists a_range args).
Proof. exact views_agree. Qed.
Example C88_view_example :
  let args := [TyArith; TyInterval (mkIT 0 (-1)); TyDim (mkDT 0 4 1); TyInterval (mkIT 3 5)] in
  array_bracket 4 args = Compiles View /\ Forall (fun a => an_index a \/ a_range a) args /\ Exists a_range args.
Proof.
  split; [reflexivity|]. split; [|right; left; constructor].
  constructor; [left; constructor|]. repeat (constructor; [right; constructor|]). constructor.
Qed.
(** No call is ambiguous, and too few, too many or unusable arguments are refused before anything is compiled. *)
Theorem C88_unambiguous : forall (rank : nat) (args : list argT) (op : nat -> list argT -> call),
  In op [array_paren; array_bracket; shape_paren; shape_bracket] -> op rank args <> AmbiguousCall.
Proof. exact calls_unambiguous. Qed.
Theorem C88_count : forall (rank : nat) (args : list argT) (op : nat -> list argT -> call),
  In op [array_paren; array_bracket; shape_paren; shape_bracket] -> length args <> rank -> op rank args = Rejected.
Proof. exact wrong_count. Qed.
Theorem C88_others : forall (rank : nat) (args : list argT) (op : nat -> list argT -> call),
  In op [array_paren; array_bracket; shape_paren; shape_bracket] -> In TyOther args -> op rank args = Rejected.
Proof. exact others_rejected. Qed.
Example C88_rejected_example :
  array_paren 2 [TyIndex] = Rejected /\ array_paren 1 [] = Rejected /\ shape_bracket 2 [TyInterval (mkIT 0 (-1)); TyOther] = Rejected.
Proof. repeat split. Qed.
(** [is_in_range] takes indices, intervals and dims alike. *)
Theorem C88_in_range : forall (rank : nat) (args : list argT),
  in_range_call rank args = Some true <-> length args = rank /\ Forall (fun a => an_index a \/ a_range a) args.
Proof. exact in_range_call_iff. Qed.
(** "Entirely implicitly convertible" (array.h:944-945) is not what is checked: some arguments meet the constraints, and the call then
    fails to compile. *)
Theorem C88_constraints_refuted :
  (exists rank args, enable_if_all_indices rank args = true /\ array_paren rank args = IllFormed) /\
  (exists rank args, enable_if_any_slices rank args = true /\ array_paren rank args = IllFormed) /\
  (exists rank args, enable_if_any_slices_or_indices rank args = true /\ in_range_call rank args = Some false).
Proof. exact constraints_too_weak. Qed.
(** On such arguments [a(x)] and [a[std::make_tuple(x)]] differ. *)
Theorem C88_same_refuted : exists rank args, array_paren rank args = IllFormed /\ array_bracket rank args = Rejected.
Proof. exact operators_differ. Qed.

(** ** The helpers *)
(** For every argument that is an index, an interval or a dim, each helper has one best overload; running it gives what the models
    of slicing say. *)
Theorem C88_range_with_stride : forall (nd : bool) (a : argT) (v : targ) (td : dimT * dim), has_type a v ->
  call_helper range_with_stride_overloads (fun p => range_with_stride_body nd p v td) a = Some (range_with_stride_T nd v td).
Proof. exact range_called. Qed.
Theorem C88_skip_slices : forall (a : argT) (v : targ) (x : dimT * dim), has_type a v ->
  call_helper skip_slices_overloads (fun p => Some (skip_slices_body p x)) a = Some (skip_slices_impl_T x v).
Proof. exact skip_called. Qed.
Theorem C88_min_of_range : forall (a : argT) (v : targ) (d : dim), has_type a v ->
  call_helper min_of_range_overloads (fun p => min_of_range_body p v d) a = Some (min_of_range (erase v) d).
Proof. exact min_called. Qed.
(** The placeholder [_] is an ordinary interval for [is_in_range]. *)
Theorem C88_is_in_range : forall (a : argT) (v : targ) (d : dim), has_type a v ->
  call_helper in_range_overloads (fun p => in_range_body p v d) a =
    Some match v with
         | TIdx x => i_in_range (d_interval d) x
         | TInt _ i => i_in_range_interval (d_interval d) i
         | TDim _ c => i_in_range_interval (d_interval d) (d_interval c)
         end.
Proof. exact in_range_called. Qed.
Example C88_helpers_example :
  select range_with_stride_overloads (TyInterval (mkIT 0 (-1))) = Selected PAll /\
  select range_with_stride_overloads (TyInterval (mkIT (-9) (-9))) = Selected PInterval /\
  select range_with_stride_overloads (TyDim (mkDT 0 (-1) 1)) = Selected PDim /\
  select skip_slices_overloads (TyInterval (mkIT 0 (-1))) = Selected PInterval /\
  select range_with_stride_overloads TyArith = Selected PIndex /\
  select range_with_stride_overloads TyToInterval = NoMatch.
Proof. repeat split. Qed.
(** A whole slice: the call compiles, and its value is that of the model. *)
Theorem C88_slice : forall (nd : bool) (l : tshape) (args : list argT) (vs : list targ),
  Forall2 has_type args vs -> length args = length l -> Exists a_range args ->
  slice_call nd l args vs = Some (shape_slice_T nd l vs).
Proof. exact slice_called. Qed.
Example C88_slice_example :
  let l := [(mkDT 0 (-9) 1, mkD 0 10 1); (mkDT (-9) (-9) (-9), mkD 2 5 10); (mkDT (-9) 4 (-9), mkD 0 4 50)] in
  let args := [TyInterval (mkIT 0 (-1)); TyArith; TyInterval (mkIT (-9) 2)] in
  let vs := [placeholder; TIdx 3; TInt (mkIT (-9) 2) (mkI 1 2)] in
  Forall2 has_type args vs /\
  slice_call false l args vs = Some (Ok [(mkDT 0 (-9) 1, mkD 0 10 1); (mkDT (-9) 2 (-9), mkD 1 2 50)]).
Proof. split; [repeat constructor|reflexivity]. Qed.

(** ** Conversions *)
(** A view converts to a view of another shape type exactly if the dims agree in number and in what both fix. *)
Theorem C88_conversion : forall dst src : list dimT, ref_conversion dst src = Compiles View <-> Forall2 dims_meet dst src.
Proof. exact ref_conversion_compiles. Qed.
(** Another rank is refused by the constraint. *)
Theorem C88_conversion_rank : forall dst src : list dimT, length src <> length dst -> length dst <> 1%nat ->
  ref_conversion dst src = Rejected.
Proof. exact ref_conversion_rejects. Qed.
Example C88_conversion_example :
  let any := mkDT (-9) (-9) (-9) in let dense := mkDT (-9) (-9) 1 in
  ref_conversion [any; any] [dense; any] = Compiles View /\ ref_conversion [dense; any] [any; any] = Compiles View /\
  ref_conversion [any; any] [any] = Rejected /\ ref_conversion [dense] [mkDT 0 4 3] = IllFormed.
Proof. repeat split. Qed.
(** But not if a single dim is wanted: the constructor from dims takes anything, a shape too. *)
Theorem C88_rank_one_refuted : exists d, forall src : list dimT, length src <> 1%nat -> ref_conversion [d] src = IllFormed.
Proof. exact rank_one_case. Qed.
(** [is_compatible] can be asked of shapes of the same rank; of others it does not compile if the source has rank 1. *)
Theorem C88_is_compatible : forall dst src : list dimT, is_compatible_call dst src = Some true <-> length dst = length src.
Proof. exact is_compatible_iff. Qed.
Theorem C88_is_compatible_rank_one : forall dst src : list dimT,
  is_compatible_call dst src = Some false <-> length dst <> length src /\ length src = 1%nat.
Proof. exact is_compatible_ill_formed. Qed.

Print Assumptions C88_element.
Print Assumptions C88_view.
Print Assumptions C88_unambiguous.
Print Assumptions C88_count.
Print Assumptions C88_others.
Print Assumptions C88_in_range.
Print Assumptions C88_constraints_refuted.
Print Assumptions C88_same_refuted.
Print Assumptions C88_range_with_stride.
Print Assumptions C88_skip_slices.
Print Assumptions C88_min_of_range.
Print Assumptions C88_is_in_range.
Print Assumptions C88_slice.
Print Assumptions C88_conversion.
Print Assumptions C88_conversion_rank.
Print Assumptions C88_rank_one_refuted.
Print Assumptions C88_is_compatible.
Print Assumptions C88_is_compatible_rank_one.
