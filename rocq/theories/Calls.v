(** Which overload a call of an array, of a view or of a shape selects, and when the call compiles:
    the constraints on the arguments (include/array/array.h:944-959, 1090-1117, 2032-2047, 2262-2274), the
    call and subscript operators (1168-1200, 2078-2098, 2542-2571), the overloaded helpers they
    use (305-319, 738-814), and the constructors of [shape] as [std::is_constructible] sees them
    (1119-1144, 1596-1598).

    Types are modelled by what the code can ask about them.  Simplified: of the types an argument
    can have, those a user can define are represented by four kinds only ([TyIndexLike] to
    [TyOther]), references and [std::reference_wrapper] are not modelled, and the rules of C++ are
    those overload resolution needs here: rank of the conversion, then the more specialised
    template.  Definitions only. *)
From Coq Require Import ZArith List Bool Arith.
From Verif Require Import Base Interval Shape Static Typed.
Import ListNotations.
Open Scope Z_scope.

(** ** Types of arguments *)

(** array.h:247-248, 392-394 and the types a caller may pass *)
Inductive argT :=
| TyIndex               (** [index_t] itself *)
| TyArith               (** any other arithmetic type, or an unscoped enumeration *)
| TyIndexLike           (** a class that converts to [index_t], like [constexpr_index] (array.h:143-167) *)
| TyExplicit            (** a class with an explicit conversion to [index_t] *)
| TyToInterval          (** a class that converts to [interval<>] *)
| TyInterval (t : intT) (** [interval<Min, Extent>]; [interval<0, -1>] is the type of [_] (array.h:365) *)
| TyDim (t : dimT)      (** [dim<Min, Extent, Stride>], whose base [interval<Min, Extent>] is protected
                            (array.h:393-396) *)
| TyOther.              (** anything else *)

(** array.h:126-127, 275-282: can [interval<0, -1>] be constructed from [interval<Min, Extent>] *)
Definition interval_constructible (dst src : intT) : bool :=
  negb (not_equal (itmin dst) (itmin src)) && negb (not_equal (itext dst) (itext src)).

(** ** Overload resolution *)

(** Ranks of implicit conversions, best first: C++ [over.ics.rank] *)
Inductive conv := Exact | Conversion | UserDefined.
(** Better rank *)
Definition conv_lt (a b : conv) : bool :=
  match a, b with Exact, Exact => false | Exact, _ => true | Conversion, UserDefined => true | _, _ => false end.
(** Same rank *)
Definition conv_eq (a b : conv) : bool :=
  match a, b with Exact, Exact | Conversion, Conversion | UserDefined, UserDefined => true | _, _ => false end.

(** The parameters the overloads of array.h:305-319, 738-777, 793-808 distinguish: [index_t],
    [const interval<Min, Extent>&] and [const dim<Min, Extent, Stride>&] with deduced arguments, and
    [const decltype(_)&] *)
Inductive param := PIndex | PInterval | PDim | PAll.
(** Same parameter *)
Definition param_eq (p q : param) : bool :=
  match p, q with PIndex, PIndex | PInterval, PInterval | PDim, PDim | PAll, PAll => true | _, _ => false end.
(** array.h:265-282, 305-319, 393-396, 738-756: the implicit conversion of an argument to a parameter.  A
    parameter whose template arguments are deduced takes only an interval (or a class derived from one),
    and [_] also what converts to [interval<0, -1>]; access is not looked at. *)
Definition conv_to (p : param) (a : argT) : option conv :=
  match p, a with
  | PIndex, TyIndex => Some Exact
  | PIndex, TyArith => Some Conversion
  | PIndex, TyIndexLike => Some UserDefined
  | PInterval, TyInterval _ => Some Exact
  | PInterval, TyDim _ => Some Conversion
  | PDim, TyDim _ => Some Exact
  | PAll, TyIndex => Some UserDefined
  | PAll, TyArith => Some UserDefined
  | PAll, TyInterval t => if is_placeholder t then Some Exact
                          else if interval_constructible (mkIT 0 (-1)) t then Some UserDefined else None
  | PAll, TyDim t => if is_placeholder (base_range t) then Some Conversion
                     else if interval_constructible (mkIT 0 (-1)) (base_range t) then Some UserDefined else None
  | _, _ => None
  end.
(** array.h:393: a conversion of a dim to its base compiles only inside the class *)
Definition accessible (p : param) (a : argT) : bool :=
  match p, a with PInterval, TyDim _ => false | PAll, TyDim _ => false | _, _ => true end.
(** array.h:743-756, 797-808: of two templates that fit equally well, [const decltype(_)&] is more specialised than
    [const interval<Min, Extent>&] *)
Definition more_specialised (p q : param) : bool := match p, q with PAll, PInterval => true | _, _ => false end.
(** C++ [over.match.best], for functions that differ in one parameter *)
Definition beats (a : argT) (p q : param) : bool :=
  match conv_to p a, conv_to q a with
  | Some c, Some d => conv_lt c d || (conv_eq c d && more_specialised p q)
  | _, _ => false
  end.

(** What a call selects *)
Inductive selected (F : Type) := NoMatch | Ambiguous | Selected (f : F).
Arguments NoMatch {F}. Arguments Ambiguous {F}. Arguments Selected {F} f.
(** C++ [over.match.best]: the one viable function that beats every other viable one *)
Definition select (ps : list param) (a : argT) : selected param :=
  let viable := filter (fun p => match conv_to p a with Some _ => true | None => false end) ps in
  match viable, filter (fun p => forallb (fun q => param_eq p q || beats a p q) viable) viable with
  | [], _ => NoMatch
  | _, [p] => Selected p
  | _, _ => Ambiguous
  end.
(** The call of an overloaded helper compiles *)
Definition compiles (ps : list param) (a : argT) : bool :=
  match select ps a with Selected p => accessible p a | _ => false end.

(** array.h:738-756 [range_with_stride] *)
Definition range_with_stride_overloads : list param := [PIndex; PInterval; PDim; PAll].
(** array.h:765-777 [skip_slices_impl] *)
Definition skip_slices_overloads : list param := [PIndex; PInterval; PDim].
(** array.h:793-808 [min_of_range] *)
Definition min_of_range_overloads : list param := [PIndex; PInterval; PDim; PAll].
(** array.h:305-319 [interval::is_in_range] *)
Definition in_range_overloads : list param := [PIndex; PInterval; PDim].

(** ** The bodies of the helpers *)

(** array.h:738-756 [range_with_stride]: the body of each overload, for an argument converted to its parameter; [None]
    if there is no such conversion *)
Definition range_with_stride_body (nd : bool) (p : param) (v : targ) (td : dimT * dim) : option (outcome (dimT * dim)) :=
  let (t, d) := td in
  match p, v with
  | PIndex, TIdx x => let t' := mkDT dynamic 1 (tstr t) in
      Some (d' <- make_dim nd t' x 1 (dstr d) ;; Ok (t', d'))
  | PInterval, TInt ti i => let t' := mkDT (itmin ti) (itext ti) (tstr t) in
      Some (d' <- make_dim nd t' (imin i) (iext i) (dstr d) ;; Ok (t', d'))
  | PDim, TDim tc c => let t' := mkDT (tmin tc) (text tc) (tstr t) in
      Some (d' <- make_dim nd t' (dmin c) (dext c) (dstr d) ;; Ok (t', d'))
  | PAll, TInt _ _ => Some (Ok (t, d))
  | _, _ => None
  end.
(** array.h:765-777 [skip_slices_impl] *)
Definition skip_slices_body (p : param) (x : dimT * dim) : tshape := match p with PIndex => [] | _ => [x] end.
(** array.h:793-808 [min_of_range] *)
Definition min_of_range_body (p : param) (v : targ) (d : dim) : option Z :=
  match p, v with
  | PIndex, TIdx x => Some x
  | PInterval, TInt _ i => Some (imin i)
  | PDim, TDim _ c => Some (dmin c)
  | PAll, TInt _ _ => Some (dmin d)
  | _, _ => None
  end.
(** array.h:305-319 [is_in_range] *)
Definition in_range_body (p : param) (v : targ) (d : dim) : option bool :=
  match p, v with
  | PIndex, TIdx x => Some ((dmin d <=? x) && (x <=? imax (d_interval d)))
  | PInterval, TInt _ i => Some ((dmin d <=? imin i) && (imax i <=? imax (d_interval d)))
  | PDim, TDim _ c => Some ((dmin d <=? dmin c) && (imax (d_interval c) <=? imax (d_interval d)))
  | _, _ => None
  end.
(** Calling a helper: selecting the overload by the type of the argument and running its body *)
Definition call_helper {R} (ps : list param) (body : param -> option R) (a : argT) : option R :=
  match select ps a with Selected p => if accessible p a then body p else None | _ => None end.

(** ** The constraints *)

(** [std::is_constructible<index_t, Arg>]: explicit conversions count *)
Definition constructs_index (a : argT) : bool :=
  match a with TyIndex | TyArith | TyIndexLike | TyExplicit => true | _ => false end.
(** array.h:265-282: [std::is_constructible<interval<>, Arg>]; not from a dim, whose base is protected *)
Definition constructs_interval (a : argT) : bool :=
  match a with
  | TyIndex | TyArith | TyIndexLike | TyToInterval => true
  | TyInterval t => interval_constructible (mkIT dynamic dynamic) t
  | _ => false
  end.
(** array.h:422-443: [std::is_constructible<dim<>, Arg>] *)
Definition constructs_dim (a : argT) : bool :=
  match a with
  | TyIndex | TyArith | TyIndexLike | TyToInterval => true
  | TyInterval t => interval_constructible (mkIT dynamic dynamic) t
  | TyDim t => negb (not_equal dynamic (tmin t)) && negb (not_equal dynamic (text t)) && negb (not_equal dynamic (tstr t))
  | _ => false
  end.
(** array.h:944-954 [all_of_any_type], for the types that [ts] can be constructed from *)
Fixpoint all_of_any_type (ts : list (argT -> bool)) (args : list argT) : bool :=
  match args with
  | [] => true
  | a :: r => vany (map (fun t => t a) ts) && all_of_any_type ts r
  end.
(** array.h:956-959 [all_of_type] *)
Definition all_of_type (t : argT -> bool) (args : list argT) : bool := all_of_any_type [t] args.
(** array.h:1101-1103, 2035-2037, 2262-2264 [enable_if_all_indices] *)
Definition enable_if_all_indices (rank : nat) (args : list argT) : bool :=
  (length args =? rank)%nat && all_of_type constructs_index args.
(** array.h:1105-1109, 2039-2043, 2266-2270 [enable_if_any_slices] *)
Definition enable_if_any_slices (rank : nat) (args : list argT) : bool :=
  (length args =? rank)%nat && all_of_any_type [constructs_interval; constructs_dim] args &&
  negb (all_of_type constructs_index args).
(** array.h:1111-1114 [enable_if_any_slices_or_indices] *)
Definition enable_if_any_slices_or_indices (rank : nat) (args : list argT) : bool :=
  (length args =? rank)%nat && all_of_any_type [constructs_interval; constructs_dim] args.

(** ** Calls *)

(** What the operators give: an element (for a shape, its offset) or a view (for a shape, a shape) *)
Inductive result := Element | View.
(** A call selects no function, several, or one whose body compiles or not *)
Inductive call := Rejected | AmbiguousCall | IllFormed | Compiles (r : result).
(** Only a call that compiles [c] and gives [r] will do *)
Definition gives (c : call) (r : result) : bool :=
  match c, r with Compiles Element, Element | Compiles View, View => true | _, _ => false end.
(** The body of the selected function is compiled *)
Definition with_body (r : result) (ok : bool) : call := if ok then Compiles r else IllFormed.

(** The conversion of [std::tuple<Args...>] to [index_of_rank<rank>], array.h:1060-1061 *)
Definition tuple_to_index (rank : nat) (args : list argT) : option conv :=
  if (length args =? rank)%nat then
    if forallb (fun a => match a with TyIndex => true | _ => false end) args then Some Exact
    else if forallb (fun a => match conv_to PIndex a with Some _ => true | None => false end) args then Some UserDefined
    else None
  else None.
(** One argument of a slice is handled by all helpers, array.h:738-814 *)
Definition slice_arg_compiles (a : argT) : bool :=
  compiles range_with_stride_overloads a && compiles skip_slices_overloads a.
(** array.h:1178-1181, 1187-1195 [shape::operator[]] with a tuple: the function for indices is preferred if both fit equally well,
    since it is no template *)
Definition shape_bracket (rank : nat) (args : list argT) : call :=
  match tuple_to_index rank args, enable_if_any_slices rank args with
  | Some UserDefined, true => with_body View (forallb slice_arg_compiles args)
  | Some _, _ => Compiles Element
  | None, true => with_body View (forallb slice_arg_compiles args)
  | None, false => Rejected
  end.
(** array.h:722-724: [dim::flat_offset] takes an [index_t] *)
Definition flat_offset_compiles (args : list argT) : bool :=
  forallb (fun a => match conv_to PIndex a with Some _ => true | None => false end) args.
(** array.h:1182-1185, 1196-1199 [shape::operator()]: two templates that differ in their constraints only *)
Definition shape_paren (rank : nat) (args : list argT) : call :=
  match enable_if_all_indices rank args, enable_if_any_slices rank args with
  | true, true => AmbiguousCall
  | true, false => with_body Element (flat_offset_compiles args)
  | false, true => with_body View (gives (shape_bracket rank args) View)
  | false, false => Rejected
  end.
(** array.h:1997-2004 [make_array_ref_at] compiles: the shape can be sliced, and the mins of the intervals, which are
    all [index_t], are an index *)
Definition make_array_ref_at_compiles (rank : nat) (args : list argT) : bool :=
  gives (shape_bracket rank args) View && forallb (compiles min_of_range_overloads) args &&
  gives (shape_bracket rank (map (fun _ => TyIndex) args)) Element.
(** array.h:2078-2081, 2088-2094 [array_ref::operator[]], 2542-2544, 2557-2560, 2565-2568 [array::operator[]] *)
Definition array_bracket (rank : nat) (args : list argT) : call :=
  match tuple_to_index rank args, enable_if_any_slices rank args with
  | Some UserDefined, true => with_body View (make_array_ref_at_compiles rank args)
  | Some _, _ => with_body Element (gives (shape_bracket rank (repeat TyIndex rank)) Element)
  | None, true => with_body View (make_array_ref_at_compiles rank args)
  | None, false => Rejected
  end.
(** array.h:2083-2086, 2096-2098 [array_ref::operator()], 2545-2552, 2561-2564, 2569-2571 [array::operator()] *)
Definition array_paren (rank : nat) (args : list argT) : call :=
  match enable_if_all_indices rank args, enable_if_any_slices rank args with
  | true, true => AmbiguousCall
  | true, false => with_body Element (gives (shape_paren rank args) Element)
  | false, true => with_body View (make_array_ref_at_compiles rank args)
  | false, false => Rejected
  end.
(** array.h:1168-1176 [shape::is_in_range], with the arguments or a tuple of them; its value is a [bool], no element or view:
    [None] if the call is rejected *)
Definition in_range_call (rank : nat) (args : list argT) : option bool :=
  if enable_if_any_slices_or_indices rank args then Some (forallb (compiles in_range_overloads) args) else None.

(** ** Slicing through the overloads *)

(** array.h:758-762 [intervals_with_strides], the helper being called with each argument *)
Fixpoint intervals_call (nd : bool) (args : list argT) (vs : list targ) (l : tshape) : option (outcome tshape) :=
  match args, vs, l with
  | [], [], [] => Some (Ok [])
  | a :: args', v :: vs', td :: l' =>
      match call_helper range_with_stride_overloads (fun p => range_with_stride_body nd p v td) a, intervals_call nd args' vs' l' with
      | Some x, Some r => Some (x' <- x ;; r' <- r ;; Ok (x' :: r'))
      | _, _ => None
      end
  | _, _, _ => None
  end.
(** array.h:779-783 [skip_slices], likewise *)
Fixpoint skip_call (args : list argT) (l : tshape) : option tshape :=
  match args, l with
  | [], [] => Some []
  | a :: args', x :: l' =>
      match call_helper skip_slices_overloads (fun p => Some (skip_slices_body p x)) a, skip_call args' l' with
      | Some k, Some r => Some (k ++ r)
      | _, _ => None
      end
  | _, _ => None
  end.
(** array.h:1187-1199 [shape::operator()] with slices: [None] if the call does not compile *)
Definition slice_call (nd : bool) (l : tshape) (args : list argT) (vs : list targ) : option (outcome tshape) :=
  if gives (shape_paren (length l) args) View then
    match intervals_call nd args vs l with
    | Some (Ok r) => option_map Ok (skip_call args r)
    | o => o
    end
  else None.

(** ** Conversions of shapes *)

(** array.h:432-443: [dst] can be constructed from [src].  Of the other constructors, [dim(const base_range&, index_t)] would need
    the protected base of [src]. *)
Definition dim_constructible (dst src : dimT) : bool :=
  negb (not_equal (tmin dst) (tmin src)) && negb (not_equal (text dst) (text src)) && negb (not_equal (tstr dst) (tstr src)).
(** array.h:1119-1144, 1596-1598 [enable_if_shapes_compatible], [std::is_constructible] for two shapes: the constructor from
    another shape if the ranks are equal, else the constructor from [OtherDims...] if one dim is wanted.  The other
    constructors do not take a shape. *)
Definition shapes_compatible (dst src : list dimT) : bool :=
  (length src =? length dst)%nat || (1 =? length dst)%nat.
(** array.h:1131-1144, 2068-2077: the conversion, once selected, compiles if the tuple of dims converts *)
Definition shape_conversion_compiles (dst src : list dimT) : bool :=
  (length src =? length dst)%nat && forallb (fun p => dim_constructible (fst p) (snd p)) (combine dst src).
(** array.h:2068-2077: converting a view to another shape type, or assigning it *)
Definition ref_conversion (dst src : list dimT) : call :=
  if shapes_compatible dst src then with_body View (shape_conversion_compiles dst src) else Rejected.
(** array.h:1535-1545, 1646-1652 [is_compatible<ShapeDst>(src)]: the constraint has the shapes the other way round, and the body needs as
    many dims in [ShapeDst] as in [src] *)
Definition is_compatible_call (dst src : list dimT) : option bool :=
  if shapes_compatible src dst then Some (length dst =? length src)%nat else None.
