(** Views and Einstein reductions with overflow: as in Checked.v, an operation of index_t whose
    result does not fit in 64 bits is undefined behaviour.  The functions are those of Ref.v and
    Ein.v, which compute in unbounded integers; pointers stay unbounded.  Definitions only. *)
From Coq Require Import ZArith List Bool.
From Verif Require Import Base Interval Shape Traverse Memory Ref Checked Overflow Ein.
Import ListNotations.
Open Scope Z_scope.

(** array.h:2080-2086 [operator[]]: the element's address *)
Definition k_ref_ptr (r : aref) (i : index) : outcome ptr :=
  o <- k_flat_offset (r_shape r) i ;; Ok (ptr_off (r_base r) o).
(** array.h:2054-2057 constructor; resolves the shape *)
Definition k_make_ref (base : ptr) (s : shape) : outcome aref := s' <- k_resolve s ;; Ok (mkR base s').
(** array.h:1996-2004 [make_array_ref_at], 2092-2099 [operator()] with slices *)
Definition k_ref_slice (r : aref) (args : list sarg) : outcome aref :=
  o <- k_flat_offset (r_shape r) (mins_of_intervals args (r_shape r)) ;;
  Ok (mkR (pointer_add (r_base r) o) (shape_slice (r_shape r) args)).
(** array.h:2213-2218 [set_shape]; the arguments of [assert] are not evaluated in release builds *)
Definition k_ref_set_shape (ndebug : bool) (r : aref) (new_shape : shape) (off : Z) : outcome aref :=
  _ <- assert_ ndebug (is_resolved new_shape) ;;
  _ <- (if ndebug then Ok tt else n <- chk (- off) ;; b <- k_is_subset_of new_shape (r_shape r) n ;; assert_ ndebug b) ;;
  Ok (mkR (pointer_add (r_base r) off) new_shape).
(** array.h:3022-3029 [reinterpret_shape] *)
Definition k_reinterpret_shape (ndebug : bool) (r : aref) (new_shape : shape) (off : Z) : outcome aref :=
  result <- k_make_ref (ptr_off (r_base r) off) new_shape ;;
  _ <- (if ndebug then Ok tt else n <- chk (- off) ;; b <- k_is_subset_of (r_shape result) (r_shape r) n ;; assert_ ndebug b) ;;
  Ok result.
(** array.h:3082-3086 [transpose] of a ref; [None]: does not compile *)
Definition k_ref_transpose (ndebug : bool) (is_ : list nat) (r : aref) : option (outcome aref) :=
  if permutation_check (length (r_shape r)) is_
  then option_map (fun s => k_reinterpret_shape ndebug r s 0) (transpose is_ (r_shape r))
  else None.
(** array.h:3097-3100 [reorder] of a ref *)
Definition k_ref_reorder (ndebug : bool) (is_ : list nat) (r : aref) : option (outcome aref) :=
  option_map (fun s => k_reinterpret_shape ndebug r s 0) (reorder is_ (r_shape r)).
(** image.h:131-147 [crop_image_shape] *)
Definition k_crop_image_shape (x y c : dim) (x0 y0 x1 y1 : Z) (origin : crop_origin) : outcome shape :=
  w <- chk (x1 - x0) ;; h <- chk (y1 - y0) ;;
  Ok (match origin with
      | origin_zero => [mkD 0 w (dstr x); mkD 0 h (dstr y); c]
      | origin_crop => [mkD x0 w (dstr x); mkD y0 h (dstr y); c]
      end).
(** image.h:152-166 [crop] of an image with dims x, y, c *)
Definition k_crop (base : ptr) (x y c : dim) (x0 y0 x1 y1 : Z) (origin : crop_origin) : outcome aref :=
  let x0 := cmax x0 (dmin x) in
  let y0 := cmax y0 (dmin y) in
  mx <- k_max x ;; ex <- chk (mx + 1) ;;
  my <- k_max y ;; ey <- chk (my + 1) ;;
  let x1 := cmin x1 ex in
  let y1 := cmin y1 ey in
  cropped <- k_crop_image_shape x y c x0 y0 x1 y1 origin ;;
  let c0 := dmin c in
  b <- (if is_null base then Ok null else o <- k_flat_offset [x; y; c] [x0; y0; c0] ;; Ok (ptr_off base o)) ;;
  b <- match origin with
       | origin_crop => o <- k_flat_offset cropped [x0; y0; c0] ;; n <- chk (- o) ;; Ok (pointer_add b n)
       | origin_zero => Ok b
       end ;;
  k_make_ref b cropped.

(** ** Chains of views *)

(** One step: array.h:2092-2099, 3082-3086, 3097-3100; image.h:152-166, 180-183 *)
Inductive view :=
| VSlice (args : list sarg)
| VTranspose (order : list nat)
| VReorder (order : list nat)
| VCrop (x0 y0 x1 y1 : Z) (origin : crop_origin)
| VChannel (channel : Z).
(** What does not compile, array.h:988-990 and image.h:152-183 *)
Definition compiled {A : Type} (o : option (outcome A)) : outcome A := match o with Some x => x | None => AssertFail end.
(** array.h:2092-2099, 3082-3086, 3097-3100; image.h:152-166, 180-183 *)
Definition k_view (ndebug : bool) (r : aref) (v : view) : outcome aref :=
  match v with
  | VSlice args => k_ref_slice r args
  | VTranspose order => compiled (k_ref_transpose ndebug order r)
  | VReorder order => compiled (k_ref_reorder ndebug order r)
  | VCrop x0 y0 x1 y1 origin =>
      match r_shape r with [x; y; c] => k_crop (r_base r) x y c x0 y0 x1 y1 origin | _ => AssertFail end
  | VChannel ch =>
      match r_shape r with [x; y; c] => k_ref_slice r [ADim x; ADim y; AIdx ch] | _ => AssertFail end
  end.
(** A chain of views, e.g. README.md:208-228; each is taken of the one before *)
Definition k_views (ndebug : bool) (r : aref) (vs : list view) : outcome aref := foldM (k_view ndebug) vs r.

(** ** Einstein reductions *)
Section Ein.
Context {V : Type}.

(** array.h:2080-2086 [operator[]]: reading the element *)
Definition k_ref_at (h : heap V) (r : aref) (i : index) : outcome V := p <- k_ref_ptr r i ;; load h p.
(** ein_reduce.h:84-87, 121-124, 137-140, 164-167, 176-181 [operator()] *)
Fixpoint k_eval (h : heap V) (e : expr V) (idx : index) : outcome V :=
  match e with
  | EArr r is_ => k_ref_at h r (get_all is_ idx)
  | EFn f is_ => Ok (f (get_all is_ idx))
  | EUn f e => v <- k_eval h e idx ;; Ok (f v)
  | EBin f a b => v <- k_eval h a idx ;; w <- k_eval h b idx ;; Ok (f v w)
  end.
(** array.h:316-319 [interval::is_in_range] of a dim; [&&] evaluates its right side only if needed *)
Definition k_dim_in_range (d at_ : dim) : outcome bool :=
  if dmin d <=? dmin at_ then a <- k_max at_ ;; b <- k_max d ;; Ok (a <=? b) else Ok false.
(** ein_reduce.h:237-263 [reconcile_dim] *)
Definition k_reconcile_dim (ndebug : bool) (ds : list dim) : outcome dim :=
  match ds with
  | [] => Ok (mkD 0 1 0)
  | d0 :: ds =>
      if negb (dstr d0 =? 0) then
        _ <- (if ndebug then Ok tt else l <- mapM (fun d => k_dim_in_range d d0) ds ;; assert_ ndebug (vall l)) ;;
        Ok d0
      else
        _ <- assert_ ndebug (vall (map (fun d => dmin d0 =? dmin d) ds)) ;;
        _ <- assert_ ndebug (vall (map (fun d => dext d0 =? dext d) ds)) ;;
        Ok d0
  end.
(** ein_reduce.h:320-328, 419-426: the shape of the loops *)
Definition k_ein_loop_shape (ndebug : bool) (r : aref) (out : list nat) (e : expr V) : outcome shape :=
  flat_mapM (fun D => d <- k_reconcile_dim ndebug
    (gather_dims D is_result_shape (EArr (V := V) r out) ++ gather_dims D is_operand_shape e) ;; Ok [d])
    (seq 0 (Nat.max (op_rank out) (loop_rank e))).
(** ein_reduce.h:158-169, 193-196: one evaluation of the assignment *)
Definition k_ein_assign (f : V -> V -> V) (r : aref) (out : list nat) (e : expr V) (h : heap V) (idx : index)
  : outcome (heap V) :=
  v <- k_eval h e idx ;;
  p <- k_ref_ptr r (get_all out idx) ;;
  old <- load h p ;;
  store h p (f old v).
(** ein_reduce.h:418-443 [ein_reduce]; array.h:1364-1414 *)
Definition k_ein_reduce (ndebug : bool) (f : V -> V -> V) (h : heap V) (r : aref) (out : list nat) (e : expr V)
  : outcome (heap V) :=
  s <- k_ein_loop_shape ndebug r out e ;;
  l <- k_for_each_index s ;;
  foldM (k_ein_assign f r out e) l h.

End Ein.
