(** Consequences of ContCheckedFacts.v, concrete programs, and programs whose arithmetic
    overflows. *)
From Verif Require Import Tac Interval Shape Traverse Memory Ref Spec SpecMem Checked SpecChecked Overflow SpecOverflow
  ShapeFacts MemFacts RefFacts CheckedFacts ViewChecked Container SpecContainer ContainerFacts ContainerWorld ContainerProps
  ContainerCases OverflowFacts ViewCheckedFacts ContChecked SpecContChecked ContCheckedFacts.
Import ListNotations.
Open Scope Z_scope.

(** ** What the algorithms do *)
Section Algorithms.
Context {V : Type}.
Lemma tame_ge0 s : tame s -> extents_ge 0 s.
Proof. intros T. apply is_dim_extents, T. Qed.
Lemma k_data_tame b s : tame s -> known_strides s -> k_ref_data (mkR b s) = Ok (ref_data (mkR b s)).
Proof.
  intros T K. unfold k_ref_data, ref_data. cbn [r_shape]. rewrite k_flat_min_ok; auto; [apply T|].
  apply Z.lt_le_incl, tame_reach; auto.
Qed.
Lemma k_copy_spec (nd : bool) (h : heap V) (src dst : aref) :
  tame (r_shape src) -> tame (r_shape dst) -> settled (r_shape src) -> settled (r_shape dst) ->
  length (r_shape src) = length (r_shape dst) -> within (r_shape dst) (r_shape src) -> injective_layout (r_shape dst) ->
  (forall i, in_bounds (r_shape dst) i -> alive h (elem (r_base src) (r_shape src) i)) ->
  (forall i, in_bounds (r_shape dst) i -> alive h (elem (r_base dst) (r_shape dst) i)) ->
  (forall i j, in_bounds (r_shape dst) i -> in_bounds (r_shape dst) j ->
     elem (r_base src) (r_shape src) i <> elem (r_base dst) (r_shape dst) j) ->
  exists h', k_copy nd h src dst = Ok h' /\
    (forall i, in_bounds (r_shape dst) i ->
       peek h' (elem (r_base dst) (r_shape dst) i) = peek h (elem (r_base src) (r_shape src) i)) /\
    only_changes (is_elem (r_base dst) (r_shape dst)) h h'.
Proof. intros T1 T2 S1 S2 L W. rewrite k_copy_tame by auto. apply copy_spec; auto using tame_ge0. Qed.
Lemma k_move_spec (nd : bool) (mv : V -> V) (h : heap V) (src dst : aref) :
  tame (r_shape src) -> tame (r_shape dst) -> settled (r_shape src) -> settled (r_shape dst) ->
  length (r_shape src) = length (r_shape dst) -> within (r_shape dst) (r_shape src) ->
  injective_layout (r_shape dst) -> injective_layout (r_shape src) ->
  (forall i, in_bounds (r_shape dst) i -> alive h (elem (r_base src) (r_shape src) i)) ->
  (forall i, in_bounds (r_shape dst) i -> alive h (elem (r_base dst) (r_shape dst) i)) ->
  (forall i j, in_bounds (r_shape dst) i -> in_bounds (r_shape dst) j ->
     elem (r_base src) (r_shape src) i <> elem (r_base dst) (r_shape dst) j) ->
  exists h', k_move nd mv h src dst = Ok h' /\
    (forall i v, in_bounds (r_shape dst) i -> holds h (elem (r_base src) (r_shape src) i) v ->
       holds h' (elem (r_base dst) (r_shape dst) i) v /\
       holds h' (elem (r_base src) (r_shape src) i) (mv v)) /\
    only_changes (fun p => is_elem (r_base dst) (r_shape dst) p \/
                           exists i, in_bounds (r_shape dst) i /\ p = elem (r_base src) (r_shape src) i) h h'.
Proof. intros T1 T2 S1 S2 L W. rewrite k_move_tame by auto. apply move_spec; auto using tame_ge0. Qed.
Lemma k_fill_spec (nd : bool) (h : heap V) (dst : aref) (v : V) : tame (r_shape dst) -> settled (r_shape dst) ->
  (forall i, in_bounds (r_shape dst) i -> alive h (elem (r_base dst) (r_shape dst) i)) ->
  exists h', k_fill nd h dst v = Ok h' /\
    (forall i, in_bounds (r_shape dst) i -> holds h' (elem (r_base dst) (r_shape dst) i) v) /\
    only_changes (is_elem (r_base dst) (r_shape dst)) h h'.
Proof. intros T S. rewrite k_fill_tame by auto. apply fill_spec; auto using tame_ge0. Qed.
Lemma k_generate_spec (nd : bool) (h : heap V) (dst : aref) (g : nat -> V) :
  tame (r_shape dst) -> settled (r_shape dst) -> injective_layout (r_shape dst) ->
  (forall i, in_bounds (r_shape dst) i -> alive h (elem (r_base dst) (r_shape dst) i)) ->
  exists h' l, k_generate nd h dst g = Ok (h', length l) /\ enumerates (in_bounds (r_shape dst)) l /\
    (forall k i, nth_error l k = Some i -> holds h' (elem (r_base dst) (r_shape dst) i) (g k)) /\
    only_changes (is_elem (r_base dst) (r_shape dst)) h h'.
Proof. intros T S. rewrite k_generate_tame by auto. apply generate_spec; auto using tame_ge0. Qed.
Lemma k_transform_spec (h : heap V) (dst : aref) (fn : index -> V) :
  tame (r_shape dst) -> settled (r_shape dst) -> injective_layout (r_shape dst) ->
  (forall i, in_bounds (r_shape dst) i -> alive h (elem (r_base dst) (r_shape dst) i)) ->
  exists h', k_transform_index h dst fn = Ok h' /\
    (forall i, in_bounds (r_shape dst) i -> holds h' (elem (r_base dst) (r_shape dst) i) (fn i)) /\
    only_changes (is_elem (r_base dst) (r_shape dst)) h h'.
Proof. intros T S. rewrite k_transform_tame by auto. apply transform_index_spec; auto using tame_ge0. Qed.
Lemma k_equal_spec (nd : bool) (eqb : V -> V -> bool) (h : heap V) (a b : aref) :
  tame (r_shape a) -> tame (r_shape b) -> settled (r_shape a) -> settled (r_shape b) ->
  length (r_shape a) = length (r_shape b) ->
  (forall i, in_bounds (r_shape a) i -> alive h (elem (r_base a) (r_shape a) i)) ->
  (forall i, in_bounds (r_shape b) i -> alive h (elem (r_base b) (r_shape b) i)) ->
  exists r, k_equal nd eqb h a b = Ok r /\
    (r = true <-> map dmin (r_shape a) = map dmin (r_shape b) /\ map dext (r_shape a) = map dext (r_shape b) /\
       forall i x y, in_bounds (r_shape a) i -> holds h (elem (r_base a) (r_shape a) i) x ->
         holds h (elem (r_base b) (r_shape b) i) y -> eqb x y = true).
Proof. intros T1 T2 S1 S2. rewrite k_equal_tame by auto. intros. apply equal_spec; auto using tame_ge0. Qed.
Lemma k_ref_eq_spec (nd : bool) (eqb : V -> V -> bool) (h : heap V) (a b : aref) :
  tame (r_shape a) -> settled (r_shape a) -> length (r_shape a) = length (r_shape b) -> extents_ge 0 (r_shape b) ->
  (forall i, in_bounds (r_shape a) i -> alive h (elem (r_base a) (r_shape a) i)) ->
  (forall i, in_bounds (r_shape b) i -> alive h (elem (r_base b) (r_shape b) i)) ->
  exists r, k_ref_eq nd eqb h a b = Ok r /\ k_ref_neq nd eqb h a b = Ok (negb r) /\
    (r = true <-> r_shape a = r_shape b /\
       forall i x y, in_bounds (r_shape a) i -> holds h (elem (r_base a) (r_shape a) i) x ->
         holds h (elem (r_base b) (r_shape b) i) y -> eqb x y = true).
Proof.
  intros T S L Eb Ha Hb. destruct (ref_eq_spec nd eqb h a b) as [r [A [B C]]]; auto using tame_ge0.
  exists r. rewrite k_ref_eq_tame by auto. split; [exact A|]. split; [|exact C].
  pose proof (k_ref_eq_tame nd eqb h a b T S) as E. rewrite A in E. unfold k_ref_eq in E.
  destruct (k_ref_neq nd eqb h a b) as [x| |]; try discriminate E. injection E as <-. now rewrite negb_involutive.
Qed.
Lemma arr_set_shape_64 (c : config V) (a : arr) (new : shape) (off : Z) : Forall is_dim new -> Forall is_dim (a_shape a) ->
  reach new <= 9223372036854775807 -> reach (a_shape a) + Z.abs off <= 9223372036854775807 ->
  k_arr_set_shape c a new off = arr_set_shape c a new off.
Proof. apply k_arr_set_shape_ok. Qed.
Lemma move_reinterpret_64 (c : config V) (x : nat) (h : heap V) (y : nat) (b : arr) (old0 new : shape) (off : Z) :
  tame (c_shape0 c) -> Forall is_dim new -> Forall is_dim (a_shape b) ->
  reach new <= 9223372036854775807 -> reach (a_shape b) + Z.abs off <= 9223372036854775807 ->
  k_move_reinterpret_shape c x h y b old0 new off = move_reinterpret_shape c x h y b old0 new off.
Proof. intros T. apply (k_move_reinterpret_ok c T False); tauto. Qed.
End Algorithms.

(** ** Tests for tameness, to run on programs *)
Definition is_indexb (x : Z) : bool := (-9223372036854775808 <=? x) && (x <=? 9223372036854775807).
Definition is_dimb (d : dim) : bool := is_indexb (dmin d) && is_indexb (dext d) && (0 <=? dext d) && is_indexb (dstr d).
Definition tameb (s : list dim) : bool :=
  forallb is_dimb s && forallb (fun d => is_indexb (dmin d + dext d) && is_indexb (dmin d + dext d - 1)) s &&
  (box_size s <=? 9223372036854775807) && (3 * (far s * box_size s) <=? 9223372036854775807) &&
  (Z.of_nat (length s) * layout_budget s <? 9223372036854775807).
Lemma is_indexb_ok x : is_indexb x = true -> is_index x.
Proof. unfold is_indexb, is_index. lia. Qed.
Lemma is_dimb_ok d : is_dimb d = true -> is_dim d.
Proof.
  unfold is_dimb, is_dim. rewrite !andb_true_iff. intros [[[A B] C] D].
  split; [apply is_indexb_ok, A|]. split; [apply is_indexb_ok, B|]. split; [apply is_indexb_ok, D|lia].
Qed.
Lemma tameb_ok s : tameb s = true -> tame s.
Proof.
  unfold tameb. rewrite !andb_true_iff, !forallb_forall. intros [[[[A B] C] D] E].
  split; [apply Forall_forall; intros d Hd; apply is_dimb_ok, A, Hd|].
  split; [apply Forall_forall; intros d Hd; specialize (B d Hd); apply andb_true_iff in B;
          destruct B; split; apply is_indexb_ok; auto|].
  split; [lia|]. split; lia.
Qed.
Definition settledb (s : list dim) : bool := forallb (fun d => negb (unknown_strideb d) || (dext d =? 0)) s.
Lemma settledb_ok s : settledb s = true -> settled s.
Proof.
  unfold settledb. rewrite forallb_forall. intros H. apply Forall_forall. intros d Hd U. specialize (H d Hd).
  unfold unknown_strideb, unknown_stride in *. lia.
Qed.
Definition tame_shapesb (o : op Z) : bool :=
  match o with
  | New s _ | NewValue s _ _ | MakeCopy _ s _ | MakeMove _ s _ | AssignValue _ s _ | Reshape _ s => tameb s
  | _ => true
  end.
Lemma tame_shapesb_ok ops : forallb tame_shapesb ops = true -> Forall tame_shapes ops.
Proof.
  rewrite forallb_forall. intros H. apply Forall_forall. intros o Ho. specialize (H o Ho).
  destruct o; cbn in *; auto; apply tameb_ok; exact H.
Qed.
Definition settled_arrb (w : world Z) (x : nat) : bool := match w_arr w x with Some a => settledb (a_shape a) | None => true end.
Lemma settled_arrb_ok w x : settled_arrb w x = true -> settled_arr w x.
Proof. unfold settled_arrb, settled_arr. intros H a E. rewrite E in H. apply settledb_ok, H. Qed.
Definition tame_opb (w : world Z) (o : op Z) : bool :=
  match o with
  | New s _ | NewValue s _ _ | AssignValue _ s _ => tameb s
  | MakeCopy y s _ | MakeMove y s _ => tameb s && settled_arrb w y
  | NewCopy y | NewCopyAlloc y _ | NewMove y | NewMoveAlloc y _ => settled_arrb w y
  | CopyAssign _ y | MoveAssign _ y | AssignCopy _ y | AssignMove _ y => settled_arrb w y
  | Reshape x s => tameb s && settled_arrb w x
  | Swap x y => settled_arrb w x && settled_arrb w y
  | Write x _ _ => settled_arrb w x
  | Clear _ | Delete _ => true
  end.
Fixpoint tame_opsb (c : config Z) (w : world Z) (ops : list (op Z)) : bool :=
  match ops with
  | [] => true
  | o :: r => tame_opb w o && match step c w o with Ok w' => tame_opsb c w' r | _ => true end
  end.
Lemma tame_opb_ok w o : tame_opb w o = true -> tame_op w o.
Proof.
  destruct o; cbn [tame_opb tame_op]; rewrite ?andb_true_iff; intros H;
  first [exact I | apply tameb_ok, H | apply settled_arrb_ok, H
        | destruct H; split; first [apply tameb_ok; assumption | apply settled_arrb_ok; assumption]].
Qed.
Lemma tame_opsb_ok c ops : forall w, tame_opsb c w ops = true -> tame_ops c w ops.
Proof.
  induction ops as [|o r IH]; intros w H; [exact I|]. cbn [tame_opsb] in H. apply andb_true_iff in H. destruct H as [A B].
  split; [apply tame_opb_ok, A|]. intros w' E. rewrite E in B. apply IH, B.
Qed.

(** ** Cases *)

Lemma tame_dyn2 : tame dyn2.
Proof. apply tameb_ok. vm_compute. reflexivity. Qed.
Lemma settled_dyn2 : settled dyn2.
Proof. apply settledb_ok. vm_compute. reflexivity. Qed.

(** An array is moved from: its strides are unknown, and [data] multiplies one of them by -1. *)
Lemma data_overflows : exists (ops : list (op Z)) (w : world Z) (a : arr),
  legal debug2 empty_world ops /\ Forall tame_shapes ops /\ run debug2 ops empty_world = Ok w /\
  w_arr w 0%nat = Some a /\ tame (a_shape a) /\ settled (a_shape a) /\ k_ref_data (aref_of a) = UB.
Proof.
  set (ops := [New shapeB 0; NewMove 0%nat] : list (op Z)).
  assert (F : fair debug2) by (apply fair2; left; lia).
  assert (L : legal debug2 empty_world ops) by (apply legalb_ok; vm_compute; reflexivity).
  destruct (programs_run debug2 F ops L) as [w E].
  assert (X : match run debug2 ops empty_world with
              | Ok w => match w_arr w 0%nat with
                        | Some a => tameb (a_shape a) = true /\ settledb (a_shape a) = true /\ k_ref_data (aref_of a) = UB
                        | None => False end
              | _ => False end) by (vm_compute; auto).
  rewrite E in X. destruct (w_arr w 0%nat) as [a|] eqn:A; [|contradiction]. destruct X as [X1 [X2 X3]].
  exists ops, w, a. split; [exact L|]. split; [apply tame_shapesb_ok; vm_compute; reflexivity|]. split; [exact E|].
  split; [exact A|]. split; [apply tameb_ok, X1|]. split; [apply settledb_ok, X2|exact X3].
Qed.

(** array<int, shape<dim<0, 3>, dim<>>>: only the first bounds are known to the compiler.  A
    moved-from array has extents 3 and 0 and no strides, and reshaping it multiplies the unknown
    stride by 3. *)
Definition half : config Z := conf true false false false (-1) [mkD 0 3 unresolved; mkD 0 0 unresolved].
Lemma fair_half : fair half.
Proof.
  split; [apply argb_ok; vm_compute; reflexivity|]. split; [repeat constructor; cbn; lia|]. split; [|left; cbn; lia].
  intros i Hi. cbn in Hi. inversion Hi as [|? ? ? ? ? Hi']; subst. inversion Hi'; subst. unfold in_dim in *. cbn in *. lia.
Qed.
Definition reshape_moved : list (op Z) :=
  [New [mkD 0 3 unresolved; mkD 0 2 unresolved] 0; NewMove 0%nat; Reshape 0%nat [mkD 0 3 unresolved; mkD 0 4 unresolved]].
Lemma reshape_overflows : exists (c : config Z) (ops : list (op Z)),
  fair c /\ tame (c_shape0 c) /\ legal c empty_world ops /\ Forall tame_shapes ops /\
  (exists w, run c ops empty_world = Ok w) /\ k_run c ops empty_world = UB.
Proof.
  exists half, reshape_moved. pose proof fair_half as F.
  assert (L : legal half empty_world reshape_moved) by (apply legalb_ok; vm_compute; reflexivity).
  split; [exact F|]. split; [apply tameb_ok; vm_compute; reflexivity|]. split; [exact L|].
  split; [apply tame_shapesb_ok; vm_compute; reflexivity|]. split; [apply programs_run; auto|]. vm_compute. reflexivity.
Qed.

(** 2048 elements, all bounds and offsets are small, but a min is far from 0. *)
Lemma far_overflows : exists s : list dim, Forall is_dim s /\ ends_fit s /\ box_size s = 2048 /\ layout_budget s = 2048 /\
  reach s = 2047 /\ legal debug2 empty_world [New s 0] /\ (exists w, run debug2 [New s 0] empty_world = Ok w) /\
  k_run debug2 [New s 0] empty_world = UB.
Proof.
  exists [mkD 0 1024 1; mkD (2 ^ 60) 2 1024].
  assert (L : legal debug2 empty_world [New [mkD 0 1024 1; mkD (2 ^ 60) 2 1024] 0]) by (apply legalb_ok; vm_compute; reflexivity).
  split; [repeat constructor; cbn; lia|]. split; [repeat constructor; cbn; lia|].
  split; [reflexivity|]. split; [reflexivity|]. split; [reflexivity|]. split; [exact L|].
  split; [apply programs_run; [apply fair2; left; lia|exact L]|]. vm_compute. reflexivity.
Qed.
