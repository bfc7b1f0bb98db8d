(** Facts about automatic strides (C04-C07). *)
From Verif Require Import Tac Interval Shape Spec ShapeFacts.
Import ListNotations.
Open Scope Z_scope.

Lemma cabs_abs x : cabs x = Z.abs x.
Proof. unfold cabs. destruct (Z.geb_spec x 0); lia. Qed.
Lemma cmax_max a b : cmax a b = Z.max a b.
Proof. unfold cmax. destruct (Z.ltb_spec a b); lia. Qed.
Lemma cmin_min a b : cmin a b = Z.min a b.
Proof. unfold cmin. destruct (Z.ltb_spec b a); lia. Qed.

Lemma is_unresolved_unknown d : is_unresolved (dstr d) = unknown_strideb d.
Proof. reflexivity. Qed.
Lemma unknown_strideb_iff d : unknown_strideb d = true <-> unknown_stride d.
Proof. unfold unknown_strideb, unknown_stride. apply Z.eqb_eq. Qed.

(** ** find_stride *)

Definition span (d : dim) : Z := Z.abs (dstr d) * dext d.

Lemma known_dims_In s d : In d (known_dims s) <-> In d s /\ ~ unknown_stride d.
Proof.
  unfold known_dims. rewrite filter_In, negb_true_iff, <- unknown_strideb_iff.
  destruct (unknown_strideb d); intuition congruence.
Qed.

Lemma fold_max_ge l x : In x l -> x <= fold_right Z.max 1 l.
Proof. induction l; simpl; [tauto|]. intros [->|H]; [lia|]. specialize (IHl H). lia. Qed.

Lemma fold_max_attained l : fold_right Z.max 1 l = 1 \/ In (fold_right Z.max 1 l) l.
Proof.
  induction l; simpl; auto. destruct (Z.max_spec a (fold_right Z.max 1 l)) as [[_ E]|[_ E]]; rewrite E.
  - destruct IHl; auto.
  - auto.
Qed.

Lemma fold_max_ge1 l : 1 <= fold_right Z.max 1 l.
Proof. induction l; simpl; lia. Qed.

Lemma max_known_span_ge1 s : 1 <= max_known_span s.
Proof. apply fold_max_ge1. Qed.

Lemma max_known_span_ge s d : In d s -> ~ unknown_stride d -> span d <= max_known_span s.
Proof.
  intros. apply fold_max_ge. apply (in_map (fun d => Z.abs (dstr d) * dext d)). apply known_dims_In. auto.
Qed.

Definition stride_ok (m e : Z) (d : dim) : Prop := is_stride_ok m e d = true.

(** What the test means for a dimension with a known stride. *)
Lemma stride_ok_known m e d : ~ unknown_stride d -> 1 <= m ->
  (stride_ok m e d <->
   ~ (e = 1 /\ m = Z.abs (dstr d) /\ 1 < dext d) /\
   (span d <= m \/ e * m <= Z.abs (dstr d))).
Proof.
  intros U Hm. unfold stride_ok, is_stride_ok.
  rewrite is_unresolved_unknown.
  replace (unknown_strideb d) with false
    by (symmetry; apply not_true_is_false; rewrite unknown_strideb_iff; exact U).
  rewrite !cabs_abs. unfold span.
  destruct ((e =? 1) && (Z.abs m =? Z.abs (dstr d)) && (dext d >? 1)) eqn:E1.
  - split; [discriminate | intros [H _]; exfalso; apply H; lia].
  - destruct (Z.leb_spec (dext d * Z.abs (dstr d)) m).
    + split; [intros _; split; [lia|left; lia] | auto].
    + destruct (Z.geb_spec (Z.abs (dstr d)) (e * m)).
      * split; [intros _; split; [lia|right; lia] | auto].
      * split; [discriminate | intros [_ [?|?]]; lia].
Qed.

Lemma variadic_min_le l x : In x l -> variadic_min l <= x.
Proof.
  induction l; simpl; [tauto|]. rewrite cmin_min. intros [->|H]; [lia|]. specialize (IHl H). lia.
Qed.

Lemma variadic_min_attained l : variadic_min l = index_max \/ In (variadic_min l) l.
Proof.
  induction l; simpl; auto. rewrite cmin_min.
  destruct (Z.min_spec a (variadic_min l)) as [[_ E]|[_ E]]; rewrite E; [auto|]. destruct IHl; auto.
Qed.

Lemma filter_stride_ok c e ds : Forall (stride_ok c e) ds -> filter_stride c e ds = c.
Proof.
  intro H. unfold filter_stride.
  replace (vall (map (is_stride_ok c e) ds)) with true; auto.
  symmetry. apply vall_map. exact H.
Qed.

Lemma filter_stride_cases c e ds :
  (filter_stride c e ds = c /\ Forall (stride_ok c e) ds) \/ filter_stride c e ds = index_max.
Proof.
  unfold filter_stride. destruct (vall (map (is_stride_ok c e) ds)) eqn:E; auto.
  left. split; auto. apply vall_map in E. exact E.
Qed.

Lemma candidate_known d : ~ unknown_stride d -> candidate_stride d = Z.max 1 (span d).
Proof.
  intro U. unfold candidate_stride. rewrite is_unresolved_unknown.
  replace (unknown_strideb d) with false
    by (symmetry; apply not_true_is_false; rewrite unknown_strideb_iff; exact U).
  rewrite cmax_max, cabs_abs. reflexivity.
Qed.

Lemma candidate_unknown d : unknown_stride d -> candidate_stride d = index_max.
Proof.
  intro U. unfold candidate_stride. rewrite is_unresolved_unknown.
  apply unknown_strideb_iff in U. rewrite U. reflexivity.
Qed.

Lemma stride_ok_unknown m e d : unknown_stride d -> stride_ok m e d.
Proof.
  intro U. unfold stride_ok, is_stride_ok. rewrite is_unresolved_unknown.
  apply unknown_strideb_iff in U. rewrite U. reflexivity.
Qed.

(** The largest span is always an acceptable stride. *)
Lemma max_span_ok e ds : Forall (stride_ok (max_known_span ds) e) ds.
Proof.
  apply Forall_forall. intros d Hd.
  destruct (Z.eq_dec (dstr d) (-9223372036854775808)) as [U|U]; [apply stride_ok_unknown, U|].
  apply stride_ok_known; [exact U | apply max_known_span_ge1|].
  pose proof (max_known_span_ge ds d Hd U). unfold span in *.
  pose proof (max_known_span_ge1 ds). split; [|left; assumption]. nia.
Qed.

Lemma find_stride_le e ds c :
  Forall (stride_ok c e) ds -> (c = 1 \/ exists d, In d ds /\ ~ unknown_stride d /\ c = Z.max 1 (span d)) ->
  find_stride e ds <= c.
Proof.
  intros H [->|[d [Hd [U ->]]]]; unfold find_stride; apply variadic_min_le.
  - left. apply filter_stride_ok, H.
  - right. apply in_map_iff. exists d. split; auto. rewrite candidate_known by assumption.
    apply filter_stride_ok, H.
Qed.

Lemma find_stride_le_max e ds : find_stride e ds <= max_known_span ds.
Proof.
  apply find_stride_le; [apply max_span_ok|].
  unfold max_known_span.
  destruct (fold_max_attained (map (fun d => Z.abs (dstr d) * dext d) (known_dims ds))) as [E|E]; auto.
  right. pose proof (fold_max_ge1 (map (fun d => Z.abs (dstr d) * dext d) (known_dims ds))).
  apply in_map_iff in E. destruct E as [d [E Hd]]. apply known_dims_In in Hd.
  exists d. unfold span. rewrite E. intuition lia.
Qed.

Lemma find_stride_sound e ds : max_known_span ds < index_max ->
  1 <= find_stride e ds /\ Forall (stride_ok (find_stride e ds) e) ds.
Proof.
  intro B. pose proof (find_stride_le_max e ds) as L.
  unfold find_stride in *.
  destruct (variadic_min_attained (filter_stride 1 e ds ::
      map (fun d => filter_stride (candidate_stride d) e ds) ds)) as [E|E]; [lia|].
  set (m := variadic_min _) in *. clearbody m.
  destruct E as [E|E].
  - destruct (filter_stride_cases 1 e ds) as [[F O]|F]; rewrite F in E; [|lia].
    rewrite <- E. split; [lia | exact O].
  - apply in_map_iff in E. destruct E as [d [E Hd]].
    destruct (filter_stride_cases (candidate_stride d) e ds) as [[F O]|F]; rewrite F in E; [|lia].
    rewrite <- E. split; [|exact O].
    destruct (Z.eq_dec (dstr d) (-9223372036854775808)) as [U|U].
    + rewrite candidate_unknown by exact U. unfold index_max. lia.
    + rewrite candidate_known by exact U. lia.
Qed.

(** ** Induction principle for resolve *)

Definition resolve1 (before rest : list dim) (d : dim) : dim :=
  if is_unresolved (dstr d) then set_stride d (find_stride (dext d) (before ++ d :: rest)) else d.

Lemma resolve_from_inv (I : list dim -> list dim -> Prop) :
  (forall before d rest, I before (d :: rest) -> I (before ++ [resolve1 before rest d]) rest) ->
  forall todo before, I before todo -> I (resolve_from before todo) [].
Proof.
  intros H todo. induction todo as [|d rest IH]; intros before HI; simpl; auto.
  apply IH. apply H, HI.
Qed.

(** ** C04 *)

Lemma known_dims_app a b : known_dims (a ++ b) = known_dims a ++ known_dims b.
Proof. apply filter_app. Qed.

Lemma fold_max_app a b : fold_right Z.max 1 (a ++ b) = Z.max (fold_right Z.max 1 a) (fold_right Z.max 1 b).
Proof.
  induction a; simpl.
  - pose proof (fold_max_ge1 b). lia.
  - rewrite IHa. lia.
Qed.

Lemma max_known_span_app a b : max_known_span (a ++ b) = Z.max (max_known_span a) (max_known_span b).
Proof. unfold max_known_span. rewrite known_dims_app, map_app. apply fold_max_app. Qed.

Lemma fold_mul_app a b : fold_right Z.mul 1 (a ++ b) = fold_right Z.mul 1 a * fold_right Z.mul 1 b.
Proof. induction a; cbn [fold_right app]; [ring|]. rewrite IHa. ring. Qed.

Lemma unknown_extents_app a b : unknown_extents (a ++ b) = unknown_extents a * unknown_extents b.
Proof. unfold unknown_extents. rewrite filter_app, map_app. apply fold_mul_app. Qed.

Lemma unknown_extents_ge1 s : 1 <= unknown_extents s.
Proof.
  unfold unknown_extents. induction (filter unknown_strideb s) as [|d l IH]; simpl; [lia|].
  assert (1 <= Z.max 1 (dext d)) by lia. nia.
Qed.

Lemma max_known_span_cons d s :
  max_known_span (d :: s) = if unknown_strideb d then max_known_span s else Z.max (span d) (max_known_span s).
Proof. unfold max_known_span, known_dims. simpl. destruct (unknown_strideb d); reflexivity. Qed.

Lemma unknown_extents_cons d s :
  unknown_extents (d :: s) = if unknown_strideb d then Z.max 1 (dext d) * unknown_extents s else unknown_extents s.
Proof. unfold unknown_extents. simpl. destruct (unknown_strideb d); reflexivity. Qed.

Lemma budget_ge_span s : max_known_span s <= stride_budget s.
Proof.
  unfold stride_budget. pose proof (unknown_extents_ge1 s). pose proof (max_known_span_ge1 s). nia.
Qed.

(** Giving a dimension a stride not larger than the current maximal span keeps the budget. *)
Lemma budget_step before d rest m :
  unknown_stride d -> 1 <= m <= max_known_span (before ++ d :: rest) ->
  stride_budget (before ++ set_stride d m :: rest) <= stride_budget (before ++ d :: rest).
Proof.
  intros U Hm. unfold stride_budget in *.
  rewrite !max_known_span_app, !unknown_extents_app in *.
  rewrite !max_known_span_cons, !unknown_extents_cons in *.
  assert (E : unknown_strideb d = true) by (apply unknown_strideb_iff, U). rewrite E in *.
  assert (E2 : unknown_strideb (set_stride d m) = false).
  { unfold unknown_strideb; simpl. lia. }
  rewrite E2. unfold span. simpl.
  pose proof (unknown_extents_ge1 before). pose proof (unknown_extents_ge1 rest).
  pose proof (max_known_span_ge1 before). pose proof (max_known_span_ge1 rest).
  set (U1 := unknown_extents before) in *. set (U2 := unknown_extents rest) in *.
  set (M1 := max_known_span before) in *. set (M2 := max_known_span rest) in *.
  set (e := dext d).
  assert (Z.max M1 (Z.max (Z.abs m * e) M2) <= Z.max M1 M2 * Z.max 1 e) by nia.
  assert (0 <= U1 * U2) by nia.
  transitivity ((Z.max M1 M2 * Z.max 1 e) * (U1 * U2)); nia.
Qed.

(** How one dimension is changed by resolve. *)
Definition resolved_from (d d' : dim) : Prop :=
  dmin d' = dmin d /\ dext d' = dext d /\
  (~ unknown_stride d -> d' = d) /\
  (unknown_stride d -> 1 <= dstr d' < index_max).

Lemma Forall2_snoc {A B} (R : A -> B -> Prop) la lb a b :
  Forall2 R la lb -> R a b -> Forall2 R (la ++ [a]) (lb ++ [b]).
Proof. intros. apply Forall2_app; auto. Qed.

Lemma resolve_spec s : stride_budget s < index_max -> Forall2 resolved_from s (resolve s).
Proof.
  intro B. unfold resolve.
  cut (exists p, s = p ++ [] /\ Forall2 resolved_from p (resolve_from [] s)
         /\ stride_budget (resolve_from [] s ++ []) < index_max).
  { intros [p [E [H _]]]. rewrite app_nil_r in E. subst p. exact H. }
  apply (resolve_from_inv (fun before todo => exists p, s = p ++ todo /\ Forall2 resolved_from p before
         /\ stride_budget (before ++ todo) < index_max)).
  - intros before d rest [p [-> [H Bd]]].
    exists (p ++ [d]). rewrite <- !app_assoc. split; [reflexivity|].
    unfold resolve1. rewrite is_unresolved_unknown.
    destruct (unknown_strideb d) eqn:U.
    + apply unknown_strideb_iff in U.
      pose proof (budget_ge_span (before ++ d :: rest)).
      destruct (find_stride_sound (dext d) (before ++ d :: rest)) as [F1 F2]; [lia|].
      pose proof (find_stride_le_max (dext d) (before ++ d :: rest)) as F3.
      split.
      * apply Forall2_snoc; auto. unfold resolved_from. simpl. repeat split; auto; try tauto; lia.
      * simpl. eapply Z.le_lt_trans; [|exact Bd]. apply budget_step; auto.
    + assert (~ unknown_stride d) by (rewrite <- unknown_strideb_iff; congruence).
      split; [|exact Bd]. apply Forall2_snoc; auto. unfold resolved_from. tauto.
  - exists []. split; [reflexivity|]. split; [constructor | exact B].
Qed.

Lemma resolve_known s : Forall (fun d => ~ unknown_stride d) s -> resolve s = s.
Proof.
  unfold resolve. intro H.
  cut (forall pre, resolve_from pre s = pre ++ s); [intro E; apply (E [])|].
  induction H as [|d s Hd _ IH]; intros pre; simpl.
  - rewrite app_nil_r; auto.
  - rewrite is_unresolved_unknown. destruct (unknown_strideb d) eqn:U.
    + apply unknown_strideb_iff in U. contradiction.
    + rewrite IH, <- app_assoc. reflexivity.
Qed.

Lemma resolved_all_known s : stride_budget s < index_max ->
  Forall (fun d => ~ unknown_stride d) (resolve s).
Proof.
  intro B. pose proof (resolve_spec s B) as H. clear B. revert H. generalize (resolve s) as r.
  intros r H. induction H; constructor; auto.
  destruct H as [_ [_ [H1 H2]]]. intro U.
  destruct (Z.eq_dec (dstr x) (-9223372036854775808)) as [Ux|Ux].
  - apply H2 in Ux. unfold unknown_stride in U. lia.
  - assert (y = x) by (apply H1, Ux). subst. auto.
Qed.

Lemma resolve_idempotent s : stride_budget s < index_max -> resolve (resolve s) = resolve s.
Proof. intro B. apply resolve_known, resolved_all_known, B. Qed.

Lemma is_resolved_iff s : is_resolved s = true <-> Forall (fun d => ~ unknown_stride d) s.
Proof.
  unfold is_resolved. rewrite vall_map. apply Forall_iff || idtac.
  split; intro H; eapply Forall_impl; try exact H; simpl; intros d Hd.
  - unfold is_resolved_stride, unresolved, index_min, unknown_stride in *. lia.
  - unfold is_resolved_stride, unresolved, index_min, unknown_stride in *. lia.
Qed.

(** ** Nested layouts are injective (C05) *)

Lemma ForallOrdPairs_perm {A} (R : A -> A -> Prop) (Rsym : forall a b, R a b -> R b a) l l' :
  Permutation l l' -> ForallOrdPairs R l -> ForallOrdPairs R l'.
Proof.
  induction 1; intro F; auto.
  - inv F. constructor; auto. eapply Permutation_Forall; eauto.
  - inv F. inv H2. inv H1. constructor; [constructor; auto|]. constructor; auto.
Qed.

Lemma max_first {A} (f : A -> Z) l : l <> [] ->
  exists k l', Permutation l (k :: l') /\ Forall (fun x => f x <= f k) l'.
Proof.
  induction l as [|a l IH]; [congruence|]. intros _.
  destruct l as [|b l].
  - exists a, []. split; auto.
  - destruct IH as [k [l' [P F]]]; [congruence|].
    destruct (Z_le_gt_dec (f a) (f k)).
    + exists k, (a :: l'). split; [|constructor; auto].
      eapply perm_trans; [apply perm_skip, P|]. apply perm_swap.
    + exists a, (b :: l). split; auto.
      eapply Permutation_Forall; [apply Permutation_sym, P|]. constructor; [lia|].
      eapply Forall_impl; [|exact F]. simpl. intros; lia.
Qed.

(** A coordinate difference together with the extent and the stride of its dimension *)
Record term := mkT { t_delta : Z; t_ext : Z; t_str : Z }.
Definition term_ok (t : term) : Prop :=
  Z.abs (t_delta t) <= t_ext t - 1 /\ (1 < t_ext t -> t_str t <> 0).
Definition term_nested (a b : term) : Prop := 1 < t_ext a -> 1 < t_ext b ->
  t_ext a * Z.abs (t_str a) <= Z.abs (t_str b) \/ t_ext b * Z.abs (t_str b) <= Z.abs (t_str a).

Lemma term_nested_sym a b : term_nested a b -> term_nested b a.
Proof. unfold term_nested. intros H ? ?. destruct H; auto. Qed.

Definition tspan (l : list term) : Z := fold_right Z.add 0 (map (fun t => (t_ext t - 1) * Z.abs (t_str t)) l).
Definition tsum (l : list term) : Z := fold_right Z.add 0 (map (fun t => t_delta t * t_str t) l).

Lemma tspan_perm l l' : Permutation l l' -> tspan l = tspan l'.
Proof. induction 1; unfold tspan in *; simpl; lia. Qed.
Lemma tsum_perm l l' : Permutation l l' -> tsum l = tsum l'.
Proof. induction 1; unfold tsum in *; simpl; lia. Qed.

Definition eff (t : term) : Z := if 1 <? t_ext t then Z.abs (t_str t) else 0.

Lemma tspan_bound n : forall l S, (length l <= n)%nat -> 1 <= S -> Forall term_ok l ->
  ForallOrdPairs term_nested l ->
  Forall (fun t => 1 < t_ext t -> t_ext t * Z.abs (t_str t) <= S) l -> tspan l < S.
Proof.
  induction n as [|n IH]; intros l S Hn HS Hok Hnest Hle.
  - destruct l; simpl in Hn; [unfold tspan; simpl; lia | lia].
  - destruct l as [|a l0]; [unfold tspan; simpl; lia|].
    destruct (max_first eff (a :: l0)) as [k [l [P F]]]; [congruence|].
    rewrite (tspan_perm _ _ P).
    assert (Hok' := Permutation_Forall P Hok). inv Hok'.
    assert (Hle' := Permutation_Forall P Hle). inv Hle'.
    assert (Hnest' := ForallOrdPairs_perm _ term_nested_sym _ _ P Hnest). inv Hnest'.
    apply Permutation_length in P. simpl in P, Hn.
    change (tspan (k :: l)) with ((t_ext k - 1) * Z.abs (t_str k) + tspan l).
    destruct (Z_lt_le_dec 1 (t_ext k)) as [Ek|Ek].
    + assert (tspan l < Z.abs (t_str k)).
      { destruct H1 as [_ Hk]. specialize (Hk Ek). apply IH; auto; try lia.
        rewrite Forall_forall in *. intros t Ht Et.
        destruct (H5 t Ht Ek Et) as [C|C]; auto.
        specialize (F t Ht). unfold eff in F.
        destruct (Z.ltb_spec 1 (t_ext t)); destruct (Z.ltb_spec 1 (t_ext k)); try lia. nia. }
      specialize (H3 Ek). nia.
    + assert (tspan l < S) by (apply IH; auto; lia).
      destruct H1 as [H1 _]. assert (t_ext k = 1) by lia. nia.
Qed.

Lemma tsum_le_tspan l : Forall term_ok l -> Z.abs (tsum l) <= tspan l.
Proof.
  induction 1 as [|t l [H _] _ IH]; unfold tsum, tspan in *; simpl; [lia|].
  assert (Z.abs (t_delta t * t_str t) <= (t_ext t - 1) * Z.abs (t_str t)) by (rewrite Z.abs_mul; nia).
  lia.
Qed.

Lemma tsum_zero n : forall l, (length l <= n)%nat -> Forall term_ok l -> ForallOrdPairs term_nested l ->
  tsum l = 0 -> Forall (fun t => t_delta t = 0) l.
Proof.
  induction n as [|n IH]; intros l Hn Hok Hnest E.
  - destruct l; simpl in Hn; [constructor | lia].
  - destruct l as [|a l0]; [constructor|].
    destruct (max_first eff (a :: l0)) as [k [l [P F]]]; [congruence|].
    rewrite (tsum_perm _ _ P) in E.
    apply (Permutation_Forall (Permutation_sym P)).
    assert (Hok' := Permutation_Forall P Hok). inv Hok'.
    assert (Hnest' := ForallOrdPairs_perm _ term_nested_sym _ _ P Hnest). inv Hnest'.
    apply Permutation_length in P. simpl in P, Hn.
    change (tsum (k :: l)) with (t_delta k * t_str k + tsum l) in E.
    assert (D : t_delta k = 0).
    { destruct H1 as [H1 Hk]. destruct (Z_lt_le_dec 1 (t_ext k)) as [Ek|Ek]; [|lia].
      specialize (Hk Ek).
      assert (tspan l < Z.abs (t_str k)).
      { apply (tspan_bound (length l)); auto; try lia.
        rewrite Forall_forall in *. intros t Ht Et.
        destruct (H3 t Ht Ek Et) as [C|C]; auto.
        specialize (F t Ht). unfold eff in F.
        destruct (Z.ltb_spec 1 (t_ext t)); destruct (Z.ltb_spec 1 (t_ext k)); try lia. nia. }
      pose proof (tsum_le_tspan l H2).
      assert (HH : Z.abs (t_delta k * t_str k) < Z.abs (t_str k)) by lia.
      rewrite Z.abs_mul in HH. nia. }
    constructor; auto. apply IH; auto; [lia|]. rewrite D in E. lia.
Qed.

Fixpoint terms (s : list dim) (i j : list Z) : list term :=
  match s, i, j with
  | d :: s', x :: i', y :: j' => mkT (x - y) (dext d) (dstr d) :: terms s' i' j'
  | _, _, _ => []
  end.

Lemma terms_sum s i j : in_bounds s i -> in_bounds s j -> offset s i - offset s j = tsum (terms s i j).
Proof.
  intro H. revert j. induction H; intros j Hj; inv Hj; [reflexivity|].
  simpl. unfold tsum in *. simpl. rewrite <- IHForall2 by assumption. lia.
Qed.

Lemma terms_ok s i j : Forall (fun d => 1 < dext d -> dstr d <> 0) s ->
  in_bounds s i -> in_bounds s j -> Forall term_ok (terms s i j).
Proof.
  intros Hs H. revert Hs j. induction H; intros Hs j Hj; inv Hj; simpl; constructor.
  - inv Hs. split; simpl; [unfold in_dim in *; lia | auto].
  - inv Hs. auto.
Qed.

Lemma terms_nested s : ForallOrdPairs (fun a b => 1 < dext a -> 1 < dext b -> nested2 a b) s ->
  forall i j, ForallOrdPairs term_nested (terms s i j).
Proof.
  induction 1 as [|d s Hd Hs IH]; intros [|x i] [|y j]; simpl; try constructor; auto.
  clear IH Hs. revert i j. induction Hd; intros [|x' i] [|y' j]; simpl; constructor; auto.
Qed.

Lemma terms_zero s i j : in_bounds s i -> in_bounds s j ->
  Forall (fun t => t_delta t = 0) (terms s i j) -> i = j.
Proof.
  intro H. revert j. induction H; intros j Hj F; inv Hj; auto. simpl in F. inv F. simpl in *.
  f_equal; [lia | auto].
Qed.

Lemma nested_injective s : nested s -> injective_layout s.
Proof.
  intros [Hz Hn] i j Hi Hj E. apply (terms_zero s); auto.
  apply (tsum_zero (length (terms s i j))); auto.
  - apply terms_ok; auto.
  - apply terms_nested; auto.
  - rewrite <- terms_sum by assumption. lia.
Qed.

(** ** resolve keeps known dims nested (C05) *)

Lemma ForallOrdPairs_app {A} (R : A -> A -> Prop) a b :
  ForallOrdPairs R a -> ForallOrdPairs R b -> Forall (fun x => Forall (R x) b) a -> ForallOrdPairs R (a ++ b).
Proof.
  intros Ha Hb H. induction Ha; simpl; auto. inv H. constructor; auto.
  apply Forall_app. split; auto.
Qed.

Definition nest_rel (a b : dim) : Prop := 1 < dext a -> 1 < dext b -> nested2 a b.
Lemma nest_rel_sym a b : nest_rel a b -> nest_rel b a.
Proof. unfold nest_rel, nested2. intros H ? ?. destruct H; auto. Qed.

Lemma nested_perm l l' : Permutation l l' -> nested l -> nested l'.
Proof.
  intros P [H1 H2]. split.
  - eapply Permutation_Forall; eauto.
  - eapply (ForallOrdPairs_perm nest_rel nest_rel_sym); eauto.
Qed.

Lemma nested_cons d l : 1 <= dstr d -> Forall (stride_ok (dstr d) (dext d)) l ->
  Forall (fun x => ~ unknown_stride x) l -> nested l -> nested (d :: l).
Proof.
  intros Hd Hok Hk [H1 H2]. split.
  - constructor; auto. lia.
  - constructor; auto. rewrite Forall_forall in *. intros x Hx E1 E2.
    specialize (Hok x Hx). apply stride_ok_known in Hok; [|apply Hk; auto|auto].
    unfold nested2, span in *. rewrite (Z.abs_eq (dstr d)) by lia. destruct Hok as [_ [?|?]]; [right|left]; lia.
Qed.

Lemma resolve_nested s : stride_budget s < index_max -> nested (known_dims s) -> nested (resolve s).
Proof.
  intros B N.
  assert (K : known_dims (resolve s) = resolve s).
  { unfold known_dims. pose proof (resolved_all_known s B) as H. induction H; simpl; auto.
    assert (unknown_strideb x = false) by (apply not_true_is_false; rewrite unknown_strideb_iff; auto).
    rewrite H1. simpl. rewrite IHForall. reflexivity. }
  rewrite <- K. unfold resolve.
  cut (nested (known_dims (resolve_from [] s ++ [])) /\ stride_budget (resolve_from [] s ++ []) < index_max).
  { rewrite app_nil_r. tauto. }
  apply (resolve_from_inv (fun before todo => nested (known_dims (before ++ todo))
         /\ stride_budget (before ++ todo) < index_max)); [|auto].
  intros before d rest [H Bd]. rewrite <- app_assoc. simpl.
  unfold resolve1. rewrite is_unresolved_unknown.
  destruct (unknown_strideb d) eqn:U; [|auto].
  pose proof (budget_ge_span (before ++ d :: rest)).
  destruct (find_stride_sound (dext d) (before ++ d :: rest)) as [F1 F2]; [lia|].
  pose proof (find_stride_le_max (dext d) (before ++ d :: rest)) as F3.
  set (m := find_stride (dext d) (before ++ d :: rest)) in *.
  split; [|eapply Z.le_lt_trans; [|exact Bd]; apply budget_step; [apply unknown_strideb_iff, U | lia]].
  rewrite known_dims_app in *. simpl in *. rewrite U in *. simpl in *.
  assert (Hm : unknown_strideb (set_stride d m) = false) by (unfold unknown_strideb; simpl; lia).
  rewrite Hm. simpl.
  apply (nested_perm (set_stride d m :: known_dims before ++ known_dims rest));
    [apply Permutation_middle|].
  apply nested_cons; simpl; auto.
  - rewrite Forall_forall in *. intros x Hx. apply F2.
    rewrite in_app_iff in *. rewrite !known_dims_In in Hx. simpl. tauto.
  - rewrite Forall_forall in *. intros x Hx. rewrite in_app_iff, !known_dims_In in Hx. tauto.
Qed.

Lemma resolve_injective s : stride_budget s < index_max -> nested (known_dims s) -> injective_layout (resolve s).
Proof. intros. apply nested_injective, resolve_nested; auto. Qed.

(** ** Tiling layouts (C06, C07) *)

Lemma extents_ge_cons k d l : extents_ge k (d :: l) -> k <= dext d /\ extents_ge k l.
Proof. intro H. inversion H; auto. Qed.

Lemma tiles_pos n l : extents_ge 1 l -> tiles n l -> 1 <= n.
Proof. intros H T. induction T as [|n d l T IH E]; [lia|]. apply extents_ge_cons in H as [H1 H2]. specialize (IH H2). nia. Qed.

Lemma tiles_product n l : tiles n l -> n = fold_right Z.mul 1 (map dext l).
Proof. induction 1 as [|n d l T IH E]; cbn [fold_right map]; [reflexivity|]. rewrite IH. ring. Qed.

Lemma tiles_bound n l d : extents_ge 1 l -> tiles n l -> In d l -> span d <= n /\ 1 <= Z.abs (dstr d) /\ (1 < dext d -> Z.abs (dstr d) < n).
Proof.
  intros H T. induction T as [|n d0 l T IH E]; simpl; [tauto|]. apply extents_ge_cons in H as [H1 H2].
  pose proof (tiles_pos _ _ H2 T). intros [<-|Hd].
  - unfold span. nia.
  - destruct (IH H2 Hd) as [? [? ?]]. nia.
Qed.

(** A stride below the block size falls into one of the dims. *)
Lemma tiles_gap n l c : extents_ge 1 l -> tiles n l -> 1 <= c < n ->
  exists d, In d l /\ Z.abs (dstr d) <= c < span d.
Proof.
  intros H T. induction T as [|n d l T IH E]; intro Hc; [lia|]. apply extents_ge_cons in H as [H1 H2].
  destruct (Z_lt_le_dec c (Z.abs (dstr d))) as [L|L].
  - destruct IH as [d' [? ?]]; auto; [lia|]. exists d'. split; [right; auto | auto].
  - exists d. split; [left; auto|]. unfold span. lia.
Qed.

Lemma tiles_find_stride n l ds e : extents_ge 1 l -> tiles n l -> 1 <= e ->
  Permutation (known_dims ds) l -> n < index_max -> find_stride e ds = n.
Proof.
  intros H T He P Hn. pose proof (tiles_pos _ _ H T).
  assert (HIn : forall d, In d ds -> ~ unknown_stride d -> In d l).
  { intros. eapply Permutation_in; [exact P|]. apply known_dims_In; auto. }
  assert (HIn' : forall d, In d l -> In d ds /\ ~ unknown_stride d).
  { intros. apply known_dims_In. eapply Permutation_in; [apply Permutation_sym, P|]. auto. }
  assert (OK : Forall (stride_ok n e) ds).
  { apply Forall_forall. intros d Hd.
    destruct (Z.eq_dec (dstr d) (-9223372036854775808)) as [U|U]; [apply stride_ok_unknown, U|].
    apply stride_ok_known; auto. destruct (tiles_bound _ _ d H T (HIn _ Hd U)) as [? [? ?]]. lia. }
  assert (LE : find_stride e ds <= n).
  { apply find_stride_le; auto. destruct T as [|n d l T E]; auto. right. destruct (HIn' d) as [? ?]; [left; auto|].
    exists d. repeat split; auto. unfold span. apply extents_ge_cons in H as [H1' H2'].
    pose proof (tiles_pos _ _ H2' T). nia. }
  apply Z.le_antisymm; auto. apply Z.nlt_ge. intro LT.
  assert (MS : max_known_span ds < index_max).
  { unfold max_known_span.
    destruct (fold_max_attained (map (fun d => Z.abs (dstr d) * dext d) (known_dims ds))) as [E|E];
      [rewrite E; unfold index_max; lia|].
    apply in_map_iff in E. destruct E as [d [E Hd]]. rewrite <- E.
    assert (In d l) as Hl by (eapply Permutation_in; eauto).
    destruct (tiles_bound _ _ _ H T Hl) as [? _]. unfold span in *. lia. }
  destruct (find_stride_sound e ds MS) as [F1 F2].
  destruct (tiles_gap n l (find_stride e ds)) as [d [Hd Hg]]; auto.
  destruct (HIn' d Hd) as [Hd' U].
  rewrite Forall_forall in F2. specialize (F2 d Hd').
  apply stride_ok_known in F2; auto. destruct F2 as [N [C|C]]; [lia|].
  assert (e = 1) by nia. assert (Z.abs (dstr d) = find_stride e ds) by nia.
  apply N. repeat split; auto. unfold span in Hg. nia.
Qed.

(** resolve extends the tiling; its strides are the products so far. *)
Lemma resolve_tiles s n l : extents_ge 1 s -> Permutation (known_dims s) l -> tiles n l ->
  n * unknown_extents s < index_max ->
  exists m l', Permutation (resolve s) l' /\ tiles m l' /\ m = n * unknown_extents s.
Proof.
  intros H P T B.
  assert (C : exists m l', Permutation (known_dims (resolve s ++ [])) l' /\ tiles m l' /\
     extents_ge 1 (resolve s ++ []) /\ m * unknown_extents (resolve s ++ []) = n * unknown_extents s
     /\ Forall (fun d => ~ unknown_stride d) (resolve s)).
  { unfold resolve.
    apply (resolve_from_inv (fun before todo => exists m l', Permutation (known_dims (before ++ todo)) l' /\ tiles m l' /\
       extents_ge 1 (before ++ todo) /\ m * unknown_extents (before ++ todo) = n * unknown_extents s
       /\ Forall (fun d => ~ unknown_stride d) before)).
    2:{ exists n, l. simpl. auto. }
    intros before d rest [m [l' [P' [T' [H' [E K]]]]]].
    unfold resolve1. rewrite is_unresolved_unknown. rewrite <- app_assoc. simpl.
    destruct (unknown_strideb d) eqn:U.
    2:{ exists m, l'. repeat split; auto. apply Forall_app. split; auto. constructor; auto.
        rewrite <- unknown_strideb_iff; congruence. }
    assert (Hd : 1 <= dext d).
    { unfold extents_ge in H'. rewrite Forall_forall in H'. apply H'. rewrite in_app_iff. right; left; auto. }
    assert (Hl : extents_ge 1 l').
    { unfold extents_ge in *. rewrite Forall_forall in *. intros x Hx. apply H'.
      apply (Permutation_in _ (Permutation_sym P')) in Hx. apply known_dims_In in Hx. tauto. }
    assert (Hm := tiles_pos _ _ Hl T').
    assert (m < index_max) by (pose proof (unknown_extents_ge1 (before ++ d :: rest)); nia).
    rewrite (tiles_find_stride m l') by auto.
    assert (Hu : unknown_strideb (set_stride d m) = false) by (unfold unknown_strideb; simpl; lia).
    exists (m * dext (set_stride d m)), (set_stride d m :: l').
    rewrite known_dims_app, unknown_extents_app, unknown_extents_cons in *.
    simpl in *. rewrite Hu, U in *. simpl in *. repeat split.
    - eapply perm_trans; [apply Permutation_sym, Permutation_middle|]. apply perm_skip. exact P'.
    - apply (tiles_cons m (set_stride d m)); auto. simpl. lia.
    - unfold extents_ge in *. rewrite Forall_app in *. destruct H' as [Ha Hb]. inv Hb.
      split; auto.
    - rewrite <- E. rewrite Z.max_r by lia. lia.
    - apply Forall_app. split; auto. constructor; auto. rewrite <- unknown_strideb_iff. congruence. }
  destruct C as [m [l' [P' [T' [H' [E K]]]]]]. rewrite app_nil_r in *.
  assert (KD : known_dims (resolve s) = resolve s).
  { clear -K. unfold known_dims. induction K; simpl; auto.
    assert (unknown_strideb x = false) by (apply not_true_is_false; rewrite unknown_strideb_iff; auto).
    rewrite H0. simpl. rewrite IHK. reflexivity. }
  assert (UE : unknown_extents (resolve s) = 1).
  { clear -K. unfold unknown_extents. induction K; simpl; auto.
    assert (unknown_strideb x = false) by (apply not_true_is_false; rewrite unknown_strideb_iff; auto).
    rewrite H0. auto. }
  rewrite KD, UE in *. exists m, l'. repeat split; auto. lia.
Qed.

Lemma tiles_nested n l : extents_ge 1 l -> tiles n l -> nested l.
Proof.
  intros H T. induction T as [|n d l T IH E].
  - split; constructor.
  - apply extents_ge_cons in H as [H2 H3]. destruct (IH H3) as [N1 N2]. pose proof (tiles_pos _ _ H3 T). split.
    + constructor; auto. intros; lia.
    + constructor; auto. apply Forall_forall. intros x Hx _ _. right.
      destruct (tiles_bound _ _ x H3 T Hx) as [? _]. unfold span in *. lia.
Qed.

Lemma flat_min_perm a b : Permutation a b -> flat_min a = flat_min b.
Proof. induction 1; rewrite ?flat_min_cons; lia. Qed.
Lemma flat_max_perm a b : Permutation a b -> flat_max a = flat_max b.
Proof. induction 1; rewrite ?flat_max_cons; lia. Qed.

Lemma tiles_flat_extent n l : extents_ge 1 l -> tiles n l -> flat_max l - flat_min l + 1 = n.
Proof.
  intros H T. induction T as [|n d l T IH E]; [reflexivity|]. apply extents_ge_cons in H as [H2 H3].
  specialize (IH H3). rewrite flat_min_cons, flat_max_cons, cmin_min, cmax_max. nia.
Qed.

Lemma vproduct_perm a b : Permutation a b -> vproduct a = vproduct b.
Proof. induction 1; simpl; lia. Qed.

Lemma vproduct_fold l : vproduct l = fold_right Z.mul 1 l.
Proof. induction l; simpl; congruence. Qed.

Lemma extents_perm a b : Permutation a b -> Permutation (extents a) (extents b).
Proof. apply Permutation_map. Qed.

(** Everything about a layout that tiles a block *)
Lemma tiles_compact s n l : extents_ge 1 s -> Permutation s l -> tiles n l ->
  injective_layout s /\ flat_extent s = n /\ size s = n /\ is_compact s = true /\
  (forall o, flat_min s <= o <= flat_max s -> exists i, in_bounds s i /\ offset s i = o).
Proof.
  intros H P T.
  assert (Hl : extents_ge 1 l) by (eapply Permutation_Forall; eauto).
  assert (I : injective_layout s).
  { apply nested_injective. eapply nested_perm; [apply Permutation_sym, P|]. eapply tiles_nested; eauto. }
  destruct (flat_extent_nonempty _ H) as [F _].
  assert (F2 : flat_extent s = n).
  { rewrite F, (flat_max_perm _ _ P), (flat_min_perm _ _ P). apply tiles_flat_extent; auto. }
  assert (S : size s = n).
  { unfold size. rewrite (vproduct_perm _ _ (extents_perm _ _ P)), vproduct_fold.
    unfold extents. rewrite <- (tiles_product _ _ T). pose proof (tiles_pos _ _ Hl T).
    destruct (Z.ltb_spec n 0); lia. }
  assert (C : is_compact s = true) by (unfold is_compact; lia).
  repeat split; auto. apply compact_injective_onto; auto.
Qed.

(** C06: with no stride given the strides are the products of the earlier extents. *)
Fixpoint dense_strides (p : Z) (s : list dim) : list Z :=
  match s with
  | [] => []
  | d :: r => p :: dense_strides (p * dext d) r
  end.

Lemma resolve_all_unknown s : extents_ge 1 s -> Forall unknown_stride s ->
  fold_right Z.mul 1 (map dext s) < index_max ->
  map dstr (resolve s) = dense_strides 1 s.
Proof.
  intros H U B. unfold resolve.
  cut (forall todo before l p, extents_ge 1 todo -> Forall unknown_stride todo ->
     Permutation (known_dims before) l -> extents_ge 1 l -> tiles p l ->
     p * fold_right Z.mul 1 (map dext todo) < index_max ->
     map dstr (resolve_from before todo) = map dstr before ++ dense_strides p todo).
  { intro G. rewrite (G s [] [] 1); auto; try constructor. lia. }
  clear H U B s. induction todo as [|d rest IH]; intros before l p Ht Hu P Hl T B; simpl.
  - rewrite app_nil_r; auto.
  - inv Ht. inv Hu. rewrite is_unresolved_unknown.
    assert (E : unknown_strideb d = true) by (apply unknown_strideb_iff; auto). rewrite E.
    assert (Ep := tiles_pos _ _ Hl T). simpl in B.
    assert (R1 : 1 <= fold_right Z.mul 1 (map dext rest)).
    { clear -H2. induction H2; simpl; [lia|]. nia. }
    assert (known_dims (d :: rest) = []) as KE.
    { unfold known_dims. simpl. rewrite E. simpl. clear -H4. induction H4; simpl; auto.
      apply unknown_strideb_iff in H. rewrite H. auto. }
    rewrite (tiles_find_stride p l); auto.
    2:{ rewrite known_dims_app, KE, app_nil_r. exact P. }
    2:{ assert (1 <= dext d * fold_right Z.mul 1 (map dext rest)) by nia. nia. }
    rewrite (IH _ (set_stride d p :: l) (p * dext d)); auto.
    + rewrite map_app, <- app_assoc. reflexivity.
    + rewrite known_dims_app. unfold known_dims at 2. simpl.
      assert (Hu : unknown_strideb (set_stride d p) = false) by (unfold unknown_strideb; simpl; lia).
      rewrite Hu. simpl. eapply perm_trans; [apply Permutation_sym, Permutation_cons_append|].
      apply perm_skip. exact P.
    + constructor; auto.
    + apply (tiles_cons p (set_stride d p)); auto. simpl. lia.
    + lia.
Qed.

Lemma flat_min_nonneg s : Forall (fun d => 0 <= dstr d) s -> flat_min s = 0.
Proof.
  induction 1; [reflexivity|]. rewrite flat_min_cons, cmin_min, IHForall. rewrite Z.min_l by lia. lia.
Qed.
