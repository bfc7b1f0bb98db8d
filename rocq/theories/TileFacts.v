(** Facts about the loops over the pieces of a split: how often an index is visited. *)
From Coq Require Import Sorted Permutation.
From Verif Require Import Tac Interval Shape Traverse Memory Ref Spec SpecMem SpecEin
  Matrix SpecMatrix ShapeFacts IntervalFacts TraverseFacts MemFacts RefFacts SliceFacts.
Import ListNotations.
Open Scope Z_scope.

Definition containsb (x : Z) (p : interval) : bool := (imin p <=? x) && (x <? imin p + iext p).
Lemma containsb_spec x p : containsb x p = true <-> in_interval p x.
Proof. unfold containsb, in_interval. rewrite andb_true_iff. lia. Qed.
Definition count_in (x : Z) (l : list interval) : nat := length (filter (containsb x) l).

Lemma split_loop_more inner b e l : forall fuel, split_loop inner fuel b e = Ok l -> forall fuel', (fuel <= fuel')%nat ->
  split_loop inner fuel' b e = Ok l.
Proof.
  intro fuel. revert b e l. induction fuel as [|f IH]; intros b e l H f' L; cbn [split_loop] in H; [discriminate|].
  destruct f' as [|f']; [lia|]. cbn [split_loop]. destruct (si_eqb b e); [auto|].
  destruct (split_loop inner f (si_next inner b) e) eqn:E; try discriminate. rewrite (IH _ _ _ E) by lia. auto.
Qed.
Lemma split_loop_fuel inner b e l n : split_for inner b e l -> (length l <= n)%nat -> split_loop inner (S n) b e = Ok l.
Proof. intros H L. eapply split_loop_more; [apply split_for_loop; eauto|lia]. Qed.

Lemma count_regular N a x : 1 <= N -> a <= x -> forall m,
  length (filter (containsb x) (map (fun k => mkI (a + N * Z.of_nat k) N) (seq 0 m))) =
  (if x <? a + N * Z.of_nat m then 1%nat else 0%nat).
Proof.
  intros HN Ha. induction m as [|m IH]; [cbn; destruct (Z.ltb_spec x (a + N * 0)); lia|].
  rewrite seq_S, map_app, filter_app, app_length, IH. cbn [map filter].
  destruct (containsb x _) eqn:E; [apply containsb_spec in E|assert (~ in_interval (mkI (a + N * Z.of_nat (0 + m)) N) x) by (rewrite <- containsb_spec; congruence)];
    unfold in_interval in *; cbn [imin iext length] in *; destruct (Z.ltb_spec x (a + N * Z.of_nat m)), (Z.ltb_spec x (a + N * Z.of_nat (S m))); nia.
Qed.
Lemma static_pieces_map m N a b : static_pieces m N a b = map (fun k => mkI (Z.min (a + N * Z.of_nat k) (b - N)) N) (seq 0 m).
Proof.
  apply nth_error_ext'. intro k. destruct (Nat.lt_ge_cases k m) as [H|H].
  - rewrite static_pieces_nth by auto. rewrite nth_error_map. rewrite (nth_error_nth' _ 0%nat) by (rewrite seq_length; auto).
    rewrite seq_nth by auto. reflexivity.
  - rewrite !(proj2 (nth_error_None _ _)); auto; [rewrite map_length, seq_length|rewrite static_pieces_length]; auto.
Qed.
Lemma count_static m N a b x : 1 <= N -> N <= b - a -> npieces m N a b -> a <= x < b ->
  count_in x (static_pieces m N a b) = tile_count N (mkD a (b - a) 0) x.
Proof.
  intros HN L P Hx. destruct P as [P|[Hm P]]; [lia|]. unfold count_in. rewrite static_pieces_map.
  destruct m as [|m]; [lia|]. rewrite seq_S, map_app, filter_app, app_length.
  rewrite (map_ext_in _ (fun k => mkI (a + N * Z.of_nat k) N)).
  2:{ intros k Hk. apply in_seq in Hk. rewrite Z.min_l by nia. reflexivity. }
  rewrite count_regular by lia. cbn [map filter Nat.add].
  rewrite Z.min_r by nia.
  unfold tile_count. cbn [dmin dext].
  pose proof (Z.div_mod (b - a) N ltac:(lia)) as D. pose proof (Z.mod_pos_bound (b - a) N ltac:(lia)) as M.
  set (q := (b - a) / N) in *. set (r := (b - a) mod N) in *. clearbody q r.
  assert (Q : (r = 0 /\ q = Z.of_nat m + 1) \/ (0 < r /\ q = Z.of_nat m)) by nia.
  assert (C : containsb x (mkI (b - N) N) = (b - N <=? x)) by (unfold containsb; cbn; lia). rewrite C.
  replace (a + (b - a) - N) with (b - N) by lia.
  destruct Q as [[-> ->]|[Hr ->]].
  - assert (E : b - N = a + N * Z.of_nat m) by lia. rewrite E. rewrite Z.eqb_refl. cbn [orb].
    destruct (Z.ltb_spec x (a + N * Z.of_nat m)), (Z.leb_spec (a + N * Z.of_nat m) x); cbn; lia.
  - destruct (Z.eqb_spec r 0); [lia|]. cbn [orb].
    destruct (Z.ltb_spec x (a + N * Z.of_nat m)), (Z.leb_spec (b - N) x), (Z.leb_spec (a + N * Z.of_nat m) x), (Z.ltb_spec x (b - N));
      cbn [orb length]; try lia; nia.
Qed.

Lemma static_tiles nd N v : 1 <= N <= iext v ->
  exists r l, split_static nd N v = Ok r /\ for_split (Some N) r = Ok l /\
    sr_size r = Z.of_nat (length l) /\
    (forall k, (k < length l)%nat -> nth_error l k = Some (si_i (sr_at (Some N) r (Z.of_nat k)))) /\
    Forall (fun p => iext p = N /\ forall x, in_interval p x -> in_interval v x) l /\
    Z.of_nat (length l) <= iext v /\
    forall x s, in_interval v x -> count_in x l = tile_count N (mkD (imin v) (iext v) s) x.
Proof.
  intro H. destruct (split_static_access v N nd H) as (r & l & E & S & Sz & Ln & At).
  destruct (split_static_loop v N nd H) as (m & Q & P & E' & S').
  assert (Er : r = mkSR (mkSI (mkI (imin v) N) (imax v)) (mkSI (mkI (imax v + 1) N) (imax v))) by congruence. subst r.
  cbn [sr_begin sr_end] in S. assert (l = static_pieces m N (imin v) (imin v + iext v)) by (eapply split_for_det; eauto).
  assert (Lb : Z.of_nat (length l) <= iext v).
  { rewrite Ln. apply Z.lt_succ_r. apply Z.div_lt_upper_bound; nia. }
  exists (mkSR (mkSI (mkI (imin v) N) (imax v)) (mkSI (mkI (imax v + 1) N) (imax v))), l.
  split; [exact E|]. split.
  { unfold for_split. cbn [sr_begin sr_end si_i imin]. apply split_loop_fuel; [exact S|]. unfold imax. lia. }
  split; [exact Sz|]. split; [exact At|]. split; [|split; [exact Lb|]].
  - destruct (split_static_covers v N nd H) as (r' & l' & E1 & S1 & _ & F1 & _).
    assert (r' = mkSR (mkSI (mkI (imin v) N) (imax v)) (mkSI (mkI (imax v + 1) N) (imax v))) by congruence. subst r'.
    replace l with l' by (eapply split_for_det; eauto). exact F1.
  - intros x s Hx. subst l. rewrite count_static; [|lia|lia|auto|unfold in_interval in Hx; lia].
    unfold tile_count. cbn [dmin dext]. replace (imin v + iext v - imin v) with (iext v) by lia. reflexivity.
Qed.
Lemma dynamic_tiles n v : 1 <= n -> 0 <= iext v ->
  exists l, for_split None (split_dynamic v n) = Ok l /\ consecutive (imin v) (imin v + iext v) l /\
    Forall (fun p => 1 <= iext p <= n /\ forall x, in_interval p x -> in_interval v x) l /\
    Forall (fun p => iext p = n) (removelast l) /\
    forall x, in_interval v x -> count_in x l = 1%nat.
Proof.
  intros Hn Hv. destruct (split_dynamic_partition v n Hn Hv) as (l & S & _ & C & F & R & U & I).
  exists l. assert (Ln : Z.of_nat (length l) <= iext v).
  { clear -C F. remember (imin v) as a. remember (a + iext v) as b. assert (Z.of_nat (length l) <= b - a); [|lia].
    clear Heqa Heqb. induction C; [cbn; lia|]. inv F. cbn [iext] in *. specialize (IHC H2). cbn [length]. lia. }
  split; [|split; [exact C|split; [|split; [exact R|]]]].
  - unfold for_split, split_dynamic in *. cbn [sr_begin sr_end si_i imin] in *. apply split_loop_fuel; [exact S|]. unfold imax. lia.
  - rewrite Forall_forall in *. intros p Hp. split; [auto|]. intros x Hx. eapply I; eauto.
  - intros x Hx. assert (X : imin v <= x < imin v + iext v) by (unfold in_interval in Hx; lia). clear -C F X. unfold count_in.
    remember (imin v) as a. remember (a + iext v) as b. clear Heqa Heqb.
    assert (Out : forall a b l, consecutive a b l -> Forall (fun p => 1 <= iext p <= n) l -> x < a -> filter (containsb x) l = []).
    { clear. intros a b l C. induction C; intros F Lt; [reflexivity|]. inv F. cbn [iext] in *. cbn [filter].
      destruct (containsb x (mkI a e)) eqn:E; [apply containsb_spec in E; unfold in_interval in E; cbn in E; lia|]. apply IHC; auto. lia. }
    induction C; [lia|]. inv F. cbn [iext] in *. cbn [filter]. destruct (containsb x (mkI a e)) eqn:E.
    + apply containsb_spec in E. unfold in_interval in E. cbn [imin iext] in E. cbn [length]. rewrite (Out (a + e) b l); auto. lia.
    + assert (N : ~ in_interval (mkI a e) x) by (rewrite <- containsb_spec; congruence). unfold in_interval in N. cbn [imin iext] in N.
      apply IHC; auto. lia.
Qed.
