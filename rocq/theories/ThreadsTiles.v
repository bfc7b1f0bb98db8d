(** Calls and tiles shared out among threads.  Proofs about Threads.v. *)
From Verif Require Import Tac Interval Shape Traverse Memory Ref Ein Matrix Tiling Spec SpecMem SpecEin SpecStatic SpecMatrix
  ShapeFacts IntervalFacts TraverseFacts MemFacts RefFacts SliceFacts AliasFacts MatrixFacts MatrixProd TilingFacts
  Threads SpecThreads ThreadsFacts ThreadsCalls.
Import ListNotations.
Open Scope Z_scope.

Section Calls.
Context {V : Type}.
Implicit Types (h : heap V) (c : call V) (cs : list (call V)).

Lemma footprint_is nd h c : legal_call h c -> (exists r, run (call_prog nd c) h = Ok r) /\
  (forall p, reads_elem (call_prog nd c) h p <-> call_reads c p) /\ (forall p, writes_elem (call_prog nd c) h p <-> call_writes c p).
Proof.
  intro L. destruct (call_footprint nd h c L) as (l & F & R & W & Al). destruct (follows_run _ _ F h Al) as [Ru E].
  unfold reads_elem, writes_elem. rewrite E. auto.
Qed.
Lemma calls_return nd h cs : Forall (legal_call h) cs -> each_returns h (map (call_prog nd) cs).
Proof. intro L. apply Forall_map. eapply Forall_impl; [|exact L]. cbn beta. intros c Lc. apply (footprint_is nd h c Lc). Qed.
Lemma calls_independent nd h cs : Forall (legal_call h) cs -> (independent h (map (call_prog nd) cs) <-> no_conflict cs).
Proof.
  intro L. rewrite Forall_forall in L. split.
  - intros I j k cj ck p N Hj Hk W.
    destruct (footprint_is nd h cj (L _ (nth_error_In _ _ Hj))) as (_ & Rj & Wj).
    destruct (footprint_is nd h ck (L _ (nth_error_In _ _ Hk))) as (_ & Rk & Wk). rewrite <- Rk, <- Wk.
    apply (I j k (call_prog nd cj) (call_prog nd ck)); auto; [apply map_nth_error; auto|apply map_nth_error; auto|apply Wj; auto].
  - intros I j k mj mk p N Hj Hk W. rewrite nth_error_map in Hj, Hk.
    destruct (nth_error cs j) as [cj|] eqn:Ej; [|discriminate]. destruct (nth_error cs k) as [ck|] eqn:Ek; [|discriminate].
    injection Hj as <-. injection Hk as <-.
    destruct (footprint_is nd h cj (L _ (nth_error_In _ _ Ej))) as (_ & Rj & Wj).
    destruct (footprint_is nd h ck (L _ (nth_error_In _ _ Ek))) as (_ & Rk & Wk). rewrite Rk, Wk.
    apply (I j k cj ck); auto. apply Wj. auto.
Qed.
Lemma calls_one_by_one nd cs : forall h, one_by_one (map (call_prog nd) cs) h = calls_in_order nd cs h.
Proof.
  induction cs as [|c cs IH]; intro h; [reflexivity|]. cbn [map one_by_one calls_in_order]. rewrite calls_sequential.
  destruct (call_seq nd c h) as [[a h']| |]; cbn [bind]; auto.
Qed.
Lemma calls_parallel nd h cs n s : Forall (legal_call h) cs -> no_conflict cs -> steps n (h, map (call_prog nd) cs) s ->
  ~ race s /\ ~ fails s /\ (n <= work h (map (call_prog nd) cs))%nat /\ (finished s \/ exists s', step s s') /\
  (finished s -> forall k c, nth_error cs k = Some c ->
     exists a hk, call_seq nd c h = Ok (a, hk) /\ nth_error (snd s) k = Some (Ret a) /\
       (forall p, call_writes c p -> peek (fst s) p = peek hk p)) /\
  (finished s -> forall p, (forall c, In c cs -> ~ call_writes c p) -> peek (fst s) p = peek h p).
Proof.
  intros L I St. pose proof (calls_return nd h cs L) as Re. pose proof (proj2 (calls_independent nd h cs L) I) as In_.
  destruct (threads_safe _ _ _ _ Re In_ St) as (A1 & A2 & A3 & _ & A5). split; [exact A1|]. split; [exact A2|]. split; [exact A3|].
  split; [exact (threads_finish _ _ _ _ Re In_ St)|]. rewrite Forall_forall in L. split.
  - intros F k c Hk. destruct (A5 F) as (_ & T & _). destruct (footprint_is nd h c (L _ (nth_error_In _ _ Hk))) as ([[a hk] R] & _ & W).
    destruct (T k (call_prog nd c) a hk (map_nth_error _ _ _ Hk) R) as [T1 T2]. rewrite calls_sequential in R.
    exists a, hk. split; [exact R|]. split; [exact T1|]. intros p Wp. apply T2, W. auto.
  - intros F p N. destruct (A5 F) as (_ & _ & O & _). apply O. intros (m & Hm & W). apply in_map_iff in Hm. destruct Hm as (c & <- & Hc).
    apply (N c Hc). apply (footprint_is nd h c (L _ Hc)). auto.
Qed.
Lemma calls_any_order nd h cs cs' : Forall (legal_call h) cs -> no_conflict cs -> Permutation cs cs' ->
  exists h', calls_in_order nd cs' h = Ok h' /\
    forall n s, steps n (h, map (call_prog nd) cs) s -> finished s -> same_memory h' (fst s).
Proof.
  intros L I P. rewrite <- calls_one_by_one. apply threads_any_order; [apply calls_return; auto|apply calls_independent; auto|].
  apply Permutation_map. exact P.
Qed.
Lemma calls_race nd h cs : Forall (legal_call h) cs ->
  (no_conflict cs <-> forall n s, steps n (h, map (call_prog nd) cs) s -> ~ race s).
Proof. intro L. rewrite <- (calls_independent nd h cs L). apply threads_race, calls_return. auto. Qed.
Lemma calls_conflict nd h cs j k cj ck p : Forall (legal_call h) cs -> j <> k -> nth_error cs j = Some cj -> nth_error cs k = Some ck ->
  call_writes cj p -> call_reads ck p \/ call_writes ck p -> exists n s, steps n (h, map (call_prog nd) cs) s /\ race s.
Proof.
  intros L N Hj Hk W RW. rewrite Forall_forall in L.
  destruct (footprint_is nd h cj (L _ (nth_error_In _ _ Hj))) as (_ & Rj & Wj).
  destruct (footprint_is nd h ck (L _ (nth_error_In _ _ Hk))) as (_ & Rk & Wk).
  destruct RW as [R|R].
  - apply (conflict_races h _ j k (call_prog nd cj) (call_prog nd ck) p false); auto using map_nth_error; [apply Wj; auto|apply Rk; auto].
  - apply (conflict_races h _ j k (call_prog nd cj) (call_prog nd ck) p true); auto using map_nth_error; [apply Wj; auto|apply Wk; auto].
Qed.
Lemma calls_complete nd h cs : Forall (legal_call h) cs -> no_conflict cs ->
  exists s, steps (work h (map (call_prog nd) cs)) (h, map (call_prog nd) cs) s /\ finished s.
Proof.
  intros L I. pose proof (calls_return nd h cs L) as Re. pose proof (proj2 (calls_independent nd h cs L) I) as In_.
  destruct (complete_from h _ Re In_ _ 0 (h, map (call_prog nd) cs) eq_refl (no_steps _)) as (s & S).
  exists s. split; [exact S|]. destruct (threads_safe _ _ _ _ Re In_ S) as (_ & _ & _ & F & _). apply F. reflexivity.
Qed.
End Calls.

(** ** Tiles *)
Lemma foldM_flat_map {A B S} (f : S -> B -> outcome S) (g : A -> list B) l : forall s,
  foldM f (flat_map g l) s = foldM (fun s a => foldM f (g a) s) l s.
Proof.
  induction l as [|a l IH]; intro s; [reflexivity|]. cbn [flat_map foldM]. rewrite foldM_app.
  destruct (foldM f (g a) s); cbn [bind]; auto.
Qed.
Lemma foldM_map {A B S} (f : S -> B -> outcome S) (g : A -> B) l : forall s, foldM f (map g l) s = foldM (fun s a => f s (g a)) l s.
Proof. induction l as [|a l IH]; intro s; cbn [map foldM]; [reflexivity|]. destruct (f s (g a)); cbn [bind]; auto. Qed.
Lemma foldM_ext {A S} (f g : S -> A -> outcome S) l : (forall s a, f s a = g s a) -> forall s, foldM f l s = foldM g l s.
Proof. intro E. induction l as [|a l IH]; intro s; cbn [foldM]; [reflexivity|]. rewrite E. destruct (g s a); cbn [bind]; auto. Qed.
Lemma foldM_collect {A} (l : list A) : forall s, foldM (fun s a => Ok (s ++ [a])) l s = Ok (s ++ l).
Proof. induction l as [|a l IH]; intro s; cbn [foldM bind]; [rewrite app_nil_r; auto|]. rewrite IH, <- app_assoc. reflexivity. Qed.
Definition hit (t : list sarg) (i : list Z) : bool := forallb (fun p => argb (fst p) (snd p)) (combine t i).
Lemma count_prepend x i l t : length (filter (fun t => hit t (x :: i)) (map (fun a => a :: t) l)) = (args_count x l * if hit t i then 1 else 0)%nat.
Proof.
  unfold args_count. induction l as [|a l IH]; [reflexivity|]. cbn [map filter].
  change (hit (a :: t) (x :: i)) with (argb a x && hit t i).
  revert IH. destruct (argb a x), (hit t i); cbn [andb length]; intros; lia.
Qed.
Lemma count_flat x i l T : length (filter (fun t => hit t (x :: i)) (flat_map (fun t => map (fun a => a :: t) l) T)) =
  (args_count x l * length (filter (fun t => hit t i) T))%nat.
Proof.
  induction T as [|t T IH]; cbn [flat_map filter]; [cbn [length]; lia|]. rewrite filter_app, app_length, IH, count_prepend.
  destruct (hit t i); cbn [length]; lia.
Qed.
Lemma tiles_ok nd sps ds : Forall2 splits sps ds -> exists T, tiles_of nd sps ds = Ok T /\
  (forall S (body : list sarg -> S -> outcome S) s, for_tiles_nd nd sps ds body s = foldM (fun s t => body t s) T s) /\
  Forall (fun t => Forall2 good_arg t ds) T /\
  (forall i, in_bounds ds i -> length (filter (fun t => hit t i) T) = visits sps ds i).
Proof.
  intro F.
  assert (H : exists T, (forall S (body : list sarg -> S -> outcome S) s, for_tiles_nd nd sps ds body s = foldM (fun s t => body t s) T s) /\
    Forall (fun t => Forall2 good_arg t ds) T /\ (forall i, in_bounds ds i -> length (filter (fun t => hit t i) T) = visits sps ds i)).
  { induction F as [|sp d sps ds Sp F (T & E & G & C)].
    - exists [[]]. split; [intros; cbn; destruct (body [] s); reflexivity|]. split; [repeat constructor|].
      intros i Hi. inv Hi. reflexivity.
    - destruct (split_along_ok nd sp d Sp) as (l & El & Fl & Cl).
      exists (flat_map (fun t => map (fun a => a :: t) l) T). split; [|split].
      + intros S body s. cbn [for_tiles_nd]. rewrite E, foldM_flat_map. apply foldM_ext. intros s' t. unfold for_in. rewrite El. cbn [bind].
        rewrite foldM_map. reflexivity.
      + rewrite Forall_forall in *. intros t Ht. apply in_flat_map in Ht. destruct Ht as (t' & Ht' & Ha). apply in_map_iff in Ha.
        destruct Ha as (a & <- & Ha). constructor; auto.
      + intros i Hi. inversion Hi as [|? x ? i' Hx Hi']; subst. rewrite count_flat, C, Cl by auto. destruct sp; cbn [visits count1]; lia. }
  destruct H as (T & E & G & C). exists T. split; [|auto]. unfold tiles_of. rewrite E. rewrite (foldM_collect T []). reflexivity.
Qed.
Lemma one_hit {X} (f : X -> bool) l : (length (filter f l) <= 1)%nat -> forall j k x y, nth_error l j = Some x -> nth_error l k = Some y ->
  f x = true -> f y = true -> j = k.
Proof.
  intro L.
  assert (Z0 : forall (l : list X) k x, nth_error l k = Some x -> f x = true -> (1 <= length (filter f l))%nat).
  { clear. intros l k x Hk Hx. assert (In x (filter f l)) by (apply filter_In; split; auto; eapply nth_error_In; eauto).
    destruct (filter f l); [contradiction|cbn; lia]. }
  revert L. induction l as [|a l IH]; intros L [|j] [|k] x y Hj Hk Fx Fy; cbn [nth_error filter] in *; try discriminate; auto.
  - injection Hj as ->. rewrite Fx in L. cbn [length] in L. specialize (Z0 _ _ _ Hk Fy). lia.
  - injection Hk as ->. rewrite Fy in L. cbn [length] in L. specialize (Z0 _ _ _ Hj Fx). lia.
  - f_equal. eapply IH; eauto. destruct (f a); cbn [length] in L; lia.
Qed.
Lemma two_hits {X} (f : X -> bool) l : (2 <= length (filter f l))%nat -> exists j k x y, j <> k /\ nth_error l j = Some x /\ nth_error l k = Some y /\
  f x = true /\ f y = true.
Proof.
  induction l as [|a l IH]; cbn [filter length]; [lia|]. destruct (f a) eqn:Fa; cbn [length]; intro L.
  - destruct (filter f l) as [|b r] eqn:E; [cbn in L; lia|].
    assert (Hb : In b (filter f l)) by (rewrite E; left; auto). apply filter_In in Hb. destruct Hb as [Hb Fb].
    destruct (In_nth_error _ _ Hb) as [k Hk]. exists 0%nat, (S k), a, b. auto.
  - destruct (IH L) as (j & k & x & y & N & H). exists (S j), (S k), x, y. auto.
Qed.

Section Tiles.
Context {V : Type}.
Implicit Types (h : heap V) (C : aref).

Lemma tile_elems h C t : Forall2 good_arg t (r_shape C) -> view_alive h C ->
  extents_ge 0 (r_shape (ref_slice C t)) /\
  (forall i, in_bounds (r_shape (ref_slice C t)) i <-> in_bounds (r_shape C) i /\ hit t i = true) /\
  (forall i, in_bounds (r_shape (ref_slice C t)) i -> elem (r_base (ref_slice C t)) (r_shape (ref_slice C t)) i = elem (r_base C) (r_shape C) i).
Proof.
  intros G Al. destruct (good_slice _ _ G) as (L & K & W & X & Fu & In_).
  change (r_shape (ref_slice C t)) with (shape_slice (r_shape C) t) at 1 2 3. split; [exact X|].
  assert (Sub : forall i, in_bounds (shape_slice (r_shape C) t) i -> in_bounds (r_shape C) i).
  { intros i Hi. pose proof (slice_in_bounds t (r_shape C) i L Hi) as [Li Se]. rewrite Fu in Se by lia. eapply selects_within; eauto. }
  split.
  - intro i. split.
    + intro Hi. pose proof (Sub i Hi) as Ci. split; [exact Ci|]. unfold hit. apply forallb_combine.
      * pose proof (Forall2_len _ _ _ Ci). lia.
      * apply In_; auto.
    + intros [Ci H]. apply In_; auto. apply forallb_combine; auto. pose proof (Forall2_len _ _ _ Ci). lia.
  - intros i Hi. pose proof (Sub i Hi) as Ci. assert (Nz : fst (r_base C) <> 0%nat).
    { destruct (Al i Ci) as [v Hv]. apply (peek_block h (elem (r_base C) (r_shape C) i) (Live v)). exact Hv. }
    destruct (slice_denotes C t L Nz) as (_ & P & _). pose proof (slice_in_bounds t (r_shape C) i L Hi) as [Li _].
    rewrite <- elem_ref, P by auto. rewrite Fu by lia. reflexivity.
Qed.
Lemma tile_is_elem h C t p : Forall2 good_arg t (r_shape C) -> view_alive h C ->
  (is_elem (r_base (ref_slice C t)) (r_shape (ref_slice C t)) p <-> exists i, in_bounds (r_shape C) i /\ hit t i = true /\ p = elem (r_base C) (r_shape C) i).
Proof.
  intros G Al. destruct (tile_elems h C t G Al) as (_ & B & E). split.
  - intros (i & Hi & ->). exists i. rewrite E by auto. apply B in Hi. tauto.
  - intros (i & Hi & H & ->). exists i. assert (Ti : in_bounds (r_shape (ref_slice C t)) i) by (apply B; auto). rewrite E by auto. auto.
Qed.
Lemma tile_alive h C t : Forall2 good_arg t (r_shape C) -> view_alive h C -> view_alive h (ref_slice C t).
Proof. intros G Al i Hi. destruct (tile_elems h C t G Al) as (_ & B & E). rewrite E by auto. apply Al. apply B. auto. Qed.
Lemma shows_alive h C g : shows h C g -> view_alive h C.
Proof. intros S i Hi. exists (g i). auto. Qed.

(** Each tile by a thread of its own *)
Section Each.
Variables (nd : bool) (C : aref) (sps : list splitter) (h : heap V).
Variable work_on : aref -> call V.
Hypothesis F : Forall2 splits sps (r_shape C).
Hypothesis Al : view_alive h C.
Hypothesis legal : forall t, Forall2 good_arg t (r_shape C) -> legal_call h (work_on (ref_slice C t)).
Hypothesis writes : forall r p, call_writes (work_on r) p <-> is_elem (r_base r) (r_shape r) p.

Lemma tiles_no_conflict T : injective_layout (r_shape C) -> Forall (fun t => Forall2 good_arg t (r_shape C)) T ->
  (forall i, in_bounds (r_shape C) i -> length (filter (fun t => hit t i) T) = 1%nat) ->
  (forall t p i, Forall2 good_arg t (r_shape C) -> call_reads (work_on (ref_slice C t)) p -> in_bounds (r_shape C) i -> p = elem (r_base C) (r_shape C) i ->
     hit t i = true) ->
  no_conflict (map (fun t => work_on (ref_slice C t)) T).
Proof.
  intros Inj G One Rd j k cj ck p N Hj Hk Wj. rewrite nth_error_map in Hj, Hk.
  destruct (nth_error T j) as [tj|] eqn:Ej; [|discriminate]. destruct (nth_error T k) as [tk|] eqn:Ek; [|discriminate].
  injection Hj as <-. injection Hk as <-. rewrite Forall_forall in G.
  pose proof (G _ (nth_error_In _ _ Ej)) as Gj. pose proof (G _ (nth_error_In _ _ Ek)) as Gk.
  apply writes in Wj. apply (tile_is_elem h C tj p Gj Al) in Wj. destruct Wj as (i & Hi & Hitj & ->).
  assert (No : hit tk i <> true).
  { intro Hitk. apply N. eapply (one_hit (fun t => hit t i) T); eauto. rewrite One by auto. lia. }
  split.
  - intro R. apply No. eapply Rd; eauto.
  - intro Wk. apply writes in Wk. apply (tile_is_elem h C tk _ Gk Al) in Wk. destruct Wk as (i' & Hi' & Hit' & E).
    apply elem_inj in E. apply Inj in E; auto. subst i'. auto.
Qed.
Lemma overlapping_tiles_race T : extents_ge 1 (r_shape C) -> ~ Forall2 splits_evenly sps (r_shape C) ->
  tiles_of nd sps (r_shape C) = Ok T ->
  exists n s, steps n (h, map (fun t => call_prog nd (work_on (ref_slice C t))) T) s /\ race s.
Proof.
  intros X Ne ET. destruct (tiles_ok nd sps (r_shape C) F) as (T' & ET' & _ & G & Cnt). rewrite ET in ET'. injection ET' as <-.
  destruct (overlap_exists sps (r_shape C) F X Ne) as (i & Hi & V2). rewrite <- Cnt in V2 by auto.
  destruct (two_hits _ _ V2) as (j & k & tj & tk & N & Ej & Ek & Hj & Hk). rewrite Forall_forall in G.
  rewrite <- (map_map (fun t => work_on (ref_slice C t)) (call_prog nd)).
  apply (calls_conflict nd h _ j k (work_on (ref_slice C tj)) (work_on (ref_slice C tk)) (elem (r_base C) (r_shape C) i)); auto.
  - apply Forall_forall. intros c Hc. apply in_map_iff in Hc. destruct Hc as (t & <- & Ht). auto.
  - rewrite nth_error_map, Ej. reflexivity.
  - rewrite nth_error_map, Ek. reflexivity.
  - apply writes. apply (tile_is_elem h C tj _ (G _ (nth_error_In _ _ Ej)) Al). eauto.
  - right. apply writes. apply (tile_is_elem h C tk _ (G _ (nth_error_In _ _ Ek)) Al). eauto.
Qed.
End Each.

(** ** r(i) = u(i, r(i)), each tile by a thread *)
Lemma update_tile_legal h C t u : Forall2 good_arg t (r_shape C) -> view_alive h C -> legal_call h (KUpdate (ref_slice C t) u).
Proof. intros G Al. split; [apply (tile_elems h C t G Al)|apply tile_alive; auto]. Qed.
Lemma updates_in_order nd u C T : forall h, calls_in_order nd (map (fun t => KUpdate (ref_slice C t) u) T) h =
  foldM (fun h t => update_view u (ref_slice C t) h) T h.
Proof.
  induction T as [|t T IH]; intro h; [reflexivity|]. cbn [map calls_in_order call_seq foldM].
  destruct (update_view u (ref_slice C t) h); cbn [bind]; auto.
Qed.
Lemma update_tiles nd u C sps h g : injective_layout (r_shape C) -> Forall2 splits sps (r_shape C) ->
  Forall2 splits_evenly sps (r_shape C) -> usable_heap h -> shows h C g ->
  exists T N, tiles_of nd sps (r_shape C) = Ok T /\
    forall n s, steps n (h, map (fun t => call_prog nd (KUpdate (ref_slice C t) u)) T) s ->
      ~ race s /\ ~ fails s /\ (n <= N)%nat /\ (finished s \/ exists s', step s s') /\
      (finished s -> shows (fst s) C (fun i => u i (g i)) /\ forall p, ~ is_elem (r_base C) (r_shape C) p -> peek (fst s) p = peek h p).
Proof.
  intros Inj F Ev Us Sh. pose proof (shows_alive _ _ _ Sh) as Al. destruct (tiles_ok nd sps (r_shape C) F) as (T & ET & EF & G & Cnt).
  pose (cs := map (fun t => KUpdate (ref_slice C t) u) T).
  assert (L : Forall (legal_call h) cs).
  { apply Forall_map. eapply Forall_impl; [|exact G]. cbn beta. intros t Gt. apply update_tile_legal; auto. }
  assert (NC : no_conflict cs).
  { apply (tiles_no_conflict C h (fun r => KUpdate r u)); auto.
    - intros t Gt. apply update_tile_legal; auto.
    - intros. reflexivity.
    - intros i Hi. rewrite Cnt by auto. apply visits_even. auto.
    - intros t p i Gt R Hi ->. apply (tile_is_elem h C t _ Gt Al) in R. destruct R as (i' & Hi' & Ht & E). apply elem_inj in E.
      apply Inj in E; auto. subst i'. auto. }
  exists T, (work h (map (call_prog nd) cs)). split; [exact ET|]. intros n s St.
  replace (map (fun t => call_prog nd (KUpdate (ref_slice C t) u)) T) with (map (call_prog nd) cs) in St
    by (unfold cs; rewrite map_map; reflexivity).
  destruct (calls_parallel nd h cs n s L NC St) as (A1 & A2 & A3 & A4 & _ & _).
  split; [exact A1|]. split; [exact A2|]. split; [exact A3|]. split; [exact A4|]. intro Fi.
  destruct (calls_any_order nd h cs cs L NC (Permutation_refl _)) as (h' & Ec & Sm). specialize (Sm n s St Fi).
  destruct (tiled_as_untiled C nd u sps h g Inj F Us Sh (or_intror Ev)) as (h1 & h2 & E1 & _ & S1 & _ & O1).
  unfold cs in Ec. rewrite updates_in_order in Ec. unfold update_tiled in E1. rewrite EF in E1. rewrite E1 in Ec. injection Ec as ->.
  assert (Pk : forall p, peek (fst s) p = peek h' p) by (intro p; apply Sm; intros []).
  split.
  - intros i Hi. unfold holds. rewrite Pk. apply (S1 i Hi).
  - intros p Np. rewrite Pk. apply O1. auto.
Qed.
Lemma update_tiles_race nd u C sps h T : Forall2 splits sps (r_shape C) -> extents_ge 1 (r_shape C) ->
  ~ Forall2 splits_evenly sps (r_shape C) -> view_alive h C -> tiles_of nd sps (r_shape C) = Ok T ->
  exists n s, steps n (h, map (fun t => call_prog nd (KUpdate (ref_slice C t) u)) T) s /\ race s.
Proof.
  intros F X Ne Al ET. apply (overlapping_tiles_race nd C sps h (fun r => KUpdate r u)); auto.
  - intros t Gt. apply update_tile_legal; auto.
  - intros. reflexivity.
Qed.

(** ** C(i, j) = sum of A(i, k) * B(k, j), each tile of C by a thread *)
Section Product.
Variables (zero : V) (add mul : V -> V -> V) (nd : bool) (h : heap V) (A B C : aref) (f g : list Z -> V) (ai ak bk bj ci cj : dim).
Hypothesis S : setting h A B C f g ai ak bk bj ci cj.
Lemma product_alive : view_alive h C.
Proof. destruct S as [_ _ _ _ _ (_ & _ & Al & _) _]. exact Al. Qed.
Lemma tile_shape t : Forall2 good_arg t (r_shape C) -> exists ci' cj', r_shape (ref_slice C t) = [ci'; cj'] /\
  0 <= dext ci' /\ 0 <= dext cj' /\ inside ci' ci /\ inside cj' cj.
Proof.
  intro G. pose proof (good_slice _ _ G) as (_ & _ & _ & X & _). cbn [ref_slice make_array_ref_at r_shape].
  rewrite (s_C _ _ _ _ _ _ _ _ _ _ _ _ S) in *.
  inversion G as [|a ? t' ? Ga G1]; subst. inversion G1 as [|a' ? t'' ? Ga' G2]; subst. inversion G2; subst.
  assert (K : forall a d, good_arg a d -> inside (range_with_stride a d) d).
  { intros b d Gb x Hx. destruct b; cbn in *; try contradiction; [|exact Hx]. apply Gb. exact Hx. }
  assert (E : shape_slice [ci; cj] [a; a'] = [range_with_stride a ci; range_with_stride a' cj]).
  { rewrite !shape_slice_cons. destruct a; try contradiction; destruct a'; try contradiction; reflexivity. }
  rewrite E in *. exists (range_with_stride a ci), (range_with_stride a' cj). inversion X as [|? ? X1 X2]; subst. inversion X2; subst. auto 6.
Qed.
Lemma tile_setting t : Forall2 good_arg t (r_shape C) -> exists ci' cj', setting h A B (ref_slice C t) f g ai ak bk bj ci' cj'.
Proof.
  intro G. destruct (tile_shape t G) as (ci' & cj' & Et & X1 & X2 & I1 & I2). exists ci', cj'.
  pose proof product_alive as Al. destruct (tile_elems h C t G Al) as (_ & Bt & El).
  destruct S as [EA EB EC (Y1 & Y2 & Y3) (J1 & J2 & J3) (ShA & ShB & _ & Inj & ApA & ApB) Us].
  constructor; auto.
  - split; [|split]; [intros x Hx; apply J1, I1; auto|exact J2|intros x Hx; apply J3, I2; auto].
  - split; [exact ShA|]. split; [exact ShB|]. split; [apply tile_alive; auto|]. split.
    + intros i j Hi Hj E. apply Inj; [apply Bt; auto|apply Bt; auto|]. apply (elem_inj (r_base C)). rewrite <- !El by auto.
      unfold elem. rewrite E. reflexivity.
    + split; intros i Hi Q; apply (tile_is_elem h C t _ G Al) in Q; destruct Q as (k & Hk & _ & E); [apply (ApA i Hi)|apply (ApB i Hi)];
        rewrite E; exists k; auto.
Qed.
Lemma product_tile_legal t : Forall2 good_arg t (r_shape C) -> legal_call h (KMultiply zero add mul A B (ref_slice C t)).
Proof.
  intro G. destruct (tile_setting t G) as (ci' & cj' & [EA EB EC X I (ShA & ShB & Al & _) Us]). split.
  - exists ai, ak, bk, bj, ci', cj'. tauto.
  - split; [eapply shows_alive; eauto|]. split; [eapply shows_alive; eauto|exact Al].
Qed.
Lemma product_tiles sps : Forall2 splits sps (r_shape C) -> Forall2 splits_evenly sps (r_shape C) ->
  exists T N, tiles_of nd sps (r_shape C) = Ok T /\
    forall n s, steps n (h, map (fun t => call_prog nd (KMultiply zero add mul A B (ref_slice C t))) T) s ->
      ~ race s /\ ~ fails s /\ (n <= N)%nat /\ (finished s \/ exists s', step s s') /\
      (finished s -> multiplies zero add mul h (Ok (fst s)) C f g (range (dmin ak) (dext ak))).
Proof.
  intros F Ev. pose proof product_alive as Al. destruct (tiles_ok nd sps (r_shape C) F) as (T & ET & EF & G & Cnt).
  pose proof S as [EA EB EC _ (J1 & J2 & J3) (ShA & ShB & _ & Inj & ApA & ApB) Us].
  pose (cs := map (fun t => KMultiply zero add mul A B (ref_slice C t)) T).
  assert (L : Forall (legal_call h) cs).
  { apply Forall_map. eapply Forall_impl; [|exact G]. cbn beta. intros t Gt. apply product_tile_legal; auto. }
  assert (One : forall i, in_bounds (r_shape C) i -> length (filter (fun t => hit t i) T) = 1%nat).
  { intros i Hi. rewrite Cnt by auto. apply visits_even. auto. }
  assert (B2 : forall d d' x y, in_dim d x -> in_dim d' y -> in_bounds [d; d'] [x; y]) by (intros; constructor; [auto|constructor; [auto|constructor]]).
  assert (NC : no_conflict cs).
  { apply (tiles_no_conflict C h (fun r => KMultiply zero add mul A B r)); auto.
    - apply product_tile_legal.
    - intros. reflexivity.
    - intros t p i Gt (x & y & k & Px & R) Hi ->. destruct (tile_shape t Gt) as (ci' & cj' & Et & _ & _ & I1 & I2).
      destruct Px as (? & ? & ? & ? & ? & ? & EA' & EB' & EC' & Hx & Hy & Hk). rewrite EA in EA'. rewrite Et in EC'.
      injection EA' as <- <-. injection EC' as <- <-.
      destruct R as [R|[R|R]].
      + exfalso. apply (ApA [x; k]); [rewrite EA; apply B2; auto; apply J1, I1; auto|]. exists i. auto.
      + exfalso. apply (ApB [k; y]); [rewrite EB; apply B2; auto; apply J3, I2; auto|]. exists i. auto.
      + destruct (tile_elems h C t Gt Al) as (_ & Bt & El). assert (Ht : in_bounds (r_shape (ref_slice C t)) [x; y]) by (rewrite Et; auto).
        rewrite El in R by auto. apply elem_inj in R. apply Inj in R; [|auto|apply Bt; auto]. subst i. apply Bt. auto. }
  exists T, (work h (map (call_prog nd) cs)). split; [exact ET|]. intros n s St.
  replace (map (fun t => call_prog nd (KMultiply zero add mul A B (ref_slice C t))) T) with (map (call_prog nd) cs) in St
    by (unfold cs; rewrite map_map; reflexivity).
  destruct (calls_parallel nd h cs n s L NC St) as (A1 & A2 & A3 & A4 & A5 & A6).
  split; [exact A1|]. split; [exact A2|]. split; [exact A3|]. split; [exact A4|]. intro Fi. exists (fst s). split; [reflexivity|]. split.
  - intros i j Hij. specialize (One [i; j] Hij). destruct (filter (fun t => hit t [i; j]) T) as [|t r] eqn:E; [discriminate|].
    assert (Ht : In t (filter (fun t => hit t [i; j]) T)) by (rewrite E; left; auto). apply filter_In in Ht. destruct Ht as [Ht Hi].
    rewrite Forall_forall in G. pose proof (G t Ht) as Gt. destruct (In_nth_error _ _ Ht) as [k Hk].
    destruct (A5 Fi k (KMultiply zero add mul A B (ref_slice C t))) as (a & hk & Ek & _ & W); [unfold cs; rewrite nth_error_map, Hk; reflexivity|].
    destruct (tile_setting t Gt) as (ci' & cj' & S'). destruct (reduce_cols zero add mul h A B (ref_slice C t) f g ai ak bk bj ci' cj' S') as (h' & Em & Hm & _).
    cbn [call_seq] in Ek. rewrite Em in Ek. cbn [bind] in Ek. injection Ek as _ <-.
    destruct (tile_elems h C t Gt Al) as (_ & Bt & El). assert (Bi : in_bounds (r_shape (ref_slice C t)) [i; j]) by (apply Bt; auto).
    specialize (Hm i j Bi). unfold holds in *. rewrite W; [rewrite <- El by auto; exact Hm|]. cbn [call_writes]. apply (tile_is_elem h C t _ Gt Al). eauto.
  - intros p Np. apply A6; auto. intros c Hc W. apply in_map_iff in Hc. destruct Hc as (t & <- & Ht). rewrite Forall_forall in G.
    cbn [call_writes] in W. apply (tile_is_elem h C t _ (G t Ht) Al) in W. destruct W as (i & Hi & _ & ->). apply Np. exists i. auto.
Qed.
Lemma product_tiles_race sps T : Forall2 splits sps (r_shape C) -> extents_ge 1 (r_shape C) ->
  ~ Forall2 splits_evenly sps (r_shape C) -> tiles_of nd sps (r_shape C) = Ok T ->
  exists n s, steps n (h, map (fun t => call_prog nd (KMultiply zero add mul A B (ref_slice C t))) T) s /\ race s.
Proof.
  intros F X Ne ET. apply (overlapping_tiles_race nd C sps h (fun r => KMultiply zero add mul A B r)); auto.
  - apply product_alive.
  - intros t Gt. apply product_tile_legal; auto.
  - intros. reflexivity.
Qed.
End Product.
End Tiles.
