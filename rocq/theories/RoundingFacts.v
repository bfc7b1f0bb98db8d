(** Proofs about rounding errors of products and convolutions. *)
From Coq Require Import ZArith QArith Qabs List Bool Lia Lqa Qfield.
From Verif Require Import Base Interval Shape Memory Ref Container Ein Matrix Conv Rounding.
From Verif Require Import Spec SpecMem SpecContainer SpecStatic SpecEin SpecMatrix SpecConv SpecRounding.
From Verif Require Import MatrixProd MatrixEin MatrixTiles MatrixZ MatrixOrder ConvFacts.
Import ListNotations.
Local Open Scope Q_scope.

Lemma abs_le x y : Qabs x <= y <-> - y <= x /\ x <= y.
Proof. apply Qabs_Qle_condition. Qed.
Lemma abs_bounds x : - Qabs x <= x /\ x <= Qabs x.
Proof. apply abs_le. apply Qle_refl. Qed.
Lemma nat_q_pos n : 0 <= inject_Z (Z.of_nat n).
Proof. change 0 with (inject_Z 0). rewrite <- Zle_Qle. lia. Qed.
Lemma nat_q_S n : inject_Z (Z.of_nat (S n)) == inject_Z (Z.of_nat n) + 1.
Proof. rewrite Nat2Z.inj_succ. unfold Z.succ. rewrite inject_Z_plus. reflexivity. Qed.
Lemma nat_q_add m n : inject_Z (Z.of_nat (m + n)) == inject_Z (Z.of_nat m) + inject_Z (Z.of_nat n).
Proof. rewrite Nat2Z.inj_add, inject_Z_plus. reflexivity. Qed.
Lemma size_pos t : 0 <= size t.
Proof. induction t; cbn [size]; try apply Qabs_nonneg; try lra. pose proof (Qabs_nonneg (a * b)). lra. Qed.
Lemma meant_size t : Qabs (meant t) <= size t.
Proof.
  induction t; cbn [meant size]; try apply Qle_refl.
  - rewrite abs_le in *. lra.
  - pose proof (abs_bounds (a * b)). rewrite abs_le in *. lra.
Qed.

Section Errors.
Variables (u e : Q) (rnd : Q -> Q).
Hypothesis Hr : rounds u e rnd.
Lemma grow_ge d : 1 <= grow u d.
Proof. destruct Hr as (Hu & _ & _). induction d as [|d IH]; cbn [grow]; [lra|]. assert (0 <= u * grow u d) by (apply Qmult_le_0_compat; lra). lra. Qed.
Lemma round_bounds x y b : Qabs x <= b -> Qabs (rnd x - y) <= Qabs (x - y) + u * b + e.
Proof.
  intros Hb. destruct Hr as (Hu & He & H). specialize (H x).
  assert (u * Qabs x <= u * b) by (rewrite !(Qmult_comm u); apply Qmult_le_compat_r; auto).
  pose proof (abs_bounds (x - y)). rewrite abs_le in H. apply abs_le. lra.
Qed.
Lemma tree_error t : forall d m, (depth t <= d)%nat -> (roundings t <= m)%nat -> Qabs (computed rnd t - meant t) <= error_bound u e d m (size t).
Proof.
  destruct Hr as (Hu & He & _). unfold error_bound. 
  assert (Z0 : forall d m a, 0 <= a -> 0 <= (grow u d - 1) * a + inject_Z (Z.of_nat m) * grow u d * e).
  { intros d m a Ha. pose proof (grow_ge d). pose proof (nat_q_pos m).
    assert (0 <= (grow u d - 1) * a) by (apply Qmult_le_0_compat; lra).
    assert (0 <= inject_Z (Z.of_nat m) * grow u d * e) by (repeat apply Qmult_le_0_compat; lra). lra. }
  induction t as [|a|a b|x IHx y IHy|a b x IHx]; intros d m Hd Hm; cbn [computed meant size depth roundings] in *.
  - setoid_replace (0 - 0) with 0 by ring. apply Z0. lra.
  - setoid_replace (a - a) with 0 by ring. apply Z0. apply Qabs_nonneg.
  - destruct d as [|d]; [lia|]. destruct m as [|m]; [lia|]. unfold rmul.
    pose proof (round_bounds (a * b) (a * b) (Qabs (a * b)) (Qle_refl _)) as B. setoid_replace (a * b - a * b) with 0 in B by ring.
    change (Qabs 0) with 0 in B. pose proof (Qabs_nonneg (a * b)) as P. set (t := Qabs (a * b)) in *.
    rewrite nat_q_S. pose proof (nat_q_pos m) as M. pose proof (grow_ge d) as G. pose proof (grow_ge (S d)) as G'. cbn [grow] in *. set (g := grow u d) in *.
    assert (0 <= u * (g - 1) * t) by (repeat apply Qmult_le_0_compat; lra).
    assert (0 <= (g - 1) * t) by (repeat apply Qmult_le_0_compat; lra).
    assert (0 <= inject_Z (Z.of_nat m) * ((1 + u) * g) * e) by (repeat apply Qmult_le_0_compat; lra).
    assert (0 <= ((1 + u) * g - 1) * e) by (repeat apply Qmult_le_0_compat; lra). lra.
  - destruct d as [|d]; [lia|]. destruct m as [|m]; [lia|].
    specialize (IHx d (roundings x) ltac:(lia) (le_n _)). specialize (IHy d (m - roundings x)%nat ltac:(lia) ltac:(lia)).
    replace m with (roundings x + (m - roundings x))%nat by lia. rewrite nat_q_S, nat_q_add.
    set (mx := inject_Z (Z.of_nat (roundings x))) in *. set (my := inject_Z (Z.of_nat (m - roundings x))) in *.
    unfold radd. pose proof (meant_size x) as Mx. pose proof (meant_size y) as My.
    set (X := computed rnd x) in *. set (Y := computed rnd y) in *. pose proof (grow_ge d) as G. pose proof (grow_ge (S d)) as G'. cbn [grow] in *. set (g := grow u d) in *.
    set (Ex := (g - 1) * size x + mx * g * e) in *. set (Ey := (g - 1) * size y + my * g * e) in *.
    assert (T : Qabs (X + Y) <= size x + size y + Ex + Ey) by (rewrite abs_le in *; lra).
    pose proof (round_bounds (X + Y) (meant x + meant y) _ T) as B.
    assert (D : Qabs (X + Y - (meant x + meant y)) <= Ex + Ey) by (rewrite abs_le in *; lra).
    assert (0 <= ((1 + u) * g - 1) * e) by (repeat apply Qmult_le_0_compat; lra).
    apply Qle_trans with (Ex + Ey + u * (size x + size y + Ex + Ey) + e); [lra|]. unfold Ex, Ey. lra.
  - destruct d as [|d]; [lia|]. destruct m as [|m]; [lia|].
    specialize (IHx d m ltac:(lia) ltac:(lia)). rewrite nat_q_S. set (mx := inject_Z (Z.of_nat m)) in *.
    pose proof (meant_size x) as Mx. pose proof (abs_bounds (a * b)) as My. set (Y := a * b) in *.
    set (X := computed rnd x) in *. pose proof (grow_ge d) as G. pose proof (grow_ge (S d)) as G'. cbn [grow] in *. set (g := grow u d) in *.
    set (Ex := (g - 1) * size x + mx * g * e) in *.
    assert (T : Qabs (Y + X) <= Qabs Y + size x + Ex) by (rewrite abs_le in *; lra).
    pose proof (round_bounds (Y + X) (Y + meant x) _ T) as B.
    assert (D : Qabs (Y + X - (Y + meant x)) <= Ex) by (rewrite abs_le in *; lra).
    assert (0 <= ((1 + u) * g - 1) * e) by (repeat apply Qmult_le_0_compat; lra).
    pose proof (Qabs_nonneg Y). assert (0 <= ((1 + u) * (g - 1)) * Qabs Y) by (repeat apply Qmult_le_0_compat; lra).
    apply Qle_trans with (Ex + u * (Qabs Y + size x + Ex) + e); [lra|]. unfold Ex. lra.
Qed.
(** (1 + u)^d - 1 is at most d u / (1 - d u) *)
Lemma grow_gamma d : inject_Z (Z.of_nat d) * u < 1 ->
  grow u d - 1 <= inject_Z (Z.of_nat d) * u / (1 - inject_Z (Z.of_nat d) * u).
Proof.
  intros Hd. destruct Hr as (Hu & _ & _).
  assert (K : forall n, grow u n * (1 - inject_Z (Z.of_nat n) * u) <= 1).
  { induction n as [|n IH]; [cbn [grow Z.of_nat]; change (inject_Z 0) with 0; lra|]. rewrite nat_q_S. cbn [grow]. pose proof (nat_q_pos n) as P. set (k := inject_Z (Z.of_nat n)) in *.
    pose proof (grow_ge n). set (g := grow u n) in *.
    assert (0 <= g * (u * u)) by (repeat apply Qmult_le_0_compat; lra).
    assert (0 <= g * (k * (u * u))) by (repeat apply Qmult_le_0_compat; lra). lra. }
  specialize (K d). set (k := inject_Z (Z.of_nat d) * u) in *. set (g := grow u d) in *.
  apply Qle_shift_div_l; [lra|]. lra.
Qed.
End Errors.

Section Exact.
Variables (m : Z) (rnd : Q -> Q).
Hypothesis Hk : keeps_integers m rnd.
Lemma integer_mul a b : integer a -> integer b -> integer (a * b).
Proof. intros [x E] [y E']. exists (x * y)%Z. rewrite E, E', inject_Z_mult. reflexivity. Qed.
Lemma integer_add a b : integer a -> integer b -> integer (a + b).
Proof. intros [x E] [y E']. exists (x + y)%Z. rewrite E, E', inject_Z_plus. reflexivity. Qed.
Lemma keeps x : integer x -> Qabs x <= inject_Z m -> rnd x == x.
Proof.
  intros [z E] B. apply (Hk x z E). rewrite E in B. unfold Qabs, inject_Z in B. rewrite Zle_Qle. exact B.
Qed.
Lemma meant_integer t : integers t -> integer (meant t).
Proof.
  induction t; cbn [integers meant]; auto.
  - intros _. exists 0%Z. reflexivity.
  - intros [? ?]. apply integer_mul; auto.
  - intros [? ?]. apply integer_add; auto.
  - intros (? & ? & ?). apply integer_add; auto. apply integer_mul; auto.
Qed.
Lemma integer_eq a b : a == b -> integer a -> integer b.
Proof. intros E [z H]. exists z. rewrite <- E. exact H. Qed.
Lemma tree_exact t : integers t -> size t <= inject_Z m -> computed rnd t == meant t.
Proof.
  assert (K : forall x y, integer y -> Qabs y <= inject_Z m -> x == y -> rnd x == y).
  { intros x y I B E. rewrite keeps; auto; [apply (integer_eq y); auto; rewrite E; reflexivity|rewrite E; auto]. }
  induction t as [|a|a b|x IHx y IHy|a b x IHx]; cbn [integers size computed meant]; intros I B; try reflexivity.
  - destruct I. apply K; [apply integer_mul|auto|reflexivity]; auto.
  - destruct I as [Ix Iy]. pose proof (size_pos x). pose proof (size_pos y). apply K.
    + apply integer_add; apply meant_integer; auto.
    + pose proof (meant_size x). pose proof (meant_size y). rewrite abs_le in *. lra.
    + rewrite IHx, IHy by (auto; lra). reflexivity.
  - destruct I as (Ia & Ib & Ix). pose proof (Qabs_nonneg (a * b)). apply K.
    + apply integer_add; [apply integer_mul|apply meant_integer]; auto.
    + pose proof (meant_size x). pose proof (abs_bounds (a * b)). rewrite abs_le in *. lra.
    + rewrite IHx by (auto; lra). reflexivity.
Qed.
End Exact.

(** ** Sums in a loop *)
Definition qsum (l : list Q) : Q := fold_right Qplus 0 l.
Lemma qsum_app a b : qsum (a ++ b) == qsum a + qsum b.
Proof. induction a as [|x a IH]; cbn [app qsum fold_right]; [unfold qsum; cbn [fold_right]; ring|]. fold (qsum (a ++ b)). fold (qsum a). rewrite IH. ring. Qed.
Lemma fold_qsum l : forall w, fold_left Qplus l w == w + qsum l.
Proof. induction l as [|x l IH]; intros w; cbn [fold_left qsum fold_right]; [ring|]. rewrite IH. fold (qsum l). ring. Qed.
Definition loop (ts : list sum_tree) (t0 : sum_tree) : sum_tree := fold_left Plus ts t0.
Lemma loop_computed rnd ts : forall t0, computed rnd (loop ts t0) = fold_left (radd rnd) (map (computed rnd) ts) (computed rnd t0).
Proof. induction ts as [|t ts IH]; intros t0; [reflexivity|]. apply (IH (Plus t0 t)). Qed.
Lemma loop_meant ts : forall t0, meant (loop ts t0) == meant t0 + qsum (map meant ts).
Proof. induction ts as [|t ts IH]; intros t0; cbn [map qsum fold_right]; [unfold loop; cbn [fold_left]; ring|]. change (loop (t :: ts) t0) with (loop ts (Plus t0 t)). rewrite IH. cbn [meant]. fold (qsum (map meant ts)). ring. Qed.
Lemma loop_size ts : forall t0, size (loop ts t0) == size t0 + qsum (map size ts).
Proof. induction ts as [|t ts IH]; intros t0; cbn [map qsum fold_right]; [unfold loop; cbn [fold_left]; ring|]. change (loop (t :: ts) t0) with (loop ts (Plus t0 t)). rewrite IH. cbn [size]. fold (qsum (map size ts)). ring. Qed.
Lemma loop_depth d ts : Forall (fun t => (depth t <= d)%nat) ts -> forall t0 d', (depth t0 <= d')%nat -> (d <= d')%nat -> (depth (loop ts t0) <= d' + length ts)%nat.
Proof.
  induction 1 as [|t ts H _ IH]; intros t0 d' H0 L; cbn [length]; [cbn; lia|]. change (loop (t :: ts) t0) with (loop ts (Plus t0 t)).
  specialize (IH (Plus t0 t) (S d')). cbn [depth] in IH. lia.
Qed.
Lemma loop_roundings ts : forall t0, roundings (loop ts t0) = (roundings t0 + list_sum (map roundings ts) + length ts)%nat.
Proof. induction ts as [|t ts IH]; intros t0; cbn [length map list_sum fold_right]; [cbn; lia|]. change (loop (t :: ts) t0) with (loop ts (Plus t0 t)). rewrite IH. cbn [roundings]. unfold list_sum. lia. Qed.
Lemma loop_integers ts : forall t0, integers t0 -> Forall integers ts -> integers (loop ts t0).
Proof. induction ts as [|t ts IH]; intros t0 I F; [exact I|]. inversion F; subst. apply (IH (Plus t0 t)); auto. split; auto. Qed.

Section Product.
Variables (f g : list Z -> Q) (i j : Z).
Definition term (k : Z) : sum_tree := Times (f [i; k]) (g [k; j]).
Definition dot (ks : list Z) : sum_tree := loop (map term ks) Zero.
Lemma dot_computed rnd ks : computed rnd (dot ks) = inner_product 0 (radd rnd) (rmul rnd) f g ks i j.
Proof. unfold dot. rewrite loop_computed, map_map. reflexivity. Qed.
Lemma dot_meant ks : meant (dot ks) == product f g ks i j.
Proof. unfold dot, product, inner_product. rewrite loop_meant, fold_qsum, map_map. reflexivity. Qed.
Lemma dot_size ks : size (dot ks) == abs_product f g ks i j.
Proof.
  unfold dot, abs_product, inner_product. rewrite loop_size, fold_qsum, map_map. cbn [size]. apply Qplus_comp; [reflexivity|].
  induction ks as [|k ks IH]; [reflexivity|]. cbn [map qsum fold_right size term]. unfold qsum in IH. rewrite IH, Qabs_Qmult. reflexivity.
Qed.
Lemma dot_depth ks : (depth (dot ks) <= S (length ks))%nat.
Proof.
  unfold dot. rewrite <- (map_length term ks). apply (loop_depth 1 (map term ks)) with (t0 := Zero) (d' := 1%nat); cbn [depth]; auto. apply Forall_map, Forall_forall. intros; cbn; auto.
Qed.
Lemma dot_roundings ks : roundings (dot ks) = (2 * length ks)%nat.
Proof.
  unfold dot. rewrite loop_roundings, map_length, map_map. cbn [roundings]. replace (list_sum (map (fun x => roundings (term x)) ks)) with (length ks); [lia|].
  induction ks as [|k ks IH]; [reflexivity|]. cbn. f_equal. exact IH.
Qed.
Lemma dot_integers ks : (forall k, In k ks -> integer (f [i; k]) /\ integer (g [k; j])) -> integers (dot ks).
Proof.
  intros H. apply loop_integers; [exact I|]. apply Forall_map, Forall_forall. intros k Hk. apply H; auto.
Qed.
(** Blocks of the sum *)
Definition blocks (b : list Z) (r : list (list Z)) : sum_tree := loop (map dot r) (dot b).
Lemma blocks_meant b r : meant (blocks b r) == product f g (b ++ concat r) i j.
Proof.
  unfold blocks. rewrite loop_meant, map_map. rewrite <- (dot_meant (b ++ concat r)). unfold dot. rewrite !loop_meant. rewrite map_app, map_app, qsum_app.
  assert (E : qsum (map (fun x => meant (dot x)) r) == qsum (map meant (map term (concat r)))); [|unfold dot in E; rewrite E; cbn [meant]; ring].
  induction r as [|a r IH]; [reflexivity|]. cbn [map concat qsum fold_right]. unfold qsum in IH at 1. rewrite IH, map_app, map_app, qsum_app.
  apply Qplus_comp; [|reflexivity]. unfold dot. rewrite loop_meant. cbn [meant]. ring.
Qed.
Lemma blocks_size b r : size (blocks b r) == abs_product f g (b ++ concat r) i j.
Proof.
  unfold blocks. rewrite loop_size, map_map. rewrite <- (dot_size (b ++ concat r)). unfold dot. rewrite !loop_size. rewrite map_app, map_app, qsum_app.
  assert (E : qsum (map (fun x => size (dot x)) r) == qsum (map size (map term (concat r)))); [|unfold dot in E; rewrite E; cbn [size]; ring].
  induction r as [|a r IH]; [reflexivity|]. cbn [map concat qsum fold_right]. unfold qsum in IH at 1. rewrite IH, map_app, map_app, qsum_app.
  apply Qplus_comp; [|reflexivity]. unfold dot. rewrite loop_size. cbn [size]. ring.
Qed.
Lemma blocks_depth b r n : (length b <= n)%nat -> Forall (fun a => (length a <= n)%nat) r -> (depth (blocks b r) <= S n + length r)%nat.
Proof.
  intros Hb Hr. unfold blocks. rewrite <- (map_length dot r). apply (loop_depth (S n)); auto.
  - apply Forall_map. eapply Forall_impl; [|exact Hr]. cbn beta. intros a Ha. pose proof (dot_depth a). lia.
  - pose proof (dot_depth b). lia.
Qed.
Lemma blocks_roundings b r : roundings (blocks b r) = (2 * length (b ++ concat r) + length r)%nat.
Proof.
  unfold blocks. rewrite loop_roundings, map_length, map_map, dot_roundings, app_length.
  assert (E : list_sum (map (fun x => roundings (dot x)) r) = (2 * length (concat r))%nat); [|lia].
  induction r as [|a r IH]; [reflexivity|]. cbn [map concat list_sum fold_right]. rewrite app_length, dot_roundings. unfold list_sum in *. rewrite IH. lia.
Qed.
Lemma blocks_integers b r : (forall k, In k (b ++ concat r) -> integer (f [i; k]) /\ integer (g [k; j])) -> integers (blocks b r).
Proof.
  intros H. apply loop_integers.
  - apply dot_integers. intros k Hk. apply H, in_or_app. auto.
  - apply Forall_map, Forall_forall. intros a Ha. apply dot_integers. intros k Hk. apply H, in_or_app. right. apply in_concat. eauto.
Qed.
End Product.
