(** A concrete rounding, and the matrices and the convolution of MatrixCases.v and ConvCases.v with other elements. *)
From Coq Require Import ZArith QArith Qabs Qround Qpower List Bool Lia Lqa.
From Verif Require Import Tac Base Interval Shape Memory Ref Spec SpecMem SpecContainer Container Ein SpecEin Matrix SpecMatrix Conv SpecConv
  ShapeFacts MemFacts MatrixProd ContainerCases EinUses EinCases MatrixCases ConvCases Rounding SpecRounding RoundingFacts RoundingProps.
Import ListNotations.
Local Open Scope Q_scope.

(** ** Numbers of [p] digits: each number is rounded down to a multiple of a power of 2 *)
Definition scale (p : Z) (x : Q) : Z := p - (Z.log2 (Z.abs (Qnum x)) - Z.log2 (Zpos (Qden x))).
Definition fl (p : Z) (x : Q) : Q := inject_Z (Qfloor (x * 2 ^ scale p x)) * 2 ^ (- scale p x).
Lemma two_pow_pos k : 0 < 2 ^ k.
Proof. apply Qpower_0_lt. reflexivity. Qed.
Lemma two_pow_opp k : 2 ^ k * 2 ^ (- k) == 1.
Proof. rewrite <- Qpower_plus by discriminate. replace (k + - k)%Z with 0%Z by lia. reflexivity. Qed.
Lemma two_pow_Z k : (0 <= k)%Z -> 2 ^ k == inject_Z (2 ^ k).
Proof. intros. rewrite Zpower_Qpower by auto. reflexivity. Qed.
Lemma floor_near y : Qabs (inject_Z (Qfloor y) - y) <= 1.
Proof.
  pose proof (Qfloor_le y). pose proof (Qlt_floor y). rewrite inject_Z_plus in *. change (inject_Z 1) with 1 in *. apply abs_le. lra.
Qed.
(** The power of 2 is at most twice the number *)
Lemma log_bound x : ~ x == 0 -> 2 ^ (Z.log2 (Z.abs (Qnum x)) - Z.log2 (Zpos (Qden x))) <= 2 * Qabs x.
Proof.
  intros Hx. assert (Hn : (0 < Z.abs (Qnum x))%Z). { assert (Qnum x <> 0)%Z by (intros E; apply Hx; unfold Qeq; cbn; lia). lia. }
  set (a := Z.log2 (Z.abs (Qnum x))). set (b := Z.log2 (Zpos (Qden x))).
  assert (Ha : (2 ^ a <= Z.abs (Qnum x))%Z) by (apply Z.log2_spec; auto).
  assert (Hb : (Zpos (Qden x) < 2 * 2 ^ b)%Z). { pose proof (proj2 (Z.log2_spec (Zpos (Qden x)) eq_refl)) as L. rewrite Z.pow_succ_r in L by apply Z.log2_nonneg. exact L. }
  pose proof (Z.log2_nonneg (Z.abs (Qnum x))) as Pa. pose proof (Z.log2_nonneg (Zpos (Qden x))) as Pb. fold a in Pa. fold b in Pb.
  assert (E : 2 ^ (a - b) == inject_Z (2 ^ a) / inject_Z (2 ^ b)).
  { unfold Z.sub. rewrite Qpower_plus by discriminate. rewrite Qpower_opp, !two_pow_Z by auto. reflexivity. }
  rewrite E. assert (Pb2 : 0 < inject_Z (2 ^ b)) by (rewrite <- two_pow_Z by auto; apply two_pow_pos).
  apply Qle_shift_div_r; auto.
  assert (EA : Qabs x == inject_Z (Z.abs (Qnum x)) / inject_Z (Zpos (Qden x))).
  { destruct x as [n d]. cbn [Qnum Qden]. change (Qabs (n # d)) with (Z.abs n # d). rewrite (Qmake_Qdiv (Z.abs n) d). reflexivity. }
  rewrite EA. assert (Pd : 0 < inject_Z (Zpos (Qden x))) by reflexivity.
  assert (G : inject_Z (2 ^ a) * inject_Z (Zpos (Qden x)) <= 2 * inject_Z (Z.abs (Qnum x)) * inject_Z (2 ^ b)).
  { change 2 with (inject_Z 2). rewrite <- !inject_Z_mult. rewrite <- Zle_Qle. nia. }
  setoid_replace (2 * (inject_Z (Z.abs (Qnum x)) / inject_Z (Z.pos (Qden x))) * inject_Z (2 ^ b))
    with (2 * inject_Z (Z.abs (Qnum x)) * inject_Z (2 ^ b) / inject_Z (Z.pos (Qden x))) by (field; lra).
  apply Qle_shift_div_l; auto.
Qed.
Lemma fl_zero p x : x == 0 -> fl p x == 0.
Proof.
  intros E. unfold fl. generalize (scale p x). intros s. assert (F : Qfloor (x * 2 ^ s) = 0%Z). { rewrite (Qfloor_comp (x * 2 ^ s) 0); [reflexivity|]. rewrite E. ring. }
  rewrite F. change (inject_Z 0) with 0. ring.
Qed.
Lemma fl_rounds p : rounds (2 ^ (1 - p)) 0 (fl p).
Proof.
  pose proof (two_pow_pos (1 - p)) as Pp. split; [lra|]. split; [lra|]. intros x. destruct (Qeq_dec x 0) as [E|Hx].
  { rewrite fl_zero by auto. assert (0 <= 2 ^ (1 - p) * Qabs x) by (apply Qmult_le_0_compat; [lra|apply Qabs_nonneg]). apply abs_le. lra. }
  set (s := scale p x). pose proof (two_pow_pos (- s)) as Ps. pose proof (two_pow_opp s) as Es.
  assert (E : fl p x - x == (inject_Z (Qfloor (x * 2 ^ s)) - x * 2 ^ s) * 2 ^ (- s)).
  { unfold fl. fold s. setoid_replace ((inject_Z (Qfloor (x * 2 ^ s)) - x * 2 ^ s) * 2 ^ (- s)) with (inject_Z (Qfloor (x * 2 ^ s)) * 2 ^ (- s) - x * (2 ^ s * 2 ^ (- s))) by ring. rewrite Es. ring. }
  rewrite E, Qabs_Qmult, (Qabs_pos (2 ^ (- s))) by lra. pose proof (floor_near (x * 2 ^ s)) as F.
  assert (L : 2 ^ (- s) <= 2 ^ (1 - p) * Qabs x).
  { unfold s, scale. set (l := (Z.log2 (Z.abs (Qnum x)) - Z.log2 (Zpos (Qden x)))%Z). replace (- (p - l))%Z with (l + - p)%Z by lia.
    rewrite Qpower_plus by discriminate. unfold Z.sub. rewrite Qpower_plus by discriminate. change (2 ^ 1) with 2. pose proof (log_bound x Hx) as B. fold l in B.
    pose proof (two_pow_pos (- p)). setoid_replace (2 * 2 ^ (- p) * Qabs x) with ((2 * Qabs x) * 2 ^ (- p)) by ring. apply Qmult_le_compat_r; [auto|lra]. }
  assert (Qabs (inject_Z (Qfloor (x * 2 ^ s)) - x * 2 ^ s) * 2 ^ (- s) <= 1 * 2 ^ (- s)) by (apply Qmult_le_compat_r; [auto|lra]). lra.
Qed.
(** It changes nothing if enough digits are kept *)
Lemma fl_exact p x z : (0 <= scale p x)%Z -> x == inject_Z z -> fl p x == x.
Proof.
  intros Hs E. unfold fl. generalize dependent (scale p x). intros s Hs. assert (F : Qfloor (x * 2 ^ s) = (z * 2 ^ s)%Z).
  { rewrite (Qfloor_comp (x * 2 ^ s) (inject_Z (z * 2 ^ s))); [apply Qfloor_Z|]. rewrite E, two_pow_Z, inject_Z_mult by auto. reflexivity. }
  rewrite F, inject_Z_mult, <- two_pow_Z, <- Qmult_assoc, two_pow_opp, E by auto. ring.
Qed.
Lemma fl_integers p : (1 <= p)%Z -> keeps_integers (2 ^ p - 1) (fl p).
Proof.
  intros Hp x z E Hz. destruct (Z.eq_dec z 0) as [->|N0]; [rewrite fl_zero; [symmetry|]; exact E|]. apply (fl_exact p x z); auto.
  unfold scale. destruct x as [n d]. cbn [Qnum Qden]. unfold Qeq in E. cbn [Qnum Qden inject_Z] in E.
  assert (En : n = (z * Zpos d)%Z) by lia. subst n. rewrite Z.abs_mul, (Z.abs_eq (Zpos d)) by lia.
  assert (Za : (0 < Z.abs z)%Z) by lia. pose proof (Z.log2_mul_above (Z.abs z) (Zpos d)) as M.
  assert (Z.log2 (Z.abs z) < p)%Z by (apply Z.log2_lt_pow2; lia). pose proof (Z.log2_nonneg (Zpos d)). lia.
Qed.

(** ** The same heap with other elements *)
Section Map.
Variables (V W : Type) (phi : V -> W).
Definition map_cell (c : cell V) : cell W := match c with Live v => Live (phi v) | Raw => Raw end.
Definition map_block (b : block V) : block W := mkB (b_owner b) (b_size b) (fun z => map_cell (b_cell b z)).
Definition map_heap (h : heap V) : heap W := mkH (h_next h) (fun k => match h_blk h k with Some b => Some (map_block b) | None => None end).
Lemma map_holds h p v : holds h p v -> holds (map_heap h) p (phi v).
Proof.
  unfold holds, peek, map_heap. cbn [h_blk]. destruct (fst p); [discriminate|]. destruct (h_blk h (S n)); [|discriminate]. cbn [map_block b_size b_cell].
  destruct (_ && _); [|discriminate]. intros E. injection E as ->. reflexivity.
Qed.
Lemma map_alive h p : alive h p -> alive (map_heap h) p.
Proof. intros [v H]. exists (phi v). apply map_holds. exact H. Qed.
Lemma map_shows h r f : shows h r f -> shows (map_heap h) r (fun i => phi (f i)).
Proof. intros H i Hi. apply map_holds. auto. Qed.
Lemma map_usable h : usable_heap h -> usable_heap (map_heap h).
Proof. intros (A & B & C). split; [exact A|]. split; cbn; [rewrite B; reflexivity|]. intros k Hk. rewrite C by auto. reflexivity. Qed.
Lemma map_operands h A B C f g : operands_of h A B C f g -> operands_of (map_heap h) A B C (fun i => phi (f i)) (fun i => phi (g i)).
Proof.
  intros (SA & SB & Al & R). split; [apply map_shows; auto|]. split; [apply map_shows; auto|]. split; [|exact R]. intros. apply map_alive. auto.
Qed.
Lemma map_setting h A B C f g ai ak bk bj ci cj : setting h A B C f g ai ak bk bj ci cj ->
  setting (map_heap h) A B C (fun i => phi (f i)) (fun i => phi (g i)) ai ak bk bj ci cj.
Proof. intros []. constructor; auto. apply map_operands; auto. apply map_usable; auto. Qed.
Lemma map_conv h I F B O f g b dco dx dy dn fx fy fc : conv_setting h I F B O f g b dco dx dy dn fx fy fc ->
  conv_setting (map_heap h) I F B O (fun i => phi (f i)) (fun i => phi (g i)) (fun i => phi (b i)) dco dx dy dn fx fy fc.
Proof.
  intros []. constructor; auto.
  - destruct cs_shows as (? & ? & ?). split; [apply map_shows; auto|]. split; apply map_shows; auto.
  - intros. apply map_alive. auto.
  - apply map_usable. auto.
Qed.
End Map.
Arguments map_heap {V W} _ _.

(** Thirds, which have no finite expansion *)
Definition third (z : Z) : Q := z # 3.
Definition zA : aref := flat_matrix (1%nat, 0%Z) 3 2.
Definition zB : aref := flat_matrix (2%nat, 0%Z) 2 3.
Definition zC : aref := flat_matrix (3%nat, 0%Z) 3 3.
Lemma setting_z : setting heapM zA zB zC (view_of heapM zA) (view_of heapM zB)
  (mkD 0 3 2) (mkD 0 2 1) (mkD 0 2 3) (mkD 0 3 1) (mkD 0 3 3) (mkD 0 3 1).
Proof.
  constructor; try reflexivity.
  - cbn; lia.
  - unfold inside, in_dim; cbn; intuition lia.
  - apply operands_check; vm_compute; reflexivity.
  - apply heap3_usable.
Qed.
(** The elements of a matrix *)
Definition numbers (r : outcome (heap Q)) (C : aref) : list Q :=
  match r with
  | Ok h => map (fun i => match peek h (elem (r_base C) (r_shape C) i) with Some (Live v) => Qred v | _ => -1 # 1 end) (box (r_shape C))
  | _ => []
  end.

(** ** Cases *)
Lemma relative_error_wrong : exists tol a b : Q, 0 <= tol /\ differs tol a b = false /\
  ~ Qabs (a - b) <= tol * Qabs a /\ ~ Qabs (a - b) <= tol * Qabs b.
Proof.
  exists (1 # 10000), (-1 # 1), (-1000 # 1). split; [discriminate|]. split; [reflexivity|]. split; intros H; vm_compute in H; apply H; reflexivity.
Qed.
Lemma rounding_case :
  rounds (1 # 128) 0 (fl 8) /\ keeps_integers 255 (fl 8) /\ rounds (1 # 16777216) 0 (fl 25) /\
  setting (map_heap third heapM) zA zB zC (fun i => third (view_of heapM zA i)) (fun i => third (view_of heapM zB i))
    (mkD 0 3 2) (mkD 0 2 1) (mkD 0 2 3) (mkD 0 3 1) (mkD 0 3 3) (mkD 0 3 1) /\
  numbers (multiply_reduce_cols 0 (radd (fl 8)) (rmul (fl 8)) zA zB zC (map_heap third heapM)) zC =
    [255 # 256; 269 # 128; 103 # 32; 85 # 64; 369 # 128; 71 # 16; 213 # 128; 469 # 128; 181 # 32] /\
  numbers (multiply_reduce_tiles_z_order 0 (radd (fl 8)) (rmul (fl 8)) false 3 3 1 zA zB zC (map_heap third heapM)) zC =
    [255 # 256; 269 # 128; 103 # 32; 85 # 64; 369 # 128; 71 # 16; 213 # 128; 469 # 128; 181 # 32] /\
  map (fun p => Qred (product (fun i => third (view_of heapM zA i)) (fun i => third (view_of heapM zB i)) (range 0 2) (fst p) (snd p)))
    [(0, 0); (1, 0); (2, 2)]%Z = [1; 19 # 9; 17 # 3] /\
  accepts (1 # 10) 3 3 (fun i j => third (i + j)) (fun i j => third (i + j)) = true /\
  accepts (1 # 10) 3 3 (fun i j => third (i + j)) (fun i j => third (i + 2 * j)) = false /\
  differs (1 # 10000) (-1) (-1000) = false /\ differs (1 # 10000) 1 1000 = true.
Proof.
  split; [exact (fl_rounds 8)|]. split; [apply (fl_integers 8); discriminate|]. split; [exact (fl_rounds 25)|].
  split; [apply map_setting, setting_z|]. repeat split; vm_compute; reflexivity.
Qed.
Lemma integers_case :
  setting (map_heap inject_Z heapM) zA zB zC (fun i => inject_Z (view_of heapM zA i)) (fun i => inject_Z (view_of heapM zB i))
    (mkD 0 3 2) (mkD 0 2 1) (mkD 0 2 3) (mkD 0 3 1) (mkD 0 3 3) (mkD 0 3 1) /\
  (forall i j k, in_bounds (r_shape zC) [i; j] -> In k (range 0 2) ->
     integer (inject_Z (view_of heapM zA [i; k])) /\ integer (inject_Z (view_of heapM zB [k; j]))) /\
  (forall i j, in_bounds (r_shape zC) [i; j] ->
     abs_product (fun i => inject_Z (view_of heapM zA i)) (fun i => inject_Z (view_of heapM zB i)) (range 0 2) i j <= inject_Z 255) /\
  numbers (multiply_reduce_rows 0 (radd (fl 8)) (rmul (fl 8)) zA zB zC (map_heap inject_Z heapM)) zC = [9; 19; 29; 12; 26; 40; 15; 33; 51] /\
  numbers (multiply_reduce_rows 0 (radd (fl 3)) (rmul (fl 3)) zA zB zC (map_heap inject_Z heapM)) zC = [9; 18; 28; 12; 26; 40; 15; 32; 48].
Proof.
  split; [apply map_setting, setting_z|]. split; [intros; split; eexists; reflexivity|].
  split; [|split; vm_compute; reflexivity].
  intros i j Hij. inversion Hij as [|? ? ? ? Hi Hij']; subst. inversion Hij' as [|? ? ? ? Hj _]; subst. unfold in_dim in *. cbn [dmin dext] in *.
  assert (Ei : (i = 0 \/ i = 1 \/ i = 2)%Z) by lia. assert (Ej : (j = 0 \/ j = 1 \/ j = 2)%Z) by lia.
  destruct Ei as [-> | [-> | ->]], Ej as [-> | [-> | ->]]; vm_compute; discriminate.
Qed.
Lemma check_case :
  let f i := third (view_of heapM zA i) in let g i := third (view_of heapM zB i) in
  operands_of (map_heap third heapM) zA zB zC f g /\ usable_heap (map_heap third heapM) /\
  (forall i k, (0 <= i < 3)%Z -> (0 <= k < 2)%Z -> 0 <= f [i; k]) /\ (forall k j, (0 <= k < 2)%Z -> (0 <= j < 3)%Z -> 0 <= g [k; j]) /\
  (3 mod 3 = 0)%Z /\
  (let g1 := grow (1 # 128) (S (Z.to_nat 2)) - 1 in
   let g2 := grow (1 # 128) (S (Z.to_nat 1) + Z.to_nat ((2 - 1) / 1)) - 1 in
   g1 <= 1 /\ g2 <= 1 /\ g1 + g2 <= (1 # 20) * (1 - g2)) /\
  numbers (multiply_ref 0 (radd (fl 8)) (rmul (fl 8)) (1%nat, 0%Z) (2%nat, 0%Z) (3%nat, 0%Z) 3 2 3 (map_heap third heapM)) zC =
    [255 # 256; 269 # 128; 103 # 32; 85 # 64; 369 # 128; 71 # 16; 213 # 128; 469 # 128; 181 # 32] /\
  multiplies 0 (radd (fl 8)) (rmul (fl 8)) (map_heap third heapM)
    (multiply_reduce_cols 0 (radd (fl 8)) (rmul (fl 8)) zA zB zC (map_heap third heapM)) zC f g (range 0 2).
Proof.
  intros f g. pose proof (map_setting _ _ third _ _ _ _ _ _ _ _ _ _ _ _ setting_z) as Sz. fold f g in Sz.
  split; [apply (s_op _ _ _ _ _ _ _ _ _ _ _ _ Sz)|]. split; [apply (s_us _ _ _ _ _ _ _ _ _ _ _ _ Sz)|].
  split; [intros i k Hi Hk; assert (Ei : (i = 0 \/ i = 1 \/ i = 2)%Z) by lia; assert (Ek : (k = 0 \/ k = 1)%Z) by lia;
    destruct Ei as [-> | [-> | ->]], Ek as [-> | ->]; vm_compute; discriminate|].
  split; [intros k i Hk Hi; assert (Ei : (i = 0 \/ i = 1 \/ i = 2)%Z) by lia; assert (Ek : (k = 0 \/ k = 1)%Z) by lia;
    destruct Ei as [-> | [-> | ->]], Ek as [-> | ->]; vm_compute; discriminate|].
  split; [reflexivity|]. split; [split; [|split]; vm_compute; discriminate|]. split; [vm_compute; reflexivity|].
  exact (reduce_cols _ _ _ _ _ _ _ _ _ _ _ _ _ _ _ Sz).
Qed.
Lemma convolution_case :
  conv_setting (map_heap third heapC) cI cF cB cO (fun i => third (view_of heapC cI i)) (fun i => third (view_of heapC cF i)) (fun i => third (view_of heapC cB i))
    (mkD 0 3 1) (mkD 5 3 3) (mkD 2 2 9) (mkD 7 1 18) (mkD 0 2 3) (mkD (-1) 2 6) (mkD 0 2 12) /\
  (let l := numbers (conv2d_naive 0 (radd (fl 8)) (rmul (fl 8)) less cI cF cB cO (map_heap third heapC)) cO in
   firstn 4 l = [127 # 32; 0; 85 # 64; 247 # 64] /\
   numbers (conv2d_tiled 0 (radd (fl 8)) (rmul (fl 8)) less false 2 2 cI cF cB cO (map_heap third heapC)) cO = l).
Proof. split; [apply map_conv, setting_C|]. split; vm_compute; reflexivity. Qed.
Lemma orders_case :
  let t1 := Plus (Plus (Times (1 # 3) 5) (Times (1 # 7) 2)) (Times (1 # 3) 1) in
  let t2 := Fused (1 # 3) 1 (Fused (1 # 7) 2 (Times (1 # 3) 5)) in
  depth t1 = 3%nat /\ roundings t1 = 5%nat /\ depth t2 = 3%nat /\ roundings t2 = 3%nat /\
  meant t1 == meant t2 /\ size t1 == 16 # 7 /\ Qred (computed (fl 8) t1) = 73 # 32 /\ Qred (computed (fl 8) t2) = 291 # 128 /\
  integers (Plus (Times 3 4) (Given (-5 # 1))) /\ size (Plus (Times 3 4) (Given (-5 # 1))) <= inject_Z 255.
Proof.
  repeat (split; [vm_compute; reflexivity|]). split; [|vm_compute; discriminate].
  cbn [integers]. repeat split; [exists 3%Z|exists 4%Z|exists (-5)%Z]; reflexivity.
Qed.
