(** Concrete function objects, for the examples of PropCallback.v. *)
From Coq Require Import ZArith List Bool Lia.
From Verif Require Import Base Interval Shape Traverse Memory Ref Callback Spec SpecMem SpecCallback Tac MemFacts RefFacts.
Import ListNotations.
Open Scope Z_scope.

(** A block of 8 elements 10, ..., 17, and a 2x3 array that has the first six *)
Definition cb_heap : heap Z := mkH 2 (fun k => if (k =? 1)%nat then Some (mkB (Base 0) 8 (fun x => Live (10 + x))) else None).
Definition cb_dst : aref := mkR (1%nat, 0) [mkD 0 2 1; mkD 0 3 2].
Definition cb_other : aref := mkR (1%nat, 6) [mkD 0 2 1].
Definition cb_g (i : list Z) : Z := match i with [x; y] => 10 + x + 2 * y | _ => 0 end.
Definition cb_read (h : heap Z) : list (option (cell Z)) := map (fun x => peek h (1%nat, x)) [0; 1; 2; 3; 4; 5; 6; 7].
Lemma cb_indices i : in_bounds (r_shape cb_dst) i -> exists x y, i = [x; y] /\ 0 <= x < 2 /\ 0 <= y < 3.
Proof.
  intros H. cbn [cb_dst r_shape] in H. inversion H as [|d x s' i' Hx H1]; subst. inversion H1 as [|d' y s'' i'' Hy H2]; subst. inv H2.
  unfold in_dim in *. cbn in *. exists x, y. split; [reflexivity|]. lia.
Qed.
Lemma cb_other_indices i : in_bounds (r_shape cb_other) i -> exists x, i = [x] /\ 0 <= x < 2.
Proof. intros H. cbn [cb_other r_shape] in H. inversion H as [|d x s' i' Hx H1]; subst. inv H1. unfold in_dim in *. cbn in *. exists x. split; [reflexivity|]. lia. Qed.
Lemma cb_extents : extents_ge 0 (r_shape cb_dst).
Proof. repeat constructor; cbn; lia. Qed.
Lemma cb_injective : injective_layout (r_shape cb_dst).
Proof.
  intros i j Hi Hj E. destruct (cb_indices i Hi) as (x & y & -> & Hx & Hy). destruct (cb_indices j Hj) as (x' & y' & -> & Hx' & Hy').
  cbn in E. assert (x = x' /\ y = y') by lia. destruct H as [-> ->]. reflexivity.
Qed.
Lemma cb_other_injective : injective_layout (r_shape cb_other).
Proof.
  intros i j Hi Hj E. destruct (cb_other_indices i Hi) as (x & -> & Hx). destruct (cb_other_indices j Hj) as (x' & -> & Hx').
  cbn in E. f_equal. lia.
Qed.
Lemma cb_shows : shows_elems cb_heap (r_base cb_dst) (r_shape cb_dst) cb_g.
Proof.
  intros i Hi. destruct (cb_indices i Hi) as (x & y & -> & Hx & Hy).
  assert (Ex : x = 0 \/ x = 1) by lia. assert (Ey : y = 0 \/ y = 1 \/ y = 2) by lia.
  destruct Ex as [-> | ->], Ey as [-> | [-> | ->]]; reflexivity.
Qed.
Lemma cb_other_alive i : in_bounds (r_shape cb_other) i -> alive cb_heap (elem (r_base cb_other) (r_shape cb_other) i).
Proof.
  intros Hi. destruct (cb_other_indices i Hi) as (x & -> & Hx). exists (16 + x).
  assert (Ex : x = 0 \/ x = 1) by lia. destruct Ex as [-> | ->]; reflexivity.
Qed.
Lemma cb_apart p : is_elem (r_base cb_dst) (r_shape cb_dst) p -> ~ is_elem (r_base cb_other) (r_shape cb_other) p.
Proof.
  intros (i & Hi & ->) (j & Hj & E). destruct (cb_indices i Hi) as (x & y & -> & Hx & Hy). destruct (cb_other_indices j Hj) as (z & -> & Hz).
  unfold elem in E. cbn [cb_dst cb_other r_base r_shape fst snd offset dmin dstr] in E. apply (f_equal snd) in E. cbn [snd] in E. lia.
Qed.

(** A lambda that captured the array by reference and returns the sum of an element and the one before it in its row; it throws
    if the element is [bad] *)
Definition row_sum (bad : Z) : callable Z unit Z (list Z) Z :=
  mkCall (fun f m i =>
      match i with
      | [x; y] =>
          v <- load (fst m) (ref_ptr cb_dst [x; y]) ;;
          if v =? bad then Ok (Fails f m)
          else if 0 <? y then w <- load (fst m) (ref_ptr cb_dst [x; y - 1]) ;; Ok (Gives (v + w) f m) else Ok (Gives v f m)
      | _ => UB
      end) (fun f => f).
Definition row_phi (bad : Z) (g : list Z -> Z) (s : Z) (i : list Z) : option Z * Z :=
  match i with
  | [x; y] => (if g [x; y] =? bad then None else Some (g [x; y] + (if 0 <? y then g [x; y - 1] else 0)), s)
  | _ => (Some 0, s)
  end.
Lemma row_sum_computes bad : computes_from cb_heap (r_base cb_dst) (r_shape cb_dst) (row_sum bad) tt (fun i => i) (row_phi bad).
Proof.
  intros h g s i _ Hg Hi. exists tt. destruct (cb_indices i Hi) as (x & y & -> & Hx & Hy). cbn [row_sum call fst row_phi].
  rewrite elem_ref. rewrite (proj2 (load_holds h _ _) (Hg [x; y] Hi)). cbn [bind]. destruct (g [x; y] =? bad); [reflexivity|].
  destruct (Z.ltb_spec 0 y) as [H|H]; [|rewrite Z.add_0_r; reflexivity].
  rewrite elem_ref. rewrite (proj2 (load_holds h _ _) (Hg [x; y - 1] ltac:(repeat constructor; unfold in_dim; cbn; lia))). reflexivity.
Qed.
(** The same without exceptions *)
Definition row_total (g : list Z -> Z) (i : list Z) : Z :=
  match i with [x; y] => g [x; y] + (if 0 <? y then g [x; y - 1] else 0) | _ => 0 end.
Definition row_sum_total : callable Z unit Z (list Z) Z :=
  mkCall (fun f m i =>
      match i with
      | [x; y] =>
          v <- load (fst m) (ref_ptr cb_dst [x; y]) ;;
          if 0 <? y then w <- load (fst m) (ref_ptr cb_dst [x; y - 1]) ;; Ok (Gives (v + w) f m) else Ok (Gives v f m)
      | _ => UB
      end) (fun f => f).
Lemma row_total_computes : computes_from cb_heap (r_base cb_dst) (r_shape cb_dst) row_sum_total tt (fun i => i) (fun g s i => (Some (row_total g i), s)).
Proof.
  intros h g s i _ Hg Hi. exists tt. destruct (cb_indices i Hi) as (x & y & -> & Hx & Hy). cbn [row_sum_total call fst row_total].
  rewrite elem_ref. rewrite (proj2 (load_holds h _ _) (Hg [x; y] Hi)). cbn [bind].
  destruct (Z.ltb_spec 0 y) as [H|H]; [|rewrite Z.add_0_r; reflexivity].
  rewrite elem_ref. rewrite (proj2 (load_holds h _ _) (Hg [x; y - 1] ltac:(repeat constructor; unfold in_dim; cbn; lia))). reflexivity.
Qed.

(** A lambda that captured a counter by reference; moving it copies the reference *)
Definition counter : callable Z unit Z unit Z := mkCall (fun f m _ => Ok (Gives (snd m) f (fst m, 2 * snd m + 1))) (fun f => f).
Lemma counter_generates : generator counter tt (fun s => s) (fun s => 2 * s + 1).
Proof. intros h s. exists tt. reflexivity. Qed.
(** The same in a std::function: one that has been moved from is empty in the usual implementations (the standard leaves it
    unspecified), and then throws std::bad_function_call when called *)
Definition wrapped : callable Z bool Z unit Z :=
  mkCall (fun (f : bool) m _ => if f then Ok (Gives (snd m) f (fst m, 2 * snd m + 1)) else Ok (Fails f m)) (fun _ => false).
Lemma wrapped_generates : generator wrapped true (fun s => s) (fun s => 2 * s + 1).
Proof. intros h s. exists true. reflexivity. Qed.
(** An object that negates the elements it is called with, adds them up in itself, and counts them in a variable of the program *)
Definition adder : callable Z Z Z ptr unit :=
  mkCall (fun f m p => v <- load (fst m) p ;; h' <- store (fst m) p (- v) ;; Ok (Gives tt (f + v) (h', snd m + 1))) (fun f => f).
Lemma adder_visits : visits_each adder (fun (fs : Z * Z) v => (fst fs + v, snd fs + 1)) (fun _ v => - v).
Proof.
  intros h p v f s H. exists (upd h p (Live (- v))). cbn [adder call fst snd]. rewrite (proj2 (load_holds h p v) H). cbn [bind].
  rewrite store_ok by (exists v; auto). split; [reflexivity|]. split.
  - unfold holds in *. apply peek_upd_same. rewrite H. discriminate.
  - apply (upds_only_changes h [(p, Live (- v))]). intros q [<-|[]]. reflexivity.
Qed.
(** An object that writes down the sum of each index it is called with, in itself *)
Definition lister : callable Z (list Z) unit (list Z) unit :=
  mkCall (fun f m i => Ok (Gives tt (f ++ [fold_right Z.add 0 i]) m)) (fun _ => []).
(** One that writes it down in a list of the program *)
Definition noter : callable Z bool (list Z) (list Z) unit :=
  mkCall (fun f m i => Ok (Gives tt f (fst m, snd m ++ [fold_right Z.add 0 i]))) (fun _ => false).
Lemma noter_keeps f : keeps noter f.
Proof. intros m a r E. cbn in E. injection E as <-. reflexivity. Qed.
(** One that writes down the positions of the elements it is called with *)
Definition pointer_noter : callable Z bool (list Z) ptr unit :=
  mkCall (fun f m p => Ok (Gives tt f (fst m, snd m ++ [snd p]))) (fun _ => false).
Lemma pointer_noter_keeps f : keeps pointer_noter f.
Proof. intros m a r E. cbn in E. injection E as <-. reflexivity. Qed.
