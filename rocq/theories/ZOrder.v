(** Model of z-order traversals (include/array/z_order.h).  Definitions only. *)
From Coq Require Import ZArith List Bool.
From Verif Require Import Base Interval.
Import ListNotations.
Open Scope Z_scope.

(** z_order.h:30-36 [next_power_of_two]; shifting 2^62 once more overflows index_t *)
Fixpoint npot_loop (fuel : nat) (result x : Z) : outcome Z :=
  if result <? x
  then match fuel with
       | O => UB
       | S f => npot_loop f (Z.shiftl result 1) x
       end
  else Ok result.
(** z_order.h:30-36 [next_power_of_two] *)
Definition next_power_of_two (x : Z) : outcome Z := npot_loop 62 1 x.

(** z[d] += step, z_order.h:46, 54, 61 *)
Fixpoint add_at (d : nat) (step : Z) (z : list Z) : list Z :=
  match d, z with
  | O, x :: r => (x + step) :: r
  | S d', x :: r => x :: add_at d' step r
  | _, [] => []
  end.
(** z[d] < end[d], z_order.h:47, 55, 62 *)
Definition lt_at (d : nat) (z end_ : list Z) : bool := nth d z 0 <? nth d end_ 0.

(** z_order.h:40-66 [for_each_index_in_z_order_impl]: the list of calls of fn, in order.
    [fuel] bounds the recursion depth; running out of it is reported as [UB]. *)
Fixpoint z_impl (fuel : nat) (end_ z : list Z) (d : nat) (step : Z) : outcome (list (list Z)) :=
  match fuel with
  | O => UB
  | S f =>
      let rank := length end_ in
      if (d =? 0)%nat && (step =? 1) then
        Ok (z :: if lt_at 0 (add_at 0 1 z) end_ then [add_at 0 1 z] else [])
      else if (d =? 0)%nat then
        a <- z_impl f end_ z (rank - 1) (Z.shiftr step 1) ;;
        b <- (if lt_at 0 (add_at 0 step z) end_
              then z_impl f end_ (add_at 0 step z) (rank - 1) (Z.shiftr step 1) else Ok []) ;;
        Ok (a ++ b)
      else
        a <- z_impl f end_ z (d - 1) step ;;
        b <- (if lt_at d (add_at d step z) end_
              then z_impl f end_ (add_at d step z) (d - 1) step else Ok []) ;;
        Ok (a ++ b)
  end.

(** *std::max_element, z_order.h:75 *)
Fixpoint max_element (l : list Z) (m : Z) : Z :=
  match l with
  | [] => m
  | x :: r => max_element r (if m <? x then x else m)
  end.

(** z_order.h:70-79 [for_each_index_in_z_order]; Rank 0 dereferences the end iterator *)
Definition for_each_index_in_z_order (end_ : list Z) : outcome (list (list Z)) :=
  match end_ with
  | [] => UB
  | x :: r =>
      p <- next_power_of_two (max_element r x) ;;
      let step := Z.max 1 (Z.shiftr p 1) in
      z_impl (64 * length end_) end_ (map (fun _ => 0) end_) (length end_ - 1) step
  end.

(** z_order.h:81-90 [for_each_in_z_order_impl], 98-110: each range is given by
    end - begin and by what dereferencing begin + i gives. *)
Definition for_each_in_z_order {A : Type} (ranges : list (Z * (Z -> A))) : outcome (list (list A)) :=
  l <- for_each_index_in_z_order (map fst ranges) ;;
  Ok (map (fun i => map2 (fun r k => snd r k) ranges i) l).
