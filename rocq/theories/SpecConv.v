(** Specification vocabulary for convolutions. *)
From Coq Require Import ZArith List Bool.
From Verif Require Import Base Interval Shape Memory Ref Spec SpecMem SpecEin.
Import ListNotations.
Open Scope Z_scope.

Section Conv.
Context {V : Type} (add mul : V -> V -> V).

(** The products that are added up, in order: [f] is the input, [g] the filter; [cis], [dys] and
    [dxs] are the indices of the filter *)
Definition conv_terms (f g : list Z -> V) (cis dys dxs : list Z) (co x y n : Z) : list V :=
  flat_map (fun ci => flat_map (fun dy =>
    map (fun dx => mul (g [co; dx; dy; ci]) (f [ci; x + dx; y + dy; n])) dxs) dys) cis.
(** Bias [b] plus these *)
Definition conv_sum (f g b : list Z -> V) (cis dys dxs : list Z) (co x y n : Z) : V :=
  fold_left add (conv_terms f g cis dys dxs co x y n) (b [co]).

(** The arrays have the right ranks; the operands hold [f], [g] and [b] and have all elements
    that are needed; the elements of the output are alive, distinct, and not elements of the
    operands *)
Record conv_setting (h : heap V) (I F B O : aref) (f g b : list Z -> V)
  (dco dx dy dn fx fy fc : dim) : Prop := mkCS {
  cs_out : r_shape O = [dco; dx; dy; dn];
  cs_filter : exists fco, r_shape F = [fco; fx; fy; fc];
  cs_ext : extents_ge 0 [dco; dx; dy; dn; fx; fy; fc];
  cs_reads : forall co x y n i j k, in_bounds [dco; dx; dy; dn] [co; x; y; n] -> in_bounds [fx; fy; fc] [i; j; k] ->
    in_bounds (r_shape F) [co; i; j; k] /\ in_bounds (r_shape I) [k; x + i; y + j; n];
  cs_bias : forall co, in_dim dco co -> in_bounds (r_shape B) [co];
  cs_shows : shows h I f /\ shows h F g /\ shows h B b;
  cs_alive : forall o, in_bounds (r_shape O) o -> alive h (elem (r_base O) (r_shape O) o);
  cs_inj : injective_layout (r_shape O);
  cs_apart : forall R, R = I \/ R = F \/ R = B -> forall i, in_bounds (r_shape R) i ->
    ~ is_elem (r_base O) (r_shape O) (elem (r_base R) (r_shape R) i);
  cs_us : usable_heap h }.

(** [run] leaves [w co x y n] at each index of the output, and nothing else is changed *)
Definition fills_with (h : heap V) (run : outcome (heap V)) (O : aref) (w : Z -> Z -> Z -> Z -> V) : Prop :=
  exists h', run = Ok h' /\
    (forall co x y n, in_bounds (r_shape O) [co; x; y; n] ->
       holds h' (elem (r_base O) (r_shape O) [co; x; y; n]) (w co x y n)) /\
    (forall p, ~ is_elem (r_base O) (r_shape O) p -> peek h' p = peek h p).
End Conv.
