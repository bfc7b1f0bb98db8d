(** Specification of programs with control flow: which are legal, and the reference interpreter running them. *)
From Coq Require Import ZArith List Bool.
From Verif Require Import Base Interval Shape Memory Ref Container Program Views Control Spec SpecMem SpecContainer SpecProgram SpecViews SpecInterp
  SpecInterpViews.
Import ListNotations.
Open Scope Z_scope.

Section Control.
Context {V K : Type}.
Variable c : config V.
Variable turn : K -> sight V -> option (vact V * K).

(** The first [n] statements are legal *)
Fixpoint legal_play (n : nat) (k : K) (st : vstate V) (own : list owner) : Prop :=
  match n with
  | O => True
  | S n => match turn k (sees st) with
           | None => True
           | Some (o, k') => legal_vact c st own o /\ forall st', vstep c st o = Ok st' -> legal_play n k' st' (track c st own o)
           end
  end.

Variable visit : list dim -> list Z -> nat.
Variable order : list dim -> list dim -> list (list Z).

(** What a program run by the interpreter sees *)
Definition isees (is : view_state V) : sight V :=
  mkSight (is_out is)
    (map (fun x => option_map (fun a => mkLook (v_al a) (negb (v_mem a)) (v_shape a)) (vs_arr (is_vals is) x)) (seq 0 (vs_next (is_vals is))))
    (map vv_shape (is_refs is)).
Fixpoint iplay (n : nat) (k : K) (is : view_state V) : K * view_state V :=
  match n with
  | O => (k, is)
  | S n => match turn k (isees is) with
           | None => (k, is)
           | Some (o, k') => iplay n k' (vinterp c visit order is o)
           end
  end.
Fixpoint allowed_play (n : nat) (k : K) (is : view_state V) : Prop :=
  match n with
  | O => True
  | S n => match turn k (isees is) with
           | None => True
           | Some (o, k') => vallowed c is o /\ allowed_play n k' (vinterp c visit order is o)
           end
  end.
End Control.
