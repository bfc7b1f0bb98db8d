(** Concrete programs with control flow, for the examples of PropControl.v. *)
From Coq Require Import ZArith List Bool.
From Verif Require Import Base Interval Shape Memory Ref Container Program Views Control Spec SpecMem SpecContainer SpecProgram SpecViews SpecInterp
  SpecInterpViews SpecControl ContainerCases ProgramCases ViewsCases InterpFacts InterpViewsFacts.
Import ListNotations.
Open Scope Z_scope.

(** The variables of a program that sorts a column of an array *)
Inductive place := Declare | Initialise | Take | Cut | First (i : Z) | Second (i : Z) | Decide (i : Z) | Exchange (i x : Z).
(** array a(s); generate; auto v = a.ref()(_, y); then, until there is nothing to exchange: for (i = min; i < max; i++)
    if (v(i) > v(i + 1)) { swap(v(i), v(i + 1)); i = min - 1; } *)
Definition sort (s : list dim) (y : Z) (data : list Z -> Z) (k : place) (t : sight Z) : option (vact Z * place) :=
  let first := match s_refs t with [_; [d]] => dmin d | _ => 0 end in
  let past := match s_refs t with [_; [d]] => dmin d + dext d | _ => 0 end in
  match k with
  | Declare => Some (Do (Run (New s 0)), Initialise)
  | Initialise => Some (Do (Transform 0%nat data), Take)
  | Take => Some (Ref 0%nat, Cut)
  | Cut => Some (Slice 0%nat [AAll; AIdx y], First (match s_arrays t with [Some l] => dmin (nth 0 (l_dims l) (mkD 0 0 0)) | _ => 0 end))
  | First i => if i + 1 <? past then Some (Get 1%nat [i], Second i) else None
  | Second i => Some (Get 1%nat [i + 1], Decide i)
  | Decide i =>
      match s_read t with
      | b :: a :: _ => if b <? a then Some (Put 1%nat [i] b, Exchange i a)
                       else if i + 2 <? past then Some (Get 1%nat [i + 1], Second (i + 1)) else None
      | _ => None
      end
  | Exchange i a => Some (Put 1%nat [i + 1] a, First first)
  end.
(** A sufficient test for legality *)
Fixpoint legal_playb {K} (c : config Z) (turn : K -> sight Z -> option (vact Z * K)) (n : nat) (k : K) (st : vstate Z) (own : list owner) : bool :=
  match n with
  | O => true
  | S n => match turn k (sees st) with
           | None => true
           | Some (o, k') => vact_okb c st own o && match vstep c st o with Ok st' => legal_playb c turn n k' st' (track c st own o) | _ => true end
           end
  end.
Lemma legal_playb_ok {K} c (turn : K -> sight Z -> option (vact Z * K)) n : forall k st own, legal_playb c turn n k st own = true -> legal_play c turn n k st own.
Proof.
  induction n as [|n IH]; intros k st own H; cbn [legal_playb legal_play] in *; auto. destruct (turn k (sees st)) as [[o k']|]; auto.
  apply andb_true_iff in H. destruct H as [H1 H2]. split; [apply vact_okb_ok; auto|]. intros st' E. rewrite E in H2. auto.
Qed.
(** Columns 0 and 1 at rows 5 to 8: 3, 9, 3, 1 and 0, 0, 0, 0 *)
Definition table : list dim := [mkD 5 4 (-2); mkD 0 2 1].
Definition numbers (i : list Z) : Z := match i with [5; 0] => 3 | [6; 0] => 9 | [7; 0] => 3 | [8; 0] => 1 | _ => 0 end.
Definition after_play (c : config Z) (n : nat) : option (place * vstate Z) :=
  match play c (sort table 0 numbers) n Declare vempty with Ok r => Some r | _ => None end.
(** The elements of the array after [n] statements, in the interpreter *)
Definition elements_after (c : config Z) (n : nat) : option (list Z) :=
  option_map (fun a => map (v_at a) [[5; 0]; [6; 0]; [7; 0]; [8; 0]; [8; 1]])
    (vs_arr (is_vals (snd (iplay c (sort table 0 numbers) visits orders n Declare nothing))) 0%nat).
