(** Concrete threads for the examples of PropScopes.v. *)
From Coq Require Import ZArith List Bool Lia Arith.
From Verif Require Import Base Interval Shape Memory Ref Container Program Scopes Spec SpecMem SpecContainer SpecProgram SpecRelate SpecScopes
  ContainerCases ProgramCases InterpCases.
Import ListNotations.
Local Open Scope Z_scope.

(** Both threads begin with arrays 0, 1 and 2, and call their first own array 3: thread 0 copies array 0, fills the copy
    and swaps it with array 0; thread 1 makes an array, writes to it and assigns it to array 1, then moves array 2 *)
Definition scoped0 : list (act Z) := [Run (NewCopy 0%nat); Fill 3%nat 9; Run (Swap 0%nat 3%nat); Run (Write 0%nat [3; 0] 8)].
Definition scoped1 : list (act Z) :=
  [Run (NewValue small 4 1); Run (Write 3%nat [3; 0] 5); Run (CopyAssign 1%nat 3%nat); Run (Delete 3%nat); Run (NewMove 2%nat)].
Definition scoped (k : nat) : list (act Z) := match k with 0%nat => scoped0 | 1%nat => scoped1 | _ => [] end.
Definition turns1 : list nat := [1; 0; 0; 1; 0; 7; 1; 0; 1; 1; 0]%nat.
Definition turns2 : list nat := [0; 0; 0; 0; 1; 1; 1; 1; 1]%nat.
Lemma scoped_apart : forall j k x, j <> k -> (x < 3)%nat -> mentions (scoped j) x -> ~ mentions (scoped k) x.
Proof.
  assert (M0 : forall x, mentions scoped0 x -> (x < 3)%nat -> x = 0%nat).
  { intros x (o & I & H) B. cbn in I. destruct I as [<-|[<-|[<-|[<-|[]]]]]; cbn in H; lia. }
  assert (M1 : forall x, mentions scoped1 x -> (x < 3)%nat -> x <> 0%nat).
  { intros x (o & I & H) B. cbn in I. destruct I as [<-|[<-|[<-|[<-|[<-|[]]]]]]; cbn in H; lia. }
  intros [|[|j]] [|[|k]] x N B H H'; try (exfalso; apply N; reflexivity); cbn [scoped] in H, H'.
  - apply (M1 x H' B). auto.
  - destruct H' as (o & [] & _).
  - apply (M1 x H B). auto.
  - destruct H' as (o & [] & _).
  - destruct H as (o & [] & _).
  - destruct H as (o & [] & _).
  - destruct H as (o & [] & _).
Qed.
Lemma scoped_legal : forall k, alegal debug2 (astate debug2 start2) (scoped k).
Proof. intros [|[|k]]; [apply alegalb_ok; vm_compute; reflexivity..|exact I]. Qed.
(** The elements of what thread [k] calls [x] *)
Definition sees (r : outcome (threads (V := Z) * world Z)) (k x : nat) : option (nat * list (option Z)) :=
  match r with Ok (T, w) => Some (sc_name (fst (T k)) x, contents w (sc_name (fst (T k)) x)) | _ => None end.
