(** Facts about printed text. *)
From Coq Require Import ZArith List Bool String Ascii Lia Decimal DecimalString DecimalFacts DecimalPos DecimalN DecimalZ.
From Verif Require Import Base Interval Shape Checked Print SpecPrint Tac.
Import ListNotations.
Open Scope Z_scope.

(** ** Strings *)
Lemma app_assoc3 (a b c : string) : ((a ++ b) ++ c = a ++ (b ++ c))%string.
Proof. induction a; simpl; congruence. Qed.
Lemma app_inv (a x y : string) : (a ++ x = a ++ y)%string -> x = y.
Proof. induction a; simpl; intros H; auto. inv H. auto. Qed.

(** ** Decimal notation *)
Definition numeric (c : ascii) : bool := match digit c with Some _ => true | None => Ascii.eqb c "-" end.
Fixpoint all_numeric (s : string) : bool :=
  match s with EmptyString => true | String c r => numeric c && all_numeric r end.
Definition starts_other (s : string) : bool :=
  match s with EmptyString => true | String c _ => negb (numeric c) end.
Lemma number_prefix a : forall b x y, all_numeric a = true -> all_numeric b = true -> starts_other x = true -> starts_other y = true ->
  (a ++ x = b ++ y)%string -> a = b /\ x = y.
Proof.
  induction a as [|c a IH]; intros [|d b] x y Ha Hb Hx Hy E; simpl in *; auto.
  - subst x. simpl in Hx. apply andb_true_iff in Hb. destruct Hb as [Hb _]. rewrite Hb in Hx. discriminate.
  - subst y. simpl in Hy. apply andb_true_iff in Ha. destruct Ha as [Ha _]. rewrite Ha in Hy. discriminate.
  - inv E. apply andb_true_iff in Ha, Hb. destruct Ha as [_ Ha], Hb as [_ Hb].
    destruct (IH b x y Ha Hb Hx Hy H1) as [-> ->]. auto.
Qed.
Lemma uint_numeric d : all_numeric (NilEmpty.string_of_uint d) = true.
Proof. induction d; simpl; auto. Qed.
Lemma uint_read_acc d : forall acc, read_digits (Zpos acc) (NilEmpty.string_of_uint d) = Some (Zpos (Pos.of_uint_acc d acc)).
Proof.
  induction d; intros acc; cbn [NilEmpty.string_of_uint read_digits Pos.of_uint_acc]; auto;
    match goal with |- context [digit ?x] => change (digit x) with (Some (Z.of_nat (nat_of_ascii x) - 48)) end;
    cbv beta iota; rewrite <- IHd; f_equal;
    match goal with |- context [nat_of_ascii ?x] => let n := eval compute in (Z.of_nat (nat_of_ascii x)) in change (Z.of_nat (nat_of_ascii x)) with n end; lia.
Qed.
Lemma uint_read d : read_digits 0 (NilEmpty.string_of_uint d) = Some (Z.of_N (Pos.of_uint d)).
Proof. induction d; cbn [NilEmpty.string_of_uint Pos.of_uint]; auto; try exact (uint_read_acc d _). Qed.
Lemma uint0_numeric d : all_numeric (NilZero.string_of_uint d) = true.
Proof. destruct d; [reflexivity|..]; apply (uint_numeric (_ d)). Qed.
Lemma dec_numeric z : all_numeric (dec z) = true.
Proof. unfold dec. destruct (Z.to_int z); simpl; apply uint0_numeric. Qed.
Lemma uint0_read d : read_digits 0 (NilZero.string_of_uint d) = Some (Z.of_N (Pos.of_uint d)).
Proof. destruct d; [reflexivity|..]; apply (uint_read (_ d)). Qed.
Lemma uint0_first d : exists c r, NilZero.string_of_uint d = String c r /\ c <> "-"%char.
Proof. destruct d; simpl; eexists; eexists; (split; [reflexivity|discriminate]). Qed.
Lemma read_plain c r : c <> "-"%char -> read (String c r) = read_digits 0 (String c r).
Proof.
  intros H. unfold read.
  destruct c as [[] [] [] [] [] [] [] []]; try reflexivity. congruence.
Qed.
Lemma read_minus c r : read (String "-" (String c r)) = option_map Z.opp (read_digits 0 (String c r)).
Proof. reflexivity. Qed.
Lemma dec_read z : read (dec z) = Some z.
Proof.
  rewrite <- (DecimalZ.of_to z) at 2. unfold dec. destruct (Z.to_int z) as [d|d]; cbn [NilZero.string_of_int Z.of_int].
  - destruct (uint0_first d) as [c [r [E H]]]. rewrite E, read_plain by auto. rewrite <- E. apply uint0_read.
  - destruct (uint0_first d) as [c [r [E H]]]. rewrite E, read_minus. rewrite <- E, uint0_read. reflexivity.
Qed.
Lemma dec_inj z z' : dec z = dec z' -> z = z'.
Proof. intros H. apply (f_equal read) in H. rewrite !dec_read in H. congruence. Qed.
Lemma dec_prefix z z' x y : starts_other x = true -> starts_other y = true -> (dec z ++ x = dec z' ++ y)%string -> z = z' /\ x = y.
Proof.
  intros Hx Hy E. destruct (number_prefix _ _ _ _ (dec_numeric z) (dec_numeric z') Hx Hy E) as [A B]. split; auto. apply dec_inj; auto.
Qed.

(** ** Intervals, dims and shapes *)
Lemma interval_text_inj d d' t : interval_text d = Ok t -> interval_text d' = Ok t -> dmin d = dmin d' /\ dext d = dext d'.
Proof.
  unfold interval_text, chk. intros H H'.
  destruct (_ && _) in H; [|discriminate]. destruct (_ && _) in H'; [|discriminate].
  cbn [bind] in *. injection H as <-. injection H' as E. symmetry in E.
  apply dec_prefix in E; auto. destruct E as [E1 E]. apply (app_inv ", ") in E. apply dec_prefix in E; auto. lia.
Qed.
Lemma interval_text_ok d : index_min <= dmin d + dext d <= index_max ->
  exists a b, interval_text d = Ok ("[" ++ a ++ ", " ++ b ++ ")")%string /\ read a = Some (dmin d) /\ read b = Some (dmin d + dext d).
Proof.
  intros H. unfold interval_text, chk. destruct (_ && _) eqn:E; [|lia]. cbn [bind].
  eexists. eexists. split; [reflexivity|]. split; apply dec_read.
Qed.
Lemma interval_text_ub d : ~ index_min <= dmin d + dext d <= index_max -> interval_text d = UB.
Proof. intros H. unfold interval_text, chk. destruct (_ && _) eqn:E; [lia|reflexivity]. Qed.

Lemma dim_text_cases d : dim_text d = ("dim(" ++ (dec (dmin d) ++ (", " ++ (dec (dext d) ++
   ((if (dstr d =? unresolved)%Z then "" else ", " ++ dec (dstr d)) ++ ")")))))%string.
Proof. unfold dim_text. destruct (dstr d =? unresolved); auto. Qed.
Lemma dim_text_prefix d d' x y : (dim_text d ++ x = dim_text d' ++ y)%string -> d = d' /\ x = y.
Proof.
  rewrite !dim_text_cases. rewrite !app_assoc3. intros E. apply app_inv in E.
  apply dec_prefix in E; auto. destruct E as [E1 E]. apply (app_inv ", ") in E.
  assert (S : forall e z, starts_other ((if (dstr e =? unresolved)%Z then "" else ", " ++ dec (dstr e)) ++ (")" ++ z))%string = true)
    by (intros e z; destruct (dstr e =? unresolved); reflexivity).
  apply dec_prefix in E; auto. destruct E as [E2 E]. destruct d as [m e s], d' as [m' e' s']. cbn [dmin dext dstr] in *. subst.
  destruct (Z.eqb_spec s unresolved) as [->|N], (Z.eqb_spec s' unresolved) as [->|N'].
  - apply (app_inv ")") in E. auto.
  - discriminate E.
  - discriminate E.
  - rewrite !app_assoc3 in E. apply (app_inv ", ") in E. apply dec_prefix in E; auto. destruct E as [-> E].
    apply (app_inv ")") in E. auto.
Qed.
Lemma dim_text_inj d d' : dim_text d = dim_text d' -> d = d'.
Proof. intros E. apply (dim_text_prefix d d' "" ""). rewrite E. reflexivity. Qed.
Lemma dim_text_first d x : exists r, (dim_text d ++ x = String "d" r)%string.
Proof. rewrite dim_text_cases. simpl. eauto. Qed.
Lemma join_cons sep a b l : join sep (a :: b :: l) = (a ++ (sep ++ join sep (b :: l)))%string.
Proof. reflexivity. Qed.
Lemma dims_text_inj l : forall l', (join ", " (map dim_text l) ++ ")" = join ", " (map dim_text l') ++ ")")%string -> l = l'.
Proof.
  induction l as [|d l IH]; intros [|d' l'] E; auto.
  - exfalso. destruct l'; simpl in E.
    + destruct (dim_text_first d' ")") as [r Er]. rewrite Er in E. discriminate.
    + rewrite app_assoc3 in E. destruct (dim_text_first d' (", " ++ join ", " (map dim_text (d :: l')) ++ ")")) as [r Er].
      simpl in *. rewrite Er in E. discriminate.
  - exfalso. destruct l; simpl in E.
    + destruct (dim_text_first d ")") as [r Er]. rewrite Er in E. discriminate.
    + rewrite app_assoc3 in E. destruct (dim_text_first d (", " ++ join ", " (map dim_text (d0 :: l)) ++ ")")) as [r Er].
      simpl in *. rewrite Er in E. discriminate.
  - destruct l as [|e l], l' as [|e' l']; cbn [map] in E, IH.
    + simpl in E. apply dim_text_prefix in E. destruct E as [-> _]. auto.
    + exfalso. rewrite join_cons in E. change (join ", " [dim_text d]) with (dim_text d) in E.
      rewrite app_assoc3 in E. apply dim_text_prefix in E. destruct E as [_ E]. discriminate.
    + exfalso. rewrite join_cons in E. change (join ", " [dim_text d']) with (dim_text d') in E.
      rewrite app_assoc3 in E. apply dim_text_prefix in E. destruct E as [_ E]. discriminate.
    + rewrite !join_cons in E. rewrite !app_assoc3 in E. apply dim_text_prefix in E. destruct E as [-> E].
      apply (app_inv ", ") in E. f_equal. apply (IH (e' :: l')). exact E.
Qed.
Lemma shape_text_inj s s' : shape_text s = shape_text s' -> s = s'.
Proof.
  unfold shape_text. intros E. apply app_inv in E. apply dec_prefix in E; auto. destruct E as [_ E].
  apply (app_inv ">(") in E. apply dims_text_inj; auto.
Qed.
Lemma dim_text_format d : exists a b c, read a = Some (dmin d) /\ read b = Some (dext d) /\ read c = Some (dstr d) /\
  dim_text d = if dstr d =? unresolved then ("dim(" ++ a ++ ", " ++ b ++ ")")%string
               else ("dim(" ++ a ++ ", " ++ b ++ ", " ++ c ++ ")")%string.
Proof.
  exists (dec (dmin d)), (dec (dext d)), (dec (dstr d)). rewrite !dec_read. unfold dim_text.
  destruct (dstr d =? unresolved); auto.
Qed.
Lemma join_concat sep l : join sep l = String.concat sep l.
Proof. reflexivity. Qed.
Lemma shape_text_format s : exists n, read n = Some (Z.of_nat (List.length s)) /\
  shape_text s = ("shape<" ++ n ++ ">(" ++ String.concat ", " (map dim_text s) ++ ")")%string.
Proof. exists (dec (Z.of_nat (List.length s))). rewrite dec_read. unfold shape_text. rewrite join_concat. auto. Qed.
