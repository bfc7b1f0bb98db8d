(** Resizing with a named kernel, in real arithmetic and with 64-bit integers. *)
From Coq Require Import ZArith QArith List Bool Reals String Lia.
From Verif Require Import Tac Base Interval Shape Memory Ref Spec SpecMem SpecEin SpecChecked SpecViewChecked SpecContChecked SpecOverflow Container Conv Callback Rational RatChecked
  SpecRational Resample ContChecked ResChecked SpecResample SpecResChecked Lanczos SpecLanczos ShapeFacts RatCheckedFacts ContCheckedFacts ResCheckedFacts LanczosWhole.
Import ListNotations.
Open Scope Z_scope.

Lemma k_resize_same nd (h : heap R) I O f ix iy ic ox oy oc name kernel b :
  images h I O f ix iy ic ox oy oc -> sizes_fit ix iy ic ox oy oc -> loops_fit [ox; oy; oc] -> parse_kernel reals PI sin name = Some kernel ->
  k_resize reals nd b kernel I O h = resize reals nd b kernel I O h.
Proof.
  intros M Sf Lf Pk.
  destruct (images_resampling h I O f ix iy ic ox oy oc M kernel (sizes_usable _ _ _ _ _ _ _ _ _ _ _ _ M Pk)) as (rx & ry & Ex & Ey & _ & _ & Rs).
  pose proof (resample_same reals nd _ _ _ _ _ _ _ _ _ _ _ _ _ Rs Sf) as Er. destruct M as [SI SO _ [E1 E2] (M1 & M2 & M3 & M4) _ _ _ _ _ _ _ _].
  change (2 ^ 29) with 536870912 in *.
  inversion E1 as [|? ? A1 E1']; subst. inversion E1' as [|? ? A2 _]; subst. inversion E2 as [|? ? B1 E2']; subst. inversion E2' as [|? ? B2 _]; subst.
  destruct (k_make_pos (dext ox) (dext ix)) as (r & Kx & Mx & _); [unfold is_index; lia..|].
  destruct (k_make_pos (dext oy) (dext iy)) as (r' & Ky & My & _); [unfold is_index; lia..|].
  unfold k_resize, resize, dim_of. rewrite SI, SO. cbn [nth]. rewrite Kx, Ky, Mx, My. cbn [bind]. rewrite Mx in Ex. rewrite My in Ey.
  injection Ex as ->. injection Ey as ->. rewrite Er. destruct (resample _ _ _ _ _ _ _ _) as [h1| |]; cbn [bind]; auto. unfold for_each_value_f.
  rewrite SO, k_values_ok by auto. destruct (values nd _ _); reflexivity.
Qed.
Lemma k_resize_named nd (h : heap R) I O f ix iy ic ox oy oc name kernel b :
  images h I O f ix iy ic ox oy oc -> sizes_fit ix iy ic ox oy oc -> loops_fit [ox; oy; oc] -> parse_kernel reals PI sin name = Some kernel ->
  makes_image h (k_resize reals nd b kernel I O h) O (fun x y c =>
    limited b (pixel reals f (mkQ (dext ox) (dext ix)) (mkQ (dext oy) (dext iy)) kernel ix iy x y c)).
Proof. intros M Sf Lf Pk. rewrite (k_resize_same nd _ _ _ _ _ _ _ _ _ _ _ _ b M Sf Lf Pk). eapply resize_named; eauto. Qed.
Lemma resize_checked_example :
  images heapL (lI 4) (lO 3 65) (lF 4) (mkD 0 2 1) (mkD 0 4 2) (mkD 0 1 128) (mkD 0 3 1) (mkD 0 65 3) (mkD 0 1 195) /\
  sizes_fit (mkD 0 2 1) (mkD 0 4 2) (mkD 0 1 128) (mkD 0 3 1) (mkD 0 65 3) (mkD 0 1 195) /\ loops_fit [mkD 0 3 1; mkD 0 65 3; mkD 0 1 195] /\
  exists kernel, parse_kernel reals PI sin "lanczos" = Some kernel.
Proof.
  split; [apply images_L; lia|]. assert (A : sizes_fit (mkD 0 2 1) (mkD 0 4 2) (mkD 0 1 128) (mkD 0 3 1) (mkD 0 65 3) (mkD 0 1 195) /\ loops_fit [mkD 0 3 1; mkD 0 65 3; mkD 0 1 195]).
  { apply modest_fits; unfold modest; cbn [dmin dext dstr]; lia. } split; [apply A|]. split; [apply A|]. eexists. reflexivity.
Qed.
