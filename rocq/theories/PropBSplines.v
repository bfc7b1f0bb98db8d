(** C94: the kernels are what their names say. *)
From Coq Require Import ZArith QArith List.
From Verif Require Import Resample SpecResample SpecMoments SpecBSplines BSplines.
Import ListNotations.
Local Open Scope Q_scope.

(** The linear kernel is the B-spline after the box, except at 0, where both boxes of the recursion include their common edge, *)
Theorem C94_linear : forall s, ~ s == 0 -> next_spline 1 (box_kernel exact) (linear exact) s.
Proof. exact box_spline. Qed.
Example C94_linear_example : ~ (1 # 3) == 0 /\
  map (fun s => Qred (box_kernel exact s)) [5 # 6; - (1 # 6); 1 # 2; - (1 # 2)] = [0; 1; 1; 1] /\ Qred (linear exact (1 # 3)) = 2 # 3 /\ Qred (linear exact 0) = 1.
Proof. split; [discriminate|]. split; [|split]; vm_compute; reflexivity. Qed.
(** quadratic_bspline is the one after the linear kernel, everywhere, *)
Theorem C94_quadratic : forall s, next_spline 2 (linear exact) (quadratic_bspline exact) s.
Proof. exact quadratic_spline. Qed.
(** and cubic_bspline the one after that. *)
Theorem C94_cubic : forall s, next_spline 3 (quadratic_bspline exact) (cubic_bspline exact) s.
Proof. exact cubic_spline. Qed.
Example C94_example :
  map (fun s => Qred (linear exact s)) [5 # 6; - (1 # 6)] = [1 # 6; 5 # 6] /\
  map (fun s => Qred (quadratic_bspline exact s)) [1 # 3; 5 # 6; - (1 # 6)] = [23 # 36; 2 # 9; 13 # 18] /\
  map (fun s => Qred (cubic_bspline exact s)) [1 # 3; 1; 5 # 3] = [31 # 54; 1 # 6; 1 # 162].
Proof. split; [|split]; vm_compute; reflexivity. Qed.

(** A quadratic kernel interpolates just if r = 1, as in interpolating_quadratic; *)
Theorem C94_interpolating_quadratic : forall r, interpolating (fun s => quadratic_family exact s r) <-> r == 1.
Proof. exact quadratic_iff. Qed.
(** a cubic one just if B = 0; *)
Theorem C94_interpolating_cubic : forall B C, interpolating (fun s => cubic_family exact s B C) <-> B == 0.
Proof. exact cubic_iff. Qed.
(** and it also reproduces linear images (C93) just if it is interpolating_cubic. *)
Theorem C94_catmull_rom : forall B C,
  (interpolating (fun s => cubic_family exact s B C) /\ balanced (fun s => cubic_family exact s B C) 2 4) <-> (B == 0 /\ C == 1 # 2).
Proof. exact catmull_iff. Qed.
Example C94_interpolating_example :
  map (fun s => Qred (interpolating_quadratic exact s)) [0; 1; -1 # 1] = [1; 0; 0] /\ map (fun s => Qred (quadratic_bspline exact s)) [0; 1; -1 # 1] = [3 # 4; 1 # 8; 1 # 8] /\
  (lit exact 1 2 == 1 # 2) /\ map (fun s => Qred (cubic_family exact s 0 1)) [0; 1; 1 # 2] = [1; 0; 5 # 8] /\
  map (fun s => Qred (interpolating_cubic exact s - cubic_family exact s 0 (1 # 2))) [1 # 4; 5 # 4; 7 # 4] = [0; 0; 0].
Proof. repeat split; vm_compute; reflexivity. Qed.

Print Assumptions C94_linear.
Print Assumptions C94_quadratic.
Print Assumptions C94_cubic.
Print Assumptions C94_interpolating_quadratic.
Print Assumptions C94_interpolating_cubic.
Print Assumptions C94_catmull_rom.
