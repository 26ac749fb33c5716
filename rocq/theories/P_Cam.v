(** C32, C33: camera Jacobians. *)
From Coq Require Import Reals Lra Lia.
From Coquelicot Require Import Coquelicot.
From Verif Require Import RBool Lin CamModel CamSpec CamProofs.
Open Scope R_scope.

(** radial-tangential camera: both Jacobians are the derivatives, everywhere *)
Theorem C32_jacobians d z : pixel_jacobians rt_distort d z (rt_dzn d z) (rt_dzeta d z).
Proof. exact (rt_jac d z). Qed.
Print Assumptions C32_jacobians.

(** and no other matrices are *)
Theorem C32_unique h d z Hz Hd Hz' Hd' : pixel_jacobians h d z Hz Hd -> pixel_jacobians h d z Hz' Hd' -> meq 2 2 Hz Hz' /\ meq 2 8 Hd Hd'.
Proof. exact (jac_unique h d z Hz Hd Hz' Hd'). Qed.
Print Assumptions C32_unique.

(** fisheye camera: both Jacobians are the derivatives off the optical axis *)
Theorem C33_jacobians d z : 1 / 100000000 < radius z -> pixel_jacobians eq_distort d z (eq_dzn d z) (eq_dzeta d z).
Proof. exact (eq_jac d z). Qed.
Print Assumptions C33_jacobians.

(** on the axis the derivative is that of a pinhole camera ... *)
Theorem C33_axis d : pixel_jacobians eq_distort d (fun _ => 0) (mat22 (d 0%nat) 0 0 (d 1%nat)) (mat2 (row8 0 0 1 0 0 0 0 0) (row8 0 0 0 1 0 0 0 0)).
Proof. exact (eq_axis_true d). Qed.
Print Assumptions C33_axis.

(** ... while the code returns the zero matrix there *)
Theorem C33_everywhere_refuted : exists d z, ~ pixel_jacobians eq_distort d z (eq_dzn d z) (eq_dzeta d z).
Proof. exists (fun _ => 1), (fun _ => 0). apply eq_axis_wrong. lra. Qed.
Print Assumptions C33_everywhere_refuted.

(** the hypothesis of C33_jacobians at an ordinary point; distortion is really applied there *)
Example C33_example : 1 / 100000000 < radius (vec2 (3 / 10) (4 / 10)) /\ rt_dzn (row8 400 400 320 240 (1 / 10) 0 0 0) (vec2 1 0) 0%nat 0%nat = 520.
Proof.
  split.
  - unfold radius, vec2. replace (3 / 10 * (3 / 10) + 4 / 10 * (4 / 10)) with (1 / 2 * (1 / 2)) by field. rewrite sqrt_square by lra. lra.
  - unfold rt_dzn, mat22, row8, vec2. cbv zeta. replace (1 * 1 + 0 * 0) with 1 by ring. rewrite sqrt_1. field.
Qed.
