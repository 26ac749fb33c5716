(** Property theorems C26 - C30 (quat_ops.h). *)
From Coq Require Import Reals Lra Psatz.
From Verif Require Import RBool GeoModel GeoSpec GeoProofs ExpProofs ExpSeries Se3Proofs JacSo3 EulerProofs GeoMore.
Open Scope R_scope.

(** ** C26 *)
Theorem C26_quat_2_Rot_is_rotation : forall q, unit_q q -> is_rot (quat_2_Rot q).
Proof. exact quat_2_Rot_is_rot. Qed.
Print Assumptions C26_quat_2_Rot_is_rotation.

(** the rotation meant by a quaternion (JPL): rotate by -t about the unit axis k *)
Theorem C26_quat_axis_angle : forall k t v, unit_v k ->
  m3v (quat_2_Rot (Q4 (vx k * sin (t / 2)) (vy k * sin (t / 2)) (vz k * sin (t / 2)) (cos (t / 2)))) v
  = v3add (v3sub (v3scal (cos t) v) (v3scal (sin t) (v3cross k v)))
          (v3scal ((1 - cos t) * v3dot k v) k).
Proof. exact quat_axis_angle. Qed.
Print Assumptions C26_quat_axis_angle.

Theorem C26_quat_multiply : forall q p, unit_q q -> unit_q p ->
  quat_2_Rot (quat_multiply q p) = m3mul (quat_2_Rot q) (quat_2_Rot p)
  /\ unit_q (quat_multiply q p) /\ 0 <= qw (quat_multiply q p).
Proof. exact (fun q p Hq Hp => conj (quat_multiply_rot q p Hq Hp) (quat_multiply_unit q p Hq Hp)). Qed.
Print Assumptions C26_quat_multiply.

Theorem C26_quat_inverse : forall q, unit_q q ->
  quat_2_Rot (quat_inv q) = m3tr (quat_2_Rot q) /\ unit_q (quat_inv q)
  /\ quat_multiply q (quat_inv q) = Q4 0 0 0 1.
Proof. exact (fun q H => conj (quat_inv_rot q) (conj (quat_inv_unit q H) (quat_inv_mul q H))). Qed.
Print Assumptions C26_quat_inverse.

Theorem C26_double_cover : forall q p, unit_q q -> unit_q p ->
  (quat_2_Rot q = quat_2_Rot p <-> q = p \/ q = q4neg p).
Proof.
  exact (fun q p Hq Hp => conj (quat_2_Rot_inj q p Hq Hp)
    (fun H => match H with
              | or_introl E => f_equal quat_2_Rot E
              | or_intror E => eq_trans (f_equal quat_2_Rot E) (quat_2_Rot_neg p) end)).
Qed.
Print Assumptions C26_double_cover.

Theorem C26_quatnorm : forall q, 0 < qx q * qx q + qy q * qy q + qz q * qz q + qw q * qw q ->
  unit_q (quatnorm q) /\ 0 <= qw (quatnorm q).
Proof. exact quatnorm_is_unit. Qed.
Print Assumptions C26_quatnorm.

Theorem C26_Omega_is_pure_quaternion_product : forall w q,
  Omega_mul w q = quat_mul_raw (Q4 (vx w) (vy w) (vz w) 0) q.
Proof. exact Omega_mul_quat. Qed.
Print Assumptions C26_Omega_is_pure_quaternion_product.

Example C26_ex : unit_q (Q4 (3/5) 0 0 (4/5)) /\ unit_q (Q4 0 (-5/13) 0 (12/13)) /\ unit_v (V3 (2/3) (2/3) (1/3)).
Proof. unfold unit_q, unit_v, v3dot; simpl; lra. Qed.

(** ** C27 *)
Theorem C27_rot_2_quat : forall r, is_rot r ->
  unit_q (rot_2_quat r) /\ 0 <= qw (rot_2_quat r) /\ quat_2_Rot (rot_2_quat r) = r.
Proof. exact rot_2_quat_spec. Qed.
Print Assumptions C27_rot_2_quat.

Theorem C27_rot_2_quat_of_quat : forall q, unit_q q ->
  rot_2_quat (quat_2_Rot q) = q \/ rot_2_quat (quat_2_Rot q) = q4neg q.
Proof. exact rot_2_quat_of_quat. Qed.
Print Assumptions C27_rot_2_quat_of_quat.

(** a half turn (trace -1), the hardest input of rot_2_quat *)
Example C27_ex : is_rot (M3 (-1) 0 0  0 (7/25) (24/25)  0 (24/25) (-7/25)).
Proof. repeat split; try (apply m3_ext; simpl; lra). unfold m3det; simpl; lra. Qed.

(** ** C28 *)
Theorem C28_skew_is_cross_product : forall w v, m3v (skew_x w) v = v3cross w v.
Proof. exact skew_cross. Qed.
Theorem C28_vee_skew : forall w, vee (skew_x w) = w.
Proof. exact vee_skew. Qed.
Print Assumptions C28_vee_skew.
Theorem C28_skew_vee : forall M, m3tr M = m3scal (-1) M -> skew_x (vee M) = M.
Proof. exact skew_vee. Qed.
Print Assumptions C28_skew_vee.

Theorem C28_exp_is_rotation : forall w,
  v3norm w = 0 \/ 1 / 10 ^ 7 <= v3norm w -> is_rot (exp_so3 w).
Proof. exact exp_so3_is_rot. Qed.
Print Assumptions C28_exp_is_rotation.

(** exp_so3 is the matrix exponential: the entrywise sum of W^k / k! *)
Theorem C28_exp_is_matrix_exponential : forall w,
  v3norm w = 0 \/ 1 / 10 ^ 7 <= v3norm w -> is_mexp (skew_x w) (exp_so3 w).
Proof. exact exp_so3_is_mexp. Qed.
Print Assumptions C28_exp_is_matrix_exponential.

Theorem C28_exp_neg_is_transpose : forall w, exp_so3 (v3neg w) = m3tr (exp_so3 w).
Proof. exact exp_so3_neg. Qed.
Print Assumptions C28_exp_neg_is_transpose.

(** the small-angle branch returns I + W + W^2/2, which is never a rotation *)
Theorem C28_exp_small_angle : forall w, 0 < v3norm w < 1 / 10 ^ 7 ->
  exp_so3 w = m3add (m3add m3id (skew_x w)) (m3scal (1/2) (m3mul (skew_x w) (skew_x w)))
  /\ ~ is_rot (exp_so3 w).
Proof. exact exp_so3_small_full. Qed.
Print Assumptions C28_exp_small_angle.

Theorem C28_log_exp : forall w,
  1 / 10 ^ 7 <= v3norm w < PI ->
  1 / 10 ^ 7 < 2 - 2 * cos (v3norm w) -> 1 / 10 ^ 10 <= 2 + 2 * cos (v3norm w) ->
  log_so3 (exp_so3 w) = w.
Proof. exact log_exp_so3. Qed.
Print Assumptions C28_log_exp.

(** Taylor branch of log_so3: same direction, relative error at most |w|^4/24 *)
Theorem C28_log_exp_taylor_branch : forall w,
  1 / 10 ^ 7 <= v3norm w -> v3norm w <= 1 -> 2 - 2 * cos (v3norm w) <= 1 / 10 ^ 7 ->
  exists c, log_so3 (exp_so3 w) = v3scal c w /\ 1 - v3dot w w * v3dot w w / 24 <= c <= 1.
Proof. exact log_exp_so3_taylor_bound. Qed.
Print Assumptions C28_log_exp_taylor_branch.

Theorem C28_log_exp_small_branch : forall w, 0 < v3norm w < 1 / 10 ^ 7 ->
  log_so3 (exp_so3 w) = v3scal (1 + v3dot w w / 6) w.
Proof. exact log_exp_so3_small. Qed.
Print Assumptions C28_log_exp_small_branch.

Theorem C28_exp_log : forall r, is_rot r ->
  1 / 10 ^ 10 <= m3trace r + 1 -> m3trace r - 3 < - (1 / 10 ^ 7) ->
  exp_so3 (log_so3 r) = r /\ v3norm (log_so3 r) = acos ((m3trace r - 1) / 2).
Proof. exact exp_log_so3. Qed.
Print Assumptions C28_exp_log.

Theorem C28_exp_log_half_turn : forall r, is_rot r -> m3trace r = -1 ->
  exp_so3 (log_so3 r) = r /\ v3norm (log_so3 r) = PI.
Proof. exact exp_log_so3_pi. Qed.
Print Assumptions C28_exp_log_half_turn.

(** near (but not at) a half turn the round trip fails *)
Theorem C28_exp_log_near_pi_refuted : exists r, is_rot r /\ exp_so3 (log_so3 r) <> r.
Proof. exact (ex_intro _ near_pi_example near_pi_not_roundtrip). Qed.
Print Assumptions C28_exp_log_near_pi_refuted.

Theorem C28_left_jacobian : forall w d, 1 / 10 ^ 6 <= v3norm w ->
  m3_derive (fun s => exp_so3 (v3add w (v3scal s d))) 0
            (m3mul (skew_x (m3v (Jl_so3 w) d)) (exp_so3 w)).
Proof. exact Jl_so3_left_jacobian. Qed.
Print Assumptions C28_left_jacobian.

Example C28_ex_norm : v3norm (V3 0 (3/5) (4/5)) = 1.
Proof. unfold v3norm, v3dot; simpl. replace (0*0 + 3/5*(3/5) + 4/5*(4/5)) with 1 by field. apply sqrt_1. Qed.
(** hypotheses of C28_log_exp hold for a rotation of one radian *)
Example C28_ex_log_exp : let t := v3norm (V3 0 (3/5) (4/5)) in
  1 / 10 ^ 7 <= t < PI /\ 1 / 10 ^ 7 < 2 - 2 * cos t /\ 1 / 10 ^ 10 <= 2 + 2 * cos t.
Proof.
  cbv zeta. rewrite C28_ex_norm. pose proof PI2_1.
  pose proof (cos_upper 1 ltac:(lra)). pose proof (cos_lower 1 ltac:(lra)). lra.
Qed.
Example C28_ex_exp_log : let r := M3 1 0 0  0 (3/5) (-4/5)  0 (4/5) (3/5) in
  is_rot r /\ 1 / 10 ^ 10 <= m3trace r + 1 /\ m3trace r - 3 < - (1 / 10 ^ 7).
Proof.
  repeat split; try (apply m3_ext; simpl; lra); try (unfold m3det; simpl; lra);
  unfold m3trace; simpl; lra.
Qed.
Example C28_ex_half_turn : let r := M3 (-1) 0 0  0 (7/25) (24/25)  0 (24/25) (-7/25) in
  is_rot r /\ m3trace r = -1.
Proof.
  repeat split; try (apply m3_ext; simpl; lra); try (unfold m3det; simpl; lra);
  unfold m3trace; simpl; lra.
Qed.

(** ** C29 *)
Theorem C29_inverse : forall T, is_rot (seR T) ->
  se3mul T (Inv_se3 T) = se3id /\ se3mul (Inv_se3 T) T = se3id.
Proof. exact (fun T H => conj (Inv_se3_r T H) (Inv_se3_l T H)). Qed.
Print Assumptions C29_inverse.

Theorem C29_exp_se3_rigid : forall w u, v3norm w = 0 \/ 1 / 10 ^ 7 <= v3norm w ->
  seR (exp_se3 w u) = exp_so3 w /\ is_rot (seR (exp_se3 w u)).
Proof. exact exp_se3_rot. Qed.
Print Assumptions C29_exp_se3_rigid.

Theorem C29_exp_se3_inverse : forall w u, v3norm w = 0 \/ 1 / 10 ^ 7 <= v3norm w ->
  exp_se3 (v3neg w) (v3neg u) = Inv_se3 (exp_se3 w u).
Proof. exact exp_se3_inverse. Qed.
Print Assumptions C29_exp_se3_inverse.

Theorem C29_log_exp_se3 : forall w u,
  1 / 10 ^ 7 <= v3norm w < PI ->
  1 / 10 ^ 7 < 2 - 2 * cos (v3norm w) -> 1 / 10 ^ 10 <= 2 + 2 * cos (v3norm w) ->
  log_se3 (exp_se3 w u) = (w, u).
Proof. exact log_exp_se3. Qed.
Print Assumptions C29_log_exp_se3.
(** hypotheses: see C28_ex_log_exp *)

(** ** C30 *)
Theorem C30_elementary_rotations : forall t, is_rot (rot_x t) /\ is_rot (rot_y t) /\ is_rot (rot_z t).
Proof. exact (fun t => conj (rot_x_is_rot t) (conj (rot_y_is_rot t) (rot_z_is_rot t))). Qed.
Print Assumptions C30_elementary_rotations.

Theorem C30_rpy_reconstructs : forall r, is_rot r ->
  1 / 10 ^ 12 < sqrt (m00 r * m00 r + m10 r * m10 r) ->
  let e := rot2rpy r in m3mul (rot_z (vz e)) (m3mul (rot_y (vy e)) (rot_x (vx e))) = r.
Proof. exact rot2rpy_generic. Qed.
Print Assumptions C30_rpy_reconstructs.

Theorem C30_rpy_gimbal_up : forall r, is_rot r -> m20 r = -1 ->
  let e := rot2rpy r in m3mul (rot_z (vz e)) (m3mul (rot_y (vy e)) (rot_x (vx e))) = r.
Proof. exact rot2rpy_gimbal_up. Qed.
Print Assumptions C30_rpy_gimbal_up.

(** at pitch -90 degrees the returned angles do not reproduce the rotation *)
Theorem C30_rpy_gimbal_down_refuted : exists r, is_rot r /\
  (let e := rot2rpy r in m3mul (rot_z (vz e)) (m3mul (rot_y (vy e)) (rot_x (vx e)))) <> r.
Proof. exact (ex_intro _ gimbal_down_example rot2rpy_gimbal_down). Qed.
Print Assumptions C30_rpy_gimbal_down_refuted.

Example C30_ex : let r := M3 (3/5) 0 (4/5)  0 1 0  (-4/5) 0 (3/5) in
  is_rot r /\ 1 / 10 ^ 12 < sqrt (m00 r * m00 r + m10 r * m10 r).
Proof.
  split.
  - repeat split; try (apply m3_ext; simpl; lra); unfold m3det; simpl; lra.
  - cbn [m00 m10]. replace (3/5*(3/5) + 0*0) with (3/5*(3/5)) by ring. rewrite sqrt_square; lra.
Qed.
Example C30_ex_up : let r := M3 0 (3/5) (4/5)  0 (4/5) (-3/5)  (-1) 0 0 in is_rot r /\ m20 r = -1.
Proof. repeat split; try (apply m3_ext; simpl; lra); try (unfold m3det; simpl; lra). Qed.
