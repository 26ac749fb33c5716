(** Further lemmas used by P_Geo.v. *)
From Coq Require Import Reals Lra Psatz Bool.
From Verif Require Import RBool GeoModel GeoSpec GeoProofs ExpProofs Se3Proofs.
Open Scope R_scope.

(** JPL convention: the quaternion (k sin(t/2), cos(t/2)) rotates by -t about k *)
Lemma quat_axis_angle k t v : unit_v k ->
  m3v (quat_2_Rot (Q4 (vx k * sin (t / 2)) (vy k * sin (t / 2)) (vz k * sin (t / 2)) (cos (t / 2)))) v
  = v3add (v3sub (v3scal (cos t) v) (v3scal (sin t) (v3cross k v)))
          (v3scal ((1 - cos t) * v3dot k v) k).
Proof.
  intros U. pose proof (sin2_cos2 (t/2)) as HS; unfold Rsqr in HS.
  assert (E : t = 2 * (t / 2)) by field. rewrite E at 5 6 7. rewrite sin_2a, cos_2a_sin.
  set (h := t / 2) in *. set (s := sin h) in *. set (c := cos h) in *.
  destruct k as [a b d], v as [x y z]. unfold unit_v, v3dot in *.
  cbn [vx vy vz] in *.
  assert (C2 : c * c = 1 - s * s) by lra. clearbody s c.
  apply v3_ext; cbn [m3v quat_2_Rot m3add m3sub m3scal m3id m3outer skew_x qvec qx qy qz qw v3add v3sub v3scal v3cross
    m00 m01 m02 m10 m11 m12 m20 m21 m22 vx vy vz v3dot]; rewrite C2; ring.
Qed.

Lemma Omega_mul_quat w q : Omega_mul w q = quat_mul_raw (Q4 (vx w) (vy w) (vz w) 0) q.
Proof. apply q4_ext; simpl; unfold v3dot; simpl; ring. Qed.

Lemma quat_multiply_id_l p : unit_q p -> 0 <= qw p -> quat_multiply (Q4 0 0 0 1) p = p.
Proof.
  intros U P. unfold quat_multiply.
  replace (quat_mul_raw (Q4 0 0 0 1) p) with p by (apply q4_ext; simpl; unfold v3dot; simpl; ring).
  rewrite quatnorm_unit by auto. destruct (Rltb_spec (qw p) 0); auto. lra.
Qed.

Lemma vee_skew w : vee (skew_x w) = w.
Proof. destruct w; reflexivity. Qed.
Lemma skew_vee M : m3tr M = m3scal (-1) M -> skew_x (vee M) = M.
Proof.
  destruct M. unfold m3tr, m3scal; simpl; intros E. injection E as E0 E1 E2 E3 E4 E5 E6 E7 E8.
  apply m3_ext; simpl; lra.
Qed.
Lemma skew_cross w v : m3v (skew_x w) v = v3cross w v.
Proof. apply v3_ext; simpl; ring. Qed.

(** bounds in the Taylor branch of log_so3 *)
Lemma sin_lower t : 0 <= t <= 1 -> t - t * t * t / 6 <= sin t.
Proof.
  intros H. pose proof PI2_1.
  destruct (sin_bound t 0) as [L _]; try lra.
  unfold sin_approx, sin_term in L; simpl in L. unfold Rdiv in *. lra.
Qed.
Lemma sin_upper t : 0 <= t <= 1 -> sin t <= t - t * t * t / 6 + t * t * t * t * t / 120.
Proof.
  intros H. pose proof PI2_1.
  destruct (sin_bound t 0) as [_ L]; try lra.
  unfold sin_approx, sin_term in L; simpl in L. unfold Rdiv in *. lra.
Qed.
Lemma cos_lower t : 0 <= t <= 1 -> 1 - t * t / 2 <= cos t.
Proof.
  intros H. pose proof PI2_1.
  destruct (cos_bound t 0) as [L _]; try lra.
  unfold cos_approx, cos_term in L; simpl in L. unfold Rdiv in *. lra.
Qed.
Lemma cos_upper t : 0 <= t <= 1 -> cos t <= 1 - t * t / 2 + t * t * t * t / 24.
Proof.
  intros H. pose proof PI2_1.
  destruct (cos_bound t 0) as [_ L]; try lra.
  unfold cos_approx, cos_term in L; simpl in L. unfold Rdiv in *. lra.
Qed.

Lemma taylor_factor t : 0 < t <= 1 ->
  1 - t * t * t * t / 24 <= sin t / t * (1 + (1 - cos t) / 3) <= 1.
Proof.
  intros H.
  pose proof (sin_lower t ltac:(lra)) as SL. pose proof (sin_upper t ltac:(lra)) as SU.
  pose proof (cos_lower t ltac:(lra)) as CL. pose proof (cos_upper t ltac:(lra)) as CU.
  set (n := t * t) in *.
  assert (Hn : 0 < n <= 1) by (unfold n; nra).
  assert (A1 : 1 - n / 6 <= sin t / t).
  { apply (Rmult_le_reg_r t); [lra|]. unfold Rdiv at 2. rewrite Rmult_assoc, Rinv_l by lra. unfold n in *; lra. }
  assert (A2 : sin t / t <= 1 - n / 6 + n * n / 120).
  { apply (Rmult_le_reg_r t); [lra|]. unfold Rdiv at 1. rewrite Rmult_assoc, Rinv_l by lra. unfold n in *; lra. }
  assert (B1 : n / 6 - n * n / 72 <= (1 - cos t) / 3) by (unfold n in *; lra).
  assert (B2 : (1 - cos t) / 3 <= n / 6) by (unfold n in *; lra).
  set (a := sin t / t) in *. set (b := (1 - cos t) / 3) in *.
  replace (1 - n * t * t / 24) with (1 - n * n / 24) by (unfold n; field).
  assert (n * n <= n) by nra.
  split.
  - apply Rle_trans with ((1 - n / 6) * (1 + (n / 6 - n * n / 72))).
    + assert (0 <= n * n * n) by (pose proof (Rmult_lt_0_compat n n); nra). lra.
    + apply Rmult_le_compat; try lra.
  - apply Rle_trans with ((1 - n / 6 + n * n / 120) * (1 + n / 6)).
    + apply Rmult_le_compat; try lra.
    + assert (n * n * n <= n * n) by nra. lra.
Qed.

Lemma log_exp_so3_taylor_bound w :
  1 / 10 ^ 7 <= v3norm w -> v3norm w <= 1 -> 2 - 2 * cos (v3norm w) <= 1 / 10 ^ 7 ->
  exists c, log_so3 (exp_so3 w) = v3scal c w /\
     1 - v3dot w w * v3dot w w / 24 <= c <= 1.
Proof.
  intros H H' H1. rewrite log_exp_so3_taylor by auto. eexists; split; [reflexivity|].
  rewrite <- v3norm_sq. assert (0 < v3norm w) by (assert (0 < 1 / 10 ^ 7) by lra; lra).
  pose proof (taylor_factor (v3norm w) ltac:(lra)). lra.
Qed.

(** between exact pi and pi - 1e-5 the logarithm is only approximate *)
Definition near_pi_example : m3 :=
  rodrigues (V3 0 0 1) (sqrt (2 / 10 ^ 11 - 1 / 10 ^ 22)) (2 - 1 / 10 ^ 11).
Lemma near_pi_not_roundtrip : is_rot near_pi_example /\ exp_so3 (log_so3 near_pi_example) <> near_pi_example.
Proof.
  assert (P : 0 < 2 / 10 ^ 11 - 1 / 10 ^ 22) by lra.
  assert (Sp : 0 < sqrt (2 / 10 ^ 11 - 1 / 10 ^ 22)) by (apply sqrt_lt_R0; auto).
  assert (Sq := sqrt_sqrt _ (Rlt_le _ _ P)).
  split.
  { apply rodrigues_is_rot. rewrite Sq. unfold v3dot; simpl. lra. }
  unfold near_pi_example. set (s := sqrt _) in *.
  intros F. unfold log_so3 in F. rewrite rodrigues_trace in F.
  replace (v3dot (V3 0 0 1) (V3 0 0 1)) with 1 in F by (unfold v3dot; simpl; ring).
  destruct (Rltb_spec (3 - 2 * (2 - 1 / 10 ^ 11) * 1 + 1) (1 / 10 ^ 10)); [|lra].
  assert (E22 : m22 (rodrigues (V3 0 0 1) s (2 - 1 / 10 ^ 11)) = 1) by (simpl; ring).
  assert (E02 : m02 (rodrigues (V3 0 0 1) s (2 - 1 / 10 ^ 11)) = 0) by (simpl; ring).
  assert (E12 : m12 (rodrigues (V3 0 0 1) s (2 - 1 / 10 ^ 11)) = 0) by (simpl; ring).
  rewrite E22, E02, E12 in F.
  destruct (Rltb_spec (1 / 10 ^ 5) (Rabs (1 + 1))) as [_|L].
  2:{ rewrite Rabs_right in L by lra. lra. }
  replace (2 + 2 * 1) with (2 * 2) in F by ring. rewrite sqrt_square in F by lra.
  set (w := v3scal (PI / 2) (V3 0 0 (1 + 1))) in *.
  assert (W : w = V3 0 0 PI) by (unfold w; apply v3_ext; simpl; field).
  rewrite W in F.
  assert (N : v3norm (V3 0 0 PI) = PI).
  { unfold v3norm, v3dot; simpl. replace (0 * 0 + 0 * 0 + PI * PI) with (PI * PI) by ring.
    apply sqrt_square. pose proof PI_RGT_0; lra. }
  pose proof PI2_1. rewrite exp_so3_eq in F by (rewrite N; lra). rewrite N, sin_PI in F.
  apply (f_equal m10) in F. simpl in F. unfold Rdiv in F. rewrite !Rmult_0_l in F.
  ring_simplify in F. lra.
Qed.

(** the rotation part of exp_se3 is exp_so3 and is a rotation *)
Lemma exp_se3_rot w u : v3norm w = 0 \/ 1 / 10 ^ 7 <= v3norm w ->
  seR (exp_se3 w u) = exp_so3 w /\ is_rot (seR (exp_se3 w u)).
Proof.
  intros H. assert (E : seR (exp_se3 w u) = exp_so3 w).
  { destruct H as [H|H].
    - apply v3norm_zero in H as ->. rewrite exp_se3_zero. simpl.
      rewrite exp_so3_eq.
      + apply m3_ext; simpl; ring.
      + left. unfold v3norm, v3dot; simpl. replace (0*0+0*0+0*0) with 0 by ring. apply sqrt_0.
    - rewrite exp_se3_eq by auto. reflexivity. }
  split; auto. rewrite E. apply exp_so3_is_rot; auto.
Qed.

Lemma exp_so3_small_full w : 0 < v3norm w < 1 / 10 ^ 7 ->
  exp_so3 w = m3add (m3add m3id (skew_x w)) (m3scal (1/2) (m3mul (skew_x w) (skew_x w)))
  /\ ~ is_rot (exp_so3 w).
Proof.
  intros H. split; [|apply exp_so3_small_not_rot; auto].
  rewrite exp_so3_small by auto. apply m3_ext; simpl; ring.
Qed.
