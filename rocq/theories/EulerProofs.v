(** rot2rpy and the elementary rotations. *)
From Coq Require Import Reals Lra Psatz Bool.
From Verif Require Import RBool GeoModel GeoSpec GeoProofs ExpProofs.
Open Scope R_scope.

Lemma sin2cos2 t : sin t * sin t + cos t * cos t = 1.
Proof. exact (sin2_cos2 t). Qed.

Lemma rot_x_is_rot t : is_rot (rot_x t).
Proof. pose proof (sin2cos2 t). repeat split; try (apply m3_ext; simpl; lra). unfold m3det; simpl; lra. Qed.
Lemma rot_y_is_rot t : is_rot (rot_y t).
Proof. pose proof (sin2cos2 t). repeat split; try (apply m3_ext; simpl; lra). unfold m3det; simpl; lra. Qed.
Lemma rot_z_is_rot t : is_rot (rot_z t).
Proof. pose proof (sin2cos2 t). repeat split; try (apply m3_ext; simpl; lra). unfold m3det; simpl; lra. Qed.

Lemma sqrt_1z x y : x <> 0 -> sqrt (1 + (y / x)²) = sqrt (x * x + y * y) / Rabs x.
Proof.
  intros H. replace (1 + (y / x)²) with ((x * x + y * y) / Rsqr x) by (unfold Rsqr; field; auto).
  rewrite sqrt_div_alt by (apply Rlt_0_sqr; auto). rewrite sqrt_Rsqr_abs. reflexivity.
Qed.

Lemma atan2_polar y x : x <> 0 \/ y <> 0 ->
  x = sqrt (x * x + y * y) * cos (atan2 y x) /\ y = sqrt (x * x + y * y) * sin (atan2 y x).
Proof.
  intros H. assert (P : 0 < x * x + y * y) by (pose proof (sq_nonneg x); pose proof (sq_nonneg y); destruct H as [H|H]; [pose proof (Rlt_0_sqr x H)|pose proof (Rlt_0_sqr y H)]; unfold Rsqr in *; lra).
  assert (Q : 0 < sqrt (x * x + y * y)) by (apply sqrt_lt_R0; auto).
  unfold atan2.
  destruct (Rltb_spec 0 x) as [Hx|Hx]; [|destruct (Rltb_spec x 0) as [Hx'|Hx']].
  - rewrite cos_atan, sin_atan, sqrt_1z by lra. rewrite Rabs_right by lra. split; field; lra.
  - assert (E : sqrt (x * x + y * y) * cos (atan (y/x)) = - x /\ sqrt (x * x + y * y) * sin (atan (y/x)) = - y).
    { rewrite cos_atan, sin_atan, sqrt_1z by lra. rewrite Rabs_left by lra. split; field; lra. }
    destruct E as [E1 E2].
    destruct (Rleb_spec 0 y).
    + rewrite neg_cos, neg_sin. lra.
    + replace (atan (y / x) - PI) with (- (PI - atan (y / x))) by ring.
      rewrite cos_neg, sin_neg. rewrite Rtrigo_facts.cos_pi_minus, sin_PI_x. lra.
  - assert (x = 0) by lra. subst x. replace (0 * 0 + y * y) with (Rsqr y) in * by (unfold Rsqr; ring).
    rewrite sqrt_Rsqr_abs in *.
    destruct (Rltb_spec 0 y); [|destruct (Rltb_spec y 0)].
    + rewrite cos_PI2, sin_PI2, Rabs_right by lra. lra.
    + rewrite cos_neg, sin_neg, cos_PI2, sin_PI2, Rabs_left by lra. lra.
    + exfalso. lra.
Qed.

Definition rpy_mat (v : v3) : m3 := m3mul (rot_z (vz v)) (m3mul (rot_y (vy v)) (rot_x (vx v))).

Lemma pitch_eq r : is_rot r ->
  let p := atan2 (- m20 r) (sqrt (m00 r * m00 r + m10 r * m10 r)) in
  cos p = sqrt (m00 r * m00 r + m10 r * m10 r) /\ sin p = - m20 r.
Proof.
  intros H p. rot_eqs H.
  set (c := sqrt (m00 r * m00 r + m10 r * m10 r)) in *.
  assert (Hc : c * c = m00 r * m00 r + m10 r * m10 r) by (apply sqrt_sqrt; pose proof (sq_nonneg (m00 r)); pose proof (sq_nonneg (m10 r)); lra).
  assert (U : c * c + - m20 r * - m20 r = 1) by lra.
  destruct (atan2_polar (- m20 r) c) as (A & B).
  { destruct (Req_dec c 0) as [E|E]; auto. right. intros E2. rewrite E, E2 in U. lra. }
  rewrite U, sqrt_1, !Rmult_1_l in A, B. fold p in A, B. auto.
Qed.

Lemma rot2rpy_generic r : is_rot r -> 1 / 10 ^ 12 < sqrt (m00 r * m00 r + m10 r * m10 r) ->
  rpy_mat (rot2rpy r) = r.
Proof.
  intros H Hc. pose proof (pitch_eq r H) as P. cbv zeta in P.
  unfold rot2rpy. set (p := atan2 (- m20 r) (sqrt (m00 r * m00 r + m10 r * m10 r))) in *.
  destruct P as (P1 & P2). rewrite <- P1 in Hc.
  destruct (Rltb_spec (1 / 10 ^ 12) (Rabs (cos p))) as [_|L].
  2:{ rewrite Rabs_right in L by lra. lra. }
  assert (Hp : 0 < cos p) by lra.
  assert (P3 : cos p * cos p = m00 r * m00 r + m10 r * m10 r).
  { rewrite P1. apply sqrt_sqrt. pose proof (sq_nonneg (m00 r)); pose proof (sq_nonneg (m10 r)); lra. }
  rot_eqs H.
  assert (G : forall y x, x * x + y * y = cos p * cos p ->
      x = cos p * cos (atan2 (y / cos p) (x / cos p)) /\ y = cos p * sin (atan2 (y / cos p) (x / cos p))).
  { intros y x E. destruct (atan2_polar (y / cos p) (x / cos p)) as (A & B).
    - destruct (Req_dec x 0) as [->|E1]; [right|left]; intros E2.
      + assert (y = 0) by (replace y with (y / cos p * cos p) by (field; lra); rewrite E2; ring). subst. pose proof (Rmult_lt_0_compat _ _ Hp Hp). lra.
      + apply E1. replace x with (x / cos p * cos p) by (field; lra). rewrite E2; ring.
    - replace (x / cos p * (x / cos p) + y / cos p * (y / cos p)) with 1 in A, B.
      2:{ replace (x / cos p * (x / cos p) + y / cos p * (y / cos p)) with ((x*x+y*y)/(cos p * cos p)) by (field; lra).
          rewrite E. field. lra. }
      rewrite sqrt_1, Rmult_1_l in A, B. rewrite <- A, <- B. split; field; lra. }
  destruct (G (m21 r) (m22 r)) as (A1 & A2); [lra|].
  destruct (G (m10 r) (m00 r)) as (B1 & B2); [lra|].
  set (ro := atan2 (m21 r / cos p) (m22 r / cos p)) in *.
  set (ya := atan2 (m10 r / cos p) (m00 r / cos p)) in *.
  unfold rpy_mat; cbn [vx vy vz].
  assert (Can : forall a b, cos p * cos p * a = cos p * cos p * b -> a = b).
  { intros a b E. apply Rmult_eq_reg_l in E; auto. pose proof (Rmult_lt_0_compat _ _ Hp Hp). lra. }
  assert (Q2 : m20 r = - sin p) by lra.
  assert (SC := sin2cos2 p).
  assert (R01 : cos p * cos p * m01 r = - m00 r * m21 r * m20 r - m10 r * m22 r).
  { replace (cos p * cos p) with (1 - m20 r * m20 r) by (rewrite Q2; lra).
    transitivity (m01 r - m20 r * (m01 r * m20 r)); [ring|].
    replace (m01 r * m20 r) with (m12 r + m00 r * m21 r) by lra.
    rewrite K2 at 1. ring. }
  assert (R11 : cos p * cos p * m11 r = - m10 r * m20 r * m21 r + m00 r * m22 r).
  { replace (cos p * cos p) with (1 - m20 r * m20 r) by (rewrite Q2; lra).
    transitivity (m11 r - m20 r * (m11 r * m20 r)); [ring|].
    replace (m11 r * m20 r) with (m10 r * m21 r - m02 r) by lra.
    rewrite K5 at 1. ring. }
  assert (R02 : cos p * cos p * m02 r = - m00 r * m20 r * m22 r + m10 r * m21 r).
  { replace (cos p * cos p) with (1 - m20 r * m20 r) by (rewrite Q2; lra).
    transitivity (m02 r - m20 r * (m02 r * m20 r)); [ring|].
    replace (m02 r * m20 r) with (m00 r * m22 r - m11 r) by lra.
    rewrite K3 at 1. ring. }
  assert (R12 : cos p * cos p * m12 r = - m10 r * m20 r * m22 r - m00 r * m21 r).
  { replace (cos p * cos p) with (1 - m20 r * m20 r) by (rewrite Q2; lra).
    transitivity (m12 r - m20 r * (m12 r * m20 r)); [ring|].
    replace (m12 r * m20 r) with (m01 r + m10 r * m22 r) by lra.
    rewrite K6 at 1. ring. }
  clear G. clearbody ro ya p.
  apply m3_ext; cbn [m3mul rot_x rot_y rot_z m00 m01 m02 m10 m11 m12 m20 m21 m22].
  - rewrite B1. ring.
  - apply Can. rewrite R01, A1, A2, B1, B2, Q2. ring.
  - apply Can. rewrite R02, A1, A2, B1, B2, Q2. ring.
  - rewrite B2. ring.
  - apply Can. rewrite R11, A1, A2, B1, B2, Q2. ring.
  - apply Can. rewrite R12, A1, A2, B1, B2, Q2. ring.
  - rewrite Q2. ring.
  - rewrite A2. ring.
  - rewrite A1. ring.
Qed.

(** gimbal lock, pitch = +90 degrees (entry (2,0) = -1) *)
Lemma gimbal_entries r : is_rot r -> m20 r * m20 r = 1 ->
  m00 r = 0 /\ m10 r = 0 /\ m21 r = 0 /\ m22 r = 0.
Proof.
  intros H E. rot_eqs H.
  assert (A : m00 r * m00 r + m10 r * m10 r = 0) by lra.
  assert (B : m21 r * m21 r + m22 r * m22 r = 0) by lra.
  pose proof (sq_nonneg (m00 r)); pose proof (sq_nonneg (m10 r)).
  pose proof (sq_nonneg (m21 r)); pose proof (sq_nonneg (m22 r)).
  repeat split; apply sq_zero; lra.
Qed.

Lemma rot2rpy_gimbal_up r : is_rot r -> m20 r = -1 -> rpy_mat (rot2rpy r) = r.
Proof.
  intros H E. destruct (gimbal_entries r H ltac:(rewrite E; ring)) as (Z1 & Z2 & Z3 & Z4).
  pose proof (pitch_eq r H) as P. cbv zeta in P. unfold rot2rpy.
  set (p := atan2 (- m20 r) (sqrt (m00 r * m00 r + m10 r * m10 r))) in *.
  destruct P as (P1 & P2).
  rewrite Z1, Z2 in P1. replace (0 * 0 + 0 * 0) with 0 in P1 by ring. rewrite sqrt_0 in P1.
  rewrite P1, Rabs_R0. destruct (Rltb_spec (1 / 10 ^ 12) 0); [lra|].
  rot_eqs H.
  assert (U : m11 r * m11 r + m01 r * m01 r = 1) by (rewrite Z3 in *; lra).
  destruct (atan2_polar (m01 r) (m11 r)) as (A & B).
  { destruct (Req_dec (m11 r) 0) as [E1|E1]; auto. right. intros E2. rewrite E1, E2 in U. lra. }
  rewrite U, sqrt_1, !Rmult_1_l in A, B.
  set (ro := atan2 (m01 r) (m11 r)) in *. clearbody ro p.
  unfold rpy_mat; apply m3_ext; cbn [m3mul rot_x rot_y rot_z m00 m01 m02 m10 m11 m12 m20 m21 m22 vx vy vz];
    rewrite ?sin_0, ?cos_0, ?P1, ?P2, <- ?A, <- ?B; rewrite ?E, ?Z1, ?Z2, ?Z3, ?Z4 in *; lra.
Qed.

(** gimbal lock, pitch = -90 degrees: the code's roll has the wrong sign *)
Definition gimbal_down_example : m3 := M3 0 (- (3/5)) (- (4/5))  0 (4/5) (- (3/5))  1 0 0.
Lemma rot2rpy_gimbal_down :
  is_rot gimbal_down_example /\ rpy_mat (rot2rpy gimbal_down_example) <> gimbal_down_example.
Proof.
  assert (H : is_rot gimbal_down_example).
  { repeat split; try (apply m3_ext; simpl; lra). unfold m3det; simpl; lra. }
  split; auto. intros F.
  pose proof (pitch_eq _ H) as P. cbv zeta in P. unfold rot2rpy in F.
  set (p := atan2 (- m20 gimbal_down_example) (sqrt (m00 gimbal_down_example * m00 gimbal_down_example + m10 gimbal_down_example * m10 gimbal_down_example))) in *.
  destruct P as (P1 & P2).
  cbn [gimbal_down_example m00 m10 m20] in P1, P2.
  replace (0 * 0 + 0 * 0) with 0 in P1 by ring. rewrite sqrt_0 in P1.
  rewrite P1, Rabs_R0 in F. destruct (Rltb_spec (1 / 10 ^ 12) 0); [lra|].
  cbn [gimbal_down_example m01 m11] in F.
  destruct (atan2_polar (- (3/5)) (4/5)) as (A & B); [lra|].
  replace (4 / 5 * (4 / 5) + - (3 / 5) * - (3 / 5)) with 1 in A, B by field.
  rewrite sqrt_1, !Rmult_1_l in A, B.
  set (ro := atan2 (- (3/5)) (4/5)) in *. clearbody ro p.
  apply (f_equal m01) in F. unfold rpy_mat in F. 
  cbn [gimbal_down_example m3mul rot_x rot_y rot_z m00 m01 m02 m10 m11 m12 m20 m21 m22 vx vy vz] in F.
  rewrite sin_0, cos_0, P1, P2, <- A, <- B in F. lra.
Qed.
