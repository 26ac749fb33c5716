(** Properties C55, C56, C59, C62, C69-C72 (inertial propagation) and the right Jacobian of C28. *)
From Coq Require Import Reals Lra Bool List Arith Lia.
From Coquelicot Require Import Coquelicot.
From Verif Require Import Outcome GeoModel GeoSpec GeoProofs ExpProofs JacSo3 Lin TypesModel StateSpec ManifoldSpec Calc3 ImuModel PropModel PropSpec.
From Verif Require Import PropDisc PropAna PropThms RkSpec RkThms.
Import ListNotations.
Open Scope R_scope.

(** ** C28 *)
Theorem C28_right_jacobian : forall w d, 1 / 10 ^ 6 <= v3norm w ->
  m3_derive (fun s => exp_so3 (v3add w (v3scal s d))) 0 (m3mul (exp_so3 w) (skew_x (m3v (Jr_so3 w) d))).
Proof. exact Jr_so3_right_jacobian. Qed.
Print Assumptions C28_right_jacobian.
Example C28_right_ex : 1 / 10 ^ 6 <= v3norm slow_w.
Proof. rewrite slow_norm. lra. Qed.

(** ** C55: with invertible scale matrices the correction of simulated readings gives the true rates
    and forces, plus the noise mapped through the intrinsics. *)
Theorem C55_noise_free : forall x Tw Ta m p w1 a1 w2 a2, pst_ok x ->
  inverse_of (Dm (ps_model x) (ps_dw x)) Tw -> inverse_of (Dm (ps_model x) (ps_da x)) Ta ->
  let rd := fun w a => sim_reading Tw Ta (Tg_of (ps_tg x)) (ps_qw x) (ps_qa x) w a (iv_bg (ps_imu x)) (iv_ba (ps_imu x)) in
  (i_w m, i_a m) = rd w1 a1 -> (i_w p, i_a p) = rd w2 a2 ->
  let c := correct x m p in
  c_a1 c = a1 /\ c_a2 c = a2 /\ c_w1 c = w1 /\ c_w2 c = w2 /\
  c_aavg c = v3scal (/ 2) (v3add a1 a2) /\ c_wavg c = v3scal (/ 2) (v3add w1 w2).
Proof. exact sim_exact. Qed.
Print Assumptions C55_noise_free.
Theorem C55_with_noise : forall x Tw Ta m p w1 a1 w2 a2 nw1 na1 nw2 na2, pst_ok x ->
  inverse_of (Dm (ps_model x) (ps_dw x)) Tw -> inverse_of (Dm (ps_model x) (ps_da x)) Ta ->
  let rd := fun w a nw na => sim_reading Tw Ta (Tg_of (ps_tg x)) (ps_qw x) (ps_qa x) w a (v3add (iv_bg (ps_imu x)) nw) (v3add (iv_ba (ps_imu x)) na) in
  (i_w m, i_a m) = rd w1 a1 nw1 na1 -> (i_w p, i_a p) = rd w2 a2 nw2 na2 ->
  let ea := fun na => m3v (quat_2_Rot (ps_qa x)) (m3v (Dm (ps_model x) (ps_da x)) na) in
  let ew := fun nw na => m3v (quat_2_Rot (ps_qw x)) (m3v (Dm (ps_model x) (ps_dw x)) (v3sub nw (m3v (Tg_of (ps_tg x)) (ea na)))) in
  let c := correct x m p in
  c_a1 c = v3add a1 (ea na1) /\ c_a2 c = v3add a2 (ea na2) /\
  c_w1 c = v3add w1 (ew nw1 na1) /\ c_w2 c = v3add w2 (ew nw2 na2) /\
  c_aavg c = v3scal (/ 2) (v3add (c_a1 c) (c_a2 c)) /\ c_wavg c = v3scal (/ 2) (v3add (c_w1 c) (c_w2 c)).
Proof. exact sim_correct. Qed.
Print Assumptions C55_with_noise.
Theorem C55_end_to_end : forall x Tw Ta m p w a g Rs v pos, pst_ok x ->
  inverse_of (Dm (ps_model x) (ps_dw x)) Tw -> inverse_of (Dm (ps_model x) (ps_da x)) Ta ->
  let dt := i_t p - i_t m in
  let rd := sim_reading Tw Ta (Tg_of (ps_tg x)) (ps_qw x) (ps_qa x) w a (iv_bg (ps_imu x)) (iv_ba (ps_imu x)) in
  (i_w m, i_a m) = rd -> (i_w p, i_a p) = rd ->
  0 < dt -> small_bound <= v3norm w -> 1 / 10 ^ 7 <= dt * v3norm w ->
  kinematics w a g Rs v pos -> Rs 0 = quat_2_Rot (iv_q (ps_imu x)) -> v 0 = iv_v (ps_imu x) -> pos 0 = iv_p (ps_imu x) ->
  let n := predict_mean ANALYTICAL g x m p in
  Rs dt = quat_2_Rot (mn_q n) /\ v dt = mn_v n /\ pos dt = mn_p n.
Proof. exact sim_prop. Qed.
Print Assumptions C55_end_to_end.
Example C55_ex : pst_ok scaled_state /\
  inverse_of (Dm (ps_model scaled_state) (ps_dw scaled_state)) (m3scal (/ 2) m3id) /\
  inverse_of (Dm (ps_model scaled_state) (ps_da scaled_state)) m3id /\
  (i_w (sc_m 0), i_a (sc_m 0)) = sim_reading (m3scal (/ 2) m3id) m3id (Tg_of (ps_tg scaled_state)) (ps_qw scaled_state) (ps_qa scaled_state)
     v3zero (V3 0 0 1) (iv_bg (ps_imu scaled_state)) (iv_ba (ps_imu scaled_state)).
Proof.
  split; [apply sc_ok|]. unfold inverse_of, scaled_state, two_dw, default_dw, tg_id, vec_of.
  split; [apply m3_ext; simpl; field|]. split; [apply m3_ext; simpl; field|].
  unfold sim_reading, sc_m. f_equal; apply v3_ext; simpl; field.
Qed.
Example C55_end_ex : exists Rs v pos, 0 < 1 / 100 /\ small_bound <= v3norm (V3 0 0 1) /\ 1 / 10 ^ 7 <= 1 / 100 * v3norm (V3 0 0 1) /\
  kinematics (V3 0 0 1) (V3 1 0 0) (V3 0 0 9) Rs v pos /\ Rs 0 = quat_2_Rot (Q4 0 0 0 1) /\ v 0 = v3zero /\ pos 0 = v3zero.
Proof.
  assert (E : v3norm (V3 0 0 1) = 1). { unfold v3norm, v3dot; simpl. replace (0 * 0 + 0 * 0 + 1 * 1) with 1 by ring. apply sqrt_1. }
  destruct (kinematics_exists (V3 0 0 1) (V3 1 0 0) (V3 0 0 9) m3id v3zero v3zero ltac:(rewrite E; lra)) as (Rs & v & p & K & R0 & V0 & P0 & _).
  exists Rs, v, p. rewrite E. pose proof PI_4. unfold small_bound. repeat split; try lra; try apply K; auto.
  rewrite R0. symmetry. apply id_q_rot.
Qed.

(** ** C56 *)
Theorem C56_H_D : forall m v d w,
  v3_derive (fun s => m3v (Dm m (bump s d v)) w) 0 (csum 6 (compute_H_D m w) d) /\
  m3v (Dm m (bump 1 d v)) w = v3add (m3v (Dm m v) w) (csum 6 (compute_H_D m w) d).
Proof. exact H_D_thm. Qed.
Print Assumptions C56_H_D.
Theorem C56_H_Tg : forall v d a,
  v3_derive (fun s => m3v (Tg_of (bump s d v)) a) 0 (csum 9 (compute_H_Tg a) d) /\
  m3v (Tg_of (bump 1 d v)) a = v3add (m3v (Tg_of v) a) (csum 9 (compute_H_Tg a) d).
Proof. exact H_Tg_thm. Qed.
Print Assumptions C56_H_Tg.

(** ** C59: the discrete transition matrix is the derivative of the discrete mean exactly when the
    factor Dw missing in its (orientation, Da) block makes no difference, e.g. without online
    intrinsic calibration or when Dw Tg = Tg. *)
Theorem C59_exactly_when : forall g x m p, pst_ok x -> fej_inactive x -> 0 < i_t p - i_t m ->
  regular_rate (i_t p - i_t m) (c_wavg (correct x m p)) ->
  (is_transition x (fun z => predict_mean DISCRETE g z m p) (predict_F DISCRETE g x m p) <->
   forall e, missing_Dw x e (i_t p - i_t m) (correct x m p) = v3zero).
Proof. exact disc_transition_iff. Qed.
Print Assumptions C59_exactly_when.
Theorem C59_transition : forall g x m p, pst_ok x -> fej_inactive x -> 0 < i_t p - i_t m ->
  regular_rate (i_t p - i_t m) (c_wavg (correct x m p)) ->
  (ps_calib x = false \/ m3mul (Dm (ps_model x) (ps_dw x)) (Tg_of (ps_tg x)) = Tg_of (ps_tg x)) ->
  is_transition x (fun z => predict_mean DISCRETE g z m p) (predict_F DISCRETE g x m p).
Proof. intros g x m p H1 H2 H3 H4 H5. apply disc_transition_iff; auto. intros e. apply missing_zero; auto. Qed.
Print Assumptions C59_transition.
Theorem C59_noise : forall g x m p, pst_ok x -> fej_inactive x -> 0 < i_t p - i_t m ->
  regular_rate (i_t p - i_t m) (c_wavg (correct x m p)) ->
  is_noise_jac x (fun m' p' => predict_mean DISCRETE g x m' p') m p (predict_G DISCRETE g x m p).
Proof. exact disc_noise. Qed.
Print Assumptions C59_noise.
Theorem C59_transition_refuted : exists g x m p, pst_ok x /\ fej_inactive x /\ 0 < i_t p - i_t m /\
  regular_rate (i_t p - i_t m) (c_wavg (correct x m p)) /\
  ~ is_transition x (fun z => predict_mean DISCRETE g z m p) (predict_F DISCRETE g x m p).
Proof. exact disc_transition_refuted. Qed.
Print Assumptions C59_transition_refuted.
(** a state with calibration of both intrinsics and a nonzero rate meeting the hypotheses *)
Definition calib_state : pst :=
  mkPst RPNG true true false (IVal (Q4 0 0 0 1) v3zero v3zero v3zero v3zero) (IVal (Q4 0 0 0 1) v3zero v3zero v3zero v3zero)
    (vec_of [1; 0; 1; 0; 0; 1]) (vec_of [2; 1; 1; 0; 0; 1]) (fun _ => 0) (Q4 0 0 0 1) (Q4 0 0 0 1).
Lemma calib_w t : c_wavg (correct calib_state (sc_m 0) (sc_m t)) = V3 0 0 1.
Proof. unfold correct, calib_state, vec_of. apply v3_ext; simpl; field. Qed.
Lemma norm_z : v3norm (V3 0 0 1) = 1.
Proof. unfold v3norm, v3dot; simpl. replace (0 * 0 + 0 * 0 + 1 * 1) with 1 by ring. apply sqrt_1. Qed.
Example C59_ex : pst_ok calib_state /\ fej_inactive calib_state /\ 0 < i_t (sc_m (PI / 2)) - i_t (sc_m 0) /\
  regular_rate (i_t (sc_m (PI / 2)) - i_t (sc_m 0)) (c_wavg (correct calib_state (sc_m 0) (sc_m (PI / 2)))) /\ ps_calib calib_state = true /\
  m3mul (Dm (ps_model calib_state) (ps_dw calib_state)) (Tg_of (ps_tg calib_state)) = Tg_of (ps_tg calib_state).
Proof.
  pose proof PI_RGT_0. split; [unfold pst_ok, unit_q; simpl; lra|]. split; [left; reflexivity|]. split; [simpl; lra|].
  split; [|split; [reflexivity|apply m3_ext; simpl; ring]].
  right. rewrite calib_w, norm_z. unfold sc_m; cbn [i_t]. replace ((PI / 2 - 0) * 1) with (PI / 2) by ring. rewrite cos_PI2. lra.
Qed.

(** ** C62 *)
Theorem C62_kalibr_identity : Dm KALIBR (default_dw KALIBR) = m3id.
Proof. exact default_kalibr. Qed.
Print Assumptions C62_kalibr_identity.
Theorem C62_rpng_refuted : exists m, m3det (Dm m (default_dw m)) = 0 /\ Dm m (default_dw m) <> m3id.
Proof. exists RPNG. exact default_rpng. Qed.
Print Assumptions C62_rpng_refuted.
(** a configuration file's matrix survives exactly when it has the triangular shape of the model *)
Theorem C62_config_D : forall m D, Dm m (load_D m D) = D <-> triangular m D.
Proof. exact load_D_thm. Qed.
Print Assumptions C62_config_D.
Theorem C62_config_Tg : forall T, Tg_of (load_Tg T) = T.
Proof. exact load_Tg_thm. Qed.
Print Assumptions C62_config_Tg.
Example C62_ex : triangular KALIBR (M3 2 0 0 1 3 0 5 7 4) /\ triangular RPNG (M3 2 1 5 0 3 7 0 0 4).
Proof. split; repeat split. Qed.

(** ** C69: exact integration *)
Theorem C69_exact : forall g x dt w a Rs v p, unit_q (iv_q (ps_imu x)) -> 0 < dt -> small_bound <= v3norm w -> 1 / 10 ^ 7 <= dt * v3norm w ->
  kinematics w a g Rs v p -> Rs 0 = quat_2_Rot (iv_q (ps_imu x)) -> v 0 = iv_v (ps_imu x) -> p 0 = iv_p (ps_imu x) ->
  let n := predict_mean_analytic g x dt a (compute_Xi_sum dt w a) in
  Rs dt = quat_2_Rot (mn_q n) /\ v dt = mn_v n /\ p dt = mn_p n.
Proof. exact analytic_exact. Qed.
Print Assumptions C69_exact.
Theorem C69_slow_refuted :
  exists x dt w a g Rs v p, unit_q (iv_q (ps_imu x)) /\ 0 < dt <= 1 / 100 /\ 1 / 1000 < v3norm w < small_bound /\
    kinematics w a g Rs v p /\ Rs 0 = quat_2_Rot (iv_q (ps_imu x)) /\ v 0 = iv_v (ps_imu x) /\ p 0 = iv_p (ps_imu x) /\
    v dt <> mn_v (predict_mean_analytic g x dt a (compute_Xi_sum dt w a)).
Proof. exact analytic_slow_refuted. Qed.
Print Assumptions C69_slow_refuted.
(** C55_end_ex gives a motion meeting the hypotheses of C69_exact *)

(** ** C70: the analytic transition and noise Jacobians *)
Theorem C70_transition : forall g x m p, pst_ok x -> fej_inactive x -> 0 < i_t p - i_t m ->
  fast_rate (i_t p - i_t m) (c_wavg (correct x m p)) ->
  is_transition x (fun z => predict_mean ANALYTICAL g z m p) (predict_F ANALYTICAL g x m p).
Proof. exact ana_transition. Qed.
Print Assumptions C70_transition.
Theorem C70_noise : forall g x m p, pst_ok x -> fej_inactive x -> 0 < i_t p - i_t m ->
  fast_rate (i_t p - i_t m) (c_wavg (correct x m p)) ->
  is_noise_jac x (fun m' p' => predict_mean ANALYTICAL g x m' p') m p (predict_G ANALYTICAL g x m p).
Proof. exact ana_noise. Qed.
Print Assumptions C70_noise.
Example C70_ex : pst_ok calib_state /\ fej_inactive calib_state /\ 0 < i_t (sc_m 1) - i_t (sc_m 0) /\
  fast_rate (i_t (sc_m 1) - i_t (sc_m 0)) (c_wavg (correct calib_state (sc_m 0) (sc_m 1))).
Proof.
  split; [unfold pst_ok, unit_q; simpl; lra|]. split; [left; reflexivity|]. split; [simpl; lra|].
  unfold fast_rate, small_bound. rewrite calib_w, norm_z. pose proof PI_4. simpl; lra.
Qed.

(** ** C71: covariance over several intervals *)
Theorem C71_interval_noise : forall meth ns g x m p N, i_t m < i_t p ->
  spsd N (predict_Qd meth ns g x m p) /\
  meq N N (predict_Qd meth ns g x m p) (congr 12 (predict_G meth g x m p) (Qc ns (i_t p - i_t m))).
Proof. exact Qd_spsd. Qed.
Print Assumptions C71_interval_noise.
Theorem C71_summed : forall meth ns g x l P, times_up l ->
  let N := (15 + imu_intrinsic_size x)%nat in
  let '(x', Phi, Q) := prop_sum meth ns g x l in
  spsd N Q /\
  meq N N (madd (congr N Phi P) Q)
    (cov_steps (predict_F meth g) (predict_Qd meth ns g) (predict_state meth g) N l x P).
Proof. exact prop_sum_cov. Qed.
Print Assumptions C71_summed.
Theorem C71_error : forall meth ns g x l e,
  let N := (15 + imu_intrinsic_size x)%nat in
  let '(x', Phi, Q) := prop_sum meth ns g x l in
  veq N (mvec N Phi e) (err_steps (predict_F meth g) (predict_state meth g) N l x e).
Proof. exact prop_sum_err. Qed.
Print Assumptions C71_error.
(** the state after the readings: every mean step from the one before, first estimates reset, the rest untouched *)
Theorem C71_state : forall meth ns g x l, let '(x', _, _) := prop_sum meth ns g x l in
  carried meth g l x x' /\ same_params x x' /\ ((2 <= length l)%nat -> ps_fej x' = ps_imu x').
Proof. exact carried_thm. Qed.
Print Assumptions C71_state.
Example C71_ex : times_up [sc_m 0; sc_m 1; sc_m 3] /\ length [sc_m 0; sc_m 1; sc_m 3] = 3%nat.
Proof. simpl. split; [lra|reflexivity]. Qed.

(** ** C72 *)
Theorem C72_straight : forall g x dt a1 a2 v p, unit_q (iv_q (ps_imu x)) -> 0 < dt ->
  straight (quat_2_Rot (iv_q (ps_imu x))) dt a1 a2 g v p -> v 0 = iv_v (ps_imu x) -> p 0 = iv_p (ps_imu x) ->
  let n := predict_mean_rk4 g x dt v3zero a1 v3zero a2 in
  quat_2_Rot (mn_q n) = quat_2_Rot (iv_q (ps_imu x)) /\ v dt = mn_v n /\ p dt = mn_p n.
Proof. exact rk4_straight. Qed.
Print Assumptions C72_straight.
(** with rotation it is the classical Runge-Kutta step on the strap-down equations, for readings linear in time *)
Theorem C72_textbook : forall g x dt w1 a1 w2 a2, dt <> 0 ->
  let y := rk4_step unit_part (strapdown g (iv_q (ps_imu x)) dt w1 w2 a1 a2) dt (mkRy (Q4 0 0 0 1) (iv_v (ps_imu x)) (iv_p (ps_imu x))) in
  let n := predict_mean_rk4 g x dt w1 a1 w2 a2 in
  mn_q n = quat_multiply (ry_q y) (iv_q (ps_imu x)) /\ mn_v n = ry_v y /\ mn_p n = ry_p y.
Proof. exact rk4_thm. Qed.
Print Assumptions C72_textbook.
(** half way through a step in which the yaw rate grows from 0 to 2: the quaternion turns at half that rate *)
Example C72_textbook_ex :
  ry_q (strapdown (V3 0 0 9) (Q4 0 0 0 1) 1 v3zero (V3 0 0 2) v3zero v3zero (1 / 2) (mkRy (Q4 0 0 0 1) v3zero v3zero)) = Q4 0 0 (1 / 2) 0.
Proof. unfold strapdown. cbn [ry_q]. apply q4_ext; simpl; unfold v3dot; simpl; field. Qed.
(** specific force growing from 0 to 6 along x, identity orientation, no gravity *)
Example C72_ex : straight (quat_2_Rot (iv_q (ps_imu rest_state))) 1 v3zero (V3 6 0 0) v3zero (fun t => V3 (3 * t * t) 0 0) (fun t => V3 (t * t * t) 0 0).
Proof.
  intros t. unfold v3_derive; cbn [vx vy vz]. split.
  - split; [auto_derive; auto; simpl; field|]. split; (auto_derive; auto; simpl; field).
  - split; [auto_derive; auto; ring|]. split; auto_derive; auto; ring.
Qed.
