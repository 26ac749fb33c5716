(** Property theorems C53 and C76 (UpdaterZeroVelocity, frames of VioManager with zero-velocity updates). *)
From Coq Require Import Reals List Arith Lia Lra Bool ZArith.
From Verif Require Import RBool Outcome Lin GeoModel GeoSpec GeoProofs TypesModel GivensModel GivensSpec StateModel StateSpec
  ReachModel ReachSpec StateFrame StateEx DbModel DbSpec InitModel InitSpec UpdSpec ImuModel ImuSpec PropModel PropSpec
  Calc3 ZuptModel ZuptSpec ZuptProofs ZuptThms ZuptVio.
Import ListNotations.
Open Scope R_scope.

(** a call that answers no: state and database as before *)
Theorem C53_rejected_changes_nothing : forall chi2q zo x dt z d st t z' d' st', try_update chi2q zo x dt z d st t = Ok (false, z', d', st') ->
  st' = st /\ d' = d /\ z_imu z' = z_imu z /\ z_time z' = 0.
Proof. exact reject_thm. Qed.
Print Assumptions C53_rejected_changes_nothing.

(** a call that answers yes: the clock, the shape of the state, and the Kalman update with the whitened rest conditions of all intervals *)
Theorem C53_accepted_update : forall chi2q zo x dt z d st t z' d' st', reach chi2q st -> zopts_ok zo -> db_ok d -> single_obs d ->
  try_update chi2q zo x dt z d st t = Ok (true, z', d', st') ->
  s_time st <> t /\ s_time st' = t /\ same_shape st st' /\ reach chi2q st' /\
  z' = mkZ (z_imu z) dt true t (S (z_count z)) /\ (if (2 <=? z_count z)%nat then cleaned (fun u => u <> z_time z) d d' else d' = d) /\
  exists l o H res, select_imu_readings (z_imu z) (s_time st + (if z_have z then z_off z else dt)) (t + dt) = Ok l /\
    (2 <= length l)%nat /\ In (TImu o) (s_vars st) /\
    let q := po_q (io_pose o) in
    rest_stack (zo_noise zo) (zo_grav zo) x (qo_R q) (if ps_dofej x then qo_Rfej q else qo_R q) (wo_val (io_bg o)) (wo_val (io_ba o)) l H res /\
    rest_update st (madd (s_cov st) (bias_walk (zo_noise zo) (durations l))) (6 * (length l - 1)) H res (zo_nmul zo) st'.
Proof. exact accept_thm. Qed.
Print Assumptions C53_accepted_update.

(** when a call answers yes *)
Theorem C53_decision : forall chi2q zo x dt z d st t b z' d' st', reach chi2q st -> zopts_ok zo -> db_ok d -> single_obs d ->
  try_update chi2q zo x dt z d st t = Ok (b, z', d', st') ->
  (b = false /\ (z_imu z = [] \/ s_time st = t \/
     exists l, select_imu_readings (z_imu z) (s_time st + (if z_have z then z_off z else dt)) (t + dt) = Ok l /\ (length l < 2)%nat)) \/
  exists l o H0 res0 N chi2 ds,
    let q := po_q (io_pose o) in let m := (6 * (length l - 1))%nat in let k := Nat.min m 9 in
    let C0 := madd (s_cov st) (bias_walk (zo_noise zo) (durations l)) in
    select_imu_readings (z_imu z) (s_time st + (if z_have z then z_off z else dt)) (t + dt) = Ok l /\ In (TImu o) (s_vars st) /\
    rest_stack (zo_noise zo) (zo_grav zo) x (qo_R q) (if ps_dofej x then qo_Rfej q else qo_R q) (wo_val (io_bg o)) (wo_val (io_ba o)) l H0 res0 /\
    orthonormal_cols m k N /\ ((m <= 9)%nat -> N = mid) /\
    mahalanobis (s_dim st) C0 (widen rest_idx (mmul m (mtr N) H0)) k (mvec m (mtr N) res0) (zo_nmul zo) chi2 /\
    compute_disparity d (s_time st) t = Ok ds /\
    (b = true <-> image_still (zo_dmax zo) ds \/ (chi2 <= zo_mult zo * chi2q k /\ v3norm (wo_val (io_v o)) <= zo_vmax zo)).
Proof. exact decision_thm. Qed.
Print Assumptions C53_decision.

(** readings in order and a forward interval: the call returns and the filter stays in a reachable state *)
Theorem C53_returns : forall chi2q zo x dt z d st t, reach chi2q st -> zopts_ok zo -> db_ok d -> single_obs d ->
  chrono (z_imu z) -> s_time st + (if z_have z then z_off z else dt) < t + dt ->
  exists b z' d' st', try_update chi2q zo x dt z d st t = Ok (b, z', d', st') /\ reach chi2q st' /\ same_shape st st' /\ db_ok d' /\
    s_time st' = if b then t else s_time st.
Proof. exact returns_thm. Qed.
Print Assumptions C53_returns.

Example C53_ex : zopts_ok rest_zo /\ db_ok [] /\ single_obs [] /\ exists st t z' d' st', reach ex_chi2 st /\ chrono rest_data /\ s_time st < t /\ length (s_clones st) = 1%nat /\
  try_update ex_chi2 rest_zo rest_x 0 (mkZ rest_data 0 true 0 0) [] st t = Ok (true, z', d', st') /\ s_time st' = t.
Proof. split; [exact rest_zok|]. split; [apply empty_db|]. split; [apply empty_db|]. exact forwards. Qed.
(** a call that answers no *)
Example C53_ex_no : exists st t z' d' st', reach ex_chi2 st /\ s_time st < t /\
  try_update ex_chi2 rest_zo rest_x 0 (mkZ [mkImu 0 v3zero v3zero] 0 true 7 3) [] st t = Ok (false, z', d', st').
Proof.
  destruct rest_state as (st & p & HR & Ht & _). exists st, (s_time st + 1). eexists _, _, _. split; [exact HR|]. split; [lra|].
  unfold try_update. cbn [z_imu]. destruct (Reqb_spec (s_time st) (s_time st + 1)); [lra|]. reflexivity.
Qed.

(** the Jacobian rows are the derivatives of the rest conditions exactly for sensors without scale, misalignment and g-sensitivity *)
Theorem C53_jacobian_exact_iff : forall x q bg ba g m, unit_q q ->
  (rest_jac_exact x q bg ba g m <->
   m3mul (quat_2_Rot (ps_qw x)) (Dm (ps_model x) (ps_dw x)) = m3id /\
   m3mul (quat_2_Rot (ps_qa x)) (Dm (ps_model x) (ps_da x)) = m3id /\ Tg_of (ps_tg x) = m3zero).
Proof. exact rest_jac_exact_iff. Qed.
Print Assumptions C53_jacobian_exact_iff.

Theorem C53_jacobian_calibrated_refuted : exists x q m, unit_q q /\ unit_q (ps_qw x) /\ unit_q (ps_qa x) /\ 0 < ps_dw x 0%nat /\
  ~ rest_jac_exact x q v3zero v3zero 9 m.
Proof.
  exists (mkPst KALIBR true false false (ps_imu rest_x) (ps_fej rest_x) (fun i => nth i [2; 0; 0; 1; 0; 1] 0) (ps_da rest_x) (ps_tg rest_x) (Q4 0 0 0 1) (Q4 0 0 0 1)).
  exists (Q4 0 0 0 1), (mkImu 0 v3zero v3zero).
  assert (U : unit_q (Q4 0 0 0 1)) by (unfold unit_q; cbn; ring). split; [exact U|]. split; [exact U|]. split; [exact U|]. split; [cbn; lra|].
  intros H. apply (rest_jac_exact_iff _ _ _ _ _ _ U) in H. destruct H as (H & _). cbn [ps_qw ps_model ps_dw] in H. rewrite q_id in H.
  apply (f_equal m00) in H. cbn in H. lra.
Qed.
Print Assumptions C53_jacobian_calibrated_refuted.
Example C53_jacobian_ex : unit_q (Q4 (3 / 5) 0 0 (4 / 5)) /\
  m3mul (quat_2_Rot (ps_qw rest_x)) (Dm (ps_model rest_x) (ps_dw rest_x)) = m3id /\
  m3mul (quat_2_Rot (ps_qa rest_x)) (Dm (ps_model rest_x) (ps_da rest_x)) = m3id /\ Tg_of (ps_tg rest_x) = m3zero.
Proof.
  split; [unfold unit_q; cbn; field|]. cbn [rest_x ps_qw ps_qa ps_model ps_dw ps_da ps_tg]. rewrite q_id.
  split; [apply m3_ext; cbn; ring|]. split; [apply m3_ext; cbn; ring|]. apply m3_ext; reflexivity.
Qed.

(** an image older than the state can be accepted: the clock goes back behind a clone *)
Theorem C53_old_image_moves_clock_back_refuted : exists st t z' d' st', reach ex_chi2 st /\ chrono rest_data /\ t < s_time st /\
  try_update ex_chi2 rest_zo rest_x 0 (mkZ rest_data 0 true 0 0) [] st t = Ok (true, z', d', st') /\
  s_time st' < s_time st /\ exists c, In c (s_clones st') /\ s_time st' < fst c.
Proof. exact backwards. Qed.
Print Assumptions C53_old_image_moves_clock_back_refuted.

(** images not older than the state: never an exit or a failed assertion, the clock is the image time, clone times increase *)
Theorem C76_clock_with_zero_velocity_updates : forall chi2q zo cal once m f, zopts_ok zo -> vio_state chi2q zo cal once m -> fits chi2q cal m f ->
  exists m', vio_frame chi2q zo cal once m f = Ok m' /\ s_time (vm_st m') = fr_t f /\ s_time (vm_st m) <= s_time (vm_st m') /\
    increasing (map fst (s_clones (vm_st m'))) /\ (forall c, In c (s_clones (vm_st m')) -> fst c <= s_time (vm_st m')) /\
    (Z.of_nat (length (s_clones (vm_st m'))) <= o_max_clones (s_opts (vm_st m')))%Z /\
    ((vm_did m' = true /\ s_time (vm_st m) < fr_t f /\ (once = false \/ vm_moved m = false)) -> s_clones (vm_st m') = s_clones (vm_st m)).
Proof. exact vio_thm. Qed.
Print Assumptions C76_clock_with_zero_velocity_updates.

Example C76_ex : exists m f m', vio_state ex_chi2 rest_zo (fun _ => (rest_x, 0)) false m /\ s_clones (vm_st m) <> [] /\
  fits ex_chi2 (fun _ => (rest_x, 0)) m f /\ s_time (vm_st m) < fr_t f /\ vio_frame ex_chi2 rest_zo (fun _ => (rest_x, 0)) false m f = Ok m'.
Proof. exact vio_run_ex. Qed.

(** without the condition on the order of the images the estimator can leave the process: an old image is accepted as at rest, the next image repeats a clone time *)
Theorem C76_past_image_exit_refuted : exists m m' f g, vio_ok ex_chi2 m /\ chrono (fr_imu f) /\ chrono (fr_imu g) /\
  fr_t f < s_time (vm_st m) /\ fr_t g = s_time (vm_st m) /\
  frame_ok ex_chi2 (vm_st m) (fr_t f) (fr_prop f) (fr_mid f) /\ frame_ok ex_chi2 (vm_st m') (fr_t g) (fr_prop g) (fr_mid g) /\
  vio_frame ex_chi2 rest_zo (fun _ => (rest_x, 0)) false m f = Ok m' /\ s_time (vm_st m') = fr_t f /\
  vio_frame ex_chi2 rest_zo (fun _ => (rest_x, 0)) false m' g = Exit.
Proof. exact past_image. Qed.
Print Assumptions C76_past_image_exit_refuted.

