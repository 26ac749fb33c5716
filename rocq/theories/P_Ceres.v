(** C88: the quaternion parametrization.  C89: the image term.  C90: the IMU term.  C91: the prior term. *)
From Coq Require Import Reals List Bool Arith Lra.
From Coquelicot Require Import Coquelicot.
From Verif Require Import RBool Outcome GeoModel GeoSpec ExpSeries JacSo3 Calc3 Lin ManifoldSpec StateModel StateEkf PropModel PropSpec CamModel CamSpec HelpModel HelpSpec CpiModel CpiSpec CpiJac CpiEx CeresModel CeresSpec CeresQuat CeresImg CeresImu CeresRows CeresZero CeresBad CeresPrior CeresEx.
Import ListNotations.
Open Scope R_scope.

(** Plus turns the orientation by its rotation vector: exactly, or to first order by the Cayley map below 1e-8. *)
Theorem C88_plus_turns : forall q d, unit_q q -> unit_q (jpl_plus q d) /\ 0 <= qw (jpl_plus q d) /\
  (d = v3zero \/ 1 / 10 ^ 8 <= v3norm d -> turned_by d q (jpl_plus q d)) /\
  (v3norm d < 1 / 10 ^ 8 -> quat_2_Rot (jpl_plus q d) = m3mul (cayley d) (quat_2_Rot q)).
Proof. exact plus_turn. Qed.
Print Assumptions C88_plus_turns.
(** Its derivative at zero is the left error of the rotation matrix. *)
Theorem C88_plus_derivative : forall q d, unit_q q ->
  m3_derive (fun s => quat_2_Rot (jpl_plus q (v3scal s d))) 0 (m3mul (m3scal (-1) (skew_x d)) (quat_2_Rot q)).
Proof. exact plus_derive. Qed.
Print Assumptions C88_plus_derivative.
(** Minus recovers what Plus added, for less than half a turn. *)
Theorem C88_minus_plus : forall q d, unit_q q -> v3norm d < PI -> 1 / 10 ^ 8 <= sin (v3norm d / 2) -> jpl_minus (jpl_plus q d) q = d.
Proof. exact minus_plus. Qed.
Print Assumptions C88_minus_plus.
(** Plus reaches the orientation that Minus was taken to. *)
Theorem C88_plus_minus : forall x y, unit_q x -> unit_q y -> 1 / 10 ^ 8 <= v3norm (qvec (quat_multiply y (quat_inv x))) ->
  quat_2_Rot (jpl_plus x (jpl_minus y x)) = quat_2_Rot y.
Proof. exact minus_then_plus. Qed.
Print Assumptions C88_plus_minus.
(** A difference below 1e-8 is lost. *)
Theorem C88_minus_tiny_refuted : exists q d, unit_q q /\ v3norm d < 1 / 10 ^ 8 /\ jpl_minus (jpl_plus q d) q <> d.
Proof. exact minus_tiny_refuted. Qed.
Print Assumptions C88_minus_tiny_refuted.
(** PlusJacobian is not the derivative of the four values that Plus returns. *)
Theorem C88_plus_jacobian_refuted : exists q d, unit_q q /\ ~ is_derive (fun s => qx (jpl_plus q (v3scal s d))) 0 (mvec 3 jpl_jac (v3vec d) 0%nat).
Proof. exact plus_jac_refuted. Qed.
Print Assumptions C88_plus_jacobian_refuted.
Example C88_ex : unit_q eq1 /\ unit_q eq2 /\ v3norm (V3 1 0 0) < PI /\ 1 / 10 ^ 8 <= sin (v3norm (V3 1 0 0) / 2) /\
  1 / 10 ^ 8 <= v3norm (qvec (quat_multiply eq2 (quat_inv eq1))).
Proof. exact (conj (proj1 eq_unit) (conj (proj2 eq_unit) (conj (proj1 one_rad) (conj (proj2 one_rad) eq_apart)))). Qed.

(** The image term is the pixel error over the pixel noise, scaled by the gate. *)
Theorem C89_value : forall f x i, (i < 2)%nat -> img_res f x i = im_gate f / im_sigma f * (pixel f x i - im_uv f i).
Proof. exact img_value. Qed.
Print Assumptions C89_value.
(** What Ceres forms from the six stored Jacobians is the derivative of the residual along every joint move of the pose,
    the feature, the extrinsics and the intrinsics. *)
Theorem C89_jacobians : forall f x d, unit_q (ip_q x) -> unit_q (ip_qc x) -> regular (im_cam f) (img_pC x) ->
  vec_derive 2 (fun s => img_res f (imove x d s)) 0 (ipredict (img_jac f x) d).
Proof. exact img_derive. Qed.
Print Assumptions C89_jacobians.
Example C89_ex : unit_q (ip_q ex_ip) /\ unit_q (ip_qc ex_ip) /\ forall c, regular c (img_pC ex_ip).
Proof. exact (conj (proj1 eq_unit) (conj (proj2 eq_unit) ex_regular)). Qed.

(** The IMU term's Jacobians are the derivative of the residual along every joint move of the two states, when the
    gyroscope bias is at its linearization point or does not move, and the quaternion product keeps its sign. *)
Theorem C90_jacobians : forall f x y d e, unit_q (cl_q x) -> unit_q (cl_q y) -> unit_q (cf_q f) -> cl_bg x = cf_bg f \/ cd_bg d = v3zero ->
  0 < cross_w f x y -> vec_derive 15 (fun s => imu_res f (cmove x d s) (cmove y e s)) 0 (cpredict (imu_jac f x y) d e).
Proof. exact imu_derive. Qed.
Print Assumptions C90_jacobians.
(** It does when both the estimated and the measured turn are below a quarter turn. *)
Theorem C90_small_turns : forall f x y, unit_q (cl_q x) -> unit_q (cl_q y) -> unit_q (cf_q f) ->
  small_turn (imu_q12 x y) -> small_turn (quat_multiply (quat_inv (cf_q f)) (imu_qb f x)) -> 0 < cross_w f x y.
Proof. exact cross_small. Qed.
Print Assumptions C90_small_turns.
(** The residual vanishes exactly when the second state is the first one moved by the corrected measurement. *)
Theorem C90_zero : forall f x y, unit_q (cl_q x) -> unit_q (cl_q y) -> unit_q (cf_q f) -> injective 15 (cf_S f) ->
  (veq 15 (imu_res f x y) (fun _ => 0) <-> CeresSpec.follows f x y).
Proof. exact imu_zero. Qed.
Print Assumptions C90_zero.
(** Its squared norm is the unweighted residual in the metric of the inverse of the preintegration covariance. *)
Theorem C90_cost : forall solve llt g c f x y, imu_factor solve llt g c = Ok f ->
  (forall info, solve (cp_P c) = Some info -> inverse 15 (cp_P c) info /\ cholesky 15 info (llt info)) ->
  exists info, inverse 15 (cp_P c) info /\ dot 15 (imu_res f x y) (imu_res f x y) = quad 15 info (imu_raw f x y) /\ injective 15 (cf_S f).
Proof. exact factor_cost. Qed.
Print Assumptions C90_cost.
(** It is zero for two states of a body that follows the readings, with the biases the readings were integrated at. *)
Theorem C90_true_motion : forall solve llt avg Qc bw ba g l x y f, unit_q (cl_q x) -> unit_q (cl_q y) -> rates rate_ok avg bw l ->
  imu_factor solve llt g (cpi_run (cpi_new avg Qc bw ba) l) = Ok f ->
  cl_bg x = bw -> cl_ba x = ba -> cl_bg y = bw -> cl_ba y = ba ->
  moves g (map (piece avg bw ba) l) (body_of x) (body_of y) -> veq 15 (imu_res f x y) (fun _ => 0).
Proof. exact true_motion. Qed.
Print Assumptions C90_true_motion.
(** With other biases it is zero to first order in the difference. *)
Theorem C90_bias_first_order : forall solve llt avg Qc bw ba e a g l x (y : R -> clone) f, unit_q (cl_q x) -> rates rate_fast avg bw l ->
  imu_factor solve llt g (cpi_run (cpi_new avg Qc bw ba) l) = Ok f ->
  locally 0 (fun s => unit_q (cl_q (y s)) /\ cl_bg (y s) = v3add bw (v3scal s e) /\ cl_ba (y s) = v3add ba (v3scal s a) /\
     moves g (map (piece avg (v3add bw (v3scal s e)) (v3add ba (v3scal s a))) l) (body_of x) (body_of (y s))) ->
  vec_derive 15 (fun s => imu_res f (rebias x (v3add bw (v3scal s e)) (v3add ba (v3scal s a))) (y s)) 0 (fun _ => 0).
Proof. exact bias_first_order. Qed.
Print Assumptions C90_bias_first_order.
(** Beyond that the sign is lost: the Jacobian can be minus the derivative. *)
Theorem C90_half_turn_refuted : exists f x y d, unit_q (cl_q x) /\ unit_q (cl_q y) /\ unit_q (cf_q f) /\ cl_bg x = cf_bg f /\ cf_S f = mid /\
  is_derive (fun s => imu_res f (cmove x d s) y 0%nat) 0 (- cpredict (imu_jac f x y) d cd0 0%nat) /\ cpredict (imu_jac f x y) d cd0 0%nat <> 0.
Proof. exact half_turn_wrong. Qed.
Print Assumptions C90_half_turn_refuted.
(** Away from the linearization point the gyroscope bias Jacobian is not the derivative. *)
Theorem C90_far_bias_refuted : exists f x y d, unit_q (cl_q x) /\ unit_q (cl_q y) /\ unit_q (cf_q f) /\ 0 < cross_w f x y /\ cf_S f = mid /\
  ~ is_derive (fun s => imu_res f (cmove x d s) y 0%nat) 0 (cpredict (imu_jac f x y) d cd0 0%nat).
Proof. exact far_bias_wrong. Qed.
Print Assumptions C90_far_bias_refuted.
(** two moving states 74 degrees apart *)
Example C90_ex : unit_q (cl_q ex_c1) /\ unit_q (cl_q ex_c2) /\ unit_q (cf_q ex_f) /\
  small_turn (imu_q12 ex_c1 ex_c2) /\ small_turn (quat_multiply (quat_inv (cf_q ex_f)) (imu_qb ex_f ex_c1)).
Proof. exact (conj (proj1 eq_unit) (conj ex_c2_unit (conj (proj2 eq_unit) ex_small))). Qed.
(** two states that follow with a bias two away from the linearization point *)
Example C90_ex_zero : (unit_q (cl_q ex_c0) /\ unit_q (cl_q ex_c3) /\ unit_q (cf_q ex_f) /\ CeresSpec.follows ex_f ex_c0 ex_c3) /\ injective 15 (cf_S ex_f).
Proof. exact (conj ex_follows mid3_inj). Qed.
Example C90_ex_cost : (exists f, imu_factor (fun _ => Some (mscal (/ 4) mid)) (fun _ => mscal (1 / 2) mid) exc_g ex_P = Ok f) /\
  inverse 15 (cp_P ex_P) (mscal (/ 4) mid) /\ cholesky 15 (mscal (/ 4) mid) (mscal (1 / 2) mid).
Proof. exact ex_P_ok. Qed.
Example C90_ex_true : exists f, imu_factor (fun _ => Some mid) (fun A => A) exc_g (cpi_run (cpi_new true mid exc_bw exc_ba) exc_l) = Ok f /\
  let x := mkCl eq1 exc_bw (V3 1 2 3) exc_ba (V3 4 5 6) in let y := clone_after true mid exc_bw exc_ba exc_g exc_l x in
  unit_q (cl_q x) /\ unit_q (cl_q y) /\ rates rate_ok true exc_bw exc_l /\ cl_bg y = exc_bw /\ cl_ba y = exc_ba /\
  moves exc_g (map (piece true exc_bw exc_ba) exc_l) (body_of x) (body_of y).
Proof. exact ex_true. Qed.
Example C90_ex_bias : forall e a, exists f, imu_factor (fun _ => Some mid) (fun A => A) exc_g (cpi_run (cpi_new true mid exc_bw exc_ba) ex_fast) = Ok f /\
  rates rate_fast true exc_bw ex_fast /\
  let x := mkCl eq1 exc_bw (V3 1 2 3) exc_ba (V3 4 5 6) in
  let y := fun s => clone_after true mid (v3add exc_bw (v3scal s e)) (v3add exc_ba (v3scal s a)) exc_g ex_fast x in
  unit_q (cl_q x) /\
  locally 0 (fun s => unit_q (cl_q (y s)) /\ cl_bg (y s) = v3add exc_bw (v3scal s e) /\ cl_ba (y s) = v3add exc_ba (v3scal s a) /\
     moves exc_g (map (piece true (v3add exc_bw (v3scal s e)) (v3add exc_ba (v3scal s a))) ex_fast) (body_of x) (body_of (y s))).
Proof. exact ex_bias. Qed.

(** A prior is refused for an unknown type, for sizes that disagree with the types, and when a factorization fails. *)
Theorem C91_unknown_type : forall llt tri n ni ng x ts Info grad t, In t ts -> known t = false -> prior_new llt tri n ni ng x ts Info grad = Exit.
Proof. exact prior_new_unknown. Qed.
Print Assumptions C91_unknown_type.
Theorem C91_sizes : forall llt tri n ni ng x ts Info grad, (forall t, In t ts -> known t = true) ->
  n <> total psize ts \/ ni <> total perr ts \/ ng <> total perr ts -> prior_new llt tri n ni ng x ts Info grad = UB.
Proof. exact prior_new_bad. Qed.
Print Assumptions C91_sizes.
Theorem C91_not_a_number : forall llt tri n ni ng x ts Info grad, (forall t, In t ts -> known t = true) ->
  n = total psize ts -> ni = total perr ts -> ng = total perr ts ->
  llt ni Info = None \/ (exists L, llt ni Info = Some L /\ tri ni (mtr L) = None) -> prior_new llt tri n ni ng x ts Info grad = Exit.
Proof. exact prior_new_nan. Qed.
Print Assumptions C91_not_a_number.
(** The residual is the square root information times the difference to the linearization point, plus the constant. *)
Theorem C91_value : forall f xs, blocks (block_ok (pf_lin f)) (pf_types f) xs 0 0 ->
  exists e r Js, prior_eval f xs = Ok (r, Js) /\ blocks (block_err (pf_lin f) e) (pf_types f) xs 0 0 /\
  forall i, r i = mvec (total perr (pf_types f)) (pf_S f) e i + pf_b f i.
Proof. exact prior_value. Qed.
Print Assumptions C91_value.
(** What Ceres forms from the stored Jacobians is the derivative of the residual along every joint move of the blocks. *)
Theorem C91_jacobians : forall f xs ds, blocks (block_ok (pf_lin f)) (pf_types f) xs 0 0 -> blocks dir_ok (pf_types f) ds 0 0 ->
  exists Js r0, prior_eval f xs = Ok (r0, Js) /\ (forall s, exists r J, prior_eval f (pmoves xs ds s) = Ok (r, J)) /\
  forall i, is_derive (fun s => res_of (prior_eval f (pmoves xs ds s)) i) 0 (ppredict (pf_types f) Js ds i).
Proof. exact prior_derive. Qed.
Print Assumptions C91_jacobians.
(** Without a gradient the cost is the difference in the metric of the information. *)
Theorem C91_cost : forall llt tri n ni ng x ts Info grad f xs, prior_new llt tri n ni ng x ts Info grad = Ok f ->
  (forall L, llt ni Info = Some L -> cholesky ni Info L) -> (forall i, (i < ni)%nat -> grad i = 0) ->
  blocks (block_ok x) ts xs 0 0 ->
  exists e r Js, prior_eval f xs = Ok (r, Js) /\ blocks (block_err x e) ts xs 0 0 /\ dot ni r r = quad ni Info e.
Proof. exact prior_cost. Qed.
Print Assumptions C91_cost.
(** With one the square root information sends the constant to the gradient; *)
Theorem C91_constant : forall llt tri n ni ng x ts Info grad f, prior_new llt tri n ni ng x ts Info grad = Ok f ->
  (forall L I, llt ni Info = Some L -> tri ni (mtr L) = Some I -> inverse ni (mtr L) I) -> veq ni (mvec ni (pf_S f) (pf_b f)) grad.
Proof. exact prior_b. Qed.
Print Assumptions C91_constant.
(** its transpose does not, so the derivative of the cost at the linearization point is not the gradient. *)
Theorem C91_gradient_refuted : exists L Inv Info grad f, cholesky 2 Info L /\ inverse 2 (mtr L) Inv /\
  prior_new (fun _ _ => Some L) (fun _ _ => Some Inv) 2 2 2 (fun _ => 0) [PVec 1; PVec 1] Info grad = Ok f /\
  ~ veq 2 (mvec 2 (mtr (pf_S f)) (pf_b f)) grad.
Proof. exact grad_wrong. Qed.
Print Assumptions C91_gradient_refuted.
(** the yaw and the position of a pose that is turned and away from the linearization point *)
Example C91_ex : blocks (block_ok ex_lin) ex_ts ex_xs 0 0 /\ blocks dir_ok ex_ts [DQ (V3 1 2 3); DV (v3vec (V3 1 0 0))] 0 0 /\
  cholesky 4 (mscal 4 mid) (mscal 2 mid) /\
  prior_new (fun n A => Some (mscal 2 mid)) (fun n A => Some (mscal (/ 2) mid)) 7 4 4 ex_lin ex_ts (mscal 4 mid) (fun _ => 0) =
  Ok (mkPF ex_ts ex_lin (mtr (mscal 2 mid)) (mvec 4 (mscal (/ 2) mid) (fun _ => 0))).
Proof.
  split; [exact ex_blocks|]. split; [cbn; tauto|]. split; [|exact ex_prior].
  replace 4 with (2 * 2) at 1 by ring. apply diag_chol. lra.
Qed.
