(** Property C110: planar errors, normalized squared errors, errors along the axes. *)
From Coq Require Import Reals List Arith ZArith Bool Lia Lra Psatz.
From Verif Require Import RBool Outcome GeoModel GeoSpec GeoProofs ExpProofs InitModel EvalModel EvalSpec CeresModel ErrModel ErrSpec ErrProofs ErrPose ErrThms ErrEx.
Import ListNotations.
Open Scope R_scope.

(** C110: one row for every pose; a bound for every value exactly if the estimate came with covariances; the statistics are those of the nine columns *)
Theorem C110_errors : forall svd est gt m r n st, traj_wf est -> traj_wf gt -> unit_traj est -> unit_traj gt -> orth_svd svd -> result_new svd est gt m = Ok r ->
  (1 <= n)%nat -> (forall k, 0 <= s_rmse (st k)) ->
  exists rows st', calculate_error n r st = Ok (rows, st') /\ length rows = length (t_poses (r_est r)) /\
    (forall i w, nth_error rows i = Some w -> exists e g, nth_error (t_times (r_est r)) i = Some (er_t w) /\ nth_error (t_poses (r_est r)) i = Some e /\ nth_error (r_gt2est r) i = Some g /\
      axis_errors e g (cov_opt est (t_co (r_est r)) i) (cov_opt est (t_cp (r_est r)) i) (er_pos w) (er_ori w) (er_rpy w) (er_bpos w) (er_bori w) (er_brpy w)) /\
    (forall k, (k < 9)%nat -> calc_facts (st k) (st' k) (map (fun w => nth k (nine w) 0) rows)).
Proof. exact errors_thm. Qed.
Print Assumptions C110_errors.
(** the two loops end for every number, within half a turn and at the same angle *)
Theorem C110_wrap : forall x, exists n y, forall m, (n <= m)%nat -> wrap m x = Ok y /\ half_turn y /\ same_angle y x.
Proof. exact wrap_any. Qed.
Print Assumptions C110_wrap.
Theorem C110_rates : forall v, rates v (H_xyz2rpy v) /\ m3det (H_xyz2rpy v) = cos (vy v).
Proof. exact (fun v => conj (H_rates v) (H_det v)). Qed.
Print Assumptions C110_rates.
Theorem C110_nees : forall svd est gt m r ori pos, traj_wf est -> traj_wf gt -> unit_traj est -> unit_traj gt -> orth_svd svd -> result_new svd est gt m = Ok r ->
  t_co est <> [] -> (forall P, In P (t_co (r_est r)) \/ In P (t_cp (r_est r)) -> m3det P <> 0) ->
  (forall e g u a, In (e, g) (combine (t_poses (r_est r)) (r_gt2est r)) -> turned_body e g u a -> 1 / 10 ^ 10 <= 2 + 2 * cos a) ->
  0 <= s_rmse ori -> 0 <= s_rmse pos ->
  exists l o p, calculate_nees r ori pos = Ok (o, p) /\ length l = length (t_poses (r_est r)) /\
    (forall i x, nth_error l i = Some x -> exists e g co cp, nth_error (t_poses (r_est r)) i = Some e /\ nth_error (r_gt2est r) i = Some g /\
       nth_error (t_co (r_est r)) i = Some co /\ nth_error (t_cp (r_est r)) i = Some cp /\ nees e g co cp (fst x) (snd x)) /\
    calc_facts ori o (map fst l) /\ calc_facts pos p (map snd l).
Proof. exact nees_thm. Qed.
Print Assumptions C110_nees.
(** never negative, and zero only without error *)
Theorem C110_nees_sign : forall P v x, positive P -> normalized P v x -> 0 <= x /\ (x = 0 <-> v = v3zero).
Proof. exact normalized_sign. Qed.
Print Assumptions C110_nees_sign.
Theorem C110_nees_without : forall svd est gt m r ori pos, traj_wf est -> traj_wf gt -> unit_traj est -> unit_traj gt -> orth_svd svd -> result_new svd est gt m = Ok r ->
  t_co est = [] -> calculate_nees r ori pos = Ok (ori, pos).
Proof. exact nees_without. Qed.
Print Assumptions C110_nees_without.
(** planar errors; the sign of a heading error is estimate minus groundtruth, opposite to C110_errors *)
Theorem C110_planar : forall svd est gt m r ori pos, traj_wf est -> traj_wf gt -> unit_traj est -> unit_traj gt -> orth_svd svd -> result_new svd est gt m = Ok r ->
  0 <= s_rmse ori -> 0 <= s_rmse pos ->
  exists l o p, calculate_ate_2d r ori pos = Ok (o, p) /\ length l = length (t_poses (r_est r)) /\
    (forall i x, nth_error l i = Some x -> exists e g, nth_error (r_est2gt r) i = Some e /\ nth_error (t_poses (r_gt r)) i = Some g /\
       0 <= snd x /\ snd x * snd x = (vx (po_p g) - vx (po_p e)) * (vx (po_p g) - vx (po_p e)) + (vy (po_p g) - vy (po_p e)) * (vy (po_p g) - vy (po_p e)) /\
       (forall d, - PI < d < PI -> 1 / 10 ^ 10 <= 2 + 2 * cos d -> att g = m3mul (about_z d) (att e) -> exists k, fst x = - (180 / PI * k) /\ Rabs (k - d) <= 1 / 10 ^ 18)) /\
    calc_facts ori o (map fst l) /\ calc_facts pos p (map snd l).
Proof. exact planar_thm. Qed.
Print Assumptions C110_planar.
(** the rotation errors along the axes are not the angle: a half turn is less than 120 degrees *)
Theorem C110_angle_refuted : exists e g u a, unit_q (po_q e) /\ unit_q (po_q g) /\ turned_body e g u a /\ 180 / PI * a = 180 /\
  forall n t co cp w, (1 <= n)%nat -> error_one n t e g co cp = Ok w -> v3norm (er_ori w) < 120.
Proof. exact half_turn_error. Qed.
Print Assumptions C110_angle_refuted.
Example C110_ex : exists r, let I := Q4 0 0 0 1 in
  let T := mkT [0; 1; 2] [mkPose v3zero I; mkPose (V3 1 0 0) I; mkPose (V3 2 0 0) I] [m3id; m3id; m3id] [m3id; m3id; m3id] in
  let G := mkT [0; 1; 2] [mkPose (V3 0 1 0) I; mkPose (V3 1 2 0) I; mkPose (V3 2 0 3) I] [] [] in
  traj_wf T /\ traj_wf G /\ unit_traj T /\ unit_traj G /\ orth_svd (fun _ => (m3id, v3zero, m3id)) /\ result_new (fun _ => (m3id, v3zero, m3id)) T G NoAlign = Ok r /\
  (forall P, In P (t_co (r_est r)) \/ In P (t_cp (r_est r)) -> m3det P <> 0) /\
  (forall e g u a, In (e, g) (combine (t_poses (r_est r)) (r_gt2est r)) -> turned_body e g u a -> 1 / 10 ^ 10 <= 2 + 2 * cos a).
Proof. exact err_example. Qed.
Example C110_positive : positive m3id /\ normalized m3id (V3 0 3 4) 25.
Proof. exact normalized_example. Qed.
