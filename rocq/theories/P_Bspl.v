(** B-spline of the simulator: derivatives (C39) and control point lookup (C40). *)
From Coq Require Import Reals List Bool Sorted.
From Coquelicot Require Import Coquelicot.
From Verif Require Import RBool Outcome GeoModel GeoSpec JacSo3 Calc3 BsplModel BsplSpec.
From Verif Require Import BsplFind BsplFeed BsplDiff BsplSeg BsplThms BsplKnot BsplCtrl BsplNear BsplEx.
Open Scope R_scope.

(** The basis values used for velocity and acceleration are the first and second time derivatives of the basis values used for the pose. *)
Theorem C39_basis : forall t1 DT t, DT <> 0 ->
  let u := fun s => (s - t1) / DT in
  (is_derive (fun s => cb0 (u s)) t (cb0dot DT (u t)) /\ is_derive (fun s => cb0dot DT (u s)) t (cb0dd DT (u t))) /\
  (is_derive (fun s => cb1 (u s)) t (cb1dot DT (u t)) /\ is_derive (fun s => cb1dot DT (u s)) t (cb1dd DT (u t))) /\
  (is_derive (fun s => cb2 (u s)) t (cb2dot DT (u t)) /\ is_derive (fun s => cb2dot DT (u s)) t (cb2dd DT (u t))).
Proof. exact basis_derive. Qed.
Print Assumptions C39_basis.

(** Strictly inside a segment, away from the small-angle switch of exp_se3: the linear velocity is the derivative of the position and the angular velocity describes the derivative of the rotation. *)
Theorem C39_velocity : forall l a b c d t Rf pf old ok R p w v, by_time l -> around t l a b c d -> fst b < t -> clear_of_switch a b c d t -> pose_curve l Rf pf ->
  get_velocity l t old = Ok (ok, (R, p), (w, v)) ->
  ok = true /\ R = Rf t /\ p = pf t /\ v3_derive pf t v /\
  (is_rot (seR (snd a)) -> is_rot R /\ m3_derive (fun s => m3tr (Rf s)) t (m3mul (m3tr R) (skew_x w))).
Proof. exact velocity_inside. Qed.
Print Assumptions C39_velocity.

(** Same for the accelerations, with respect to the reported velocities. *)
Theorem C39_acceleration : forall l a b c d t wf vf old oldv ok rp w v al ac, by_time l -> around t l a b c d -> fst b < t -> clear_of_switch a b c d t -> rate_curve l old wf vf ->
  get_acceleration l t old oldv = Ok (ok, rp, (w, v), (al, ac)) ->
  ok = true /\ get_velocity l t old = Ok (true, rp, (w, v)) /\ v = vf t /\ w = wf t /\
  v3_derive vf t ac /\ (is_rot (seR (snd a)) -> v3_derive wf t al).
Proof. exact acceleration_inside. Qed.
Print Assumptions C39_acceleration.

(** The curves the derivatives refer to exist for every control map. *)
Theorem C39_curves_exist : forall l old, by_time l -> exists Rf pf wf vf, pose_curve l Rf pf /\ rate_curve l old wf vf.
Proof. exact curves_exist. Qed.
Print Assumptions C39_curves_exist.

(** At a control time the neighbouring segments join: the velocities are two-sided derivatives. *)
Theorem C39_velocity_knot : forall l z a b c d t Rf pf old ok R p w v, by_time l -> knot t l z a b c d -> knot_ok z a b c d -> pose_curve l Rf pf ->
  get_velocity l t old = Ok (ok, (R, p), (w, v)) ->
  ok = true /\ R = Rf t /\ p = pf t /\ v3_derive pf t v /\
  is_rot R /\ m3_derive (fun s => m3tr (Rf s)) t (m3mul (m3tr R) (skew_x w)).
Proof. exact velocity_knot. Qed.
Print Assumptions C39_velocity_knot.

(** The accelerations at a control time are two-sided derivatives as well. *)
Theorem C39_acceleration_knot : forall l z a b c d t wf vf old oldv ok rp w v al ac, by_time l -> knot t l z a b c d -> knot_ok z a b c d -> is_rot (seR (snd a)) -> rate_curve l old wf vf ->
  get_acceleration l t old oldv = Ok (ok, rp, (w, v), (al, ac)) ->
  ok = true /\ get_velocity l t old = Ok (true, rp, (w, v)) /\ v = vf t /\ w = wf t /\
  v3_derive vf t ac /\ v3_derive wf t al.
Proof. exact acceleration_knot. Qed.
Print Assumptions C39_acceleration_knot.

(** Where the switch can matter at all: between a knot and 13 percent of the segment. *)
Theorem C39_clear : forall a b c d t, log_safe (m3mul (m3tr (seR (snd a))) (seR (snd b))) -> log_safe (m3mul (m3tr (seR (snd b))) (seR (snd c))) ->
  log_safe (m3mul (m3tr (seR (snd c))) (seR (snd d))) -> fst b <= t <= fst c -> fst b < fst c ->
  t = fst b \/ 13 / 100 * (fst c - fst b) <= t - fst b \/ m3mul (m3tr (seR (snd c))) (seR (snd d)) = m3id -> clear_of_switch a b c d t.
Proof. exact clear_when. Qed.
Print Assumptions C39_clear.

(** Inside the switch the reported velocity misses the derivative by at most 1e-22 segment lengths per segment duration. *)
Theorem C39_velocity_near : forall l a b c d t Rf pf old ok R p w v, by_time l -> around t l a b c d -> fst b < t -> pose_curve l Rf pf ->
  let u := (t - fst b) / (fst c - fst b) in let o2 := seg (snd c) (snd d) in
  is_rot (seR (snd a)) -> regular (cb0 u) (fst (seg (snd a) (snd b))) -> regular (cb1 u) (fst (seg (snd b) (snd c))) ->
  cb2 u * v3norm (fst o2) < 1 / 10 ^ 7 ->
  get_velocity l t old = Ok (ok, (R, p), (w, v)) ->
  exists D, v3_derive pf t D /\ v3norm (v3sub v D) <= 1 / 10 ^ 22 * (v3norm (snd o2) / (fst c - fst b)).
Proof. exact velocity_near. Qed.
Print Assumptions C39_velocity_near.

(** There the two do differ: an exact reading of the claim is false of a quarter-turn segment. *)
Theorem C39_velocity_near_refuted : forall Rf pf, pose_curve bl Rf pf ->
  exists rp w v, get_velocity bl (2 + 1 / 1000) (m3id, v3zero) = Ok (true, rp, (w, v)) /\ ~ v3_derive pf (2 + 1 / 1000) v.
Proof. exact near_bl. Qed.
Print Assumptions C39_velocity_near_refuted.

Example C39_ex_inside : forall t, 2 <= t < 3 -> t = 2 \/ 1 / 10 < t - 2 ->
  clear_of_switch (1, se3id) (2, se3id) (3, se3id) (4, bE) t.
Proof. exact clear_bl. Qed.

Example C39_ex_knot : knot 2 bl (0, se3id) (1, se3id) (2, se3id) (3, se3id) (4, bE) /\
  knot_ok (0, se3id) (1, se3id) (2, se3id) (3, se3id) (4, bE).
Proof. exact knot_bl. Qed.

Example C39_ex_rates : forall t, 2 <= t < 3 -> exists rp w v, get_velocity bl t (m3id, v3zero) = Ok (true, rp, (w, v)) /\
  vz v = (t - 2) * (t - 2) / 2.
Proof. exact rates_bl. Qed.

(** The lookup never fails an assertion, succeeds exactly when four neighbouring control points surround the time, and returns those, ordered. *)
Theorem C40_control_points : forall t l, by_time l -> exists r, find_bounding_control_points t l = Ok r /\
  (forall a b c d, r = Some (a, b, c, d) <-> around t l a b c d) /\
  (forall a b c d, r = Some (a, b, c, d) -> fst a < fst b /\ fst b <= t /\ t < fst c /\ fst c < fst d).
Proof. exact control_thm. Qed.
Print Assumptions C40_control_points.

(** It succeeds exactly when two control points lie at or before the time and two after it. *)
Theorem C40_enough_points : forall t l, by_time l ->
  ((exists a b c d, find_bounding_control_points t l = Ok (Some (a, b, c, d))) <->
   (2 <= length (filter (fun e => Rleb (fst e) t) l))%nat /\ (2 <= length (filter (fun e => Rltb t (fst e)) l))%nat).
Proof. exact enough_thm. Qed.
Print Assumptions C40_enough_points.

(** feed_trajectory terminates and fills the map with uniformly spaced control points covering the trajectory without its last line. *)
Theorem C40_feed : forall p0 p1 rest, let pts := p0 :: p1 :: rest in
  exists sp dt tmin tmax n, feed_trajectory pts nil = Ok sp /\ sp_dt sp = Some dt /\ sp_start sp = Some (tmin + 2 * dt) /\
    dt = Rmax (5 / 100) ((tp_t (last pts p0) - tp_t p0) / INR (length pts - 1)) /\
    (In tmin (map tp_t (removelast pts)) /\ In tmax (map tp_t (removelast pts)) /\
     forall t, In t (map tp_t (removelast pts)) -> tmin <= t <= tmax) /\
    by_time (sp_ctrl sp) /\
    map fst (sp_ctrl sp) = grid tmin dt n /\
    (forall k, (k < n)%nat <-> tmin + INR k * dt < tmax) /\
    (forall s P, In (s, P) (sp_ctrl sp) -> exists p q, In p (removelast pts) /\ In q (removelast pts) /\ tp_t p <= s < tp_t q /\
      (forall x, In x (removelast pts) -> tp_t x <= tp_t p \/ tp_t q <= tp_t x) /\
      geodesic ((s - tp_t p) / (tp_t q - tp_t p)) (SE3 (m3tr (quat_2_Rot (tp_q p))) (tp_p p)) (SE3 (m3tr (quat_2_Rot (tp_q q))) (tp_p q)) P).
Proof. exact feed_ctrl_thm. Qed.
Print Assumptions C40_feed.

(** A spline with such control points can be queried exactly from the second control time up to the last but one. *)
Theorem C40_window : forall l tmin dt n t, 0 < dt -> by_time l -> map fst l = grid tmin dt n ->
  ((exists rp, get_pose l t = Ok (true, rp)) <-> tmin + dt <= t < tmin + INR (n - 2) * dt).
Proof. exact window_thm. Qed.
Print Assumptions C40_window.

(** The pose on the last line of the trajectory file is never used. *)
Theorem C40_last_pose_ignored : forall pts p p' ctrl, tp_t p = tp_t p' -> feed_trajectory (pts ++ (p :: nil)) ctrl = feed_trajectory (pts ++ (p' :: nil)) ctrl.
Proof. exact last_ignored. Qed.
Print Assumptions C40_last_pose_ignored.

Example C40_ex : exists sp, feed_trajectory ex_pts nil = Ok sp /\ map fst (sp_ctrl sp) = grid 0 1 5 /\
  (forall t, (exists rp, get_pose (sp_ctrl sp) t = Ok (true, rp)) <-> 1 <= t < 3) /\ sp_start sp = Some 2.
Proof. exact feed_ex. Qed.

