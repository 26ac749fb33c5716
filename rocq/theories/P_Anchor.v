(** Anchored landmarks: C18 and C60. *)
From Coq Require Import Reals List ZArith Bool.
From Coquelicot Require Import Coquelicot.
From Verif Require Import RBool Outcome Lin GeoModel GeoSpec GivensModel TypesModel StateModel StateSpec ReachModel ReachSpec StateEx FeatModel LandModel LandSpec CamModel CamSpec HelpModel HelpSpec AnchorModel AnchorSpec AnchorProofs AnchorTotal AnchorThms AnchorEx AnchorRun.
Import ListNotations.
Open Scope R_scope.

(** in every state the estimator passes through, each anchored landmark is anchored at a clone of the window *)
Theorem C18_anchors_live : forall chi2q ph a, passes chi2q ph a -> anchors_live a.
Proof. exact anchors_live_thm. Qed.
Print Assumptions C18_anchors_live.

(** a camera frame never runs into a missing anchor: it ends normally, again between frames *)
Theorem C18_frames_defined : forall chi2q a t i mid, passes chi2q Idle a -> prop_ok (s_opts (sl_st a)) i ->
  (forall st, s_time (sl_st a) = t /\ st = sl_st a \/ propagate_and_clone (sl_st a) t i = Ok st -> srespects chi2q mid (with_st a st)) ->
  exists a', slam_frame chi2q a t i mid = Ok a' /\ passes chi2q Idle a' /\ s_opts (sl_st a') = s_opts (sl_st a) /\ s_time (sl_st a') = Rmax (s_time (sl_st a)) t.
Proof. exact frame_thm. Qed.
Print Assumptions C18_frames_defined.

Example C18_ex : exists a0 a1 a2 p T, passes ex_chi2 Idle a0 /\ s_time (sl_st a0) = T /\
  slam_frame ex_chi2 a0 (T + 1) (ex_prop ex_opts) ex_ops = Ok a1 /\ slam_frame ex_chi2 a1 (T + 2) (ex_prop ex_opts) [] = Ok a2 /\
  s_slam (sl_st a1) = [(7%nat, (p, false))] /\ s_slam (sl_st a2) = [(7%nat, (p, false))] /\ lm_rep (sl_meta a2 p) = AnchMsckf /\
  map fst (s_clones (sl_st a1)) = [T + 1] /\ map fst (s_clones (sl_st a2)) = [T + 2] /\ lm_atime (sl_meta a1 p) = T + 1 /\ lm_atime (sl_meta a2 p) = T + 2 /\ passes ex_chi2 Idle a2 /\ s_opts (sl_st a2) = ex_opts.
Proof. exact ex_slam_frames. Qed.

Example C18_order_matters : exists a st, reach ex_chi2 (sl_st a) /\ anchors_live a /\ landmarks_fit a /\ marginalize_old_clone (sl_st a) = Ok st /\ ~ anchors_live (with_st a st).
Proof. exact drop_first_dangles. Qed.

(** the landmark stays where it is *)
Theorem C60_value : forall a p t' c' a' g, perform_anchor_change a p t' c' = Ok a' -> rotations a -> global_of a p g ->
  can_express a (lm_rep (sl_meta a p)) t' c' g -> global_of a' p g.
Proof. exact anchor_value. Qed.
Print Assumptions C60_value.

(** the first estimate stays where it is, for the forms whose get_xyz reads it *)
Theorem C60_first_estimate : forall a p t' c' a' g, perform_anchor_change a p t' c' = Ok a' -> rotations a -> global_fej a p g ->
  lm_rep (sl_meta a p) <> AnchMsckf -> lm_rep (sl_meta a p) <> AnchSingle ->
  can_express_fej a (lm_rep (sl_meta a p)) t' c' g -> global_fej a' p g.
Proof. exact anchor_value_fej. Qed.
Print Assumptions C60_first_estimate.

(** for the MSCKF inverse depth (and the single depth) get_xyz ignores getfej, and the first estimate jumps *)
Theorem C60_first_estimate_refuted : exists a t p a', reach ex_chi2 (sl_st a) /\ rotations a /\ lm_rep (sl_meta a p) = AnchMsckf /\ perform_anchor_change a p (t + 1) 0 = Ok a' /\
  global_fej a p (V3 0 0 1) /\ can_express_fej a AnchMsckf (t + 1) 0 (V3 0 0 1) /\ ~ global_fej a' p (V3 0 0 1) /\ global_fej a' p (V3 0 0 2).
Proof. exact fej_moves. Qed.
Print Assumptions C60_first_estimate_refuted.

(** the covariance is transformed by the map that re-expresses the errors in the new parameters, everything else keeps its rows *)
Theorem C60_covariance : forall a p t' c' a', perform_anchor_change a p t' c' = Ok a' -> sym (s_dim (sl_st a)) (s_cov (sl_st a)) -> rotations a ->
  (forall g, global_of a p g -> can_express a (lm_rep (sl_meta a p)) t' c' g) ->
  exists v v' order refs Phi s0, is_landmark a p v /\ is_landmark a' p v' /\
    Forall2 (fun k r => exists x, key_var a k x /\ r = ref_of x) order refs /\
    indices [ref_of (TVec v)] = seq s0 (phisize (lm_rep (sl_meta a p))) /\
    length (indices (refs ++ [ref_of (TVec v)])) = (sizes order + phisize (lm_rep (sl_meta a p)))%nat /\
    meq (s_dim (sl_st a)) (s_dim (sl_st a)) (s_cov (sl_st a'))
      (congr (s_dim (sl_st a)) (full_F s0 (phisize (lm_rep (sl_meta a p))) (indices (refs ++ [ref_of (TVec v)])) Phi) (s_cov (sl_st a))) /\
    re_expresses (env_of a) (lm_rep (sl_meta a p)) (feat_of a p v) (feat_of a' p v') order Phi.
Proof. exact anchor_cov. Qed.
Print Assumptions C60_covariance.

(** on the optical axis of the new camera the full inverse depth has no such map: no rate of the parameters moves the landmark sideways *)
Theorem C60_optical_axis_refuted : exists a t p a' v', reach ex_chi2 (sl_st a) /\ rotations a /\ lm_rep (sl_meta a p) = AnchFullInv /\ perform_anchor_change a p (t + 1) 0 = Ok a' /\
  global_of a p (V3 2 0 0) /\ global_of a' p (V3 2 0 0) /\ is_landmark a' p v' /\ lm_rep (sl_meta a' p) = AnchFullInv /\
  forall x D b w, (forall i, x 0 i = params (vo_val v') i) -> vec_derive 3 x 0 D ->
    vec_derive 3 (fun s => v3vec (feat_xyz AnchFullInv b (x s))) 0 w -> w 1%nat = 0.
Proof. exact axis_change. Qed.
Print Assumptions C60_optical_axis_refuted.

(** nothing else of the state changes *)
Theorem C60_others_untouched : forall a p t' c' a', perform_anchor_change a p t' c' = Ok a' ->
  exists v v', is_landmark a p v /\ is_landmark a' p v' /\ vo_id v' = vo_id v /\ vo_size v' = vo_size v /\
    (forall q, q <> p -> find_top (s_vars (sl_st a')) q = find_top (s_vars (sl_st a)) q) /\
    s_clones (sl_st a') = s_clones (sl_st a) /\ s_slam (sl_st a') = s_slam (sl_st a) /\ s_time (sl_st a') = s_time (sl_st a) /\ s_opts (sl_st a') = s_opts (sl_st a) /\
    s_dim (sl_st a') = s_dim (sl_st a) /\ (forall t, clone_at (sl_st a') t = clone_at (sl_st a) t) /\ (forall c, calib_at a' c = calib_at a c) /\
    (forall q, q <> p -> sl_meta a' q = sl_meta a q) /\ lm_rep (sl_meta a' p) = lm_rep (sl_meta a p) /\ lm_acam (sl_meta a' p) = Z.of_nat c' /\ lm_atime (sl_meta a' p) = t' /\
    sl_fej a' = sl_fej a /\ sl_cal a' = sl_cal a.
Proof. exact perform_frame. Qed.
Print Assumptions C60_others_untouched.

(** with live anchors the call is defined *)
Theorem C60_defined : forall chi2q a p v t' c', reach chi2q (sl_st a) -> is_landmark a p v -> is_relative (lm_rep (sl_meta a p)) = true -> vo_size v = phisize (lm_rep (sl_meta a p)) ->
  (0 <= lm_acam (sl_meta a p))%Z -> clone_at (sl_st a) (lm_atime (sl_meta a p)) <> None -> calib_at a (Z.to_nat (lm_acam (sl_meta a p))) <> None ->
  clone_at (sl_st a) t' <> None -> calib_at a c' <> None -> exists a', perform_anchor_change a p t' c' = Ok a' /\ reach chi2q (sl_st a').
Proof. exact perform_total. Qed.
Print Assumptions C60_defined.

Example C60_ex : exists a t p a', reach ex_chi2 (sl_st a) /\ rotations a /\ lm_rep (sl_meta a p) = AnchMsckf /\ lm_atime (sl_meta a p) = t /\ perform_anchor_change a p (t + 1) 0 = Ok a' /\
  global_of a p (V3 2 4 2) /\ global_of a' p (V3 2 4 2) /\ (forall g, global_of a p g -> can_express a AnchMsckf (t + 1) 0 g) /\
  (exists v v', is_landmark a p v /\ is_landmark a' p v' /\ vo_val v = [1; 2; 1 / 2] /\ vo_val v' = [1 / 3; 4 / 3; 1 / 3]).
Proof. exact ex_change. Qed.

