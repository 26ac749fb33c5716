(** C35, C36, C75: feature and measurement Jacobians. *)
From Coq Require Import Reals Lra Lia List ZArith Bool.
From Coquelicot Require Import Coquelicot.
From Verif Require Import RBool Outcome Lin GeoModel GeoSpec GeoProofs JacSo3 Calc3 LandModel LandSpec CamModel CamSpec HelpModel HelpSpec HelpGeo HelpRep HelpThms HelpEx.
Import ListNotations.
Open Scope R_scope.

(** anchored features, both modes: along every motion of anchor pose, extrinsics and parameters that starts
    at the evaluation point the global position moves as the Jacobians say.  The evaluation point is the
    first estimate of the anchor in first-estimate mode, with the feature at the same global position *)
Theorem C35_anchored e f Hf n ex : rep_jac e f = Ok (Hf, n, ex) -> is_relative (hf_rep f) = true ->
  exists ca cl, he_calib e (Z.to_nat (hf_acam f)) = Some ca /\ he_clone e (hf_atime f) = Some cl /\
  (is_rot (po_R cl) -> is_rot (lin_R e cl) -> is_rot (ca_R ca) ->
   forall pA, to_global (lin_R e cl) (lin_p e cl) (ca_R ca) (ca_p ca) pA = to_global (po_R cl) (po_p cl) (ca_R ca) (ca_p ca) (hf_pA f) ->
   expressible (hf_rep f) pA ->
   forall Ra pa Rc pc lam l' b (v : key -> vec),
   Ra 0 = lin_R e cl -> pa 0 = lin_p e cl -> Rc 0 = ca_R ca -> pc 0 = ca_p ca ->
   pose_moves Ra pa 0 (v (KClone (hf_atime f))) -> pose_moves Rc pc 0 (v (KCalib (Z.to_nat (hf_acam f)))) ->
   (he_cal e = false -> forall i, (i < 6)%nat -> v (KCalib (Z.to_nat (hf_acam f))) i = 0) ->
   (forall i, (i < 3)%nat -> lam 0 i = feat_params (hf_rep f) pA i) -> vec_derive 3 lam 0 l' -> (hf_rep f = AnchSingle -> b = v3scal (1 / vz pA) pA) ->
   vec_derive 3 (fun s => v3vec (to_global (Ra s) (pa s) (Rc s) (pc s) (feat_xyz (hf_rep f) b (lam s)))) 0
     (fun i => mvec n Hf l' i + extra_sum ex v i)).
Proof. exact (rep_relative e f Hf n ex). Qed.
Print Assumptions C35_anchored.

(** global features: no extra variables, and the Jacobian is the derivative in the parameters *)
Theorem C35_global e f Hf n ex : rep_jac e f = Ok (Hf, n, ex) -> is_relative (hf_rep f) = false ->
  ex = [] /\ forall p, p = (if he_fej e then hf_pGf f else hf_pG f) -> expressible (hf_rep f) p ->
  forall lam l' b, (forall i, (i < 3)%nat -> lam 0 i = feat_params (hf_rep f) p i) -> vec_derive 3 lam 0 l' ->
   feat_xyz (hf_rep f) b (lam 0) = p /\
   vec_derive 3 (fun s => v3vec (feat_xyz (hf_rep f) b (lam s))) 0 (mvec n Hf l').
Proof. exact (rep_global e f Hf n ex). Qed.
Print Assumptions C35_global.

(** the parameters must be the ones computed from the point: after an additive correction has carried the
    polar angle of the full inverse depth form below zero the Jacobian has the wrong sign *)
Theorem C35_stored_refuted : exists e f Hf n ex lam l', rep_jac e f = Ok (Hf, n, ex) /\ hf_rep f = GlobalFullInv /\ expressible GlobalFullInv (hf_pG f) /\
  feat_xyz GlobalFullInv v3zero (lam 0) = hf_pG f /\ vec_derive 3 lam 0 l' /\
  ~ vec_derive 3 (fun s => v3vec (feat_xyz GlobalFullInv v3zero (lam s))) 0 (mvec n Hf l').
Proof. exact stored_wrong. Qed.
Print Assumptions C35_stored_refuted.

(** all measurements of a feature, from any cameras, clones and anchor: the residual is measured minus
    predicted, and along every motion of clones, extrinsics, intrinsics and landmark parameters each
    predicted pixel moves as [H_f H_x] says *)
Theorem C36_derivatives e f j m : full_jac e f = Ok j -> he_fej e = false -> NoDup (map fst (hf_meas f)) -> motion_of e f m -> starts f m (stored f) ->
  (forall c t uv cm, In (c, t, uv) (flat_meas (hf_meas f)) -> he_cam e c = Some cm -> regular cm (in_camera m c t 0 (moving_feat f m 0))) ->
  fj_rows j = (2 * length (flat_meas (hf_meas f)))%nat /\ fj_total j = sizes (fj_order j) /\ NoDup (fj_order j) /\
  forall k c t uv, nth_error (flat_meas (hf_meas f)) k = Some (c, t, uv) -> exists cm, he_cam e c = Some cm /\
   (forall i, (i < 2)%nat -> fj_res j (2 * k + i)%nat = uv i - predicted f m cm c t 0 i) /\
   vec_derive 2 (predicted f m cm c t) 0
     (fun i => mvec (fj_cols j) (fj_Hf j) (mo_lv m) (2 * k + i)%nat + mvec (fj_total j) (fj_Hx j) (stackv (fj_order j) (mo_v m)) (2 * k + i)%nat).
Proof. exact (full_derivative e f j m). Qed.
Print Assumptions C36_derivatives.

(** both modes, first estimates included: the residual is measured minus predicted at the current estimate, and
    [H_f H_x] composes the camera's derivative at the current estimate with the derivative of the
    normalized coordinates at the evaluation point *)
Theorem C36_both_modes e f j m q : full_jac e f = Ok j -> NoDup (map fst (hf_meas f)) -> motion_lin e m -> starts f m q -> Some (moving_feat f m 0) = lin_global e f ->
  (forall c t uv, In (c, t, uv) (flat_meas (hf_meas f)) -> vz (in_camera m c t 0 (moving_feat f m 0)) <> 0) ->
  exists pG, now_global e f = Some pG /\ forall k c t uv, nth_error (flat_meas (hf_meas f)) k = Some (c, t, uv) ->
   exists cm di pC w, he_cam e c = Some cm /\ he_intr e c = Some di /\ now_camera e c t pG = Some pC /\
   (forall i, (i < 2)%nat -> fj_res j (2 * k + i)%nat = uv i - cam_distort cm di (projected pC) i) /\
   vec_derive 2 (fun s => projected (in_camera m c t s (moving_feat f m s))) 0 w /\
   (regular cm pC -> exists Hz Hd, pixel_jacobians (cam_distort cm) di (projected pC) Hz Hd /\
     forall i, (i < 2)%nat -> mvec (fj_cols j) (fj_Hf j) (mo_lv m) (2 * k + i)%nat + mvec (fj_total j) (fj_Hx j) (stackv (fj_order j) (mo_v m)) (2 * k + i)%nat =
       mvec 2 Hz w i + mvec 8 Hd (mo_v m (KIntr c)) i).
Proof. exact (full_chain e f j m q). Qed.
Print Assumptions C36_both_modes.

(** the function runs to its end whenever the variables of all measurements and of the anchor exist *)
Theorem C36_defined e f : hf_rep f <> RepUnknown ->
  (forall c ts, In (c, ts) (hf_meas f) -> he_calib e c <> None /\ he_intr e c <> None /\ he_cam e c <> None /\ forall t uv, In (t, uv) ts -> he_clone e t <> None) ->
  (is_relative (hf_rep f) = true -> (0 <= hf_acam f)%Z /\ he_calib e (Z.to_nat (hf_acam f)) <> None /\ he_clone e (hf_atime f) <> None) ->
  exists j, full_jac e f = Ok j.
Proof. exact (full_defined e f). Qed.
Print Assumptions C36_defined.

(** moving the whole scene (rotation rate g about the global origin, translation rate d) is never seen by the
    measurements, in either mode: the direction built from the evaluation points of the clones is in the
    null space of [H_f H_x] *)
Theorem C75_unobservable e f j g d v lv : full_jac e f = Ok j -> NoDup (map fst (hf_meas f)) ->
  (forall t cl, he_clone e t = Some cl -> is_rot (po_R cl) /\ is_rot (lin_R e cl)) -> (forall c ca, he_calib e c = Some ca -> is_rot (ca_R ca)) ->
  frame_move e g d v ->
  (is_relative (hf_rep f) = true -> forall i, lv i = 0) ->
  (is_relative (hf_rep f) = false -> let p := if he_fej e then hf_pGf f else hf_pG f in expressible (hf_rep f) p /\
     exists lam, (forall i, (i < 3)%nat -> lam 0 i = feat_params (hf_rep f) p i) /\ vec_derive 3 lam 0 lv /\
       v3_derive (fun s => feat_xyz (hf_rep f) v3zero (lam s)) 0 (frame_rate g d p)) ->
  forall r, (r < fj_rows j)%nat -> mvec (fj_cols j) (fj_Hf j) lv r + mvec (fj_total j) (fj_Hx j) (stackv (fj_order j) v) r = 0.
Proof. exact (frame_null e f j g d v lv). Qed.
Print Assumptions C75_unobservable.

(** in first-estimate mode that direction does not depend on the current pose estimates *)
Theorem C75_fixed_direction e e' g d v : he_fej e = true -> he_fej e' = true ->
  (forall t cl', he_clone e' t = Some cl' -> exists cl, he_clone e t = Some cl /\ po_Rf cl = po_Rf cl' /\ po_pf cl = po_pf cl') ->
  frame_move e g d v -> frame_move e' g d v.
Proof. exact (frame_fixed e e' g d v). Qed.
Print Assumptions C75_fixed_direction.

(** without first estimates it moves with the estimate *)
Theorem C75_current_refuted : exists e e' g d v, he_fej e = false /\ he_fej e' = false /\
  (forall t cl', he_clone e' t = Some cl' -> exists cl, he_clone e t = Some cl /\ po_Rf cl = po_Rf cl' /\ po_pf cl = po_pf cl') /\
  frame_move e g d v /\ ~ frame_move e' g d v.
Proof. exact frame_drifts. Qed.
Print Assumptions C75_current_refuted.

(** two clones, one of them the anchor, one camera with online calibration; the feature ahead of both *)
Example C36_example : exists j, full_jac ex_env ex_feat = Ok j /\ fj_rows j = 4%nat /\ fj_total j = 26%nat /\ motion_of ex_env ex_feat ex_motion /\ starts ex_feat ex_motion (stored ex_feat) /\
  (forall c t uv cm, In (c, t, uv) (flat_meas (hf_meas ex_feat)) -> he_cam ex_env c = Some cm -> regular cm (in_camera ex_motion c t 0 (moving_feat ex_feat ex_motion 0))).
Proof. exact full_example. Qed.
