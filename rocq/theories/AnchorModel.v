(** Model of UpdaterSLAM::change_anchors and perform_anchor_change (ov_msckf/src/update/UpdaterSLAM.cpp 481-647)
    and of the camera frame around them (VioManager.cpp 323-596).

    Simplifications: doubles are exact reals; a failed assert and a .at() that throws are [UB]; printing is
    dropped.  The filter state is the one of StateModel.v; the members of a Landmark object beyond its value
    and first estimate are kept by pointer. *)
From Coq Require Import Reals List Arith ZArith Bool.
From Verif Require Import RBool Outcome Lin GeoModel GivensModel TypesModel StateModel ReachModel FeatModel LandModel CamModel HelpModel.
Import ListNotations.
Open Scope R_scope.

(** Landmark.h 45-74: _feat_representation, _anchor_cam_id, _anchor_clone_timestamp, uv_norm_zero, uv_norm_zero_fej *)
Record lmeta := mkLm { lm_rep : rep; lm_acam : Z; lm_atime : R; lm_uv0 : v3; lm_uv0f : v3 }.
(** the state with its landmarks: options.do_fej, the extrinsics when they are not estimated, and the landmark
    members by pointer [State.h 141-192, Landmark.h 39-71] *)
Record slam := mkSlam { sl_st : state; sl_fej : bool; sl_cal : nat -> option calib; sl_meta : nat -> lmeta }.

(** PoseJPL.h 122-138: Rot(), pos(), Rot_fej(), pos_fej() *)
Definition pose_of (q : poseobj) : cpose := mkPose (qo_R (po_q q)) (wo_val (TypesModel.po_p q)) (qo_Rfej (po_q q)) (wo_fej (TypesModel.po_p q)).
(** PoseJPL.h 122-138 (as above) *)
Definition get_pose (st : state) (p : nat) : option poseobj :=
  match find_top (s_vars st) p with Some (TPose q) => Some q | _ => None end.
(** state->_clones_IMU.at(t) [State.h 150] *)
Definition clone_at (st : state) (t : R) : option cpose :=
  match find_clone_time (s_clones st) t with Some p => option_map pose_of (get_pose st p) | None => None end.
(** state->_calib_IMUtoCAM.at(c): a state variable when the extrinsics are estimated (State.cpp 106-123) *)
Definition calib_at (a : slam) (c : nat) : option calib :=
  if (c <? o_ncams (s_opts (sl_st a)))%nat then
    if o_calib_pose (s_opts (sl_st a)) then
      option_map (fun q => mkCal (qo_R (po_q q)) (wo_val (TypesModel.po_p q))) (get_pose (sl_st a) (ptr_pose c))
    else sl_cal a c
  else None.
(** what get_feature_jacobian_representation reads of the state [UpdaterHelper.cpp 32-190] *)
Definition env_of (a : slam) : henv :=
  mkEnv (sl_fej a) (o_calib_pose (s_opts (sl_st a))) (o_calib_intr (s_opts (sl_st a))) (clone_at (sl_st a)) (calib_at a) (fun _ => None) (fun _ => None).
(** the Landmark object [Landmark.h 39-71] *)
Definition land_of (m : lmeta) (v : vecobj) : lmk := mkLmk (lm_rep m) (vo_val v) (vo_fej v) (lm_uv0 m) (lm_uv0f m).

(** UpdaterSLAM.cpp 540-556 and 562-577: the point moved from the old to the new anchor camera; (Ro, po), (Rn, pn)
    the clone poses *)
Definition moved (Ro : m3) (po : v3) (ko : calib) (Rn : m3) (pn : v3) (kn : calib) (p_F : v3) : v3 :=
  let R_GtoOLD := m3mul (ca_R ko) Ro in
  let p_OLDinG := v3sub po (m3v (m3tr R_GtoOLD) (ca_p ko)) in
  let R_GtoNEW := m3mul (ca_R kn) Rn in
  let p_NEWinG := v3sub pn (m3v (m3tr R_GtoNEW) (ca_p kn)) in
  let R_OLDtoNEW := m3mul R_GtoNEW (m3tr R_GtoOLD) in
  let p_OLDinNEW := m3v R_GtoNEW (v3sub p_OLDinG p_NEWinG) in
  v3add (m3v R_OLDtoNEW p_F) p_OLDinNEW.

(** id() and size() of the variable with a key [Type.h 57-67] *)
Definition key_ref (a : slam) (k : key) : outcome vref :=
  match k with
  | KClone t =>
      match find_clone_time (s_clones (sl_st a)) t with
      | Some p => match find_top (s_vars (sl_st a)) p with Some x => Ok (ref_of x) | None => UB end
      | None => UB
      end
  | KCalib c => match find_top (s_vars (sl_st a)) (ptr_pose c) with Some x => Ok (ref_of x) | None => UB end
  | KIntr c => match find_top (s_vars (sl_st a)) (ptr_intr c) with Some x => Ok (ref_of x) | None => UB end
  end.
(** the same for a list (x_order of UpdaterHelper.cpp 202-262) *)
Fixpoint key_refs (a : slam) (l : list key) : outcome (list vref) :=
  match l with [] => Ok [] | k :: r => do x <- key_ref a k; do y <- key_refs a r; Ok (x :: y) end.

(** UpdaterSLAM.cpp 621-624 and 629-632: Phi.block(...) += s * H_f_new_inv * H_x[i] *)
Fixpoint place (l : lay) (k : nat) (s : R) (Hinv : mat) (ex : list (key * mat)) (Phi : mat) : outcome mat :=
  match ex with
  | [] => Ok Phi
  | (v, B) :: r => do o <- ly_at l v; place l k s Hinv r (addto Phi 0 o k (ksize v) (mscal s (mmul 3 Hinv B)))
  end.
(** UpdaterSLAM.cpp 605 *)
Definition phisize (r : rep) : nat := match r with AnchSingle => 1 | _ => 3 end.
(** UpdaterSLAM.cpp 611-617; colPivHouseholderQr().solve(Identity) as the exact inverse *)
Definition new_inv (r : rep) (H : mat) : mat :=
  match r with
  | AnchSingle => mscal (1 / (H 0%nat 0%nat * H 0%nat 0%nat + H 1%nat 0%nat * H 1%nat 0%nat + H 2%nat 0%nat * H 2%nat 0%nat)) (mtr H)
  | _ => geninv 3 H
  end.
(** UpdaterSLAM.cpp 584-632: phi_order_OLD without the landmark, its layout, and Phi (the landmark's columns last) *)
Definition anchor_phi (r : rep) (jo jn : mat * nat * list (key * mat)) : outcome (lay * mat) :=
  let '(Hfo, _, exo) := jo in let '(Hfn, _, exn) := jn in
  let l := fold_left (fun l x => ly_add (fst x) l) exn (fold_left (fun l x => ly_add (fst x) l) exo (mkLay [] [] 0)) in
  let k := phisize r in
  let Hinv := new_inv r Hfn in
  do P1 <- place l k 1 Hinv exo mzero;
  let P2 := put P1 0 (ly_total l) k k (mmul 3 Hinv Hfo) in
  do P3 <- place l k (-1) Hinv exn P2;
  Ok (l, P3).

(** assignment to the members of one landmark (UpdaterSLAM.cpp 505-647) *)
Definition set_meta (f : nat -> lmeta) (p : nat) (m : lmeta) : nat -> lmeta := fun q => if Nat.eqb q p then m else f q.
(** UpdaterSLAM.cpp 505-647; the new anchor is (camera c', time t') *)
Definition perform_anchor_change (a : slam) (p : nat) (t' : R) (c' : nat) : outcome slam :=
  match find_top (s_vars (sl_st a)) p with
  | Some (TVec v) =>
      let m := sl_meta a p in
      let l := land_of m v in
      let e := env_of a in
      guard (is_relative (lm_rep m) && negb (lm_acam m =? -1)%Z) UB
        (do pA <- get_xyz l false;
         do pAf <- get_xyz l true;
         do jo <- rep_jac e (mkHf (lm_rep m) (lm_acam m) (lm_atime m) pA v3zero v3zero []);
         do co <- at_ (he_clone e (lm_atime m));
         do ko <- cam_at (he_calib e) (lm_acam m);
         do cn <- at_ (he_clone e t');
         do kn <- at_ (he_calib e c');
         let pA' := moved (po_R co) (po_p co) ko (po_R cn) (po_p cn) kn pA in
         let pAf' := moved (po_Rf co) (po_pf co) ko (po_Rf cn) (po_pf cn) kn pAf in
         do jn <- rep_jac e (mkHf (lm_rep m) (Z.of_nat c') t' pA' v3zero v3zero []);
         do lp <- anchor_phi (lm_rep m) jo jn;
         do order <- key_refs a (ly_order (fst lp));
         let k := phisize (lm_rep m) in
         do st1 <- EKFPropagation (sl_st a) [ref_of (TVec v)] (order ++ [ref_of (TVec v)])
                     (DMat k (ly_total (fst lp) + vo_size v) (snd lp)) (DMat k k mzero);
         do l1 <- set_from_xyz l pA' false;
         do l2 <- set_from_xyz l1 pAf' true;
         do st2 <- with_var st1 p (set_vec_both (l_val l2) (l_fej l2));
         Ok (mkSlam st2 (sl_fej a) (sl_cal a) (set_meta (sl_meta a) p (mkLm (lm_rep m) (Z.of_nat c') t' (l_uv0 l2) (l_uv0f l2)))))
  | _ => UB
  end.

(** UpdaterSLAM.cpp 492-501: one landmark; [None] is the time INFINITY of a state without clones *)
Definition change_one (marg : option R) (a : slam) (e : nat * (nat * bool)) : outcome slam :=
  let p := fst (snd e) in
  let m := sl_meta a p in
  match lm_rep m with
  | Global3D | GlobalFullInv => Ok a
  | _ =>
      match marg with
      | None => UB
      | Some t =>
          guard (Rleb t (lm_atime m)) UB
            (if Reqb (lm_atime m) t then perform_anchor_change a p (s_time (sl_st a)) (Z.to_nat (lm_acam m)) else Ok a)
      end
  end.
(** UpdaterSLAM.cpp 481-503 *)
Definition change_anchors (a : slam) : outcome slam :=
  if (Z.of_nat (length (s_clones (sl_st a))) <=? o_max_clones (s_opts (sl_st a)))%Z then Ok a
  else ofold (change_one (margtimestep (sl_st a))) (s_slam (sl_st a)) a.

(** Feature.cpp 26-53 on one camera's measurements: only those at a clone time stay *)
Definition clean_obs (times : list R) (f : obs) : obs :=
  map (fun x => (fst x, filter (fun y => existsb (Reqb (fst y)) times) (snd x))) f.
(** Feature.cpp 26-53 (as above) *)
Definition count_obs (f : obs) : nat := fold_right (fun x n => (length (snd x) + n)%nat) 0%nat f.

(** one call of a frame: a StateHelper call, or delayed_init on one feature (UpdaterSLAM.cpp 61-250) with its
    measurements, the pixel Jacobians and residual, and the landmark's representation, value, first estimate and
    bearings *)
Record newland := mkNew { nl_id : nat; nl_obs : obs; nl_rep : rep; nl_var : vecobj; nl_uv0 : v3; nl_uv0f : v3;
  nl_order : list vref; nl_HR : dmat; nl_HL : dmat; nl_Rn : dmat; nl_res : dvec; nl_mult : R }.
(** UpdaterSLAM.cpp 61-250 (as above) *)
Inductive sop := SOp (o : op) | SLand (x : newland).

(** UpdaterSLAM.cpp 68-98, 150-158, 212-241: clean the measurements, skip the feature below two, anchor at the last
    measurement of the camera with the most measurements (FeatureInitializer.cpp 38-46), initialize and insert *)
Definition delayed_one (chi2q : nat -> R) (a : slam) (x : newland) : outcome slam :=
  let st := sl_st a in
  let f := clean_obs (map fst (s_clones st)) (nl_obs x) in
  if (count_obs f <? 2)%nat then Ok a
  else
    do an <- anchor_of f;
    let '(c, t, _, _) := an in
    let m := if is_relative (nl_rep x) then mkLm (nl_rep x) (Z.of_nat c) t (nl_uv0 x) (nl_uv0f x)
             else mkLm (nl_rep x) (-1) (-1) (nl_uv0 x) (nl_uv0f x) in
    do r <- initialize chi2q st (TVec (nl_var x)) (nl_order x) (nl_HR x) (nl_HL x) (nl_Rn x) (nl_res x) (nl_mult x);
    if fst r then
      let p := vo_ptr (nl_var x) in
      Ok (mkSlam (set_slam (snd r) (s_slam (snd r) ++ [(nl_id x, (p, false))])) (sl_fej a) (sl_cal a) (set_meta (sl_meta a) p m))
    else Ok (mkSlam (snd r) (sl_fej a) (sl_cal a) (sl_meta a)).

(** helper: the same landmarks with another state, no code of its own *)
Definition with_st (a : slam) (st : state) : slam := mkSlam st (sl_fej a) (sl_cal a) (sl_meta a).
(** the calls of ReachModel.v and the insertion of a landmark, UpdaterSLAM.cpp 233-240 *)
Definition sexec (chi2q : nat -> R) (a : slam) (o : sop) : outcome slam :=
  match o with
  | SOp o => do st <- exec chi2q (sl_st a) o; Ok (with_st a st)
  | SLand x => delayed_one chi2q a x
  end.
(** VioManager.cpp 323-596 with its landmarks; [mid] as in [do_feature_propagate_update], up to change_anchors (584) *)
Definition slam_frame (chi2q : nat -> R) (a : slam) (t : R) (i : prop_in) (mid : list (slam -> sop)) : outcome slam :=
  let st := sl_st a in
  if Rltb t (s_time st) then Ok a
  else
    do st1 <- (if Reqb (s_time st) t then Ok st else propagate_and_clone st t i);
    let a1 := with_st a st1 in
    if (Z.of_nat (length (s_clones st1)) <? Z.min (o_max_clones (s_opts st1)) 5)%Z then Ok a1
    else if negb (Reqb (s_time st1) t) then Ok a1
    else
      do a2 <- ofold (fun b f => sexec chi2q b (f b)) mid a1;
      do a3 <- change_anchors a2;
      do st3 <- marginalize_old_clone (sl_st a3);
      Ok (with_st a3 st3).
