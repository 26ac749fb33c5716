(** Filter operations as they are issued by VioManager, Propagator and the updaters, and the
    camera-frame sequence built from them. *)
From Coq Require Import Reals List Arith ZArith Bool.
From Verif Require Import RBool Outcome Lin GeoModel TypesModel GivensModel StateModel.
Import ListNotations.
Open Scope R_scope.

(** [var->set_value(x); var->set_fej(f)] on the variable with pointer [p]
    (VioManager.cpp 73-97, VioManagerHelper.cpp 43-44, Propagator.cpp 478-479,
    Landmark::set_from_xyz). *)
Fixpoint set_var (f : ty -> outcome ty) (p : nat) (vars : list ty) : outcome (list ty) :=
  match vars with
  | [] => UB
  | t :: vars' =>
      if Nat.eqb (ty_ptr t) p then do t' <- f t; Ok (t' :: vars')
      else do r <- set_var f p vars'; Ok (t :: r)
  end.
(** VioManager.cpp 73-97, VioManagerHelper.cpp 43-44, Propagator.cpp 478-479 (as above) *)
Definition set_vec_both (x y : list R) (t : ty) : outcome ty :=
  match t with
  | TVec v => do a <- vec_set_value v x; do b <- vec_set_fej a y; Ok (TVec b)
  | _ => UB
  end.
(** VioManager.cpp 73-97, VioManagerHelper.cpp 43-44, Propagator.cpp 478-479 (as above) *)
Definition set_quat_both (x y : q4) (t : ty) : outcome ty :=
  match t with TQuat q => Ok (TQuat (quat_set_fej (quat_set_value q x) y)) | _ => UB end.
(** VioManager.cpp 73-97, VioManagerHelper.cpp 43-44, Propagator.cpp 478-479 (as above) *)
Definition set_pose_both (x y : pval) (t : ty) : outcome ty :=
  match t with TPose q => Ok (TPose (pose_set_fej (pose_set_value q x) y)) | _ => UB end.
(** VioManager.cpp 73-97, VioManagerHelper.cpp 43-44, Propagator.cpp 478-479 (as above) *)
Definition set_imu_both (x y : ival) (t : ty) : outcome ty :=
  match t with TImu q => Ok (TImu (imu_set_fej (imu_set_value q x) y)) | _ => UB end.
(** VioManager.cpp 73-97, VioManagerHelper.cpp 43-44, Propagator.cpp 478-479 (as above) *)
Definition with_var (st : state) (p : nat) (f : ty -> outcome ty) : outcome state :=
  do vars <- set_var f p (s_vars st); Ok (set_vars_cov st vars (s_dim st) (s_cov st)).

(** The calls that touch the state.  The matrices, residuals and values are whatever the caller
    computed. [calls of StateHelper.h 76-230] *)
Inductive op :=
| OClone (p : nat)                          (* StateHelper::clone *)
| OMarg (p : nat)                           (* StateHelper::marginalize *)
| OAugment (w : v3)                         (* StateHelper::augment_clone *)
| OMargOld                                  (* StateHelper::marginalize_old_clone *)
| OMargSlam                                 (* StateHelper::marginalize_slam *)
| OProp (NEW OLD : list vref) (Phi Q : dmat)  (* StateHelper::EKFPropagation *)
| OUpd (order : list vref) (H : dmat) (res : dvec) (Rn : dmat)  (* StateHelper::EKFUpdate *)
| OInit (nv : ty) (order : list vref) (HR HL Rn : dmat) (res : dvec) (mult : R) (* StateHelper::initialize *)
| OSetCov (P : dmat) (order : list vref)    (* StateHelper::set_initial_covariance *)
| OAlloc (k : nat)                          (* std::make_shared of objects outside the state *)
| OSlamAdd (id p : nat)                     (* state->_features_SLAM.insert, UpdaterSLAM.cpp 234 *)
| OSlamMark (id : nat)                      (* landmark->should_marg = true, VioManager.cpp 471-474 *)
| OTime (t : R)                             (* state->_timestamp = t *)
| OSetVec (p : nat) (x y : list R) | OSetQuat (p : nat) (x y : q4)
| OSetPose (p : nat) (x y : pval) | OSetImu (x y : ival).

(** StateHelper.cpp 36-645: each call as a change of the state *)
Definition exec (chi2q : nat -> R) (st : state) (o : op) : outcome state :=
  match o with
  | OClone p => do r <- clone st p; Ok (fst r)
  | OMarg p => do r <- marginalize st p; Ok (fst r)
  | OAugment w => augment_clone st w
  | OMargOld => marginalize_old_clone st
  | OMargSlam => marginalize_slam st
  | OProp NEW OLD Phi Q => EKFPropagation st NEW OLD Phi Q
  | OUpd order H res Rn => EKFUpdate st order H res Rn
  | OInit nv order HR HL Rn res mult => do r <- initialize chi2q st nv order HR HL Rn res mult; Ok (snd r)
  | OSetCov P order => set_initial_covariance st P order
  | OAlloc k => Ok (set_next st (s_next st + k))
  | OSlamAdd id p => Ok (set_slam st (s_slam st ++ [(id, (p, false))]))
  | OSlamMark id => Ok (set_slam st (map (fun e => if Nat.eqb (fst e) id then (fst e, (fst (snd e), true)) else e) (s_slam st)))
  | OTime t => Ok (set_time st t)
  | OSetVec p x y => with_var st p (set_vec_both x y)
  | OSetQuat p x y => with_var st p (set_quat_both x y)
  | OSetPose p x y => with_var st p (set_pose_both x y)
  | OSetImu x y => with_var st (s_imu st) (set_imu_both x y)
  end.

(** StateHelper.cpp 36-645: each call as a change of the state *)
Definition run (chi2q : nat -> R) (l : list op) (st : state) : outcome state := ofold (exec chi2q) l st.

(** id() and size() of the variable with a given pointer [Type.h 57-67] *)
Definition ref_ptr (st : state) (p : nat) : vref :=
  match find_top (s_vars st) p with Some t => ref_of t | None => (None, 0%nat) end.
(** Phi_order: Propagator.cpp 105-119 *)
Definition phi_ptrs (o : opts) : list nat :=
  [ptr_imu] ++
  (if o_calib_imu o then
     [ptr_dw; ptr_da] ++ (if o_calib_gsens o then [ptr_tg] else []) ++
     [if o_kalibr o then ptr_gyro else ptr_acc]
   else []).

(** Propagator.cpp 33-138.  The propagated mean [x] (also the new first estimate, 478-479), the
    summed Phi and Qd and the last angular velocity [w] are inputs here; they are modelled in the
    IMU files. *)
Record prop_in := mkProp { pi_x : ival; pi_Phi : dmat; pi_Q : dmat; pi_w : v3 }.
(** Propagator.cpp 33-138 (as above) *)
Definition propagate_and_clone (st : state) (t : R) (i : prop_in) : outcome state :=
  if Reqb (s_time st) t then Exit
  else if Rltb t (s_time st) then Exit
  else
    do st1 <- with_var st (s_imu st) (set_imu_both (pi_x i) (pi_x i));
    let order := map (ref_ptr st1) (phi_ptrs (s_opts st1)) in
    do st2 <- EKFPropagation st1 order order (pi_Phi i) (pi_Q i);
    augment_clone (set_time st2 t) (pi_w i).

(** operations chosen one after the other from the current state [StateHelper.cpp 36-645: each call as a change of the state] *)
Definition run_policy (chi2q : nat -> R) (l : list (state -> op)) (st : state) : outcome state :=
  ofold (fun s f => exec chi2q s (f s)) l st.

(** VioManager.cpp 323-596: one camera message after the tracking front-end.  [mid] is the
    sequence of state operations issued between the checks and marginalize_old_clone (472-593:
    landmark flags, marginalize_slam, MSCKF update, SLAM updates, delayed initialization, anchor
    changes); each may depend on the state it is applied to. *)
Definition do_feature_propagate_update (chi2q : nat -> R) (st : state) (t : R) (i : prop_in)
  (mid : list (state -> op)) : outcome state :=
  if Rltb t (s_time st) then Ok st
  else
    do st1 <- (if Reqb (s_time st) t then Ok st else propagate_and_clone st t i);
    if (Z.of_nat (length (s_clones st1)) <? Z.min (o_max_clones (s_opts st1)) 5)%Z then Ok st1
    else if negb (Reqb (s_time st1) t) then Ok st1
    else do st2 <- run_policy chi2q mid st1; marginalize_old_clone st2.
