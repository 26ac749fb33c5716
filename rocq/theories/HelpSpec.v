(** What C35 and C36 mean: the Jacobians predict how the feature position and the pixels move along every
    differentiable motion of the poses, extrinsics, intrinsics and landmark parameters.

    Orientation errors follow the filter's convention R_true = (I - [theta x]) R (ManifoldSpec.v), so a
    rotation moving with error rate w has derivative - [w x] R. *)
From Coq Require Import Reals List ZArith.
From Coquelicot Require Import Coquelicot.
From Verif Require Import Lin GeoModel GeoSpec JacSo3 Calc3 LandModel LandSpec CamModel CamSpec HelpModel.
Import ListNotations.
Open Scope R_scope.

Definition seg3 (v : vec) (o : nat) : v3 := V3 (v o) (v (S o)) (v (S (S o))).
(** a pose moving with the 6-vector of error rates v *)
Definition pose_moves (Rc : R -> m3) (pc : R -> v3) (s : R) (v : vec) : Prop :=
  m3_derive Rc s (m3mul (m3scal (-1) (skew_x (seg3 v 0))) (Rc s)) /\ v3_derive pc s (seg3 v 3).

(** the point described by landmark parameters; [b] is the fixed bearing of the single-depth form *)
Definition feat_xyz (r : rep) (b : v3) (lam : vec) : v3 :=
  match r with
  | GlobalFullInv | AnchFullInv =>
      let d := / lam 2%nat in V3 (d * (cos (lam 0%nat) * sin (lam 1%nat))) (d * (sin (lam 0%nat) * sin (lam 1%nat))) (d * cos (lam 1%nat))
  | AnchMsckf => let d := / lam 2%nat in V3 (lam 0%nat * d) (lam 1%nat * d) d
  | AnchSingle => v3scal (/ lam 0%nat) b
  | _ => V3 (lam 0%nat) (lam 1%nat) (lam 2%nat)
  end.
(** the parameters Landmark::set_from_xyz stores for a point *)
Definition feat_params (r : rep) (p : v3) : vec :=
  match r with
  | GlobalFullInv | AnchFullInv => v3vec (full_inv_of p)
  | AnchMsckf => v3vec (msckf_of p)
  | AnchSingle => fun _ => 1 / vz p
  | _ => v3vec p
  end.
(** anchor camera frame to global frame *)
Definition to_global (Ri : m3) (pi : v3) (Rc : m3) (pc : v3) (pA : v3) : v3 :=
  v3add (m3v (m3tr Ri) (m3v (m3tr Rc) (v3sub pA pc))) pi.

(** curves of everything the measurements depend on, with their error rates *)
Record motion := mkMotion { mo_R : R -> R -> m3; mo_p : R -> R -> v3; mo_cR : nat -> R -> m3; mo_cp : nat -> R -> v3;
  mo_in : nat -> R -> vec; mo_lam : R -> vec; mo_v : key -> vec; mo_lv : vec; mo_b : v3 }.

(** the motion starts at the estimate; calibration parameters that are not estimated stand still *)
Definition motion_of (e : henv) (f : hfeat) (m : motion) : Prop :=
  (forall t cl, he_clone e t = Some cl -> mo_R m t 0 = po_R cl /\ mo_p m t 0 = po_p cl /\ is_rot (po_R cl) /\
     pose_moves (mo_R m t) (mo_p m t) 0 (mo_v m (KClone t))) /\
  (forall c ca, he_calib e c = Some ca -> mo_cR m c 0 = ca_R ca /\ mo_cp m c 0 = ca_p ca /\ is_rot (ca_R ca) /\
     pose_moves (mo_cR m c) (mo_cp m c) 0 (mo_v m (KCalib c)) /\ (he_cal e = false -> forall i, (i < 6)%nat -> mo_v m (KCalib c) i = 0)) /\
  (forall c di, he_intr e c = Some di -> (forall i, mo_in m c 0 i = di i) /\ vec_derive 8 (mo_in m c) 0 (mo_v m (KIntr c)) /\
     (he_int e = false -> forall i, (i < 8)%nat -> mo_v m (KIntr c) i = 0)) /\
  vec_derive 3 (mo_lam m) 0 (mo_lv m).

(** the feature's position in the global frame along the motion *)
Definition moving_feat (f : hfeat) (m : motion) (s : R) : v3 :=
  let p := feat_xyz (hf_rep f) (mo_b m) (mo_lam m s) in
  if is_relative (hf_rep f) then
    let c := Z.to_nat (hf_acam f) in
    to_global (mo_R m (hf_atime f) s) (mo_p m (hf_atime f) s) (mo_cR m c s) (mo_cp m c s) p
  else p.
(** the feature in the camera frame, and its predicted pixel *)
Definition in_camera (m : motion) (c : nat) (t : R) (s : R) (pG : v3) : v3 :=
  v3add (m3v (mo_cR m c s) (m3v (mo_R m t s) (v3sub pG (mo_p m t s)))) (mo_cp m c s).
Definition projected (p : v3) : vec := vec2 (vx p / vz p) (vy p / vz p).
Definition predicted (f : hfeat) (m : motion) (cm : camera) (c : nat) (t : R) (s : R) : vec :=
  cam_distort cm (mo_in m c s) (projected (in_camera m c t s (moving_feat f m s))).

(** contribution of the extra Jacobians *)
Fixpoint extra_sum (ex : list (key * mat)) (v : key -> vec) (i : nat) : R :=
  match ex with [] => 0 | (k, B) :: r => mvec (ksize k) B (v k) i + extra_sum r v i end.
(** the error rates of the variables in x_order, one after the other *)
Fixpoint stackv (order : list key) (v : key -> vec) : vec :=
  match order with [] => fun _ => 0 | k :: r => fun i => if (i <? ksize k)%nat then v k i else stackv r v (i - ksize k)%nat end.
Definition sizes (order : list key) : nat := fold_right (fun k n => (ksize k + n)%nat) 0%nat order.
(** all measurements in row order *)
Definition flat_meas (ms : list (nat * list (R * vec))) : list (nat * R * vec) :=
  flat_map (fun x => map (fun y => (fst x, fst y, snd y)) (snd x)) ms.
(** the camera model is differentiable at a point in front of or behind the camera *)
Definition regular (cm : camera) (p : v3) : Prop := vz p <> 0 /\ match cm with CRadtan => True | CEqui => 1 / 100000000 < radius (projected p) end.

(** where the anchor Jacobians are evaluated: the first estimate of the anchor clone in first-estimate
    mode, its current estimate otherwise *)
Definition lin_R (e : henv) (cl : cpose) : m3 := if he_fej e then po_Rf cl else po_R cl.
Definition lin_p (e : henv) (cl : cpose) : v3 := if he_fej e then po_pf cl else po_p cl.

(** the motion's landmark parameters start where Landmark::set_from_xyz puts the feature *)
Definition starts (f : hfeat) (m : motion) (p : v3) : Prop :=
  expressible (hf_rep f) p /\ (forall i, (i < 3)%nat -> mo_lam m 0 i = feat_params (hf_rep f) p i) /\
  (hf_rep f = AnchSingle -> mo_b m = v3scal (1 / vz p) p).
(** the point the feature object stores: in the anchor frame or in the global frame *)
Definition stored (f : hfeat) : v3 := if is_relative (hf_rep f) then hf_pA f else hf_pG f.

(** C75: error rates of a rotation g about the global origin together with a translation d, for the
    poses at which the Jacobians are evaluated *)
Definition frame_rate (g d p : v3) : v3 := v3add (v3cross g p) d.
Definition frame_move (e : henv) (g d : v3) (v : key -> vec) : Prop :=
  (forall t cl, he_clone e t = Some cl -> seg3 (v (KClone t)) 0 = m3v (lin_R e cl) g /\ seg3 (v (KClone t)) 3 = frame_rate g d (lin_p e cl)) /\
  (forall c i, v (KCalib c) i = 0) /\ (forall c i, v (KIntr c) i = 0).

(** C36 in both modes: the motion starts at the evaluation point of the Jacobians instead *)
Definition motion_lin (e : henv) (m : motion) : Prop :=
  (forall t cl, he_clone e t = Some cl -> mo_R m t 0 = lin_R e cl /\ mo_p m t 0 = lin_p e cl /\ is_rot (po_R cl) /\ is_rot (lin_R e cl) /\
     pose_moves (mo_R m t) (mo_p m t) 0 (mo_v m (KClone t))) /\
  (forall c ca, he_calib e c = Some ca -> mo_cR m c 0 = ca_R ca /\ mo_cp m c 0 = ca_p ca /\ is_rot (ca_R ca) /\
     pose_moves (mo_cR m c) (mo_cp m c) 0 (mo_v m (KCalib c)) /\ (he_cal e = false -> forall i, (i < 6)%nat -> mo_v m (KCalib c) i = 0)) /\
  (forall c, he_int e = false -> forall i, (i < 8)%nat -> mo_v m (KIntr c) i = 0) /\
  vec_derive 3 (mo_lam m) 0 (mo_lv m).
(** the global position of the feature at the current estimate *)
Definition now_global (e : henv) (f : hfeat) : option v3 :=
  if is_relative (hf_rep f) then
    match he_clone e (hf_atime f), he_calib e (Z.to_nat (hf_acam f)) with
    | Some cl, Some ca => Some (to_global (po_R cl) (po_p cl) (ca_R ca) (ca_p ca) (hf_pA f))
    | _, _ => None
    end
  else Some (hf_pG f).
(** the feature at the evaluation point: an anchored one is at its current global position, another one at its first estimate *)
Definition lin_global (e : henv) (f : hfeat) : option v3 :=
  if is_relative (hf_rep f) then now_global e f else Some (if he_fej e then hf_pGf f else hf_pG f).
(** the current camera-frame position *)
Definition now_camera (e : henv) (c : nat) (t : R) (p : v3) : option v3 :=
  match he_clone e t, he_calib e c with
  | Some cl, Some ca => Some (v3add (m3v (ca_R ca) (m3v (po_R cl) (v3sub p (po_p cl)))) (ca_p ca))
  | _, _ => None
  end.
