(** What C60 and C18 mean. *)
From Coq Require Import Reals List ZArith.
From Coquelicot Require Import Coquelicot.
From Verif Require Import RBool Outcome Lin GeoModel GeoSpec TypesModel StateModel StateSpec ReachModel ReachSpec JacSo3 Calc3 FeatModel LandModel LandSpec CamModel CamSpec HelpModel HelpSpec AnchorModel.
Import ListNotations.
Open Scope R_scope.

(** the landmark object with pointer p is v *)
Definition is_landmark (a : slam) (p : nat) (v : vecobj) : Prop := find_top (s_vars (sl_st a)) p = Some (TVec v).
Definition params (x : list R) : vec := fun i => nth i x 0.

(** where an anchored landmark is in the global frame: its current estimate, and its first estimate seen from the
    first estimate of the anchor clone *)
Definition global_of (a : slam) (p : nat) (g : v3) : Prop :=
  exists v cl ca, is_landmark a p v /\ clone_at (sl_st a) (lm_atime (sl_meta a p)) = Some cl /\ calib_at a (Z.to_nat (lm_acam (sl_meta a p))) = Some ca /\
    g = to_global (po_R cl) (po_p cl) (ca_R ca) (ca_p ca) (feat_xyz (lm_rep (sl_meta a p)) (lm_uv0 (sl_meta a p)) (params (vo_val v))).
Definition global_fej (a : slam) (p : nat) (g : v3) : Prop :=
  exists v cl ca, is_landmark a p v /\ clone_at (sl_st a) (lm_atime (sl_meta a p)) = Some cl /\ calib_at a (Z.to_nat (lm_acam (sl_meta a p))) = Some ca /\
    g = to_global (po_Rf cl) (po_pf cl) (ca_R ca) (ca_p ca) (feat_xyz (lm_rep (sl_meta a p)) (lm_uv0f (sl_meta a p)) (params (vo_fej v))).

(** a global point in a camera frame *)
Definition seen_from (Ri : m3) (pi : v3) (ca : calib) (g : v3) : v3 := v3add (m3v (ca_R ca) (m3v Ri (v3sub g pi))) (ca_p ca).
(** the representation can express the global point in the camera frame of a clone *)
Definition can_express (a : slam) (r : rep) (t : R) (c : nat) (g : v3) : Prop :=
  forall cl ca, clone_at (sl_st a) t = Some cl -> calib_at a c = Some ca -> expressible r (seen_from (po_R cl) (po_p cl) ca g).
Definition can_express_fej (a : slam) (r : rep) (t : R) (c : nat) (g : v3) : Prop :=
  forall cl ca, clone_at (sl_st a) t = Some cl -> calib_at a c = Some ca -> expressible r (seen_from (po_Rf cl) (po_pf cl) ca g).

(** rotations of the state are rotations: current estimates, first estimates and fixed extrinsics *)
Definition rotations (a : slam) : Prop :=
  (forall t cl, clone_at (sl_st a) t = Some cl -> is_rot (po_R cl) /\ is_rot (po_Rf cl)) /\
  (forall c ca, calib_at a c = Some ca -> is_rot (ca_R ca)).

(** parameters in which the representation is regular: it has an invertible derivative *)
Definition regular_at (r : rep) (p : v3) : Prop :=
  expressible r p /\ (r = AnchFullInv -> vx p <> 0 \/ vy p <> 0).

(** a copy of a motion with other landmark parameters *)
Definition with_lam (m : motion) (lam : R -> vec) (lv : vec) (b : v3) : motion :=
  mkMotion (mo_R m) (mo_p m) (mo_cR m) (mo_cp m) (mo_in m) lam (mo_v m) lv b.
(** a landmark as the feature of HelpModel.v, with its current estimate *)
Definition feat_of (a : slam) (p : nat) (v : vecobj) : hfeat :=
  let m := sl_meta a p in mkHf (lm_rep m) (lm_acam m) (lm_atime m) (feat_xyz (lm_rep m) (lm_uv0 m) (params (vo_val v))) v3zero v3zero [].
Definition dist2 (x y : vec) : R := (x 0%nat - y 0%nat) * (x 0%nat - y 0%nat) + (x 1%nat - y 1%nat) * (x 1%nat - y 1%nat) + (x 2%nat - y 2%nat) * (x 2%nat - y 2%nat).

(** the error rates of the variables of an order, then of the landmark *)
Definition stack_lm (order : list key) (v : key -> vec) (lv : vec) : vec := fun i =>
  if (i <? sizes order)%nat then stackv order v i else lv (i - sizes order)%nat.

(** Phi maps error rates of the old variables to error rates of the new landmark parameters: along every motion
    of poses, extrinsics and old landmark parameters from the evaluation point, the new parameters moving at the
    rate Phi * (old rates) carry the landmark along with the old ones to first order -- exactly, or for the
    single-depth form as closely as any rate does *)
Definition re_expresses (e : henv) (r : rep) (fo fn : hfeat) (order : list key) (Phi : mat) : Prop :=
  forall m lamn lvn bn qo qn g, motion_lin e m -> starts fo m qo -> moving_feat fo m 0 = g -> now_global e fo = Some g ->
    starts fn (with_lam m lamn lvn bn) qn -> moving_feat fn (with_lam m lamn lvn bn) 0 = g -> regular_at r qn ->
    vec_derive 3 lamn 0 lvn ->
    (forall i, (i < phisize r)%nat -> lvn i = mvec (sizes order + phisize r) Phi (stack_lm order (mo_v m) (mo_lv m)) i) ->
    exists w wn, vec_derive 3 (fun s => v3vec (moving_feat fo m s)) 0 w /\
      vec_derive 3 (fun s => v3vec (moving_feat fn (with_lam m lamn lvn bn) s)) 0 wn /\
      (r <> AnchSingle -> forall i, (i < 3)%nat -> wn i = w i) /\
      forall lam' lv' w', starts fn (with_lam m lam' lv' bn) qn -> vec_derive 3 lam' 0 lv' ->
        vec_derive 3 (fun s => v3vec (moving_feat fn (with_lam m lam' lv' bn) s)) 0 w' -> dist2 wn w <= dist2 w' w.

(** the variables of an order list of keys, by id and size *)
Definition key_var (a : slam) (k : key) (x : ty) : Prop :=
  match k with
  | KClone t => exists p, In (t, p) (s_clones (sl_st a)) /\ find_top (s_vars (sl_st a)) p = Some x
  | KCalib c => find_top (s_vars (sl_st a)) (ptr_pose c) = Some x
  | KIntr c => find_top (s_vars (sl_st a)) (ptr_intr c) = Some x
  end.

(** *** C18 *)
(** every anchored landmark is anchored at a clone of the window and at a camera of the rig *)
Definition anchors_live (a : slam) : Prop :=
  forall id p b, In (id, (p, b)) (s_slam (sl_st a)) -> is_relative (lm_rep (sl_meta a p)) = true ->
    In (lm_atime (sl_meta a p)) (map fst (s_clones (sl_st a))) /\
    (0 <= lm_acam (sl_meta a p))%Z /\ (Z.to_nat (lm_acam (sl_meta a p)) < o_ncams (s_opts (sl_st a)))%nat.
(** landmark objects have the size and the kind of their representation *)
Definition landmarks_fit (a : slam) : Prop :=
  forall id p b, In (id, (p, b)) (s_slam (sl_st a)) -> lm_rep (sl_meta a p) <> RepUnknown /\
    exists v, is_landmark a p v /\ vo_size v = phisize (lm_rep (sl_meta a p)).
(** fixed extrinsics exist for every camera *)
Definition rig_ok (a : slam) : Prop :=
  o_calib_pose (s_opts (sl_st a)) = false -> forall c, (c < o_ncams (s_opts (sl_st a)))%nat -> sl_cal a c <> None.

(** what the callers respect between cloning and change_anchors *)
Definition sallowed (a : slam) (o : sop) : Prop :=
  match o with
  | SOp o => allowed (sl_st a) o /\ keeps_window o /\ (forall i p, o <> OSlamAdd i p)
  | SLand x =>
      NoDup (map fst (nl_obs x)) /\ (forall c ts, In (c, ts) (nl_obs x) -> (c < o_ncams (s_opts (sl_st a)))%nat) /\
      allowed (sl_st a) (OInit (TVec (nl_var x)) (nl_order x) (nl_HR x) (nl_HL x) (nl_Rn x) (nl_res x) (nl_mult x)) /\
      ~ In (nl_id x) (map fst (s_slam (sl_st a))) /\ nl_rep x <> RepUnknown /\ vo_size (nl_var x) = phisize (nl_rep x)
  end.

(** where a frame is: between frames, in the update part, after change_anchors *)
Inductive phase := Idle | Busy | Changed.
(** all states the estimator passes through: cloning (the clock never goes back), any number of updates,
    initializations and removals, change_anchors, and only then the oldest clone may go *)
Inductive passes (chi2q : nat -> R) : phase -> slam -> Prop :=
| ps_start a : reach chi2q (sl_st a) -> s_clones (sl_st a) = [] -> s_slam (sl_st a) = [] -> (1 <= o_max_clones (s_opts (sl_st a)))%Z -> rig_ok a -> passes chi2q Idle a
| ps_clone a t i st : passes chi2q Idle a -> prop_ok (s_opts (sl_st a)) i -> s_time (sl_st a) < t ->
    propagate_and_clone (sl_st a) t i = Ok st -> passes chi2q Busy (with_st a st)
| ps_again a : passes chi2q Idle a -> passes chi2q Busy a
| ps_op a o a' : passes chi2q Busy a -> sallowed a o -> sexec chi2q a o = Ok a' -> passes chi2q Busy a'
| ps_change a a' : passes chi2q Busy a -> change_anchors a = Ok a' -> passes chi2q Changed a'
| ps_drop a st : passes chi2q Changed a -> marginalize_old_clone (sl_st a) = Ok st -> passes chi2q Idle (with_st a st)
| ps_wait a : passes chi2q Busy a -> (Z.of_nat (length (s_clones (sl_st a))) <= o_max_clones (s_opts (sl_st a)))%Z -> passes chi2q Idle a.

(** callers that respect the preconditions throughout a frame *)
Fixpoint srespects (chi2q : nat -> R) (l : list (slam -> sop)) (a : slam) : Prop :=
  match l with
  | [] => True
  | f :: l' => sallowed a (f a) /\ forall a', sexec chi2q a (f a) = Ok a' -> srespects chi2q l' a'
  end.
