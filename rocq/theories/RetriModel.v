(** Model of VioManager::retriangulate_active_tracks, ov_msckf/src/core/VioManagerHelper.cpp 190-387, called by
    do_feature_propagate_update for messages whose first camera is 0 (VioManager.cpp 555-558).

    Simplifications: float and double are exact reals, so nothing is NaN but a ratio of two zero singular
    values; the three maps active_feat_linsys_A, _b and _count, always written together, are one map; the
    number of observations does not overflow; the drawing of the image and the timing are left out; what is read
    from the state and from the tracker is an argument.  Eigen's colPivHouseholderQr().solve and the largest and
    smallest singular value of JacobiSVD are arguments, as is undistort_cv of each camera.  [UB] for a .at()
    that throws and for a failed assert. *)
From Coq Require Import Reals List Arith Bool.
From Verif Require Import RBool Outcome GeoModel DbModel FeatModel.
Import ListNotations.
Open Scope R_scope.

(** a landmark of the state: its id, get_xyz(false), is_relative_representation, the anchor camera ([None] for
    -1) and anchor time [Landmark.h 39-118, used at VioManagerHelper.cpp 307-322] *)
Record slam := mkSl { sl_id : nat; sl_xyz : v3; sl_rel : bool; sl_cam : option nat; sl_time : R }.
(** what one call reads: message.timestamp and sensor_ids, pts_last and ids_last of the tracker, _clones_IMU
    (R_GtoI, p_IinG), _calib_IMUtoCAM (R_ItoC, p_IinC), undistort_cv, width and height of camera 0,
    _features_SLAM [VioManagerHelper.cpp 197-231, 250, 266, 307-329, 361-362] *)
Record rin := mkRin { ri_time : R; ri_cams : list nat; ri_obs : amap (list (R * R)); ri_ids : amap (list nat);
  ri_clone : R -> option (m3 * v3); ri_calib : nat -> option (m3 * v3); ri_und : nat -> option (R * R -> R * R);
  ri_w : nat; ri_h : nat; ri_slam : amap slam }.
(** A, b and the number of observations [VioManager.h 241-243] *)
Definition sys := (m3 * v3 * nat)%type.
(** active_tracks_time, the systems, active_tracks_posinG, active_tracks_uvd [VioManager.h 237-243] *)
Record rout := mkRout { ro_time : R; ro_sys : amap sys; ro_pos : amap v3; ro_uvd : amap v3 }.
(** feat_uvs_in_cam0, the new systems and the new positions while looping [VioManagerHelper.cpp 213-219] *)
Record racc := mkRacc { ra_uv : amap (R * R); ra_new : amap sys; ra_pos : amap v3 }.

(** R_GtoCi and p_CiinG [VioManagerHelper.cpp 222-232] *)
Definition cam_R (I C : m3 * v3) : m3 := m3mul (fst C) (fst I).
(** VioManagerHelper.cpp 232 *)
Definition cam_p (I C : m3 * v3) : v3 := v3sub (snd I) (m3v (m3tr (cam_R I C)) (snd C)).
(** Ai and bi of one observation [VioManagerHelper.cpp 250-260] *)
Definition obs_sys (Rg : m3) (pc : v3) (n : R * R) : m3 * v3 :=
  let b := m3v (m3tr Rg) (V3 (fst n) (snd n) 1) in
  let B := skew_x (v3div b (v3norm b)) in
  let Ai := m3mul (m3tr B) B in (Ai, m3v Ai pc).
(** VioManagerHelper.cpp 261-269: insert() leaves an entry that is already there *)
Definition append (old new : amap sys) (id : nat) (e : m3 * v3) : amap sys :=
  match alook old id with
  | None => match alook new id with None => aset new id (fst e, snd e, 1%nat) | Some _ => new end
  | Some (A, b, n) => aset new id (m3add (fst e) A, v3add (snd e) b, S n)
  end.
(** VioManagerHelper.cpp 271-295: the position, if there are more than three observations and the checks hold;
    an infinite or NaN condition number fails them *)
Definition recover (solve : m3 -> v3 -> v3) (svals : m3 -> R * R) (o : fopts) (Rg : m3) (pc : v3) (s : sys) : option v3 :=
  let '(A, b, n) := s in
  if (3 <? n)%nat then
    let pg := solve A b in
    let z := vz (m3v Rg (v3sub pg pc)) in
    let sv := svals A in
    if negb (Reqb (snd sv) 0) && Rleb (Rabs (fst sv / snd sv)) (fo_cond o) && Rleb (fo_min o) z && Rleb z (fo_max o) then Some pg else None
  else None.
(** one non-landmark observation [VioManagerHelper.cpp 249-296] *)
Definition obs_step (solve : m3 -> v3 -> v3) (svals : m3 -> R * R) (o : fopts) (old : amap sys) (Rg : m3) (pc : v3) (id : nat) (n : R * R) (a : racc) : outcome racc :=
  let new := append old (ra_new a) id (obs_sys Rg pc n) in
  do s <- look (alook new id);
  Ok (mkRacc (ra_uv a) new (match recover solve svals o Rg pc s with Some p => aset (ra_pos a) id p | None => ra_pos a end)).
(** the loop over the observations of one camera [VioManagerHelper.cpp 234-297] *)
Fixpoint obs_loop (solve : m3 -> v3 -> v3) (svals : m3 -> R * R) (o : fopts) (i : rin) (old : amap sys) (cam : nat) (Rg : m3) (pc : v3)
    (pts : list (R * R)) (ids : list nat) (a : racc) : outcome racc :=
  match pts with
  | [] => Ok a
  | pt :: pts' =>
      do id <- look (hd_error ids);
      let a := if Nat.eqb cam 0 then mkRacc (aset (ra_uv a) id pt) (ra_new a) (ra_pos a) else a in
      do a' <- match alook (ri_slam i) id with
               | Some _ => Ok a
               | None => do u <- look (ri_und i cam); obs_step solve svals o old Rg pc id (u pt) a
               end;
      obs_loop solve svals o i old cam Rg pc pts' (tl ids) a'
  end.
(** one camera [VioManagerHelper.cpp 220-298] *)
Definition cam_loop (solve : m3 -> v3 -> v3) (svals : m3 -> R * R) (o : fopts) (i : rin) (old : amap sys) (a : racc) (cam : nat) : outcome racc :=
  do I <- look (ri_clone i (ri_time i));
  do C <- look (ri_calib i cam);
  do pts <- look (alook (ri_obs i) cam);
  do ids <- look (alook (ri_ids i) cam);
  obs_loop solve svals o i old cam (cam_R I C) (cam_p I C) pts ids a.

(** position of a landmark in the global frame [VioManagerHelper.cpp 308-321] *)
Definition slam_pos (i : rin) (f : slam) : outcome v3 :=
  if sl_rel f then
    do c <- look (sl_cam f);
    do C <- look (ri_calib i c);
    do I <- look (ri_clone i (sl_time f));
    Ok (v3add (m3v (m3mul (m3tr (fst I)) (m3tr (fst C))) (v3sub (sl_xyz f) (snd C))) (snd I))
  else Ok (sl_xyz f).
(** VioManagerHelper.cpp 307-323 *)
Definition slam_step (i : rin) (pos : amap v3) (e : nat * slam) : outcome (amap v3) :=
  do p <- slam_pos i (snd e); Ok (aset pos (sl_id (snd e)) p).

(** pixel and depth in the first camera [VioManagerHelper.cpp 337-374]; the branch for a feature not seen from
    camera 0 (350-353) is never taken, 341 having skipped it; (int)u >= w for 0 <= u is w <= u *)
Definition uvd_step (i : rin) (I C : m3 * v3) (uv0 : amap (R * R)) (out : amap v3) (e : nat * v3) : amap v3 :=
  match alook uv0 (fst e) with
  | None => out
  | Some u =>
      let pc := v3add (m3v (fst C) (m3v (fst I) (v3sub (snd e) (snd I)))) (snd C) in
      if Rltb (vz pc) (1 / 10) then out
      else if Rltb (fst u) 0 || Rleb (INR (ri_w i)) (fst u) || Rltb (snd u) 0 || Rleb (INR (ri_h i)) (snd u) then out
      else match alook out (fst e) with Some _ => out | None => aset out (fst e) (V3 (fst u) (snd u) (vz pc)) end
  end.

(** VioManagerHelper.cpp 190-387 *)
Definition retriangulate (solve : m3 -> v3 -> v3) (svals : m3 -> R * R) (o : fopts) (old : amap sys) (i : rin) : outcome rout :=
  do I <- look (ri_clone i (ri_time i));
  do a <- ofold (cam_loop solve svals o i old) (ri_cams i) (mkRacc [] [] []);
  match ra_pos a, ri_slam i with
  | [], [] => Ok (mkRout (ri_time i) (ra_new a) [] [])
  | _, _ =>
      do pos <- ofold (slam_step i) (ri_slam i) (ra_pos a);
      do C <- look (ri_calib i 0);
      Ok (mkRout (ri_time i) (ra_new a) pos (fold_left (uvd_step i I C (ra_uv a)) pos []))
  end.
(** the calls of a run, oldest first, starting with no systems [VioManager.cpp 555-558, VioManager.h 241-243] *)
Fixpoint retri_run (solve : m3 -> v3 -> v3) (svals : m3 -> R * R) (o : fopts) (old : amap sys) (l : list rin) : outcome (amap sys) :=
  match l with
  | [] => Ok old
  | i :: r => do x <- retriangulate solve svals o old i; retri_run solve svals o (ro_sys x) r
  end.
