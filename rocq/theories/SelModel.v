(** Model of the selection of features for an update and of the complete treatment of one camera message:
    VioManager::track_image_and_update (ov_msckf/src/core/VioManager.cpp 256-321) once initialized, and
    do_feature_propagate_update (323-596).

    Simplifications: images and the trackers' work are replaced by the measurements they put into the databases
    (TrackModel.v models the trackers); the databases of trackFEATS and trackARUCO are one map, an id belonging to
    the tag tracker when [isA] holds (the ids of the two trackers are disjoint; without a tag tracker [isA] is never
    true); timing, printing, retriangulation
    for display (553-562, 565) and the fast-propagation cache are dropped.  Feature pointers are ids.  What the
    updaters need beyond the state (triangulation, linearization, landmark values, propagation result, landmark
    anchors) is part of the input of a frame.  std::sort is an argument.  (UpdaterMSCKF::update erases from its
    argument the features it does not use, so 567-571 marks the used ones.) *)
From Coq Require Import Reals List Arith ZArith Bool.
From Verif Require Import RBool Outcome Lin GeoModel TypesModel GivensModel StateModel ReachModel DbModel UpdModel InitModel
  ImuModel PropModel ZuptModel FeatModel LandModel CamModel HelpModel AnchorModel.
Import ListNotations.
Open Scope R_scope.

(** CameraData: timestamp, sensor_ids, and the measurements (id, camera, raw, normalized) the trackers produce [sensor_data.h 55-80] *)
Record msg := mkMsg { m_t : R; m_cams : list nat; m_obs : list (nat * nat * uv * uv) }.
(** StateOptions.h: max_slam_features, max_msckf_in_update, max_slam_in_update; dt_slam_delay (VioManagerOptions.h)
    and startup_time; whether there is a zero-velocity updater; zupt_only_at_beginning [StateOptions.h 71-77, VioManagerOptions.h 80] *)
Record sopts := mkSel { se_max_slam : Z; se_max_msckf : Z; se_batch : Z; se_delay : R; se_start : R;
  se_zupt : bool; se_once : bool }.

(** VioManager and what it owns: state, databases, landmark members update_fail_count and _unique_camera_id (by
    landmark id), zero-velocity updater, did_zupt_update, has_moved_since_zupt [VioManager.h 183-230] *)
Record mgr := mkMgr { g_st : state; g_db : db; g_fail : nat -> nat; g_cam : nat -> Z; g_z : zupt; g_did : bool; g_moved : bool }.

(** the rest of a frame's input [VioManager.cpp 256-345] *)
Record fin := mkFin { fi_prop : prop_in; fi_imu : list imu;
  fi_tri : state -> feature -> (Z * R * v3 * v3) * bool; fi_jac : state -> feature -> outcome linsys;
  fi_val : feature -> list R; fi_fej : bool; fi_cal : nat -> option calib; fi_meta : nat -> lmeta }.
(** constants of the run: chi-squared quantile, MSCKF noise and gate, SLAM options, representation, zero-velocity
    options, calibration values as a function of the state, std::sort with a key [VioManager.h 183-230] *)
Record env := mkEnv0 { en_chi2 : nat -> R; en_sig : R; en_mult : R; en_so : slam_opts; en_single : nat -> bool;
  en_zo : zopts; en_zcal : state -> pst * R; en_sort : (nat -> nat) -> list nat -> list nat; en_isA : nat -> bool; en_opt : sopts }.

(** the two databases [VioManager.h 189-192] *)
Definition feats (isA : nat -> bool) (d : db) : db := filter (fun e => negb (isA (fst e))) d.
(** VioManager.h 189-192 *)
Definition arucos (isA : nat -> bool) (d : db) : db := filter (fun e => isA (fst e)) d.

(** feed_new_camera on both trackers (VioManager.cpp 280-287): FeatureDatabase::update_feature for each measurement *)
Definition feed (d : db) (m : msg) : db :=
  fold_left (fun a x => let '(id, cam, u, n) := x in update_feature a id (m_t m) cam u n) (m_obs m) d.

(** std::find of VioManager.cpp 384-480 *)
Definition memn (x : nat) (l : list nat) : bool := existsb (Nat.eqb x) l.

(** VioManager.cpp 371-372 and 382-400: tracks that ended, of which some camera belongs to the message *)
Definition sel_lost (isA : nat -> bool) (st : state) (d : db) (cams : list nat) : list feature :=
  filter (fun f => existsb (fun c => memn c cams) (map fst (f_uvs f)))
    (fst (features_not_containing_newer (s_time st) false true (feats isA d))).
(** VioManager.cpp 375 *)
Definition window_full (st : state) : bool :=
  let n := Z.of_nat (length (s_clones st)) in ((o_max_clones (s_opts st) <? n) || (5 <? n))%Z%bool.
(** features_containing(margtimestep()); margtimestep is INFINITY without clones [VioManager.cpp 374] *)
Definition containing_marg (st : state) (d : db) : list feature :=
  match margtimestep st with Some t => fst (features_containing t false true d) | None => [] end.
(** VioManager.cpp 375-380: feats_marg, and the tags handed to feats_slam *)
Definition sel_marg (isA : nat -> bool) (st : state) (d : db) : list feature :=
  if window_full st then containing_marg st (feats isA d) else [].
(** VioManager.cpp 375-380 (as above) *)
Definition delay_passed (o : sopts) (t : R) : bool := Rleb (se_delay o) (t - se_start o).
(** VioManager.cpp 375-380 (as above) *)
Definition sel_tags (isA : nat -> bool) (o : sopts) (st : state) (d : db) (t : R) : list feature :=
  if (window_full st && delay_passed o t)%bool then containing_marg st (arucos isA d) else [].
(** VioManager.cpp 414-421 *)
Definition reached_max (st : state) (f : feature) : bool :=
  existsb (fun p => (o_max_clones (s_opts st) <? Z.of_nat (length (snd p)))%Z) (f_ts f).
(** VioManager.cpp 433-439 *)
Definition tag_count (st : state) : Z :=
  Z.of_nat (length (filter (fun e => (Z.of_nat (fst e) <=? 4 * o_max_aruco (s_opts st))%Z) (s_slam st))).
(** VioManager.cpp 441-456: how many of the [n] longest tracks are promoted to landmarks *)
Definition promoted (o : sopts) (st : state) (t : R) (n : nat) : nat :=
  let size := Z.of_nat (length (s_slam st)) in
  if ((0 <? se_max_slam o)%Z && delay_passed o t && (size <? se_max_slam o + tag_count st)%Z)%bool then
    let amount := (se_max_slam o + tag_count st - size)%Z in
    if (Z.of_nat n <? amount)%Z then n else Z.to_nat amount
  else 0%nat.
(** VioManager.cpp 463-468: the tracks of the landmarks *)
Definition landmark_tracks (isA : nat -> bool) (st : state) (d : db) : list nat :=
  flat_map (fun e =>
    match alook (arucos isA d) (fst e) with Some _ => [fst e] | None => [] end ++
    match alook (feats isA d) (fst e) with Some _ => [fst e] | None => [] end) (s_slam st).
(** VioManager.cpp 469-476: should_marg *)
Definition flag_landmarks (isA : nat -> bool) (d : db) (fail : nat -> nat) (cam : nat -> Z) (cams : list nat) (st : state) : outcome state :=
  guard (forallb (fun e => negb (cam (fst e) =? -1)%Z) (s_slam st)) UB
    (Ok (set_slam st (map (fun e =>
       let lost := match alook (feats isA d) (fst e) with Some _ => false | None => true end in
       let here := existsb (fun c => (Z.of_nat c =? cam (fst e))%Z) cams in
       (fst e, (fst (snd e), snd (snd e) || (lost && here) || (1 <? fail (fst e))%nat))) (s_slam st)))).

(** what is selected: MSCKF candidates (before sorting and truncation) and feats_slam, as ids [VioManager.cpp 362-480] *)
Definition select (isA : nat -> bool) (o : sopts) (st : state) (d : db) (m : msg) : list nat * list nat :=
  let marg := sel_marg isA st d in
  let lost := filter (fun f => negb (memn (f_id f) (map f_id marg))) (sel_lost isA st d (m_cams m)) in
  let maxtracks := filter (reached_max st) marg in
  let marg' := filter (fun f => negb (reached_max st f)) marg in
  let k := promoted o st (m_t m) (length maxtracks) in
  let keep := firstn (length maxtracks - k) maxtracks in
  let promo := skipn (length maxtracks - k) maxtracks in
  (map f_id lost ++ map f_id marg' ++ map f_id keep,
   map f_id (sel_tags isA o st d (m_t m)) ++ map f_id promo ++ landmark_tracks isA st d).

(** VioManager.cpp 512-528: sort by track length, keep the last max_msckf_in_update *)
Definition track_len (d : db) (id : nat) : nat := match alook d id with Some f => count_meas f | None => 0%nat end.
(** VioManager.cpp 512-528 (as above) *)
Definition truncate (sort : (nat -> nat) -> list nat -> list nat) (o : sopts) (d : db) (l : list nat) : outcome (list nat) :=
  let s := sort (track_len d) l in
  if (se_max_msckf o <? Z.of_nat (length s))%Z then
    guard (0 <=? se_max_msckf o)%Z UB (Ok (skipn (length s - Z.to_nat (se_max_msckf o)) s))
  else Ok s.

(** ghost: the features (with the measurements they have) an update has used [no code of its own] *)
Definition pick (d : db) (ids : list nat) : list feature :=
  flat_map (fun id => match alook d id with Some f => [f] | None => [] end) ids.

(** VioManager.cpp 536-548: batches of max_slam_in_update; a batch size of 0 never finishes and a negative one is out
    of range, both [UB] here.  Returns state, database, used features, and the landmarks that failed the gate. *)
Fixpoint slam_batches (E : env) (jac : state -> feature -> outcome linsys) (fuel : nat) (ids : list nat) (st : state) (d : db)
  : outcome (state * db * list feature * list nat) :=
  match ids with
  | [] => Ok (st, d, [], [])
  | _ =>
      match fuel with
      | O => UB
      | S n =>
          let k := Z.to_nat (se_batch (en_opt E)) in
          do r <- slam_update (en_chi2 E) (en_so E) (en_single E) jac st d (firstn k ids);
          let '(st1, d1, used, fails) := r in
          do q <- slam_batches E jac n (skipn k ids) st1 d1;
          let '(st2, d2, u2, f2) := q in
          Ok (st2, d2, pick d1 used ++ u2, fails ++ f2)
      end
  end.

(** no code of its own *)
Definition count_in (x : nat) (l : list nat) : nat := length (filter (Nat.eqb x) l).
(** UpdaterSLAM.cpp 415 and the defaults of a new Landmark (Landmark.h 49-64, UpdaterSLAM.cpp 214) *)
Definition new_fail (fail : nat -> nat) (fails kept : list nat) : nat -> nat := fun id =>
  if memn id kept then 0%nat else (fail id + count_in id fails)%nat.
(** UpdaterSLAM.cpp 415, Landmark.h 49-64, UpdaterSLAM.cpp 214 (as above) *)
Definition new_cam (cam : nat -> Z) (d : db) (kept : list nat) : nat -> Z := fun id =>
  if memn id kept then match alook d id with Some f => fst (fst (fst (f_pos f))) | None => cam id end else cam id.

(** VioManager.cpp 361-596, after propagation.  Also returns the features used by the updates. *)
Definition update_frame (E : env) (g : mgr) (st : state) (d : db) (m : msg) (i : fin) : outcome (mgr * list feature) :=
  let o := en_opt E in let isA := en_isA E in
  let '(cand, slam) := select isA o st d m in
  do st1 <- flag_landmarks isA d (g_fail g) (g_cam g) (m_cams m) st;
  do st2 <- marginalize_slam st1;
  let upd := filter (fun id => memn id (map fst (s_slam st2))) slam in
  let del := filter (fun id => negb (memn id (map fst (s_slam st2)))) slam in
  do msckf <- truncate (en_sort E) o d cand;
  do r1 <- msckf_update (en_chi2 E) (en_sig E) (en_mult E) (fi_tri i) (fi_jac i) st2 d msckf;
  let '(st3, d3, used1) := r1 in
  do r2 <- slam_batches E (fi_jac i) (length upd) upd st3 d3;
  let '(st4, d4, used2, fails) := r2 in
  do r3 <- delayed_init (en_chi2 E) (en_so E) (en_single E) (fi_val i) (fi_tri i) (fi_jac i) st4 d4 del;
  let '(st5, d5, kept) := r3 in
  do d6 <- ofold mark used1 d5;
  do a <- change_anchors (mkSlam st5 (fi_fej i) (fi_cal i) (fi_meta i));
  let st6 := sl_st a in
  do d7 <- (if (o_max_clones (s_opts st6) <? Z.of_nat (length (s_clones st6)))%Z then
              match margtimestep st6 with Some t => cleanup_measurements t (cleanup d6) | None => UB end
            else Ok (cleanup d6));
  do st7 <- marginalize_old_clone st6;
  Ok (mkMgr st7 d7 (new_fail (g_fail g) fails kept) (new_cam (g_cam g) d5 kept) (g_z g) (g_did g) true,
      pick d3 used1 ++ used2 ++ pick d5 kept).

(** VioManager.cpp 323-360 *)
Definition feature_frame (E : env) (g : mgr) (d : db) (m : msg) (i : fin) : outcome (mgr * list feature) :=
  let st := g_st g in let t := m_t m in
  let with_ st := mkMgr st d (g_fail g) (g_cam g) (g_z g) (g_did g) (g_moved g) in
  if Rltb t (s_time st) then Ok (with_ st, [])
  else
    do st1 <- (if Reqb (s_time st) t then Ok st else propagate_and_clone st t (fi_prop i));
    if (Z.of_nat (length (s_clones st1)) <? Z.min (o_max_clones (s_opts st1)) 5)%Z then Ok (with_ st1, [])
    else if negb (Reqb (s_time st1) t) then Ok (with_ st1, [])
    else update_frame E g st1 d m i.

(** VioManager.cpp 280-321 once initialized.  The zero-velocity updater sees the database of trackFEATS (160, 207).
    An assertion failure is [UB]. *)
Definition message (E : env) (g : mgr) (m : msg) (i : fin) : outcome (mgr * list feature) :=
  let st := g_st g in let t := m_t m in let o := en_opt E in
  let d := feed (g_db g) m in
  let z := mkZ (fi_imu i) (z_off (g_z g)) (z_have (g_z g)) (z_time (g_z g)) (z_count (g_z g)) in
  let normal z did := feature_frame E (mkMgr st (g_db g) (g_fail g) (g_cam g) z did (g_moved g)) d m i in
  if (se_zupt o && (negb (se_once o) || negb (g_moved g)))%bool then
    do r <- (if Reqb (s_time st) t then Ok (g_did g, z, d, st)
             else do q <- try_update (en_chi2 E) (en_zo E) (fst (en_zcal E st)) (snd (en_zcal E st)) z (feats (en_isA E) d) st t;
                  let '(b, z', d', st') := q in Ok (b, z', d' ++ arucos (en_isA E) d, st'));
    let '(did, z', d', st') := r in
    if did then guard (Reqb (s_time st') t) UB (Ok (mkMgr st' d' (g_fail g) (g_cam g) z' true (g_moved g), []))
    else normal z' false
  else normal z (g_did g).

(** a run: messages one after the other, with everything the updates used [VioManager.cpp 256-600] *)
Fixpoint run_msgs (E : env) (l : list (msg * fin)) (g : mgr) : outcome (mgr * list feature) :=
  match l with
  | [] => Ok (g, [])
  | (m, i) :: l' =>
      do r <- message E g m i;
      do q <- run_msgs E l' (fst r);
      Ok (fst q, snd r ++ snd q)
  end.
