(** Model of the simulator's constructor, ov_msckf/src/sim/Simulator.cpp 36-265: private copy of the
    options, search for the first motion, perturbation of the options handed back to the caller,
    generation of the feature map.

    Simplifications: doubles and floats are exact reals.  The trajectory has been read and the spline
    fed ([l] its control points, [st] its start time, NaN = [None]; see BsplModel.v).  The random
    numbers are arguments: [w] is the sequence of standard normal values the perturbation generator
    yields, [u] the sequence of triples of uniform [0,1] values behind the three uniform draws of one
    generated point.  The camera objects live in a heap, a shared pointer is an index into it; a
    camera's functions distort and undistort are the arguments [dist] and [und]. *)
From Coq Require Import Reals List Arith Bool ZArith.
From Verif Require Import Outcome RBool GeoModel DbModel FeatModel BsplModel SimModel.
Import ListNotations.
Open Scope R_scope.

(** ov_core/src/cam/CamBase.h 42-80, 175-190: kind (CamEqui or CamRadtan), width, height, and the eight
    calibration values as a function of the row.  The camera is initialized; the opencv copies of the
    values are not modelled *)
Record camobj := mkCam { co_equi : bool; co_w : R; co_h : R; co_val : nat -> R }.
(** the camera objects [Simulator.cpp 50-60] *)
Definition heap := list camobj.
(** writing through a pointer [Simulator.cpp 229] *)
Fixpoint put (h : heap) (a : nat) (c : camobj) : heap :=
  match h, a with
  | [], _ => []
  | _ :: r, O => c :: r
  | x :: r, S a' => x :: put r a' c
  end.

(** the options read or changed here (VioManagerOptions.h 108-330, StateOptions.h 40-90);
    [vo_kalibr]: imu_model is KALIBR *)
Record vopt := mkVopt
  { vo_ncam : nat; vo_cams : amap nat; vo_ext : amap (q4 * v3); vo_dt : R;
    vo_intr : bool; vo_gsens : bool; vo_kalibr : bool; vo_dw : nat -> R; vo_da : nat -> R; vo_tg : nat -> R;
    vo_qgyr : q4; vo_qacc : q4 }.
(** assignment of camera_intrinsics [Simulator.cpp 49] *)
Definition set_cams (o : vopt) (c : amap nat) : vopt :=
  mkVopt (vo_ncam o) c (vo_ext o) (vo_dt o) (vo_intr o) (vo_gsens o) (vo_kalibr o) (vo_dw o) (vo_da o) (vo_tg o) (vo_qgyr o) (vo_qacc o).
(** assignment of one camera_extrinsics entry [Simulator.cpp 234-240] *)
Definition set_ext (o : vopt) (e : amap (q4 * v3)) : vopt :=
  mkVopt (vo_ncam o) (vo_cams o) e (vo_dt o) (vo_intr o) (vo_gsens o) (vo_kalibr o) (vo_dw o) (vo_da o) (vo_tg o) (vo_qgyr o) (vo_qacc o).
(** assignment of calib_camimu_dt [Simulator.cpp 215] *)
Definition set_dt (o : vopt) (d : R) : vopt :=
  mkVopt (vo_ncam o) (vo_cams o) (vo_ext o) d (vo_intr o) (vo_gsens o) (vo_kalibr o) (vo_dw o) (vo_da o) (vo_tg o) (vo_qgyr o) (vo_qacc o).
(** assignment of vec_dw, vec_da, q_GYROtoIMU, q_ACCtoIMU [Simulator.cpp 245-256] *)
Definition set_imu (o : vopt) (dw da : nat -> R) (qg qa : q4) : vopt :=
  mkVopt (vo_ncam o) (vo_cams o) (vo_ext o) (vo_dt o) (vo_intr o) (vo_gsens o) (vo_kalibr o) dw da (vo_tg o) qg qa.
(** assignment of vec_tg [Simulator.cpp 260-264] *)
Definition set_tg (o : vopt) (tg : nat -> R) : vopt :=
  mkVopt (vo_ncam o) (vo_cams o) (vo_ext o) (vo_dt o) (vo_intr o) (vo_gsens o) (vo_kalibr o) (vo_dw o) (vo_da o) tg (vo_qgyr o) (vo_qacc o).

(** Simulator.cpp 45-60: the copy of the options, with camera objects of its own.  A pointer without an
    object is [UB] *)
Fixpoint copy_cams (h : heap) (k : nat) (cams : amap nat) : outcome (heap * amap nat) :=
  match cams with
  | [] => Ok ([], [])
  | (id, a) :: r =>
      do c <- look (nth_error h a);
      let c' := if co_equi c then mkCam true (co_w c) (co_h c) (co_val c) else mkCam false (co_w c) (co_h c) (co_val c) in
      do s <- copy_cams h (S k) r;
      Ok (c' :: fst s, (id, k) :: snd s)
  end.
(** Simulator.cpp 45-60 (as above); the new objects are placed behind the existing ones *)
Definition copy_params (h : heap) (o : vopt) : outcome (heap * vopt) :=
  do r <- copy_cams h (length h) (vo_cams o);
  Ok (h ++ fst r, set_cams o (snd r)).

(** Simulator.cpp 83-108: the search for the first motion.  [None]: out of fuel (excluded below) *)
Fixpoint find_motion (fuel : nat) (l : pmap) (fc th : R) (t ti tc dist : R) (prev : v3) : outcome (option (R * R * R)) :=
  match fuel with
  | O => Ok None
  | S n =>
      do r <- get_pose l t;
      if negb (fst r) then Exit
      else
        let p := snd (snd r) in
        let d := dist + v3norm (v3sub p prev) in
        if Rltb th d then Ok (Some (t, ti, tc))
        else find_motion n l fc th (t + 1 / fc) (ti + 1 / fc) (tc + 1 / fc) d p
  end.
(** enough passes to leave the spline: its last control time is [last] [Simulator.cpp 83-108, 166-195] *)
Definition pass_fuel (l : pmap) (st step : R) : nat :=
  S (S (Z.to_nat (up ((fst (last l (st, se3id)) - st) / step)))).
(** Simulator.cpp 67-108.  A NaN start time finds no pose *)
Definition start_times (l : pmap) (st : option R) (fc th : R) : outcome (R * R * R) :=
  match st with
  | None => Exit
  | Some t =>
      do r <- get_pose l t;
      if negb (fst r) then Exit
      else
        do m <- find_motion (pass_fuel l t (1 / fc)) l fc th t t t 0 (snd (snd r));
        look m
  end.
(** Simulator.cpp 110-124: clocks, bias history (the true biases start at zero, Simulator.h 193-196) *)
Definition start_state (fi : R) (c : R * R * R) : sim :=
  let '(t, ti, tc) := c in
  mkSim t ti tc true
    [(ti - 1 / fi, (v3zero, v3zero)); (ti, (v3zero, v3zero)); (ti + 1 / fi, (v3zero, v3zero))] v3zero v3zero false.

(** Simulator.cpp 218-241: one camera.  [k] normal values have been used; the loops over rows are
    written out, the comma initializer draws from left to right *)
Definition perturb_cam (w : nat -> R) (s : nat * heap * vopt) (i : nat) : outcome (nat * heap * vopt) :=
  let '(k, h, o) := s in
  do a <- look (alook (vo_cams o) i);
  do c <- look (nth_error h a);
  let v := fun r => if (r <? 4)%nat then co_val c r + 1 * w (k + r)%nat
                    else if (r <? 8)%nat then co_val c r + 5 / 1000 * w (k + r)%nat else co_val c r in
  let h := put h a (mkCam (co_equi c) (co_w c) (co_h c) v) in
  do e <- look (alook (vo_ext o) i);
  let w_vec := V3 (1 / 1000 * w (k + 8)%nat) (1 / 1000 * w (k + 9)%nat) (1 / 1000 * w (k + 10)%nat) in
  let q := rot_2_quat (m3mul (exp_so3 w_vec) (quat_2_Rot (fst e))) in
  let p := V3 (vx (snd e) + 1 / 100 * w (k + 11)%nat) (vy (snd e) + 1 / 100 * w (k + 12)%nat) (vz (snd e) + 1 / 100 * w (k + 13)%nat) in
  Ok ((k + 14)%nat, h, set_ext o (aset (vo_ext o) i (q, p))).
(** Simulator.cpp 243-257 *)
Definition perturb_imu (w : nat -> R) (k : nat) (o : vopt) : nat * vopt :=
  if vo_intr o then
    let dw := fun j => if (j <? 6)%nat then vo_dw o j + 4 / 1000 * w (k + 2 * j)%nat else vo_dw o j in
    let da := fun j => if (j <? 6)%nat then vo_da o j + 4 / 1000 * w (k + 2 * j + 1)%nat else vo_da o j in
    let w_vec := V3 (2 / 1000 * w (k + 12)%nat) (2 / 1000 * w (k + 13)%nat) (2 / 1000 * w (k + 14)%nat) in
    if vo_kalibr o
    then ((k + 15)%nat, set_imu o dw da (rot_2_quat (m3mul (exp_so3 w_vec) (quat_2_Rot (vo_qgyr o)))) (vo_qacc o))
    else ((k + 15)%nat, set_imu o dw da (vo_qgyr o) (rot_2_quat (m3mul (exp_so3 w_vec) (quat_2_Rot (vo_qacc o)))))
  else (k, o).
(** Simulator.cpp 259-264 *)
Definition perturb_tg (w : nat -> R) (k : nat) (o : vopt) : vopt :=
  if vo_gsens o then set_tg o (fun j => if (j <? 9)%nat then vo_tg o j + 4 / 1000 * w (k + j)%nat else vo_tg o j) else o.
(** Simulator.cpp 209-265 perturb_parameters *)
Definition perturb_parameters (w : nat -> R) (h : heap) (o : vopt) : outcome (heap * vopt) :=
  let o := set_dt o (vo_dt o + 1 / 100 * w 0%nat) in
  do s <- ofold (perturb_cam w) (seq 0 (vo_ncam o)) (1%nat, h, o);
  let '(k, h, o) := s in
  let '(k, o) := perturb_imu w k o in
  Ok (h, perturb_tg w k o).

(** the part of the simulator's own options used for projecting: SimModel's parameter record [b] with
    the values of [o] and of its camera objects [Simulator.cpp 453-470, 501-513; Simulator.h 148] *)
Definition spar_of (dist und : camobj -> px -> px) (b : spar) (h : heap) (o : vopt) : spar :=
  let cam := fun i => match alook (vo_cams o) i with Some a => nth_error h a | None => None end in
  mkSpar (sp_fi b) (sp_fc b) (sp_grav b) (sp_Tw b) (sp_Ta b) (sp_Tg b) (sp_qw b) (sp_qa b)
    (vo_dt o) (sp_npts b) (sp_stereo b) (vo_ncam o) (sp_maxd b)
    (fun i => match alook (vo_ext o) i with Some e => e | None => sp_ext b i end)
    (fun i => match cam i with Some c => dist c | None => sp_distort b i end)
    (fun i => match cam i with Some c => und c | None => sp_undistort b i end)
    (fun i => match cam i with Some c => (co_w c, co_h c) | None => sp_size b i end).

(** the three uniform draws of one point [Simulator.cpp 518-532] *)
Definition scale_draw (p : spar) (mind : R) (i : nat) (u : R * R * R) : px * R :=
  ((fst (fst u) * fst (sp_size p i), snd (fst u) * snd (sp_size p i)), mind + snd u * (sp_maxd p - mind)).
(** Simulator.cpp 163-195: the synthetic frames of one camera.  The generator is used for nothing else,
    so the point with id [j] comes from the [j]-th triple *)
Fixpoint map_frames (fuel : nat) (l : pmap) (p : spar) (mind : R) (u : nat -> R * R * R) (i : nat) (t : R) (id_map : nat) (feats : list (nat * v3))
  : outcome (option (nat * list (nat * v3))) :=
  match fuel with
  | O => Ok None
  | S n =>
      do r <- get_pose l t;
      if negb (fst r) then Ok (Some (id_map, feats))
      else
        let '(Q, x) := snd r in
        let m := length (project_pointcloud p Q x i feats) in
        let '(id_map, feats) :=
          if (m <? sp_npts p)%nat
          then generate_points p i Q x (map (fun j => scale_draw p mind i (u (id_map + j)%nat)) (seq 0 (sp_npts p - m))) id_map feats
          else (id_map, feats) in
        map_frames n l p mind u i (t + 1 / 4) id_map feats
  end.
(** Simulator.cpp 155-203: all cameras.  A camera without calibration is [UB] ([at] in lines 458-463) *)
Definition map_cam (l : pmap) (p : spar) (h : heap) (o : vopt) (mind : R) (u : nat -> R * R * R) (st : R) (s : nat * list (nat * v3)) (i : nat)
  : outcome (nat * list (nat * v3)) :=
  do a <- look (alook (vo_cams o) i);
  do c <- look (nth_error h a);
  do e <- look (alook (vo_ext o) i);
  do r <- map_frames (pass_fuel l st (1 / 4)) l p mind u i st (fst s) (snd s);
  look r.
(** Simulator.cpp 155-203 (as above) *)
Definition make_map (l : pmap) (p : spar) (h : heap) (o : vopt) (mind : R) (u : nat -> R * R * R) (st : R) : outcome (nat * list (nat * v3)) :=
  ofold (map_cam l p h o mind u st) (seq 0 (vo_ncam o)) (0%nat, []).

(** Simulator.cpp 129-141: the seeds of gen_meas_imu and of gen_meas_cams *)
Definition meas_seeds (seed : Z) (o : vopt) : Z * list Z := (seed, map (fun _ => seed) (seq 0 (vo_ncam o))).
(** Simulator.cpp 421, 441-445: noise of the [j]-th measurement of a camera whose generator, seeded with
    [seed], has been used [k] times; [strm] gives the sequence of normal values of a seed *)
Definition px_noise (strm : Z -> nat -> R) (sigma : R) (seed : Z) (k : nat) (j : nat) : px :=
  (sigma * strm seed (k + 2 * j)%nat, sigma * strm seed (k + 2 * j + 1)%nat).

(** what the constructor leaves behind: the camera objects, the simulator's own options and projection
    parameters, the caller's options, the state, next id and map [Simulator.cpp 36-206] *)
Record made := mkMade { md_heap : heap; md_true : vopt; md_par : spar; md_user : vopt; md_sim : sim; md_id : nat; md_map : list (nat * v3) }.
(** Simulator.cpp 36-206, the constructor; [pert]: sim_do_perturbation, [mind]:
    sim_min_feature_gen_distance, [th]: sim_distance_threshold *)
Definition sim_new (dist und : camobj -> px -> px) (b : spar) (mind th : R) (pert : bool) (w : nat -> R) (u : nat -> R * R * R)
    (l : pmap) (st : option R) (h : heap) (o : vopt) : outcome made :=
  do cp <- copy_params h o;
  let h := fst cp in
  let own := snd cp in
  do c <- start_times l st (sp_fc b) th;
  do po <- (if pert then perturb_parameters w h o else Ok (h, o));
  let p := spar_of dist und b (fst po) own in
  match st with
  | None => Exit
  | Some t =>
      do m <- make_map l p (fst po) own mind u t;
      Ok (mkMade (fst po) own p (snd po) (start_state (sp_fi b) c) (fst m) (snd m))
  end.
