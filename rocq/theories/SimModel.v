(** Model of the simulator's measurement generation: ov_msckf/src/sim/Simulator.cpp 267-546 and the
    driver loop ov_msckf/src/run_simulation.cpp 146-181.

    Simplifications: doubles (and the floats of pixel coordinates) are exact reals.  The spline
    (properties of its own: C39, C40) enters through its answers [acc], [pose], [vel]; the random
    draws of one call are arguments, already multiplied by their standard deviations.  Dw^{-1},
    Da^{-1} and the camera's distort/undistort functions are parameters.  The feature map is a list
    of pairs in iteration order. *)
From Coq Require Import Reals List Arith Bool.
From Verif Require Import Outcome RBool GeoModel ImuModel PropModel.
Import ListNotations.
Open Scope R_scope.

(** a pixel, Simulator.cpp 453-500 *)
Definition px := (R * R)%type.
(** the parameters of the true system used by the simulator (VioManagerOptions) [Simulator.h 148] *)
Record spar := mkSpar
  { sp_fi : R; sp_fc : R; sp_grav : R; sp_Tw : m3; sp_Ta : m3; sp_Tg : m3; sp_qw : q4; sp_qa : q4;
    sp_dt : R; sp_npts : nat; sp_stereo : bool; sp_ncam : nat; sp_maxd : R;
    sp_ext : nat -> q4 * v3; sp_distort : nat -> px -> px; sp_undistort : nat -> px -> px; sp_size : nat -> px }.

(** Simulator.h 150-205: the members that change while measurements are generated *)
Record sim := mkSim
  { sm_t : R; sm_imu : R; sm_cam : R; sm_run : bool; sm_hist : list (R * (v3 * v3));
    sm_bg : v3; sm_ba : v3; sm_skipped : bool }.

(** Simulator.cpp 64-66, 110-121: state at the end of the constructor, [t0] the time found by its
    search for motion (lines 69-108; SimsModel.start_times) *)
Definition sim_init (p : spar) (t0 : R) (bg ba : v3) : sim :=
  mkSim t0 t0 t0 true
    [(t0 - 1 / sp_fi p, (bg, ba)); (t0, (bg, ba)); (t0 + 1 / sp_fi p, (bg, ba))] bg ba false.

(** Simulator.cpp 311-389 get_next_imu.  [nwb], [nab] bias steps, [nw], [na] white noise *)
Definition get_next_imu (p : spar) (acc : R -> option (m3 * v3 * v3)) (nwb nab nw na : v3) (s : sim) : sim * option imu :=
  if Rltb (sm_cam s + 1 / sp_fc p) (sm_imu s + 1 / sp_fi p) then (s, None)
  else
    let t := sm_imu s + 1 / sp_fi p in
    match acc t with
    | None => (mkSim t t (sm_cam s) false (sm_hist s) (sm_bg s) (sm_ba s) (sm_skipped s), None)
    | Some (R_GtoI, w_IinI, a_IinG) =>
        let '(bg, ba, hist) :=
          if sm_skipped s then
            let bg := v3add (sm_bg s) nwb in let ba := v3add (sm_ba s) nab in
            (bg, ba, sm_hist s ++ [(t, (bg, ba))])
          else (sm_bg s, sm_ba s, sm_hist s) in
        let accel := sim_force R_GtoI a_IinG (sp_grav p) in
        let '(wm, am) := sim_reading (sp_Tw p) (sp_Ta p) (sp_Tg p) (sp_qw p) (sp_qa p) w_IinI accel (v3add bg nw) (v3add ba na) in
        (mkSim t t (sm_cam s) (sm_run s) hist bg ba true, Some (mkImu t wm am))
    end.

(** Simulator.cpp 453-499 project_pointcloud *)
Definition to_cam (p : spar) (i : nat) (R_GtoI : m3) (p_IinG pf : v3) : v3 :=
  v3add (m3v (quat_2_Rot (fst (sp_ext p i))) (m3v R_GtoI (v3sub pf p_IinG))) (snd (sp_ext p i)).
(** Simulator.cpp 453-499 (as above) *)
Definition project_one (p : spar) (i : nat) (R_GtoI : m3) (p_IinG : v3) (f : nat * v3) : list (nat * px) :=
  let c := to_cam p i R_GtoI p_IinG (snd f) in
  if Rltb (sp_maxd p) (vz c) || Rltb (vz c) (1 / 10) then []
  else
    let uv := sp_distort p i (vx c / vz c, vy c / vz c) in
    if Rltb (fst uv) 0 || Rltb (fst (sp_size p i)) (fst uv) || Rltb (snd uv) 0 || Rltb (snd (sp_size p i)) (snd uv)
    then [] else [(fst f, uv)].
(** Simulator.cpp 453-499 (as above) *)
Definition project_pointcloud (p : spar) (R_GtoI : m3) (p_IinG : v3) (i : nat) (feats : list (nat * v3)) : list (nat * px) :=
  flat_map (project_one p i R_GtoI p_IinG) feats.

(** Simulator.cpp 501-546 generate_points: one point per (pixel, depth) draw; [id_map] is the next id *)
Definition gen_point (p : spar) (i : nat) (R_GtoI : m3) (p_IinG : v3) (d : px * R) : v3 :=
  let uv := sp_undistort p i (fst d) in
  let pc := v3scal (snd d) (V3 (fst uv) (snd uv) 1) in
  let pi := m3v (m3tr (quat_2_Rot (fst (sp_ext p i)))) (v3sub pc (snd (sp_ext p i))) in
  v3add (m3v (m3tr R_GtoI) pi) p_IinG.
(** Simulator.cpp 501-546 (as above) *)
Fixpoint generate_points (p : spar) (i : nat) (R_GtoI : m3) (p_IinG : v3) (draws : list (px * R)) (id_map : nat) (feats : list (nat * v3))
  : nat * list (nat * v3) :=
  match draws with
  | [] => (id_map, feats)
  | d :: r => generate_points p i R_GtoI p_IinG r (S id_map) (feats ++ [(id_map, gen_point p i R_GtoI p_IinG d)])
  end.

(** Simulator.cpp 417-447: the measurements of camera [i]: the first [num_pts] projections, ids moved
    apart unless stereo, noise added *)
Definition cam_feats (p : spar) (R_GtoI : m3) (p_IinG : v3) (feats : list (nat * v3)) (noise : nat -> px) (i : nat) : list (nat * px) :=
  let uvs := firstn (sp_npts p) (project_pointcloud p R_GtoI p_IinG i feats) in
  let uvs := map (fun f => (if sp_stereo p then fst f else fst f + i * length feats, snd f)%nat) uvs in
  map (fun '(j, f) => (fst f, (fst (snd f) + fst (noise j), snd (snd f) + snd (noise j)))) (combine (seq 0 (length uvs)) uvs).

(** Simulator.cpp 391-451 get_next_cam *)
Definition get_next_cam (p : spar) (pose : R -> option (m3 * v3)) (feats : list (nat * v3)) (noise : nat -> nat -> px) (s : sim)
  : sim * option (R * list (nat * list (nat * px))) :=
  if Rltb (sm_imu s + 1 / sp_fi p) (sm_cam s + 1 / sp_fc p) then (s, None)
  else
    let t := sm_cam s + 1 / sp_fc p in
    match pose t with
    | None => (mkSim t (sm_imu s) t false (sm_hist s) (sm_bg s) (sm_ba s) (sm_skipped s), None)
    | Some (R_GtoI, p_IinG) =>
        (mkSim t (sm_imu s) t (sm_run s) (sm_hist s) (sm_bg s) (sm_ba s) (sm_skipped s),
         Some (t - sp_dt p, map (fun i => (i, cam_feats p R_GtoI p_IinG feats (noise i) i)) (seq 0 (sp_ncam p))))
    end.

(** Simulator.cpp 267-309 get_state.  The loop bound [hist.size() - 1] wraps around when the history is
    empty and the first [at] throws *)
Fixpoint find_bias (h : list (R * (v3 * v3))) (t : R) : option (R * (v3 * v3) * (R * (v3 * v3))) :=
  match h with
  | a :: ((b :: _) as r) => if Rltb (fst a) t && Rleb t (fst b) then Some (a, b) else find_bias r t
  | _ => None
  end.
(** Simulator.cpp 267-309 (as above) *)
Definition get_state (vel : R -> option (m3 * v3 * v3)) (s : sim) (t : R) : outcome (option (R * q4 * v3 * v3 * v3 * v3)) :=
  match sm_hist s with
  | [] => UB
  | _ =>
      match vel t, find_bias (sm_hist s) t with
      | Some (R_GtoI, p_IinG, v_IinG), Some ((ta, (bga, baa)), (tb, (bgb, bab))) =>
          let l := (t - ta) / (tb - ta) in
          Ok (Some (t, rot_2_quat R_GtoI, p_IinG, v_IinG,
                    v3add (v3scal (1 - l) bga) (v3scal l bgb), v3add (v3scal (1 - l) baa) (v3scal l bab)))
      | _, _ => Ok None
      end
  end.

(** ** run_simulation.cpp 146-181: the driver loop *)
Inductive event := EImu (m : imu) | ECam (true_time : R) (tc : R) (fs : list (nat * list (nat * px))).
(** the draws used in one pass of the loop [Simulator.cpp 311-450] *)
Record draws := mkDraws { dr_wb : v3; dr_ab : v3; dr_w : v3; dr_a : v3; dr_px : nat -> nat -> px }.
(** Simulator.h 158-162: spline and map *)
Record world := mkWorld { wo_acc : R -> option (m3 * v3 * v3); wo_pose : R -> option (m3 * v3); wo_map : list (nat * v3) }.

(** run_simulation.cpp 146-181 *)
Definition poll (p : spar) (w : world) (d : draws) (s : sim) : sim * list event :=
  let '(s1, ei) := get_next_imu p (wo_acc w) (dr_wb d) (dr_ab d) (dr_w d) (dr_a d) s in
  let '(s2, ec) := get_next_cam p (wo_pose w) (wo_map w) (dr_px d) s1 in
  (s2, (match ei with Some m => [EImu m] | None => [] end) ++
       (match ec with Some (tc, fs) => [ECam (sm_t s2) tc fs] | None => [] end)).
(** at most [n] passes, stopping when the simulator does [run_simulation.cpp 146-181] *)
Fixpoint run (p : spar) (w : world) (d : nat -> draws) (n : nat) (s : sim) : sim * list event :=
  match n with
  | O => (s, [])
  | S n' =>
      if sm_run s then
        let '(s1, e1) := poll p w (d n') s in
        let '(s2, e2) := run p w d n' s1 in (s2, e1 ++ e2)
      else (s, [])
  end.
(** the order in which the estimator is fed: a camera frame is held back until the next one; the buffer
    time -1 means "empty" [run_simulation.cpp 146-181] *)
Inductive feed := FImu (m : imu) | FCam (tc : R) (fs : list (nat * list (nat * px))).
(** run_simulation.cpp 146-181 *)
Fixpoint feeds (buf_t : R) (buf : list (nat * list (nat * px))) (l : list event) : list feed :=
  match l with
  | [] => []
  | EImu m :: r => FImu m :: feeds buf_t buf r
  | ECam _ tc fs :: r => (if Reqb buf_t (-1) then [] else [FCam buf_t buf]) ++ feeds tc fs r
  end.
