(** What the simulator properties mean (C54, C73, C74). *)
From Coq Require Import Reals List Arith Bool Sorting.Sorted.
From Verif Require Import GeoModel GeoSpec ImuModel SimModel.
Import ListNotations.
Open Scope R_scope.

(** true time of a measurement *)
Definition ev_time (e : event) : R := match e with EImu m => i_t m | ECam t _ _ => t end.
Definition imu_times (l : list event) : list R := flat_map (fun e => match e with EImu m => [i_t m] | _ => [] end) l.
Definition cam_times (l : list event) : list R := flat_map (fun e => match e with ECam t _ _ => [t] | _ => [] end) l.
Definition cam_frames (l : list event) := flat_map (fun e => match e with ECam _ tc fs => [(tc, fs)] | _ => [] end) l.
Definition fed_frames (l : list feed) := flat_map (fun f => match f with FCam tc fs => [(tc, fs)] | _ => [] end) l.
Definition fed_imu (l : list feed) : list imu := flat_map (fun f => match f with FImu m => [m] | _ => [] end) l.
(** [n] ticks of period [d] after [a] *)
Definition ticks (a d : R) (n : nat) : list R := map (fun k => a + INR k * d) (seq 1 n).
(** where the spline answers, it answers for all earlier times after [t0] *)
Definition spline_interval (t0 : R) (w : world) : Prop :=
  forall t t', t0 < t <= t' -> wo_pose w t' <> None -> wo_acc w t <> None.
Definition rates_ok (p : spar) : Prop := 0 < sp_fi p /\ 0 < sp_fc p.
(** inside the image of camera [i] *)
Definition in_image (p : spar) (i : nat) (uv : px) : Prop :=
  0 <= fst uv <= fst (sp_size p i) /\ 0 <= snd uv <= snd (sp_size p i).
(** pixel of the map point [pf] in camera [i] *)
Definition true_pixel (p : spar) (i : nat) (Q : m3) (t pf : v3) (uv : px) : Prop :=
  exists c, c = v3add (m3v (quat_2_Rot (fst (sp_ext p i))) (m3v Q (v3sub pf t))) (snd (sp_ext p i)) /\
    1 / 10 <= vz c <= sp_maxd p /\ uv = sp_distort p i (vx c / vz c, vy c / vz c).
(** the ids of the map are 0 .. size-1 *)
Definition map_ids (feats : list (nat * v3)) : Prop := map fst feats = seq 0 (length feats).
