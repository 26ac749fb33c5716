(** Model of the message callbacks of the ROS front end: ov_msckf/src/ros/ROS1Visualizer.cpp 438-588
    (ROS2Visualizer.cpp has the same logic) and CameraData::operator< of
    ov_core/src/utils/sensor_data.h 69-78.

    Simplifications: single-threaded mode (use_multi_threading_subs = false, the thread of
    callback_inertial is joined at once); doubles are exact reals; an image is a number; handing an
    image to the estimator appends it to the output; the estimated camera-IMU time offset read at line
    475 is an input of the step.  std::sort is an insertion sort: no two queued images compare equal
    (consequence of C57), so its result does not depend on the algorithm. *)
From Coq Require Import Reals List Arith Bool.
From Verif Require Import RBool.
Import ListNotations.
Open Scope R_scope.

(** CameraData: one or two camera ids [sensor_data.h 55-80] *)
Record cframe := mkF { cf_t : R; cf_id0 : nat; cf_id1 : option nat; cf_img : nat }.
(** sensor_data.h 55-80 *)
Definition min_id (f : cframe) : nat := match cf_id1 f with Some j => Nat.min (cf_id0 f) j | None => cf_id0 f end.
(** sensor_data.h 69-78 *)
Definition flt (a b : cframe) : bool :=
  if Reqb (cf_t a) (cf_t b) then Nat.ltb (min_id a) (min_id b) else Rltb (cf_t a) (cf_t b).
(** sensor_data.h 69-78 (as above) *)
Fixpoint finsert (x : cframe) (l : list cframe) : list cframe :=
  match l with [] => [x] | y :: r => if flt x y then x :: l else y :: finsert x r end.
(** sensor_data.h 69-78 (as above) *)
Definition fsort (l : list cframe) : list cframe := fold_left (fun acc x => finsert x acc) l [].

(** ROS1Visualizer.h: camera_queue and camera_last_timestamp [ROS1Visualizer.h 179-183] *)
Record ros := mkRos { rq : list cframe; rlast : list (nat * R) }.
(** ROS1Visualizer.h 179-183 *)
Definition rlook (l : list (nat * R)) (c : nat) : option R :=
  match find (fun e => Nat.eqb (fst e) c) l with Some e => Some (snd e) | None => None end.
(** ROS1Visualizer.h 179-183 *)
Definition rset (l : list (nat * R)) (c : nat) (t : R) : list (nat * R) := (c, t) :: filter (fun e => negb (Nat.eqb (fst e) c)) l.

(** ROS1Visualizer.cpp 498-535 callback_monocular (id1 = None) and 537-588 callback_stereo.  [ok]: the
    image conversion did not throw *)
Definition callback_camera (freq : R) (s : ros) (id0 : nat) (id1 : option nat) (t : R) (ok : bool) (img : nat) : ros :=
  let drop := match rlook (rlast s) id0 with Some l => Rltb t (l + 1 / freq) | None => false end in
  if drop then s
  else
    let last := rset (rlast s) id0 t in
    if ok then mkRos (fsort (rq s ++ [mkF t id0 id1 img])) last else mkRos (rq s) last.

(** ROS1Visualizer.cpp 476-486: hand over while the first image is older *)
Fixpoint hand_over (lim : R) (q : list cframe) : list cframe * list cframe :=
  match q with
  | [] => ([], [])
  | f :: r => if Rltb (cf_t f) lim then let '(d, q') := hand_over lim r in (f :: d, q') else ([], q)
  end.
(** ROS1Visualizer.cpp 438-496 callback_inertial for an IMU message stamped [t]; [dt] is the time
    offset.  Result: new state and the images handed over *)
Definition callback_inertial (ncam : nat) (s : ros) (t dt : R) : ros * list cframe :=
  let unique := length (nodup Nat.eq_dec (map cf_id0 (rq s))) in
  let needed := if Nat.eqb ncam 2 then 1%nat else ncam in
  if Nat.eqb unique needed then
    let '(d, q) := hand_over (t - dt) (rq s) in (mkRos q (rlast s), d)
  else (s, []).

(** messages of ROS1Visualizer.cpp 438-589 *)
Inductive rmsg := MImu (t dt : R) | MCam (id0 : nat) (id1 : option nat) (t : R) (ok : bool) (img : nat).
(** ROS1Visualizer.cpp 438-589 *)
Definition rstep (freq : R) (ncam : nat) (s : ros) (m : rmsg) : ros * list cframe :=
  match m with
  | MImu t dt => callback_inertial ncam s t dt
  | MCam id0 id1 t ok img => (callback_camera freq s id0 id1 t ok img, [])
  end.
(** all messages in order; the images handed over in order [ROS1Visualizer.cpp 438-589] *)
Fixpoint rrun (freq : R) (ncam : nat) (s : ros) (ms : list rmsg) : ros * list cframe :=
  match ms with
  | [] => (s, [])
  | m :: r => let '(s1, d1) := rstep freq ncam s m in let '(s2, d2) := rrun freq ncam s1 r in (s2, d1 ++ d2)
  end.
(** ROS1Visualizer.cpp 438-589 *)
Definition ros0 : ros := mkRos [] [].
