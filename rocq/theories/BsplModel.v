(** Model of the simulator's SE(3) B-spline (ov_core/src/sim/BsplineSE3.cpp). *)
From Coq Require Import Reals List Bool ZArith.
From Verif Require Import RBool Outcome GeoModel.
Import ListNotations.
Open Scope R_scope.

(** The 4x4 matrices handled by BsplineSE3.cpp 92-247.  All of them are products and sums of poses (last
    row 0 0 0 1) and of hat_se3 matrices (last row 0 0 0 0), so the last row is always (0 0 0 c): modelled by
    the 3x3 block, the last column and the corner [c]. *)
Record m4 := M4 { m4R : m3; m4t : v3; m4c : R }.
(** BsplineSE3.cpp 92-247 (as above) *)
Definition m4mul (a b : m4) : m4 :=
  M4 (m3mul (m4R a) (m4R b)) (v3add (m3v (m4R a) (m4t b)) (v3scal (m4c b) (m4t a))) (m4c a * m4c b).
(** BsplineSE3.cpp 92-247 (as above) *)
Definition m4add (a b : m4) : m4 := M4 (m3add (m4R a) (m4R b)) (v3add (m4t a) (m4t b)) (m4c a + m4c b).
(** BsplineSE3.cpp 92-247 (as above) *)
Definition m4scal (k : R) (a : m4) : m4 := M4 (m3scal k (m4R a)) (v3scal k (m4t a)) (k * m4c a).
(** BsplineSE3.cpp 92-247 (as above) *)
Definition m4of (T : se3) : m4 := M4 (seR T) (set_ T) 1.

(** quat_ops.h 419-424 hat_se3; vec = [w; u] *)
Definition hat_se3 (wu : v3 * v3) : m4 := M4 (skew_x (fst wu)) (snd wu) 0.

(** exp_se3 (b * vec) as called by get_pose, get_velocity and get_acceleration (quat_ops.h 332-363) *)
Definition exp_at (b : R) (wu : v3 * v3) : se3 := exp_se3 (v3scal b (fst wu)) (v3scal b (snd wu)).

(** BsplineSE3.h 165-171: std::map<double, Matrix4d>, modelled by its list of entries in iteration order
    (increasing keys).  An iterator is the index of its entry; end() is the length. *)
Definition pmap := list (R * se3).
(** std::map::lower_bound: first entry whose key is not below [t] [BsplineSE3.cpp 263] *)
Fixpoint lower_bound (t : R) (l : pmap) : nat :=
  match l with [] => 0%nat | (k, _) :: r => if Rltb k t then S (lower_bound t r) else 0%nat end.
(** std::map::upper_bound: first entry whose key is above [t] [BsplineSE3.cpp 264] *)
Fixpoint upper_bound (t : R) (l : pmap) : nat :=
  match l with [] => 0%nat | (k, _) :: r => if Rltb t k then 0%nat else S (upper_bound t r) end.
(** std::map::find [BsplineSE3.cpp 323-324] *)
Fixpoint map_find (t : R) (l : pmap) : nat :=
  match l with [] => 0%nat | (k, _) :: r => if Reqb k t then 0%nat else S (map_find t r) end.
(** std::map::insert: keeps the entry already there when the key exists [BsplineSE3.cpp 44, 80] *)
Fixpoint map_insert (t : R) (p : se3) (l : pmap) : pmap :=
  match l with
  | [] => [(t, p)]
  | (k, q) :: r => if Rltb t k then (t, p) :: l else if Reqb t k then l else (k, q) :: map_insert t p r
  end.
(** dereferencing an iterator: end() is undefined behaviour [BsplineSE3.cpp 283-290, 341-347] *)
Definition deref (l : pmap) (i : nat) : outcome (R * se3) :=
  match nth_error l i with Some e => Ok e | None => UB end.

(** BsplineSE3.cpp 249-299 find_bounding_poses.  The default outputs (-1, identity) written on failure are
    not modelled: no caller reads them.  A failing assert is [UB]. *)
Definition find_bounding_poses (t : R) (l : pmap) : outcome (option ((R * se3) * (R * se3))) :=
  let lb := lower_bound t l in
  let ub := upper_bound t l in
  do older <- (if Nat.eqb lb (length l) then Ok None
               else do e <- deref l lb;
                    if Reqb (fst e) t then Ok (Some lb)
                    else if Nat.eqb lb 0 then Ok None else Ok (Some (pred lb)));
  let newer := if Nat.eqb ub (length l) then None else Some ub in
  match older, newer with
  | Some i, Some j =>
      do a <- deref l i; do b <- deref l j;
      guard (Rltb (fst a) (fst b)) UB (Ok (Some (a, b)))
  | _, _ => Ok None
  end.

(** BsplineSE3.cpp 301-356 find_bounding_control_points (default outputs as above) *)
Definition find_bounding_control_points (t : R) (l : pmap) :
    outcome (option ((R * se3) * (R * se3) * (R * se3) * (R * se3))) :=
  do r <- find_bounding_poses t l;
  match r with
  | None => Ok None
  | Some (b, c) =>
      let it1 := map_find (fst b) l in
      let it2 := map_find (fst c) l in
      if Nat.eqb it1 0 then Ok None
      else
        let it0 := pred it1 in
        let it3 := S it2 in
        if Nat.eqb it3 (length l) then Ok None
        else
          do a <- deref l it0;
          do d <- deref l it3;
          guard (Rltb (fst a) (fst b) && Rltb (fst b) (fst c) && Rltb (fst c) (fst d)) UB
                (Ok (Some (a, b, c, d)))
  end.

(** BsplineSE3.cpp 110-114, 147-154, 198-208: the De Boor-Cox scalars *)
Definition cb0 (u : R) : R := 1 / 6 * (5 + 3 * u - 3 * u * u + u * u * u).
(** BsplineSE3.cpp 110-114, 147-154, 198-208 (as above) *)
Definition cb1 (u : R) : R := 1 / 6 * (1 + 3 * u + 3 * u * u - 2 * u * u * u).
(** BsplineSE3.cpp 110-114, 147-154, 198-208 (as above) *)
Definition cb2 (u : R) : R := 1 / 6 * (u * u * u).
(** BsplineSE3.cpp 110-114, 147-154, 198-208 (as above) *)
Definition cb0dot (DT u : R) : R := 1 / (6 * DT) * (3 - 6 * u + 3 * u * u).
(** BsplineSE3.cpp 110-114, 147-154, 198-208 (as above) *)
Definition cb1dot (DT u : R) : R := 1 / (6 * DT) * (3 + 6 * u - 6 * u * u).
(** BsplineSE3.cpp 110-114, 147-154, 198-208 (as above) *)
Definition cb2dot (DT u : R) : R := 1 / (6 * DT) * (3 * u * u).
(** BsplineSE3.cpp 110-114, 147-154, 198-208 (as above) *)
Definition cb0dd (DT u : R) : R := 1 / (6 * DT * DT) * (-6 + 6 * u).
(** BsplineSE3.cpp 110-114, 147-154, 198-208 (as above) *)
Definition cb1dd (DT u : R) : R := 1 / (6 * DT * DT) * (6 - 12 * u).
(** BsplineSE3.cpp 110-114, 147-154, 198-208 (as above) *)
Definition cb2dd (DT u : R) : R := 1 / (6 * DT * DT) * (6 * u).

(** BsplineSE3.cpp 117-119, 157-159, 211-213: log of the motion between two control poses *)
Definition seg (a b : se3) : v3 * v3 := log_se3 (se3mul (Inv_se3 a) b).

(** BsplineSE3.cpp 117-122: the interpolated pose on one segment *)
Definition interp_pose (p0 : se3) (o0 o1 o2 : v3 * v3) (u : R) : m4 :=
  m4mul (m4mul (m4mul (m4of p0) (m4of (exp_at (cb0 u) o0))) (m4of (exp_at (cb1 u) o1)))
        (m4of (exp_at (cb2 u) o2)).

(** BsplineSE3.cpp 162-167, 175: pose0 * (A0dot A1 A2 + A0 A1dot A2 + A0 A1 A2dot) *)
Definition interp_vel (p0 : se3) (o0 o1 o2 : v3 * v3) (DT u : R) : m4 :=
  let A0 := m4of (exp_at (cb0 u) o0) in
  let A1 := m4of (exp_at (cb1 u) o1) in
  let A2 := m4of (exp_at (cb2 u) o2) in
  let A0dot := m4mul (m4scal (cb0dot DT u) (hat_se3 o0)) A0 in
  let A1dot := m4mul (m4scal (cb1dot DT u) (hat_se3 o1)) A1 in
  let A2dot := m4mul (m4scal (cb2dot DT u) (hat_se3 o2)) A2 in
  m4mul (m4of p0)
    (m4add (m4add (m4mul (m4mul A0dot A1) A2) (m4mul (m4mul A0 A1dot) A2)) (m4mul (m4mul A0 A1) A2dot)).

(** BsplineSE3.cpp 219-227, 241-242 *)
Definition interp_acc (p0 : se3) (o0 o1 o2 : v3 * v3) (DT u : R) : m4 :=
  let A0 := m4of (exp_at (cb0 u) o0) in
  let A1 := m4of (exp_at (cb1 u) o1) in
  let A2 := m4of (exp_at (cb2 u) o2) in
  let h0 := hat_se3 o0 in let h1 := hat_se3 o1 in let h2 := hat_se3 o2 in
  let A0dot := m4mul (m4scal (cb0dot DT u) h0) A0 in
  let A1dot := m4mul (m4scal (cb1dot DT u) h1) A1 in
  let A2dot := m4mul (m4scal (cb2dot DT u) h2) A2 in
  let A0dd := m4add (m4mul (m4scal (cb0dot DT u) h0) A0dot) (m4mul (m4scal (cb0dd DT u) h0) A0) in
  let A1dd := m4add (m4mul (m4scal (cb1dot DT u) h1) A1dot) (m4mul (m4scal (cb1dd DT u) h1) A1) in
  let A2dd := m4add (m4mul (m4scal (cb2dot DT u) h2) A2dot) (m4mul (m4scal (cb2dd DT u) h2) A2) in
  m4mul (m4of p0)
    (m4add (m4add (m4add (m4add (m4add
       (m4mul (m4mul A0dd A1) A2) (m4mul (m4mul A0 A1dd) A2)) (m4mul (m4mul A0 A1) A2dd))
       (m4mul (m4mul (m4scal 2 A0dot) A1dot) A2))
       (m4mul (m4mul (m4scal 2 A0) A1dot) A2dot))
       (m4mul (m4mul (m4scal 2 A0dot) A1) A2dot)).

(** BsplineSE3.cpp 92-125 get_pose: returned flag, R_GtoI, p_IinG *)
Definition get_pose (l : pmap) (t : R) : outcome (bool * (m3 * v3)) :=
  do r <- find_bounding_control_points t l;
  match r with
  | None => Ok (false, (m3id, v3zero))
  | Some (e0, e1, e2, e3) =>
      let DT := fst e2 - fst e1 in
      let u := (t - fst e1) / DT in
      let P := interp_pose (snd e0) (seg (snd e0) (snd e1)) (seg (snd e1) (snd e2)) (seg (snd e2) (snd e3)) u in
      Ok (true, (m3tr (m4R P), m4t P))
  end.

(** BsplineSE3.cpp 127-178 get_velocity: flag, (R_GtoI, p_IinG), (w_IinI, v_IinG).  On failure the pose
    outputs keep the caller's values [old]. *)
Definition get_velocity (l : pmap) (t : R) (old : m3 * v3) : outcome (bool * (m3 * v3) * (v3 * v3)) :=
  do r <- find_bounding_control_points t l;
  match r with
  | None => Ok (false, old, (v3zero, v3zero))
  | Some (e0, e1, e2, e3) =>
      let DT := fst e2 - fst e1 in
      let u := (t - fst e1) / DT in
      let o0 := seg (snd e0) (snd e1) in
      let o1 := seg (snd e1) (snd e2) in
      let o2 := seg (snd e2) (snd e3) in
      let P := interp_pose (snd e0) o0 o1 o2 u in
      let V := interp_vel (snd e0) o0 o1 o2 DT u in
      Ok (true, (m3tr (m4R P), m4t P), (vee (m3mul (m3tr (m4R P)) (m4R V)), m4t V))
  end.

(** BsplineSE3.cpp 180-247 get_acceleration: flag, pose, velocities, (alpha_IinI, a_IinG) *)
Definition get_acceleration (l : pmap) (t : R) (old : m3 * v3) (oldv : v3 * v3) :
    outcome (bool * (m3 * v3) * (v3 * v3) * (v3 * v3)) :=
  do r <- find_bounding_control_points t l;
  match r with
  | None => Ok (false, old, oldv, (v3zero, v3zero))
  | Some (e0, e1, e2, e3) =>
      let DT := fst e2 - fst e1 in
      let u := (t - fst e1) / DT in
      let o0 := seg (snd e0) (snd e1) in
      let o1 := seg (snd e1) (snd e2) in
      let o2 := seg (snd e2) (snd e3) in
      let P := interp_pose (snd e0) o0 o1 o2 u in
      let V := interp_vel (snd e0) o0 o1 o2 DT u in
      let Ac := interp_acc (snd e0) o0 o1 o2 DT u in
      let omegaskew := m3mul (m3tr (m4R P)) (m4R V) in
      Ok (true, (m3tr (m4R P), m4t P), (vee (m3mul (m3tr (m4R P)) (m4R V)), m4t V),
          (vee (m3mul (m3tr (m4R P)) (m3sub (m4R Ac) (m3mul (m4R V) omegaskew))), m4t Ac))
  end.

(** One line of the trajectory file: [timestamp, p_IinG, q_GtoI] [BsplineSE3.cpp 26-44] *)
Record traj_pt := TP { tp_t : R; tp_p : v3; tp_q : q4 }.

(** BsplineSE3.cpp 32-34: sum of the time steps *)
Fixpoint sum_dt (l : list traj_pt) : R :=
  match l with a :: ((b :: _) as r) => (tp_t b - tp_t a) + sum_dt r | _ => 0 end.

(** BsplineSE3.cpp 41-47: the last point of the file is left out (the loop runs to size()-1) *)
Definition traj_map (l : list traj_pt) : pmap :=
  fold_left (fun m p => map_insert (tp_t p) (SE3 (m3tr (quat_2_Rot (tp_q p))) (tp_p p)) m)
            (removelast l) [].

(** BsplineSE3.cpp 50-59: smallest and largest key, starting from +/-INFINITY ([None]) *)
Definition key_min (l : pmap) : option R :=
  fold_left (fun m e => match m with None => Some (fst e) | Some x => if Rleb (fst e) x then Some (fst e) else m end)
            l None.

(** BsplineSE3.cpp 77-78: interpolation between two trajectory poses *)
Definition ctrl_pose (t : R) (a b : R * se3) : se3 :=
  let lambda := (t - fst a) / (fst b - fst a) in
  se3mul (exp_at lambda (log_se3 (se3mul (snd b) (Inv_se3 (snd a))))) (snd a).

(** BsplineSE3.cpp 65-84: the loop; [None] when the fuel runs out (never, see BsplProofs.feed_loop_ends) *)
Fixpoint feed_loop (fuel : nat) (t dt : R) (traj ctrl : pmap) : outcome (option pmap) :=
  match fuel with
  | O => Ok None
  | S n =>
      do r <- find_bounding_poses t traj;
      match r with
      | None => Ok (Some ctrl)
      | Some (a, b) => feed_loop n (t + dt) dt traj (map_insert t (ctrl_pose t a b) ctrl)
      end
  end.

(** enough iterations for the loop to pass the newest trajectory key [BsplineSE3.cpp 62-85] *)
Definition feed_fuel (t dt : R) (traj : pmap) : nat :=
  S (S (Z.to_nat (up ((fst (last traj (t, se3id)) - t) / dt)))).

(** Members dt, control_points and timestamp_start; [None] is NaN [BsplineSE3.h 161-171] *)
Record spline := SP { sp_dt : option R; sp_ctrl : pmap; sp_start : option R }.

(** BsplineSE3.cpp 28-90 feed_trajectory on a spline holding control points [ctrl0].  An empty input makes
    size()-1 wrap around and at() throw: [UB].  With one point dt is 0/0, no point is kept and nothing is
    added. *)
Definition feed_trajectory (pts : list traj_pt) (ctrl0 : pmap) : outcome spline :=
  match pts with
  | [] => UB
  | [_] => Ok (SP None ctrl0 None)
  | _ =>
      let avg := sum_dt pts / INR (length pts - 1) in
      let dt := if Rltb avg (5 / 100) then 5 / 100 else avg in
      let traj := traj_map pts in
      match key_min traj with
      | None => UB
      | Some tmin =>
          do r <- feed_loop (feed_fuel tmin dt traj) tmin dt traj ctrl0;
          match r with
          | None => UB
          | Some ctrl => Ok (SP (Some dt) ctrl (Some (tmin + 2 * dt)))
          end
      end
  end.
