(** Models of the remaining errors of ov_eval/src/calc/ResultTrajectory.cpp: planar absolute errors, normalized
    squared errors, errors along the axes with their bounds.
    Doubles are exact reals; a bound that is not a finite number is [None]. *)
From Coq Require Import Reals List Arith Bool.
From Verif Require Import RBool Outcome GeoModel InitModel EvalModel CeresModel.
Import ListNotations.
Open Scope R_scope.

(** ResultTrajectory.cpp 121-126: (orientation error in degrees, position error) of one pose *)
Definition ate2d_one (e g : pose) : R * R :=
  let eR := m3mul (m3tr (quat_2_Rot (po_q e))) (quat_2_Rot (po_q g)) in
  let d := v3sub (po_p g) (po_p e) in
  (180 / PI * vz (log_so3 eR), sqrt (vx d * vx d + vy d * vy d)).
(** ResultTrajectory.cpp 118-133 *)
Definition ate2d_errors (r : result) : outcome (list (R * R)) :=
  omap (fun i => do e <- vat (r_est2gt r) i; do g <- vat (t_poses (r_gt r)) i; do _ <- vat (t_times (r_est r)) i; Ok (ate2d_one e g))
       (seq 0 (length (r_est2gt r))).
(** ResultTrajectory.cpp 111-138 calculate_ate_2d *)
Definition calculate_ate_2d (r : result) (ori pos : stats) : outcome (stats * stats) :=
  do l <- ate2d_errors r; Ok (stats_of_values ori (map fst l), stats_of_values pos (map snd l)).

(** inverse() of ResultTrajectory.cpp 268, 272: not finite for a singular matrix *)
Definition inverse (A : m3) : option m3 := if Reqb (m3det A) 0 then None else Some (m3inv A).
(** ResultTrajectory.cpp 263-272: squared errors of orientation and position, normalized.
    A singular covariance gives numbers that are not finite: [UB] here, so the test of 275-278 has no counterpart. *)
Definition nees_one (e g : pose) (co cp : m3) : outcome (R * R) :=
  let eR := m3mul (quat_2_Rot (po_q g)) (m3tr (quat_2_Rot (po_q e))) in
  let eo := v3neg (log_so3 eR) in
  let ep := v3sub (po_p g) (po_p e) in
  match inverse co, inverse cp with
  | Some io, Some ip => Ok (v3dot eo (m3v io eo), v3dot ep (m3v ip ep))
  | _, _ => UB
  end.
(** ResultTrajectory.cpp 259-285 *)
Definition nees_errors (r : result) : outcome (list (R * R)) :=
  omap (fun i => do e <- vat (t_poses (r_est r)) i; do g <- vat (r_gt2est r) i;
                 do co <- vat (t_co (r_est r)) i; do cp <- vat (t_cp (r_est r)) i; do _ <- vat (t_times (r_est r)) i; nees_one e g co cp)
       (seq 0 (length (t_poses (r_est r)))).
(** ResultTrajectory.cpp 247-248: a covariance for every time *)
Definition has_cov (r : result) : bool :=
  ((length (t_times (r_est r)) =? length (t_co (r_est r))) && (length (t_times (r_est r)) =? length (t_cp (r_est r))) &&
   (length (t_times (r_gt r)) =? length (t_co (r_gt r))) && (length (t_times (r_gt r)) =? length (t_cp (r_gt r))))%nat%bool.
(** ResultTrajectory.cpp 244-290 calculate_nees *)
Definition calculate_nees (r : result) (ori pos : stats) : outcome (stats * stats) :=
  if has_cov r then do l <- nees_errors r; Ok (stats_of_values ori (map fst l), stats_of_values pos (map snd l))
  else Ok (ori, pos).

(** ResultTrajectory.cpp 327-329 and 330-332: the two loops, at most [n] passes each ([UB] if that is not enough) *)
Fixpoint wrap_up (n : nat) (x : R) : outcome R :=
  if Rltb x (- PI) then match n with O => UB | S n' => wrap_up n' (x + 2 * PI) end else Ok x.
(** ResultTrajectory.cpp 330-332 (as above) *)
Fixpoint wrap_down (n : nat) (x : R) : outcome R :=
  if Rltb PI x then match n with O => UB | S n' => wrap_down n' (x - 2 * PI) end else Ok x.
(** ResultTrajectory.cpp 327-332 *)
Definition wrap (n : nat) (x : R) : outcome R := do y <- wrap_up n x; wrap_down n y.

(** ResultTrajectory.cpp 339-341 *)
Definition H_xyz2rpy (rpy : v3) : m3 :=
  let c0 := V3 1 0 0 in
  let c1 := m3v (rot_x (- vx rpy)) (V3 0 1 0) in
  let c2 := m3v (m3mul (rot_x (- vx rpy)) (rot_y (- vy rpy))) (V3 0 0 1) in
  M3 (vx c0) (vx c1) (vx c2)  (vy c0) (vy c1) (vy c2)  (vz c0) (vz c1) (vz c2).
(** [c * std::sqrt(x)] of ResultTrajectory.cpp 358-360, 371-373, 384-386 *)
Definition bound (c x : R) : option R := if Rltb x 0 then None else Some (c * sqrt x).
(** the three bounds of one block [ResultTrajectory.cpp 358-360, 371-373, 384-386] *)
Definition bounds (c : R) (P : m3) : list (option R) := [bound c (m00 P); bound c (m11 P); bound c (m22 P)].

(** what one pose adds to the nine statistics: values, and bounds or nothing [ResultTrajectory.cpp 351-387] *)
Record erow := mkER { er_t : R; er_pos : v3; er_ori : v3; er_rpy : v3; er_bpos : list (option R); er_bori : list (option R); er_brpy : list (option R) }.
(** ResultTrajectory.cpp 310-387 *)
Definition error_one (n : nat) (t : R) (e g : pose) (co cp : option m3) : outcome erow :=
  let Re := quat_2_Rot (po_q e) in
  let eq := quat_multiply (po_q g) (quat_inv (po_q e)) in
  let local := v3scal 2 (qvec eq) in
  let global := m3v (m3tr Re) local in
  let ae := rot2rpy (m3tr Re) in
  let ag := rot2rpy (m3tr (quat_2_Rot (po_q g))) in
  let d := v3sub ag ae in
  do x <- wrap n (vx d); do y <- wrap n (vy d); do z <- wrap n (vz d);
  let c := 3 * 180 / PI in
  let bo := match co with None => [] | Some P => bounds c (m3mul (m3mul (m3tr Re) P) Re) end in
  let br := match co with
            | None => []
            | Some P => match inverse (H_xyz2rpy ae) with
                        | None => [None; None; None]
                        | Some Hi => bounds c (m3mul (m3mul Hi P) (m3tr Hi))
                        end
            end in
  let bp := match cp with None => [] | Some P => bounds 3 P end in
  Ok (mkER t (v3sub (po_p g) (po_p e)) (v3scal (180 / PI) global) (v3scal (180 / PI) (V3 x y z)) bp bo br).
(** est_cov.at(i) where it is read [ResultTrajectory.cpp 315-318, 343-345, 357-361] *)
Definition cov_at (cs : list m3) (full : bool) (i : nat) : outcome (option m3) :=
  if full then do c <- vat cs i; Ok (Some c) else Ok None.
(** ResultTrajectory.cpp 307-388 *)
Definition error_rows (n : nat) (r : result) : outcome (list erow) :=
  let e := r_est r in
  let fo := (length (t_times e) =? length (t_co e))%nat in
  let fp := (length (t_times e) =? length (t_cp e))%nat in
  omap (fun i => do p <- vat (t_poses e) i; do g <- vat (r_gt2est r) i;
                 do co <- cov_at (t_co e) fo i; do cp <- cov_at (t_cp e) fp i; do t <- vat (t_times e) i; error_one n t p g co cp)
       (seq 0 (length (t_poses e))).
(** posx, posy, posz, orix, oriy, oriz, roll, pitch, yaw [ResultTrajectory.cpp 292-293] *)
Definition component (k : nat) (w : erow) : R :=
  match k with
  | 0 => vx (er_pos w) | 1 => vy (er_pos w) | 2 => vz (er_pos w)
  | 3 => vx (er_ori w) | 4 => vy (er_ori w) | 5 => vz (er_ori w)
  | 6 => vx (er_rpy w) | 7 => vy (er_rpy w) | _ => vz (er_rpy w)
  end%nat.
(** ResultTrajectory.cpp 292-400 calculate_error; the statistics in the order of the arguments *)
Definition calculate_error (n : nat) (r : result) (st : nat -> stats) : outcome (list erow * (nat -> stats)) :=
  do l <- error_rows n r; Ok (l, fun k => stats_of_values (st k) (map (component k) l)).
