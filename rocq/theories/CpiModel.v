(** Model of the continuous preintegration, version 1: ov_core/src/cpi/CpiBase.h and CpiV1.cpp. *)
From Coq Require Import Reals List Bool Arith.
From Verif Require Import RBool GeoModel Lin StateModel PropModel.
Import ListNotations.
Open Scope R_scope.

(** CpiBase.h 96-141: the members.  [cp_q] is not initialized there (None).  q_k_lin and grav (used by version 2 only) are left out. *)
Record cpi := mkCpi {
  cp_avg : bool; cp_Qc : mat; cp_bw : v3; cp_ba : v3;
  cp_DT : R; cp_al : v3; cp_be : v3; cp_R : m3; cp_q : option q4;
  cp_Jq : m3; cp_Ja : m3; cp_Jb : m3; cp_Ha : m3; cp_Hb : m3; cp_P : mat }.
(** CpiBase.h 96-141 (as above) *)
Definition m3z : m3 := m3scal 0 m3id.
(** CpiBase.h 49-63 with setLinearizationPoints 75-82 *)
Definition cpi_Qc (sw swb sa sab : R) : mat := fun i j =>
  if Nat.eqb i j then if (i <? 3)%nat then sw ^ 2 else if (i <? 6)%nat then swb ^ 2 else if (i <? 9)%nat then sa ^ 2 else if (i <? 12)%nat then sab ^ 2 else 0 else 0.
(** CpiBase.h 49-63 (as above) *)
Definition cpi_new (avg : bool) (Qc : mat) (bw ba : v3) : cpi :=
  mkCpi avg Qc bw ba 0 v3zero v3zero m3id None m3z m3z m3z m3z m3z mzero.

(** CpiV1.cpp 46-55 *)
Definition cpi_hat (avg : bool) (b m0 m1 : v3) : v3 :=
  if avg then v3scal (5 / 10) (v3add (v3sub m0 b) (v3sub m1 b)) else v3sub m0 b.
(** CpiV1.cpp 71 *)
Definition cpi_small (w : v3) : bool := Rltb (v3norm w) (8726646 / 1000000000).
(** CpiV1.cpp 87-88 *)
Definition cpi_rot (dt : R) (w : v3) : m3 :=
  let wx := skew_x w in let n := v3norm w in
  if cpi_small w then m3add (m3sub m3id (m3scal dt wx)) (m3scal (dt ^ 2 / 2) (m3mul wx wx))
  else m3add (m3sub m3id (m3scal (sin (n * dt) / n) wx)) (m3scal ((1 - cos (n * dt)) / n ^ 2) (m3mul wx wx)).
(** CpiV1.cpp 94-110 *)
Definition cpi_f1 (dt : R) (w : v3) : R := let n := v3norm w in let x := n * dt in
  if cpi_small w then - (dt ^ 3 / 3) else (x * cos x - sin x) / n ^ 3.
(** CpiV1.cpp 94-110 (as above) *)
Definition cpi_f2 (dt : R) (w : v3) : R := let n := v3norm w in let x := n * dt in
  if cpi_small w then dt ^ 4 / 8 else (x ^ 2 - 2 * cos x - 2 * x * sin x + 2) / (2 * n ^ 4).
(** CpiV1.cpp 94-110 (as above) *)
Definition cpi_f3 (dt : R) (w : v3) : R := let n := v3norm w in let x := n * dt in
  if cpi_small w then - (dt ^ 2 / 2) else - (1 - cos x) / n ^ 2.
(** CpiV1.cpp 94-110 (as above) *)
Definition cpi_f4 (dt : R) (w : v3) : R := let n := v3norm w in let x := n * dt in
  if cpi_small w then dt ^ 3 / 6 else (x - sin x) / n ^ 3.
(** CpiV1.cpp 113-114 *)
Definition cpi_alpha (dt : R) (w : v3) : m3 := let wx := skew_x w in
  m3add (m3add (m3scal (dt ^ 2 / 2) m3id) (m3scal (cpi_f1 dt w) wx)) (m3scal (cpi_f2 dt w) (m3mul wx wx)).
(** CpiV1.cpp 113-114 (as above) *)
Definition cpi_beta (dt : R) (w : v3) : m3 := let wx := skew_x w in
  m3add (m3add (m3scal dt m3id) (m3scal (cpi_f3 dt w) wx)) (m3scal (cpi_f4 dt w) (m3mul wx wx)).
(** CpiV1.cpp 129-131 *)
Definition cpi_Jr (dt : R) (w : v3) : m3 :=
  let wt := skew_x (v3scal dt w) in let n := v3norm w in let x := n * dt in
  if cpi_small w then m3add (m3sub m3id (m3scal (5 / 10) wt)) (m3mul (m3scal (1 / 6) wt) wt)
  else m3add (m3sub m3id (m3scal ((1 - cos x) / x ^ 2) wt)) (m3mul (m3scal ((x - sin x) / x ^ 3) wt) wt).
(** CpiV1.cpp 164-205: df_k_dw_mag; the entries df_k_dbw_i are w_i times it *)
Definition cpi_d1 (dt : R) (w : v3) : R := let n := v3norm w in let x := n * dt in
  if cpi_small w then - (dt ^ 5 / 15) else (x ^ 2 * sin x - 3 * sin x + 3 * x * cos x) / n ^ 5.
(** CpiV1.cpp 164-205 (as above) *)
Definition cpi_d2 (dt : R) (w : v3) : R := let n := v3norm w in let x := n * dt in
  if cpi_small w then dt ^ 6 / 72 else (x ^ 2 - 4 * cos x - 4 * x * sin x + x ^ 2 * cos x + 4) / n ^ 6.
(** CpiV1.cpp 164-205 (as above) *)
Definition cpi_d3 (dt : R) (w : v3) : R := let n := v3norm w in let x := n * dt in
  if cpi_small w then - (dt ^ 4 / 12) else (2 * (cos x - 1) + x * sin x) / n ^ 4.
(** CpiV1.cpp 164-205 (as above) *)
Definition cpi_d4 (dt : R) (w : v3) : R := let n := v3norm w in let x := n * dt in
  if cpi_small w then dt ^ 5 / 60 else (2 * x + x * cos x - 3 * sin x) / n ^ 5.
(** CpiV1.cpp 208-220, one column: [arg] is alpha_arg or Beta_arg, [f], [h] its two coefficients, [df], [dh] their derivatives
    with respect to the magnitude, [e] the unit vector of the column, [we] the entry of w *)
Definition cpi_col (Rt : m3) (arg : m3) (f h df dh : R) (w : v3) (Jq : m3) (e : v3) (we : R) (a : v3) : v3 :=
  let wx := skew_x w in let ex := skew_x e in
  m3v (m3add (m3mul (m3scal (-1) (m3mul Rt (skew_x (m3v Jq e)))) arg)
        (m3mul Rt (m3sub (m3add (m3sub (m3scal (we * df) wx) (m3scal f ex)) (m3scal (we * dh) (m3mul wx wx)))
                         (m3scal h (m3add (m3mul ex wx) (m3mul wx ex)))))) a.
(** CpiV1.cpp 208-220 (as above) *)
Definition of_cols (a b c : v3) : m3 := M3 (vx a) (vx b) (vx c) (vy a) (vy b) (vy c) (vz a) (vz b) (vz c).
(** CpiV1.cpp 208-220 (as above) *)
Definition cpi_cols (Rt arg : m3) (f h df dh : R) (w : v3) (Jq : m3) (a : v3) : m3 :=
  of_cols (cpi_col Rt arg f h df dh w Jq e1 (vx w) a) (cpi_col Rt arg f h df dh w Jq e2 (vy w) a) (cpi_col Rt arg f h df dh w Jq e3 (vz w) a).

(** CpiV1.cpp 226-306: state and noise Jacobian at an orientation, the covariance derivative, and the Runge-Kutta step *)
Definition cpi_F (Rk : m3) (w a : v3) : mat :=
  put3 (put3 (put3 (put3 (put3 mzero 0 0 (m3scal (-1) (skew_x w))) 0 3 (m3scal (-1) m3id)) 6 0 (m3mul (m3scal (-1) (m3tr Rk)) (skew_x a)))
    6 9 (m3scal (-1) (m3tr Rk))) 12 6 m3id.
(** CpiV1.cpp 226-306 (as above) *)
Definition cpi_G (Rk : m3) : mat :=
  put3 (put3 (put3 (put3 mzero 0 0 (m3scal (-1) m3id)) 3 3 m3id) 6 6 (m3scal (-1) (m3tr Rk))) 9 9 m3id.
(** CpiV1.cpp 226-306 (as above) *)
Definition cpi_Pdot (Rk : m3) (w a : v3) (Qc P : mat) : mat :=
  let F := cpi_F Rk w a in let G := cpi_G Rk in
  madd (madd (mmul 15 F P) (mmul 15 P (mtr F))) (mmul 12 (mmul 12 G Qc) (mtr G)).
(** CpiV1.cpp 226-306 (as above) *)
Definition cpi_cov (dt : R) (R0 Rm R1 : m3) (w a : v3) (Qc P : mat) : mat :=
  let k1 := cpi_Pdot R0 w a Qc P in
  let k2 := cpi_Pdot Rm w a Qc (madd P (mscal (dt / 2) k1)) in
  let k3 := cpi_Pdot Rm w a Qc (madd P (mscal (dt / 2) k2)) in
  let k4 := cpi_Pdot R1 w a Qc (madd P (mscal dt k3)) in
  let P' := madd P (mscal (dt / 6) (madd (madd (madd k1 (mscal 2 k2)) (mscal 2 k3)) k4)) in
  mscal (5 / 10) (madd P' (mtr P')).
(** CpiV1.cpp 226-230; it has the same shape as the rotation over half the time *)
Definition cpi_mid (dt : R) (w : v3) : m3 := cpi_rot (5 / 10 * dt) w.

(** one call of feed_IMU, CpiV1.cpp 32-315 *)
Record reading := mkRd { rd_t0 : R; rd_t1 : R; rd_w0 : v3; rd_a0 : v3; rd_w1 : v3; rd_a1 : v3 }.
(** CpiV1.cpp 32-315 (as above) *)
Definition cpi_feed (c : cpi) (r : reading) : cpi :=
  let dt := rd_t1 r - rd_t0 r in
  if Reqb dt 0 then
    mkCpi (cp_avg c) (cp_Qc c) (cp_bw c) (cp_ba c) (cp_DT c + dt) (cp_al c) (cp_be c) (cp_R c) (cp_q c) (cp_Jq c) (cp_Ja c) (cp_Jb c) (cp_Ha c) (cp_Hb c) (cp_P c)
  else
    let w := cpi_hat (cp_avg c) (cp_bw c) (rd_w0 r) (rd_w1 r) in
    let a := cpi_hat (cp_avg c) (cp_ba c) (rd_a0 r) (rd_a1 r) in
    let Rr := cpi_rot dt w in
    let R1 := m3mul Rr (cp_R c) in
    let Rt := m3tr R1 in
    let aa := cpi_alpha dt w in let bb := cpi_beta dt w in
    let Hal := m3mul Rt aa in let Hbe := m3mul Rt bb in
    let al := v3add (cp_al c) (v3add (v3scal dt (cp_be c)) (m3v Hal a)) in
    let be := v3add (cp_be c) (m3v Hbe a) in
    let Jq := m3add (m3mul Rr (cp_Jq c)) (m3scal dt (cpi_Jr dt w)) in
    let Ha := m3add (m3sub (cp_Ha c) Hal) (m3scal dt (cp_Hb c)) in
    let Hb := m3sub (cp_Hb c) Hbe in
    let Ja := m3add (m3add (cp_Ja c) (m3scal dt (cp_Jb c))) (cpi_cols Rt aa (cpi_f1 dt w) (cpi_f2 dt w) (cpi_d1 dt w) (cpi_d2 dt w) w Jq a) in
    let Jb := m3add (cp_Jb c) (cpi_cols Rt bb (cpi_f3 dt w) (cpi_f4 dt w) (cpi_d3 dt w) (cpi_d4 dt w) w Jq a) in
    let P := cpi_cov dt (cp_R c) (m3mul (cpi_mid dt w) (cp_R c)) R1 w a (cp_Qc c) (cp_P c) in
    mkCpi (cp_avg c) (cp_Qc c) (cp_bw c) (cp_ba c) (cp_DT c + dt) al be R1 (Some (rot_2_quat R1)) Jq Ja Jb Ha Hb P.
(** CpiV1.cpp 32-315 (as above) *)
Definition cpi_run (c : cpi) (l : list reading) : cpi := fold_left cpi_feed l c.
