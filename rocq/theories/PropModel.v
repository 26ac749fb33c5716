(** Model of the mean and covariance propagation of one inertial interval:
    ov_msckf/src/state/Propagator.cpp 395-1017, State.h 80-135 (Dm, Tg, imu_intrinsic_size),
    State.cpp 43-60 (default intrinsics), VioManagerOptions.h 306-351 (intrinsics from a config
    file) and the inertial readings of ov_msckf/src/sim/Simulator.cpp 311-389.

    Simplifications: doubles are exact reals; the fields of State that these functions read are
    gathered in the record [pst]; a 3 x n matrix is the function giving its columns. *)
From Coq Require Import Reals List Arith Bool.
From Verif Require Import Outcome RBool GeoModel Lin TypesModel StateModel ImuModel.
Import ListNotations.
Open Scope R_scope.

(** StateOptions.h 58-65 *)
Inductive imu_model := KALIBR | RPNG.

(** the fields of State read by the propagator.  [ps_dw], [ps_da] are the 6-vectors _calib_imu_dw
    and _calib_imu_da, [ps_tg] the 9-vector _calib_imu_tg. [State.h 141-192] *)
Record pst := mkPst
  { ps_model : imu_model; ps_calib : bool; ps_gsens : bool; ps_dofej : bool;
    ps_imu : ival; ps_fej : ival;
    ps_dw : vec; ps_da : vec; ps_tg : vec; ps_qw : q4; ps_qa : q4 }.

(** State.h 91-101 Dm *)
Definition Dm (m : imu_model) (v : vec) : m3 :=
  match m with
  | KALIBR => M3 (v 0%nat) 0 0  (v 1%nat) (v 3%nat) 0  (v 2%nat) (v 4%nat) (v 5%nat)
  | RPNG => M3 (v 0%nat) (v 1%nat) (v 3%nat)  0 (v 2%nat) (v 4%nat)  0 0 (v 5%nat)
  end.

(** State.h 110-116 Tg *)
Definition Tg_of (v : vec) : m3 :=
  M3 (v 0%nat) (v 3%nat) (v 6%nat)  (v 1%nat) (v 4%nat) (v 7%nat)  (v 2%nat) (v 5%nat) (v 8%nat).

(** State.h 126-135 imu_intrinsic_size *)
Definition imu_intrinsic_size (x : pst) : nat :=
  if ps_calib x then 15 + (if ps_gsens x then 9 else 0) else 0.

(** value() of a Vec, State.h 168-186 *)
Definition vec_of (l : list R) : vec := fun i => nth i l 0.

(** State.cpp 45-60: both branches stream the same six numbers *)
Definition default_dw (m : imu_model) : vec :=
  match m with
  | KALIBR => vec_of [1; 0; 0; 1; 0; 1]
  | RPNG => vec_of [1; 0; 0; 1; 0; 1]
  end.

(** VioManagerOptions.h 342-348: the 6-vector read off the matrix D *)
Definition load_D (m : imu_model) (D : m3) : vec :=
  match m with
  | KALIBR => vec_of [m00 D; m10 D; m20 D; m11 D; m21 D; m22 D]
  | RPNG => vec_of [m00 D; m01 D; m11 D; m02 D; m12 D; m22 D]
  end.
(** VioManagerOptions.h 349 *)
Definition load_Tg (T : m3) : vec :=
  vec_of [m00 T; m10 T; m20 T; m01 T; m11 T; m21 T; m02 T; m12 T; m22 T].

(** ** Simulator.cpp 343-382: the reading for true angular velocity [w] and specific force [a] (both
    in the IMU frame).  [Tw], [Ta] stand for the answers of
    [Dw.colPivHouseholderQr().solve(Identity)]; [nw], [na] are bias plus noise. *)
Definition sim_reading (Tw Ta Tg : m3) (qw qa : q4) (w a nw na : v3) : v3 * v3 :=
  (v3add (v3add (m3v Tw (m3v (m3tr (quat_2_Rot qw)) w)) (m3v Tg a)) nw,
   v3add (m3v Ta (m3v (m3tr (quat_2_Rot qa)) a)) na).
(** Simulator.cpp 335-339: specific force of the motion *)
Definition sim_force (R_GtoI : m3) (a_IinG : v3) (g : R) : v3 := m3v R_GtoI (v3add a_IinG (V3 0 0 g)).

(** ** Propagator.cpp 402-431: bias and intrinsic correction of the two readings *)
Record corrected := mkCor
  { c_w1 : v3; c_w2 : v3; c_wavg : v3; c_a1 : v3; c_a2 : v3; c_aavg : v3; c_wunc : v3; c_aunc : v3 }.
(** Propagator.cpp 402-431 (as above) *)
Definition correct (x : pst) (m p : imu) : corrected :=
  let Dw := Dm (ps_model x) (ps_dw x) in
  let Da := Dm (ps_model x) (ps_da x) in
  let Tg := Tg_of (ps_tg x) in
  let ba := iv_ba (ps_imu x) in let bg := iv_bg (ps_imu x) in
  let a1 := v3sub (i_a m) ba in
  let a2 := v3sub (i_a p) ba in
  let aavg := v3scal (/ 2) (v3add a1 a2) in
  let Ra := quat_2_Rot (ps_qa x) in
  let a1' := m3v (m3mul Ra Da) a1 in
  let a2' := m3v (m3mul Ra Da) a2 in
  let aavg' := m3v (m3mul Ra Da) aavg in
  let w1 := v3sub (v3sub (i_w m) bg) (m3v Tg a1') in
  let w2 := v3sub (v3sub (i_w p) bg) (m3v Tg a2') in
  let wavg := v3scal (/ 2) (v3add w1 w2) in
  let Rw := quat_2_Rot (ps_qw x) in
  mkCor (m3v (m3mul Rw Dw) w1) (m3v (m3mul Rw Dw) w2) (m3v (m3mul Rw Dw) wavg) a1' a2' aavg' wavg aavg.

(** Eigen operation used in Propagator.cpp 395-1030 *)
Definition q4add (a b : q4) : q4 := Q4 (qx a + qx b) (qy a + qy b) (qz a + qz b) (qw a + qw b).
(** Eigen operation used in Propagator.cpp 395-1030 *)
Definition q4scal (c : R) (a : q4) : q4 := Q4 (c * qx a) (c * qy a) (c * qz a) (c * qw a).

(** state variables integrated by Propagator.cpp 482-587 *)
Record mean := mkMean { mn_q : q4; mn_v : v3; mn_p : v3 }.

(** ** Propagator.cpp 482-505 predict_mean_discrete *)
Definition predict_mean_discrete (g : v3) (x : pst) (dt : R) (w a : v3) : mean :=
  let n := v3norm w in
  let R_Gtoi := quat_2_Rot (iv_q (ps_imu x)) in
  let q := iv_q (ps_imu x) in
  let bigOq :=
    if Rltb (1 / 10 ^ 12) n then
      q4add (q4scal (cos (/ 2 * n * dt)) q) (q4scal (1 / n * sin (/ 2 * n * dt)) (Omega_mul w q))
    else q4add q (q4scal (/ 2 * dt) (Omega_mul w q)) in
  let v := iv_v (ps_imu x) in
  mkMean (quatnorm bigOq)
    (v3sub (v3add v (v3scal dt (m3v (m3tr R_Gtoi) a))) (v3scal dt g))
    (v3sub (v3add (v3add (iv_p (ps_imu x)) (v3scal dt v)) (v3scal (/ 2 * dt * dt) (m3v (m3tr R_Gtoi) a)))
           (v3scal (/ 2 * dt * dt) g)).

(** ** Propagator.cpp 507-586 predict_mean_rk4 *)
Definition predict_mean_rk4 (g : v3) (x : pst) (dt : R) (w1 a1 w2 a2 : v3) : mean :=
  let w_alpha := v3div (v3sub w2 w1) dt in
  let a_jerk := v3div (v3sub a2 a1) dt in
  let q_0 := iv_q (ps_imu x) in let p_0 := iv_p (ps_imu x) in let v_0 := iv_v (ps_imu x) in
  let dq_0 := Q4 0 0 0 1 in
  let vdot := fun dq a => v3sub (m3v (m3tr (quat_2_Rot (quat_multiply dq q_0))) a) g in
  let qdot := fun w dq => q4scal (/ 2) (Omega_mul w dq) in
  let k1_q := q4scal dt (qdot w1 dq_0) in
  let k1_p := v3scal dt v_0 in
  let k1_v := v3scal dt (vdot dq_0 a1) in
  let wm := v3add w1 (v3scal (/ 2 * dt) w_alpha) in
  let am := v3add a1 (v3scal (/ 2 * dt) a_jerk) in
  let dq_1 := quatnorm (q4add dq_0 (q4scal (/ 2) k1_q)) in
  let v_1 := v3add v_0 (v3scal (/ 2) k1_v) in
  let k2_q := q4scal dt (qdot wm dq_1) in
  let k2_p := v3scal dt v_1 in
  let k2_v := v3scal dt (vdot dq_1 am) in
  let dq_2 := quatnorm (q4add dq_0 (q4scal (/ 2) k2_q)) in
  let v_2 := v3add v_0 (v3scal (/ 2) k2_v) in
  let k3_q := q4scal dt (qdot wm dq_2) in
  let k3_p := v3scal dt v_2 in
  let k3_v := v3scal dt (vdot dq_2 am) in
  let we := v3add wm (v3scal (/ 2 * dt) w_alpha) in
  let ae := v3add am (v3scal (/ 2 * dt) a_jerk) in
  let dq_3 := quatnorm (q4add dq_0 k3_q) in
  let v_3 := v3add v_0 k3_v in
  let k4_q := q4scal dt (qdot we dq_3) in
  let k4_p := v3scal dt v_3 in
  let k4_v := v3scal dt (vdot dq_3 ae) in
  let dq := quatnorm (q4add (q4add (q4add (q4add dq_0 (q4scal (1 / 6) k1_q)) (q4scal (1 / 3) k2_q))
                        (q4scal (1 / 3) k3_q)) (q4scal (1 / 6) k4_q)) in
  let comb := fun y0 k1 k2 k3 k4 =>
    v3add (v3add (v3add (v3add y0 (v3scal (1 / 6) k1)) (v3scal (1 / 3) k2)) (v3scal (1 / 3) k3)) (v3scal (1 / 6) k4) in
  mkMean (quat_multiply dq q_0) (comb v_0 k1_v k2_v k3_v k4_v) (comb p_0 k1_p k2_p k3_p k4_p).

(** ** Propagator.cpp 588-665 compute_Xi_sum: R_ktok1, Xi_1, Xi_2, Jr_ktok1, Xi_3, Xi_4 *)
Record xis := mkXi { xi_R : m3; xi_1 : m3; xi_2 : m3; xi_Jr : m3; xi_3 : m3; xi_4 : m3 }.
(** Propagator.cpp 588-665 (as above) *)
Definition m3sum (l : list m3) : m3 := fold_left m3add l (m3scal 0 m3id).
(** Propagator.cpp 588-665 (as above) *)
Definition compute_Xi_sum (dt : R) (w a : v3) : xis :=
  let n := v3norm w in
  let dth := n * dt in
  let k := if Rltb (1 / 10 ^ 12) n then v3div w n else v3zero in
  let c := cos dth in let s := sin dth in
  let K := skew_x k in let K2 := m3mul K K in let A := skew_x a in
  let ka := v3dot k a in
  let R1 := exp_so3 (v3scal dt (v3neg w)) in
  let Jr := Jr_so3 (v3scal dt (v3neg w)) in
  if Rltb n (1 / 180 * PI / 2) then
    let X1 := m3scal dt (m3add (m3add m3id (m3scal s K)) (m3scal (1 - c) K2)) in
    let X2 := m3scal (1 / 2 * dt) X1 in
    let X3 := m3scal (1 / 2 * dt ^ 2)
       (m3sum [A; m3scal s (m3sum [m3scal (-1) (m3mul A K); m3mul K A; m3scal ka K2]);
               m3scal (1 - c) (m3sum [m3mul A K2; m3mul K2 A; m3scal ka K])]) in
    let X4 := m3scal (1 / 3 * dt) X3 in
    mkXi R1 X1 X2 Jr X3 X4
  else
    let X1 := m3sum [m3scal dt m3id; m3scal ((1 - c) / n) K; m3scal (dt - s / n) K2] in
    let X2 := m3sum [m3scal (1 / 2 * dt ^ 2) m3id; m3scal ((dth - s) / n ^ 2) K;
                     m3scal (1 / 2 * dt ^ 2 - (1 - c) / n ^ 2) K2] in
    let X3 := m3sum [m3scal (1 / 2 * dt ^ 2) A;
                     m3scal ((s - dth) / n ^ 2) (m3mul A K);
                     m3scal ((s - dth * c) / n ^ 2) (m3mul K A);
                     m3scal (1 / 2 * dt ^ 2 - (1 - c) / n ^ 2) (m3mul A K2);
                     m3scal (1 / 2 * dt ^ 2 + (1 - c - dth * s) / n ^ 2) (m3add (m3mul K2 A) (m3scal ka K));
                     m3scal (- ((3 * s - 2 * dth - dth * c) / n ^ 2 * ka)) K2] in
    let X4 := m3sum [m3scal (1 / 6 * dt ^ 3) A;
                     m3scal ((2 * (1 - c) - dth ^ 2) / (2 * n ^ 3)) (m3mul A K);
                     m3scal ((2 * (1 - c) - dth * s) / n ^ 3) (m3mul K A);
                     m3scal ((s - dth) / n ^ 3 + dt ^ 3 / 6) (m3mul A K2);
                     m3scal ((dth - 2 * s + 1 / 6 * dth ^ 3 + dth * c) / n ^ 3) (m3add (m3mul K2 A) (m3scal ka K));
                     m3scal ((4 * c - 4 + dth ^ 2 + dth * s) / n ^ 3 * ka) K2] in
    mkXi R1 X1 X2 Jr X3 X4.

(** ** Propagator.cpp 667-681 predict_mean_analytic *)
Definition predict_mean_analytic (g : v3) (x : pst) (dt : R) (a : v3) (X : xis) : mean :=
  let q := iv_q (ps_imu x) in
  let R_Gtok := quat_2_Rot q in
  let v := iv_v (ps_imu x) in
  mkMean (quat_multiply (rot_2_quat (xi_R X)) q)
    (v3sub (v3add v (m3v (m3mul (m3tr R_Gtok) (xi_1 X)) a)) (v3scal dt g))
    (v3sub (v3add (v3add (iv_p (ps_imu x)) (v3scal dt v)) (m3v (m3mul (m3tr R_Gtok) (xi_2 X)) a))
           (v3scal (/ 2 * dt * dt) g)).

(** ** Propagator.cpp 964-1017 compute_H_Dw, compute_H_Da, compute_H_Tg: the columns *)
Definition e1 := V3 1 0 0.
(** Propagator.cpp 964-1017 (as above) *)
Definition e2 := V3 0 1 0.
(** Propagator.cpp 964-1017 (as above) *)
Definition e3 := V3 0 0 1.
(** Propagator.cpp 964-1017 (as above) *)
Definition cols := nat -> v3.
(** Propagator.cpp 964-1017 (as above) *)
Definition cols_of (l : list v3) : cols := fun j => nth j l v3zero.
(** Propagator.cpp 964-1017 (as above) *)
Definition compute_H_D (m : imu_model) (w : v3) : cols :=
  match m with
  | KALIBR => cols_of [v3scal (vx w) e1; v3scal (vx w) e2; v3scal (vx w) e3; v3scal (vy w) e2; v3scal (vy w) e3; v3scal (vz w) e3]
  | RPNG => cols_of [v3scal (vx w) e1; v3scal (vy w) e1; v3scal (vy w) e2; v3scal (vz w) e1; v3scal (vz w) e2; v3scal (vz w) e3]
  end.
(** Propagator.cpp 964-1017 (as above) *)
Definition compute_H_Dw := compute_H_D.
(** Propagator.cpp 964-1017 (as above) *)
Definition compute_H_Da := compute_H_D.
(** Propagator.cpp 964-1017 (as above) *)
Definition compute_H_Tg (a : v3) : cols :=
  cols_of [v3scal (vx a) e1; v3scal (vx a) e2; v3scal (vx a) e3; v3scal (vy a) e1; v3scal (vy a) e2; v3scal (vy a) e3;
           v3scal (vz a) e1; v3scal (vz a) e2; v3scal (vz a) e3].

(** blocks of a dynamic matrix [Eigen operation used in Propagator.cpp 395-1030] *)
Definition vnth (v : v3) (i : nat) : R := match i with 0%nat => vx v | 1%nat => vy v | _ => vz v end.
(** Eigen operation used in Propagator.cpp 395-1030 *)
Definition mrow (A : m3) (i : nat) : v3 :=
  match i with 0%nat => V3 (m00 A) (m01 A) (m02 A) | 1%nat => V3 (m10 A) (m11 A) (m12 A) | _ => V3 (m20 A) (m21 A) (m22 A) end.
(** Eigen operation used in Propagator.cpp 395-1030 *)
Definition b3 (A : m3) : mat := fun i j => vnth (mrow A i) j.
(** Eigen operation used in Propagator.cpp 395-1030 *)
Definition bc (H : cols) : mat := fun i j => vnth (H j) i.
(** [A * H] for a 3 x n matrix H [Eigen operation used in Propagator.cpp 395-1030] *)
Definition mcols (A : m3) (H : cols) : cols := fun j => m3v A (H j).
(** Eigen operation used in Propagator.cpp 395-1030 *)
Definition put3 (F : mat) (r c : nat) (A : m3) : mat := set_block F r c 3 3 (b3 A).
(** Eigen operation used in Propagator.cpp 395-1030 *)
Definition putc (F : mat) (r c n : nat) (H : cols) : mat := set_block F r c 3 n (bc H).
(** Eigen operation used in Propagator.cpp 395-1030 *)
Definition put1 (F : mat) (r n : nat) : mat := set_block F r r n n mid.

(** local ids: Propagator.cpp 690-726 and 836-872 *)
Definition th_id := 0%nat.
(** Propagator.cpp 690-726 and 836-872 (as above) *)
Definition p_id := 3%nat.
(** Propagator.cpp 690-726 and 836-872 (as above) *)
Definition v_id := 6%nat.
(** Propagator.cpp 690-726 and 836-872 (as above) *)
Definition bg_id := 9%nat.
(** Propagator.cpp 690-726 and 836-872 (as above) *)
Definition ba_id := 12%nat.
(** Propagator.cpp 690-726 and 836-872 (as above) *)
Definition Dw_id (x : pst) : option nat := if ps_calib x then Some 15%nat else None.
(** Propagator.cpp 690-726 and 836-872 (as above) *)
Definition Da_id (x : pst) : option nat := if ps_calib x then Some 21%nat else None.
(** Propagator.cpp 690-726 and 836-872 (as above) *)
Definition Tg_id (x : pst) : option nat := if ps_calib x && ps_gsens x then Some 27%nat else None.
(** Propagator.cpp 690-726 and 836-872 (as above) *)
Definition th_last (x : pst) : nat := if ps_gsens x then 36%nat else 27%nat.
(** Propagator.cpp 690-726 and 836-872 (as above) *)
Definition th_wtoI_id (x : pst) : option nat :=
  if ps_calib x then match ps_model x with KALIBR => Some (th_last x) | RPNG => None end else None.
(** Propagator.cpp 690-726 and 836-872 (as above) *)
Definition th_atoI_id (x : pst) : option nat :=
  if ps_calib x then match ps_model x with KALIBR => None | RPNG => Some (th_last x) end else None.

(** Eigen operation used in Propagator.cpp 395-1030 *)
Definition ifid (o : option nat) (f : nat -> mat -> mat) (F : mat) : mat :=
  match o with Some id => f id F | None => F end.

(** the linearisation point: Propagator.cpp 730-737 and 876-883 *)
Definition lin_point (x : pst) : ival := if ps_dofej x then ps_fej x else ps_imu x.

(** ** Propagator.cpp 830-962 compute_F_and_G_discrete.  [wu], [au]: w_uncorrected, a_uncorrected. *)
Definition compute_F_discrete (g : v3) (x : pst) (dt : R) (wu au : v3) (n : mean) : mat :=
  let R_k := quat_2_Rot (iv_q (lin_point x)) in
  let v_k := iv_v (lin_point x) in let p_k := iv_p (lin_point x) in
  let dR := m3mul (quat_2_Rot (mn_q n)) (m3tr R_k) in
  let Dw := Dm (ps_model x) (ps_dw x) in let Da := Dm (ps_model x) (ps_da x) in
  let Tg := Tg_of (ps_tg x) in
  let Ra := quat_2_Rot (ps_qa x) in let Rw := quat_2_Rot (ps_qw x) in
  let a_k := m3v (m3mul Ra Da) au in let w_k := m3v (m3mul Rw Dw) wu in
  let Jr := Jr_so3 (log_so3 dR) in
  let dRJ := m3scal dt (m3mul dR Jr) in
  let F := mzero in
  let F := put3 F th_id th_id dR in
  let F := put3 F th_id bg_id (m3scal (-1) (m3mul (m3mul dRJ Rw) Dw)) in
  let F := put3 F th_id ba_id (m3mul (m3mul (m3mul (m3mul (m3mul dRJ Rw) Dw) Tg) Ra) Da) in
  let F := put3 F p_id th_id (m3scal (-1) (m3mul (skew_x (v3add (v3sub (v3sub (mn_p n) p_k) (v3scal dt v_k)) (v3scal (/ 2 * dt * dt) g))) (m3tr R_k))) in
  let F := put1 F p_id 3 in
  let F := put3 F p_id v_id (m3scal dt m3id) in
  let F := put3 F p_id ba_id (m3scal (- (/ 2 * dt * dt)) (m3mul (m3mul (m3tr R_k) Ra) Da)) in
  let F := put3 F v_id th_id (m3scal (-1) (m3mul (skew_x (v3add (v3sub (mn_v n) v_k) (v3scal dt g))) (m3tr R_k))) in
  let F := put1 F v_id 3 in
  let F := put3 F v_id ba_id (m3scal (- dt) (m3mul (m3mul (m3tr R_k) Ra) Da)) in
  let F := put1 F bg_id 3 in
  let F := put1 F ba_id 3 in
  let F := ifid (Dw_id x) (fun id F =>
     let H := compute_H_Dw (ps_model x) wu in
     let F := putc F th_id id 6 (mcols (m3mul dRJ Rw) H) in
     put1 F id 6) F in
  let F := ifid (Da_id x) (fun id F =>
     let H := compute_H_Da (ps_model x) au in
     let F := putc F th_id id 6 (mcols (m3scal (-1) (m3mul (m3mul (m3mul dRJ Rw) Tg) Ra)) H) in
     let F := putc F p_id id 6 (mcols (m3scal (/ 2 * dt * dt) (m3mul (m3tr R_k) Ra)) H) in
     let F := putc F v_id id 6 (mcols (m3scal dt (m3mul (m3tr R_k) Ra)) H) in
     put1 F id 6) F in
  let F := ifid (Tg_id x) (fun id F =>
     let H := compute_H_Tg a_k in
     let F := putc F th_id id 9 (mcols (m3scal (-1) (m3mul (m3mul dRJ Rw) Dw)) H) in
     put1 F id 9) F in
  let F := ifid (th_atoI_id x) (fun id F =>
     let F := put3 F th_id id (m3scal (-1) (m3mul (m3mul (m3mul (m3mul dRJ Rw) Dw) Tg) (skew_x a_k))) in
     let F := put3 F p_id id (m3scal (/ 2 * dt * dt) (m3mul (m3tr R_k) (skew_x a_k))) in
     let F := put3 F v_id id (m3scal dt (m3mul (m3tr R_k) (skew_x a_k))) in
     put1 F id 3) F in
  let F := ifid (th_wtoI_id x) (fun id F =>
     let F := put3 F th_id id (m3mul dRJ (skew_x w_k)) in
     put1 F id 3) F in
  F.
(** Propagator.cpp 830-962 (as above) *)
Definition compute_G_discrete (x : pst) (dt : R) (n : mean) : mat :=
  let R_k := quat_2_Rot (iv_q (lin_point x)) in
  let dR := m3mul (quat_2_Rot (mn_q n)) (m3tr R_k) in
  let Dw := Dm (ps_model x) (ps_dw x) in let Da := Dm (ps_model x) (ps_da x) in
  let Tg := Tg_of (ps_tg x) in
  let Ra := quat_2_Rot (ps_qa x) in let Rw := quat_2_Rot (ps_qw x) in
  let Jr := Jr_so3 (log_so3 dR) in
  let dRJ := m3scal dt (m3mul dR Jr) in
  let G := mzero in
  let G := put3 G th_id 0 (m3scal (-1) (m3mul (m3mul dRJ Rw) Dw)) in
  let G := put3 G th_id 3 (m3mul (m3mul (m3mul (m3mul (m3mul dRJ Rw) Dw) Tg) Ra) Da) in
  let G := put3 G v_id 3 (m3scal (- dt) (m3mul (m3mul (m3tr R_k) Ra) Da)) in
  let G := put3 G p_id 3 (m3scal (- (/ 2 * dt * dt)) (m3mul (m3mul (m3tr R_k) Ra) Da)) in
  let G := put3 G bg_id 6 (m3scal dt m3id) in
  let G := put3 G ba_id 9 (m3scal dt m3id) in
  G.

(** ** Propagator.cpp 683-828 compute_F_and_G_analytic *)
Definition compute_F_analytic (g : v3) (x : pst) (dt : R) (wu au : v3) (n : mean) (X : xis) : mat :=
  let R_k := quat_2_Rot (iv_q (lin_point x)) in
  let v_k := iv_v (lin_point x) in let p_k := iv_p (lin_point x) in
  let dR := m3mul (quat_2_Rot (mn_q n)) (m3tr R_k) in
  let Dw := Dm (ps_model x) (ps_dw x) in let Da := Dm (ps_model x) (ps_da x) in
  let Tg := Tg_of (ps_tg x) in
  let Ra := quat_2_Rot (ps_qa x) in let Rw := quat_2_Rot (ps_qw x) in
  let a_k := m3v (m3mul Ra Da) au in let w_k := m3v (m3mul Rw Dw) wu in
  let dRJ := m3scal dt (m3mul dR (xi_Jr X)) in
  let RT := m3tr R_k in
  let RwDw := m3mul Rw Dw in
  let C2 := m3add (xi_2 X) (m3mul (m3mul (xi_4 X) RwDw) Tg) in
  let C1 := m3add (xi_1 X) (m3mul (m3mul (xi_3 X) RwDw) Tg) in
  let F := mzero in
  let F := put3 F th_id th_id dR in
  let F := put3 F p_id th_id (m3scal (-1) (m3mul (skew_x (v3add (v3sub (v3sub (mn_p n) p_k) (v3scal dt v_k)) (v3scal (/ 2 * dt * dt) g))) RT)) in
  let F := put3 F v_id th_id (m3scal (-1) (m3mul (skew_x (v3add (v3sub (mn_v n) v_k) (v3scal dt g))) RT)) in
  let F := put1 F p_id 3 in
  let F := put3 F p_id v_id (m3scal dt m3id) in
  let F := put1 F v_id 3 in
  let F := put3 F th_id bg_id (m3scal (-1) (m3mul dRJ RwDw)) in
  let F := put3 F p_id bg_id (m3mul (m3mul RT (xi_4 X)) RwDw) in
  let F := put3 F v_id bg_id (m3mul (m3mul RT (xi_3 X)) RwDw) in
  let F := put1 F bg_id 3 in
  let F := put3 F th_id ba_id (m3mul (m3mul (m3mul (m3mul dRJ RwDw) Tg) Ra) Da) in
  let F := put3 F p_id ba_id (m3scal (-1) (m3mul (m3mul (m3mul RT C2) Ra) Da)) in
  let F := put3 F v_id ba_id (m3scal (-1) (m3mul (m3mul (m3mul RT C1) Ra) Da)) in
  let F := put1 F ba_id 3 in
  let F := ifid (Dw_id x) (fun id F =>
     let H := compute_H_Dw (ps_model x) wu in
     let F := putc F th_id id 6 (mcols (m3mul dRJ Rw) H) in
     let F := putc F p_id id 6 (mcols (m3scal (-1) (m3mul (m3mul RT (xi_4 X)) Rw)) H) in
     let F := putc F v_id id 6 (mcols (m3scal (-1) (m3mul (m3mul RT (xi_3 X)) Rw)) H) in
     put1 F id 6) F in
  let F := ifid (Da_id x) (fun id F =>
     let H := compute_H_Da (ps_model x) au in
     let F := putc F th_id id 6 (mcols (m3scal (-1) (m3mul (m3mul (m3mul dRJ RwDw) Tg) Ra)) H) in
     let F := putc F p_id id 6 (mcols (m3mul (m3mul RT C2) Ra) H) in
     let F := putc F v_id id 6 (mcols (m3mul (m3mul RT C1) Ra) H) in
     put1 F id 6) F in
  let F := ifid (Tg_id x) (fun id F =>
     let H := compute_H_Tg a_k in
     let F := putc F th_id id 9 (mcols (m3scal (-1) (m3mul dRJ RwDw)) H) in
     let F := putc F p_id id 9 (mcols (m3mul (m3mul RT (xi_4 X)) RwDw) H) in
     let F := putc F v_id id 9 (mcols (m3mul (m3mul RT (xi_3 X)) RwDw) H) in
     put1 F id 9) F in
  let F := ifid (th_atoI_id x) (fun id F =>
     let F := put3 F th_id id (m3scal (-1) (m3mul (m3mul (m3mul dRJ RwDw) Tg) (skew_x a_k))) in
     let F := put3 F p_id id (m3mul (m3mul RT C2) (skew_x a_k)) in
     let F := put3 F v_id id (m3mul (m3mul RT C1) (skew_x a_k)) in
     put1 F id 3) F in
  let F := ifid (th_wtoI_id x) (fun id F =>
     let F := put3 F th_id id (m3mul dRJ (skew_x w_k)) in
     let F := put3 F p_id id (m3scal (-1) (m3mul (m3mul RT (xi_4 X)) (skew_x w_k))) in
     let F := put3 F v_id id (m3scal (-1) (m3mul (m3mul RT (xi_3 X)) (skew_x w_k))) in
     put1 F id 3) F in
  F.
(** Propagator.cpp 683-828 (as above) *)
Definition compute_G_analytic (x : pst) (dt : R) (n : mean) (X : xis) : mat :=
  let R_k := quat_2_Rot (iv_q (lin_point x)) in
  let dR := m3mul (quat_2_Rot (mn_q n)) (m3tr R_k) in
  let Dw := Dm (ps_model x) (ps_dw x) in let Da := Dm (ps_model x) (ps_da x) in
  let Tg := Tg_of (ps_tg x) in
  let Ra := quat_2_Rot (ps_qa x) in let Rw := quat_2_Rot (ps_qw x) in
  let dRJ := m3scal dt (m3mul dR (xi_Jr X)) in
  let RT := m3tr R_k in
  let RwDw := m3mul Rw Dw in
  let C2 := m3add (xi_2 X) (m3mul (m3mul (xi_4 X) RwDw) Tg) in
  let C1 := m3add (xi_1 X) (m3mul (m3mul (xi_3 X) RwDw) Tg) in
  let G := mzero in
  let G := put3 G th_id 0 (m3scal (-1) (m3mul dRJ RwDw)) in
  let G := put3 G p_id 0 (m3mul (m3mul RT (xi_4 X)) RwDw) in
  let G := put3 G v_id 0 (m3mul (m3mul RT (xi_3 X)) RwDw) in
  let G := put3 G th_id 3 (m3mul (m3mul (m3mul (m3mul dRJ RwDw) Tg) Ra) Da) in
  let G := put3 G p_id 3 (m3scal (-1) (m3mul (m3mul (m3mul RT C2) Ra) Da)) in
  let G := put3 G v_id 3 (m3scal (-1) (m3mul (m3mul (m3mul RT C1) Ra) Da)) in
  let G := put3 G bg_id 6 (m3scal dt m3id) in
  let G := put3 G ba_id 9 (m3scal dt m3id) in
  G.

(** StateOptions.h 48-55 *)
Inductive integration := DISCRETE | RK4 | ANALYTICAL.
(** Propagator.h NoiseManager [NoiseManager.h 34-68] *)
Record noises := mkNoise { sigma_w : R; sigma_a : R; sigma_wb : R; sigma_ab : R }.

(** ** Propagator.cpp 433-462: the new mean, F and G, by integration method *)
Definition predict_mean (meth : integration) (g : v3) (x : pst) (m p : imu) : mean :=
  let dt := i_t p - i_t m in
  let c := correct x m p in
  match meth with
  | ANALYTICAL => predict_mean_analytic g x dt (c_aavg c) (compute_Xi_sum dt (c_wavg c) (c_aavg c))
  | RK4 => predict_mean_rk4 g x dt (c_w1 c) (c_a1 c) (c_w2 c) (c_a2 c)
  | DISCRETE => predict_mean_discrete g x dt (c_wavg c) (c_aavg c)
  end.
(** Propagator.cpp 433-462 (as above) *)
Definition predict_F (meth : integration) (g : v3) (x : pst) (m p : imu) : mat :=
  let dt := i_t p - i_t m in
  let c := correct x m p in
  match meth with
  | DISCRETE => compute_F_discrete g x dt (c_wunc c) (c_aunc c) (predict_mean meth g x m p)
  | _ => compute_F_analytic g x dt (c_wunc c) (c_aunc c) (predict_mean meth g x m p)
           (compute_Xi_sum dt (c_wavg c) (c_aavg c))
  end.
(** Propagator.cpp 433-462 (as above) *)
Definition predict_G (meth : integration) (g : v3) (x : pst) (m p : imu) : mat :=
  let dt := i_t p - i_t m in
  let c := correct x m p in
  match meth with
  | DISCRETE => compute_G_discrete x dt (predict_mean meth g x m p)
  | _ => compute_G_analytic x dt (predict_mean meth g x m p) (compute_Xi_sum dt (c_wavg c) (c_aavg c))
  end.

(** Propagator.cpp 459-471: Qc and Qd = (G Qc G^T + its transpose)/2 *)
Definition Qc (ns : noises) (dt : R) : mat := fun i j =>
  if Nat.eqb i j then
    (if Nat.ltb i 3 then sigma_w ns ^ 2 / dt else if Nat.ltb i 6 then sigma_a ns ^ 2 / dt
     else if Nat.ltb i 9 then sigma_wb ns ^ 2 / dt else sigma_ab ns ^ 2 / dt)
  else 0.
(** Propagator.cpp 459-471 (as above) *)
Definition predict_Qd (meth : integration) (ns : noises) (g : v3) (x : pst) (m p : imu) : mat :=
  let G := predict_G meth g x m p in
  let Q0 := mmul 12 (mmul 12 G (Qc ns (i_t p - i_t m))) (mtr G) in
  mscal (/ 2) (madd Q0 (mtr Q0)).

(** Propagator.cpp 473-479: value and first estimate of the IMU after the interval *)
Definition predict_state (meth : integration) (g : v3) (x : pst) (m p : imu) : pst :=
  let n := predict_mean meth g x m p in
  let iv := IVal (mn_q n) (mn_p n) (mn_v n) (iv_bg (ps_imu x)) (iv_ba (ps_imu x)) in
  mkPst (ps_model x) (ps_calib x) (ps_gsens x) (ps_dofej x) iv iv (ps_dw x) (ps_da x) (ps_tg x) (ps_qw x) (ps_qa x).

(** ** Propagator.cpp 71-100 (inside propagate_and_clone): Phi_summed, Qd_summed and the moved state
    over all selected readings *)
Fixpoint prop_loop (meth : integration) (ns : noises) (g : v3) (N : nat) (l : list imu) (x : pst) (Phi Q : mat)
  : pst * mat * mat :=
  match l with
  | m :: ((p :: _) as l') =>
      let F := predict_F meth g x m p in
      let Qdi := predict_Qd meth ns g x m p in
      let Phi' := mmul N F Phi in
      let Q1 := madd (mmul N (mmul N F Q) (mtr F)) Qdi in
      let Q' := mscal (/ 2) (madd Q1 (mtr Q1)) in
      prop_loop meth ns g N l' (predict_state meth g x m p) Phi' Q'
  | _ => (x, Phi, Q)
  end.
(** Propagator.cpp 71-100 (as above) *)
Definition prop_sum (meth : integration) (ns : noises) (g : v3) (x : pst) (l : list imu) : pst * mat * mat :=
  let N := (15 + imu_intrinsic_size x)%nat in
  prop_loop meth ns g N l x mid mzero.

(** Propagator.cpp 103-113: last_w given to augment_clone *)
Definition last_w (x : pst) (l : list imu) : v3 :=
  match rev l with
  | [] => v3zero
  | m :: _ =>
      let Dw := Dm (ps_model x) (ps_dw x) in let Da := Dm (ps_model x) (ps_da x) in
      let Tg := Tg_of (ps_tg x) in
      let la := m3v (m3mul (quat_2_Rot (ps_qa x)) Da) (v3sub (i_a m) (iv_ba (ps_imu x))) in
      m3v (m3mul (quat_2_Rot (ps_qw x)) Dw) (v3sub (v3sub (i_w m) (iv_bg (ps_imu x))) (m3v Tg la))
  end.
