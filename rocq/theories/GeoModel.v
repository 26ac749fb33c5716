(** Model of ov_core/src/utils/quat_ops.h (3-vectors, 3x3 matrices, JPL quaternions,
    so(3)/SE(3) maps) over exact reals.

    Simplifications (all definitions below): doubles are exact reals; Eigen fixed-size
    vectors/matrices are records of their entries.  Divisions by a zero norm (NaN in C++)
    are excluded by the hypotheses of the theorems, not given a meaning here. *)
From Coq Require Import Reals Lra.
From Verif Require Import RBool.
Open Scope R_scope.

(** Eigen::Vector3d, Vector4d, Matrix3d [Eigen type used throughout quat_ops.h 67-632] *)
Record v3 := V3 { vx : R; vy : R; vz : R }.
(** Eigen type used throughout quat_ops.h 67-632 *)
Record q4 := Q4 { qx : R; qy : R; qz : R; qw : R }.
(** Eigen type used throughout quat_ops.h 67-632 *)
Record m3 := M3 { m00 : R; m01 : R; m02 : R;
                  m10 : R; m11 : R; m12 : R;
                  m20 : R; m21 : R; m22 : R }.

(** Eigen arithmetic on fixed-size objects (external library, mathematical meaning). [Eigen operation used in quat_ops.h 67-632] *)
Definition v3zero := V3 0 0 0.
(** Eigen operation used in quat_ops.h 67-632 *)
Definition v3add a b := V3 (vx a + vx b) (vy a + vy b) (vz a + vz b).
(** Eigen operation used in quat_ops.h 67-632 *)
Definition v3sub a b := V3 (vx a - vx b) (vy a - vy b) (vz a - vz b).
(** Eigen operation used in quat_ops.h 67-632 *)
Definition v3neg a := V3 (- vx a) (- vy a) (- vz a).
(** Eigen operation used in quat_ops.h 67-632 *)
Definition v3scal c a := V3 (c * vx a) (c * vy a) (c * vz a).
(** Eigen operation used in quat_ops.h 67-632 *)
Definition v3div a c := V3 (vx a / c) (vy a / c) (vz a / c).
(** Eigen operation used in quat_ops.h 67-632 *)
Definition v3dot a b := vx a * vx b + vy a * vy b + vz a * vz b.
(** Eigen operation used in quat_ops.h 67-632 *)
Definition v3norm a := sqrt (v3dot a a).
(** Eigen operation used in quat_ops.h 67-632 *)
Definition v3cross a b :=
  V3 (vy a * vz b - vz a * vy b) (vz a * vx b - vx a * vz b) (vx a * vy b - vy a * vx b).

(** Eigen operation used in quat_ops.h 67-632 *)
Definition m3id := M3 1 0 0  0 1 0  0 0 1.
(** Eigen operation used in quat_ops.h 67-632 *)
Definition m3add A B :=
  M3 (m00 A + m00 B) (m01 A + m01 B) (m02 A + m02 B)
     (m10 A + m10 B) (m11 A + m11 B) (m12 A + m12 B)
     (m20 A + m20 B) (m21 A + m21 B) (m22 A + m22 B).
(** Eigen operation used in quat_ops.h 67-632 *)
Definition m3sub A B :=
  M3 (m00 A - m00 B) (m01 A - m01 B) (m02 A - m02 B)
     (m10 A - m10 B) (m11 A - m11 B) (m12 A - m12 B)
     (m20 A - m20 B) (m21 A - m21 B) (m22 A - m22 B).
(** Eigen operation used in quat_ops.h 67-632 *)
Definition m3scal c A :=
  M3 (c * m00 A) (c * m01 A) (c * m02 A)
     (c * m10 A) (c * m11 A) (c * m12 A)
     (c * m20 A) (c * m21 A) (c * m22 A).
(** Eigen operation used in quat_ops.h 67-632 *)
Definition m3tr A :=
  M3 (m00 A) (m10 A) (m20 A)  (m01 A) (m11 A) (m21 A)  (m02 A) (m12 A) (m22 A).
(** Eigen operation used in quat_ops.h 67-632 *)
Definition m3mul A B :=
  M3 (m00 A * m00 B + m01 A * m10 B + m02 A * m20 B)
     (m00 A * m01 B + m01 A * m11 B + m02 A * m21 B)
     (m00 A * m02 B + m01 A * m12 B + m02 A * m22 B)
     (m10 A * m00 B + m11 A * m10 B + m12 A * m20 B)
     (m10 A * m01 B + m11 A * m11 B + m12 A * m21 B)
     (m10 A * m02 B + m11 A * m12 B + m12 A * m22 B)
     (m20 A * m00 B + m21 A * m10 B + m22 A * m20 B)
     (m20 A * m01 B + m21 A * m11 B + m22 A * m21 B)
     (m20 A * m02 B + m21 A * m12 B + m22 A * m22 B).
(** Eigen operation used in quat_ops.h 67-632 *)
Definition m3v A v :=
  V3 (m00 A * vx v + m01 A * vy v + m02 A * vz v)
     (m10 A * vx v + m11 A * vy v + m12 A * vz v)
     (m20 A * vx v + m21 A * vy v + m22 A * vz v).
(** Eigen operation used in quat_ops.h 67-632 *)
Definition m3outer a b :=
  M3 (vx a * vx b) (vx a * vy b) (vx a * vz b)
     (vy a * vx b) (vy a * vy b) (vy a * vz b)
     (vz a * vx b) (vz a * vy b) (vz a * vz b).
(** Eigen operation used in quat_ops.h 67-632 *)
Definition m3trace A := m00 A + m11 A + m22 A.
(** Eigen operation used in quat_ops.h 67-632 *)
Definition m3det A :=
  m00 A * (m11 A * m22 A - m12 A * m21 A)
  - m01 A * (m10 A * m22 A - m12 A * m20 A)
  + m02 A * (m10 A * m21 A - m11 A * m20 A).

(** Eigen operation used in quat_ops.h 67-632 *)
Definition q4norm q := sqrt (qx q * qx q + qy q * qy q + qz q * qz q + qw q * qw q).
(** Eigen operation used in quat_ops.h 67-632 *)
Definition q4neg q := Q4 (- qx q) (- qy q) (- qz q) (- qw q).
(** Eigen operation used in quat_ops.h 67-632 *)
Definition q4div q c := Q4 (qx q / c) (qy q / c) (qz q / c) (qw q / c).
(** Eigen operation used in quat_ops.h 67-632 *)
Definition qvec q := V3 (qx q) (qy q) (qz q).

(** quat_ops.h:88-119 rot_2_quat *)
Definition rot_2_quat_raw (r : m3) : q4 :=
  let T := m3trace r in
  if (Rleb T (m00 r) && Rleb (m11 r) (m00 r) && Rleb (m22 r) (m00 r))%bool then
    let q0 := sqrt ((1 + 2 * m00 r - T) / 4) in
    Q4 q0 (1 / (4 * q0) * (m01 r + m10 r)) (1 / (4 * q0) * (m02 r + m20 r))
       (1 / (4 * q0) * (m12 r - m21 r))
  else if (Rleb T (m11 r) && Rleb (m00 r) (m11 r) && Rleb (m22 r) (m11 r))%bool then
    let q1 := sqrt ((1 + 2 * m11 r - T) / 4) in
    Q4 (1 / (4 * q1) * (m01 r + m10 r)) q1 (1 / (4 * q1) * (m12 r + m21 r))
       (1 / (4 * q1) * (m20 r - m02 r))
  else if (Rleb T (m22 r) && Rleb (m00 r) (m22 r) && Rleb (m11 r) (m22 r))%bool then
    let q2 := sqrt ((1 + 2 * m22 r - T) / 4) in
    Q4 (1 / (4 * q2) * (m02 r + m20 r)) (1 / (4 * q2) * (m12 r + m21 r)) q2
       (1 / (4 * q2) * (m01 r - m10 r))
  else
    let q3 := sqrt ((1 + T) / 4) in
    Q4 (1 / (4 * q3) * (m12 r - m21 r)) (1 / (4 * q3) * (m20 r - m02 r))
       (1 / (4 * q3) * (m01 r - m10 r)) q3.

(** quat_ops.h:496-501 quatnorm (also the tail of rot_2_quat 113-118 and quat_multiply 190-194) *)
Definition quatnorm (q : q4) : q4 :=
  let q' := if Rltb (qw q) 0 then q4neg q else q in q4div q' (q4norm q').

(** quat_ops.h 88-119: the branches on the entries, then normalization *)
Definition rot_2_quat (r : m3) : q4 := quatnorm (rot_2_quat_raw r).

(** quat_ops.h:135-139 skew_x *)
Definition skew_x (w : v3) : m3 :=
  M3 0 (- vz w) (vy w)  (vz w) 0 (- vx w)  (- vy w) (vx w) 0.

(** quat_ops.h:152-157 quat_2_Rot *)
Definition quat_2_Rot (q : q4) : m3 :=
  m3add (m3sub (m3scal (2 * (qw q * qw q) - 1) m3id) (m3scal (2 * qw q) (skew_x (qvec q))))
        (m3scal 2 (m3outer (qvec q) (qvec q))).

(** quat_ops.h:183-188 the product Qm * p of quat_multiply, rows 0..2:
    (q4 I - skew(qv)) pv + qv p4; row 3: -qv^T pv + q4 p4 *)
Definition quat_mul_raw (q p : q4) : q4 :=
  let u := v3add (m3v (m3sub (m3scal (qw q) m3id) (skew_x (qvec q))) (qvec p))
                 (v3scal (qw p) (qvec q)) in
  Q4 (vx u) (vy u) (vz u) (- v3dot (qvec q) (qvec p) + qw q * qw p).

(** quat_ops.h:180-195 quat_multiply *)
Definition quat_multiply (q p : q4) : q4 := quatnorm (quat_mul_raw q p).

(** quat_ops.h:205-209 vee *)
Definition vee (M : m3) : v3 := V3 (m21 M) (m02 M) (m10 M).

(** quat_ops.h:231-252 exp_so3 *)
Definition exp_so3 (w : v3) : m3 :=
  let W := skew_x w in
  let theta := v3norm w in
  let A := if Rltb theta (1 / 10 ^ 7) then 1 else sin theta / theta in
  let B := if Rltb theta (1 / 10 ^ 7) then 1 / 2 else (1 - cos theta) / (theta * theta) in
  if Reqb theta 0 then m3id
  else m3add (m3add m3id (m3scal A W)) (m3mul (m3scal B W) W).

(** quat_ops.h:273-310 log_so3 *)
Definition log_so3 (r : m3) : v3 :=
  let tr := m3trace r in
  if Rltb (tr + 1) (1 / 10 ^ 10) then
    if Rltb (1 / 10 ^ 5) (Rabs (m22 r + 1)) then
      v3scal (PI / sqrt (2 + 2 * m22 r)) (V3 (m02 r) (m12 r) (1 + m22 r))
    else if Rltb (1 / 10 ^ 5) (Rabs (m11 r + 1)) then
      v3scal (PI / sqrt (2 + 2 * m11 r)) (V3 (m01 r) (1 + m11 r) (m21 r))
    else
      v3scal (PI / sqrt (2 + 2 * m00 r)) (V3 (1 + m00 r) (m10 r) (m20 r))
  else
    let tr_3 := tr - 3 in
    let magnitude :=
      if Rltb tr_3 (- (1 / 10 ^ 7)) then
        let theta := acos ((tr - 1) / 2) in theta / (2 * sin theta)
      else 1 / 2 - tr_3 / 12 in
    v3scal magnitude (V3 (m21 r - m12 r) (m02 r - m20 r) (m10 r - m01 r)).

(** Rigid transforms: the 4x4 matrices handled by exp_se3/log_se3/Inv_se3 have last row (0 0 0 1);
    they are modelled by rotation part and translation part.
    Simplification: general 4x4 inputs of Inv_se3 are not modelled. [quat_ops.h 332-444] *)
Record se3 := SE3 { seR : m3; set_ : v3 }.
(** quat_ops.h 332-444 *)
Definition se3id := SE3 m3id v3zero.
(** quat_ops.h 332-444 *)
Definition se3mul a b := SE3 (m3mul (seR a) (seR b)) (v3add (m3v (seR a) (set_ b)) (set_ a)).

(** quat_ops.h:332-363 exp_se3; vec = [w; u] *)
Definition exp_se3 (w u : v3) : se3 :=
  let theta := sqrt (v3dot w w) in
  let W := skew_x w in
  let A := if Rltb theta (1 / 10 ^ 7) then 1 else sin theta / theta in
  let B := if Rltb theta (1 / 10 ^ 7) then 1 / 2 else (1 - cos theta) / (theta * theta) in
  let C := if Rltb theta (1 / 10 ^ 7) then 1 / 6 else (1 - A) / (theta * theta) in
  let V := m3add (m3add m3id (m3scal B W)) (m3mul (m3scal C W) W) in
  SE3 (m3add (m3add m3id (m3scal A W)) (m3mul (m3scal B W) W)) (m3v V u).

(** quat_ops.h:388-407 log_se3 *)
Definition log_se3 (T : se3) : v3 * v3 :=
  let w := log_so3 (seR T) in
  let t := v3norm w in
  if Rltb t (1 / 10 ^ 10) then (w, set_ T)
  else
    let W := skew_x (v3div w t) in
    let Tan := tan (5 / 10 * t) in
    let WT := m3v W (set_ T) in
    (w, v3add (v3sub (set_ T) (v3scal (5 / 10 * t) WT)) (v3scal (1 - t / (2 * Tan)) (m3v W WT))).

(** quat_ops.h:439-444 Inv_se3 *)
Definition Inv_se3 (T : se3) : se3 :=
  SE3 (m3tr (seR T)) (v3neg (m3v (m3tr (seR T)) (set_ T))).

(** quat_ops.h:457-462 Inv *)
Definition quat_inv (q : q4) : q4 := Q4 (- qx q) (- qy q) (- qz q) (qw q).

(** quat_ops.h:482-489 Omega, applied to a quaternion: Omega(w) * q *)
Definition Omega_mul (w : v3) (q : q4) : q4 :=
  let u := v3add (v3neg (m3v (skew_x w) (qvec q))) (v3scal (qw q) w) in
  Q4 (vx u) (vy u) (vz u) (- v3dot w (qvec q)).

(** quat_ops.h:515-525 Jl_so3 *)
Definition Jl_so3 (w : v3) : m3 :=
  let theta := v3norm w in
  if Rltb theta (1 / 10 ^ 6) then m3id
  else
    let a := v3div w theta in
    m3add (m3add (m3scal (sin theta / theta) m3id)
                 (m3scal (1 - sin theta / theta) (m3outer a a)))
          (m3scal ((1 - cos theta) / theta) (skew_x a)).
(** quat_ops.h:537 Jr_so3 *)
Definition Jr_so3 (w : v3) : m3 := Jl_so3 (v3neg w).

(** C library atan2 (signed zeros not modelled). [quat_ops.h 551-557, Landmark.cpp 89] *)
Definition atan2 (y x : R) : R :=
  if Rltb 0 x then atan (y / x)
  else if Rltb x 0 then (if Rleb 0 y then atan (y / x) + PI else atan (y / x) - PI)
  else if Rltb 0 y then PI / 2 else if Rltb y 0 then - (PI / 2) else 0.

(** quat_ops.h:549-560 rot2rpy; result (roll, pitch, yaw) *)
Definition rot2rpy (r : m3) : v3 :=
  let pitch := atan2 (- m20 r) (sqrt (m00 r * m00 r + m10 r * m10 r)) in
  if Rltb (1 / 10 ^ 12) (Rabs (cos pitch)) then
    V3 (atan2 (m21 r / cos pitch) (m22 r / cos pitch)) pitch
       (atan2 (m10 r / cos pitch) (m00 r / cos pitch))
  else
    V3 (atan2 (m01 r) (m11 r)) pitch 0.

(** quat_ops.h:577-629 rot_x, rot_y, rot_z *)
Definition rot_x (t : R) : m3 := M3 1 0 0  0 (cos t) (- sin t)  0 (sin t) (cos t).
(** quat_ops.h:577-629 (as above) *)
Definition rot_y (t : R) : m3 := M3 (cos t) 0 (sin t)  0 1 0  (- sin t) 0 (cos t).
(** quat_ops.h:577-629 (as above) *)
Definition rot_z (t : R) : m3 := M3 (cos t) (- sin t) 0  (sin t) (cos t) 0  0 0 1.
