(** What the covariance of the preintegrated measurement should be (C103). *)
From Coq Require Import Reals List Arith.
From Coquelicot Require Import Coquelicot.
From Verif Require Import GeoModel GeoSpec JacSo3 Calc3 Lin HelpSpec CpiModel.
Open Scope R_scope.

(** The preintegrated state is a rotation [Q] with Q' = -[w - bw - nw]x Q, the gyroscope bias, a velocity
    with v' = Q^T (a - ba - na), the accelerometer bias and a position with p' = v; the biases follow the noises
    nwb, nab.  [F], [G] are the derivatives of the rates of the 15 errors (rotation, gyroscope bias, velocity,
    accelerometer bias, position; a rotation error e stands for (1 - [e]x) Q) by the errors and by the 12 noises
    (nw, nwb, na, nab): [d] is the rate of the error [x] under the noise [n]. *)
Definition lin_rates (F G : mat) (Q : m3) (w a : v3) : Prop :=
  forall (x n : vec) (Qs : R -> m3), Qs 0 = Q -> m3_derive Qs 0 (m3mul (m3scal (-1) (skew_x (seg3 x 0))) Q) ->
  let d := fun i => mvec 15 F x i + mvec 12 G n i in
  let ws := fun s => v3sub w (v3scal s (v3add (seg3 x 3) (seg3 n 0))) in
  let fs := fun s => v3sub a (v3scal s (v3add (seg3 x 9) (seg3 n 6))) in
  m3_derive (fun s => m3mul (m3scal (-1) (skew_x (ws s))) (Qs s)) 0
    (m3add (m3mul (m3scal (-1) (skew_x (seg3 d 0))) Q) (m3mul (m3scal (-1) (skew_x (seg3 x 0))) (m3mul (m3scal (-1) (skew_x w)) Q))) /\
  seg3 d 3 = seg3 n 3 /\
  v3_derive (fun s => m3v (m3tr (Qs s)) (fs s)) 0 (seg3 d 6) /\
  seg3 d 9 = seg3 n 9 /\
  seg3 d 12 = seg3 x 6.
(** rate of the covariance of errors with these linear rates *)
Definition cov_rate (F G Qc P : mat) : mat :=
  fun i j => mmul 15 F P i j + mmul 15 P (mtr F) i j + mmul 12 (mmul 12 G Qc) (mtr G) i j.
(** the covariance the errors have after every time, when their rates are [Ft], [Gt] *)
Record true_cov (Qc : mat) (Ft Gt : R -> mat) (Pt : R -> mat) : Prop := mkTC
  { tc_rate : forall t i j, (i < 15)%nat -> (j < 15)%nat -> is_derive (fun s => Pt s i j) t (cov_rate (Ft t) (Gt t) Qc (Pt t) i j) }.
(** the reading of a duration, rate and force, biases included *)
Definition steady (c : cpi) (dt : R) (w a : v3) : reading :=
  mkRd 0 dt (v3add w (cp_bw c)) (v3add a (cp_ba c)) (v3add w (cp_bw c)) (v3add a (cp_ba c)).
(** the first terms of the exponential series of the covariance rate, for errors with constant rates *)
Definition lin_part (F X : mat) : mat := fun i j => mmul 15 F X i j + mmul 15 X (mtr F) i j.
