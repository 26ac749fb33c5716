(** What the propagation properties mean (C55, C56, C59, C62, C69-C72), independently of
    PropModel's helper functions. *)
From Coq Require Import Reals List Arith Bool.
From Coquelicot Require Import Coquelicot.
From Verif Require Import Outcome GeoModel GeoSpec JacSo3 Lin TypesModel ManifoldSpec Calc3 ImuModel PropModel.
Import ListNotations.
Open Scope R_scope.

(** an error of the propagated part of the state *)
Record perr := mkErr
  { d_th : v3; d_p : v3; d_v : v3; d_bg : v3; d_ba : v3; d_dw : vec; d_da : vec; d_tg : vec; d_rot : v3 }.

Definition turn (s : R) (th : v3) (q : q4) : q4 := quat_multiply (small_quat (v3scal s th)) q.
Definition bump (s : R) (d x : vec) : vec := fun i => x i + s * d i.
Definition shift (s : R) (d x : v3) : v3 := v3add x (v3scal s d).

(** the state moved by [s] times the error; only estimated quantities move.  The movement is the one
    the filter applies to its variables (C31). *)
Definition perturb (x : pst) (e : perr) (s : R) : pst :=
  let i := ps_imu x in
  mkPst (ps_model x) (ps_calib x) (ps_gsens x) (ps_dofej x)
    (IVal (turn s (d_th e) (iv_q i)) (shift s (d_p e) (iv_p i)) (shift s (d_v e) (iv_v i))
          (shift s (d_bg e) (iv_bg i)) (shift s (d_ba e) (iv_ba i)))
    (ps_fej x)
    (if ps_calib x then bump s (d_dw e) (ps_dw x) else ps_dw x)
    (if ps_calib x then bump s (d_da e) (ps_da x) else ps_da x)
    (if ps_calib x && ps_gsens x then bump s (d_tg e) (ps_tg x) else ps_tg x)
    (match ps_calib x, ps_model x with true, KALIBR => turn s (d_rot e) (ps_qw x) | _, _ => ps_qw x end)
    (match ps_calib x, ps_model x with true, RPNG => turn s (d_rot e) (ps_qa x) | _, _ => ps_qa x end).

(** number of error components and the stacked error vector: th, p, v, bg, ba, dw, da, [tg], rot *)
Definition err_dim (x : pst) : nat :=
  if ps_calib x then (if ps_gsens x then 39 else 30) else 15.
Definition vlist (v : v3) : list R := [vx v; vy v; vz v].
Definition err_list (x : pst) (e : perr) : list R :=
  vlist (d_th e) ++ vlist (d_p e) ++ vlist (d_v e) ++ vlist (d_bg e) ++ vlist (d_ba e) ++
  (if ps_calib x then
     map (d_dw e) (seq 0 6) ++ map (d_da e) (seq 0 6) ++
     (if ps_gsens x then map (d_tg e) (seq 0 9) else []) ++ vlist (d_rot e)
   else []).
Definition err_vec (x : pst) (e : perr) : vec := fun i => nth i (err_list x e) 0.

(** three consecutive components *)
Definition rows3 (v : vec) (k : nat) : v3 := V3 (v k) (v (S k)) (v (S (S k))).

(** the curve of propagated means has error velocity [th], [p], [v] at s = 0: the orientation moves
    as exp(-s th) R to first order *)
Definition mean_velocity (n : R -> mean) (th p v : v3) : Prop :=
  m3_derive (fun s => quat_2_Rot (mn_q (n s))) 0 (m3mul (skew_x (v3neg th)) (quat_2_Rot (mn_q (n 0)))) /\
  v3_derive (fun s => mn_p (n s)) 0 p /\ v3_derive (fun s => mn_v (n s)) 0 v.

(** [F] is the derivative of the propagated mean with respect to the error state *)
Definition is_transition (x : pst) (meanf : pst -> mean) (F : mat) : Prop :=
  forall e, let y := mvec (err_dim x) F (err_vec x e) in
    mean_velocity (fun s => meanf (perturb x e s)) (rows3 y 0) (rows3 y 3) (rows3 y 6) /\
    (forall i, (9 <= i < err_dim x)%nat -> y i = err_vec x e i).

(** well-formed: unit quaternions; no first-estimate substitution in effect *)
Definition pst_ok (x : pst) : Prop :=
  unit_q (iv_q (ps_imu x)) /\ unit_q (ps_qw x) /\ unit_q (ps_qa x).
Definition fej_inactive (x : pst) : Prop := ps_dofej x = false \/ ps_fej x = ps_imu x.

(** the same reading with the sensor noise [n] removed by the true value: noise enters as in
    "true = measured - bias - noise" *)
Definition noisy (s : R) (nw na : v3) (m : imu) : imu := mkImu (i_t m) (v3sub (i_w m) (v3scal s nw)) (v3sub (i_a m) (v3scal s na)).

(** exact strap-down kinematics with constant body rate [w] and specific force [a] *)
Definition kinematics (w a g : v3) (Rs : R -> m3) (v p : R -> v3) : Prop :=
  forall t, m3_derive Rs t (m3mul (skew_x (v3neg w)) (Rs t)) /\
            v3_derive v t (v3sub (m3v (m3tr (Rs t)) a) g) /\ v3_derive p t (v t).

(** the rate is zero or large enough for the series switches of the helpers to be inactive *)
Definition regular_rate (dt : R) (w : v3) : Prop :=
  v3norm w = 0 \/
  (1 / 10 ^ 12 < v3norm w /\ dt * v3norm w < PI /\
   1 / 10 ^ 7 < 2 - 2 * cos (dt * v3norm w) /\ 1 / 10 ^ 10 <= 2 + 2 * cos (dt * v3norm w)).

(** stacked noise: gyroscope, accelerometer, their random walks *)
Definition nvec (nw na nbw nba : v3) : vec := fun i => nth i (vlist nw ++ vlist na ++ vlist nbw ++ vlist nba) 0.
(** the noise Jacobian has the derivative of the mean with respect to the reading noise *)
Definition is_noise_jac (x : pst) (meanf : imu -> imu -> mean) (m p : imu) (G : mat) : Prop :=
  forall nw na nbw nba, let y := mvec 12 G (nvec nw na nbw nba) in
    mean_velocity (fun s => meanf (noisy s nw na m) (noisy s nw na p)) (rows3 y 0) (rows3 y 3) (rows3 y 6) /\
    rows3 y 9 = v3scal (i_t p - i_t m) nbw /\ rows3 y 12 = v3scal (i_t p - i_t m) nba.


(** step-by-step prediction of a covariance and of an error vector over all intervals *)
Fixpoint cov_steps (F Qd : pst -> imu -> imu -> mat) (next : pst -> imu -> imu -> pst) (N : nat) (l : list imu) (x : pst) (P : mat) : mat :=
  match l with
  | m :: ((p :: _) as l') => cov_steps F Qd next N l' (next x m p) (madd (mmul N (mmul N (F x m p) P) (mtr (F x m p))) (Qd x m p))
  | _ => P
  end.
Fixpoint err_steps (F : pst -> imu -> imu -> mat) (next : pst -> imu -> imu -> pst) (N : nat) (l : list imu) (x : pst) (e : vec) : vec :=
  match l with
  | m :: ((p :: _) as l') => err_steps F next N l' (next x m p) (mvec N (F x m p) e)
  | _ => e
  end.
(** the readings' times increase *)
Fixpoint times_up (l : list imu) : Prop :=
  match l with
  | m :: ((p :: _) as l') => i_t m < i_t p /\ times_up l'
  | _ => True
  end.
(** motion without rotation: the specific force goes linearly from [a1] to [a2] over [dt] *)
Definition straight (Q : m3) (dt : R) (a1 a2 g : v3) (v p : R -> v3) : Prop :=
  forall t, v3_derive v t (v3sub (m3v (m3tr Q) (v3add a1 (v3scal (t / dt) (v3sub a2 a1)))) g) /\ v3_derive p t (v t).
(** a matrix undoing another *)
Definition inverse_of (D T : m3) : Prop := m3mul D T = m3id.
(** [H * d] for a 3 x n matrix given by its columns *)
Definition csum (n : nat) (H : cols) (d : vec) : v3 :=
  V3 (sumn n (fun j => vx (H j) * d j)) (sumn n (fun j => vy (H j) * d j)) (sumn n (fun j => vz (H j) * d j)).
(** rates above half a degree per second: outside the small-rate branch of compute_Xi_sum *)
Definition small_bound := 1 / 180 * PI / 2.
Definition fast_rate (dt : R) (w : v3) : Prop := small_bound < v3norm w /\ 1 / 10 ^ 6 < dt * v3norm w.
(** the shape of D under each intrinsic model *)
Definition triangular (m : imu_model) (D : m3) : Prop :=
  match m with KALIBR => m01 D = 0 /\ m02 D = 0 /\ m12 D = 0 | RPNG => m10 D = 0 /\ m20 D = 0 /\ m21 D = 0 end.
