(** Specification of the zero-velocity update (C53, C76); the objects and calls of the updater do not
    appear here. *)
From Coq Require Import Reals List Arith ZArith Bool.
From Verif Require Import RBool Outcome Lin GeoModel GeoSpec TypesModel GivensModel StateModel StateSpec ImuModel PropModel PropSpec
  ReachModel Calc3 ManifoldSpec.
Import ListNotations.
Open Scope R_scope.

(** what an inertial sensor at rest reads, after correction: turn rate and specific force minus gravity,
    both expected to be zero.  [q], [bg], [ba]: orientation and biases. *)
Definition rest_rate (x : pst) (bg ba : v3) (m : imu) : v3 :=
  m3v (quat_2_Rot (ps_qw x)) (m3v (Dm (ps_model x) (ps_dw x))
    (v3sub (v3sub (i_w m) bg) (m3v (Tg_of (ps_tg x)) (m3v (quat_2_Rot (ps_qa x)) (m3v (Dm (ps_model x) (ps_da x)) (v3sub (i_a m) ba)))))).
Definition rest_force (x : pst) (Rq : m3) (ba : v3) (grav : R) (m : imu) : v3 :=
  v3sub (m3v (quat_2_Rot (ps_qa x)) (m3v (Dm (ps_model x) (ps_da x)) (v3sub (i_a m) ba))) (m3v Rq (V3 0 0 grav)).

(** The whitened stack: six rows per interval between readings, residual minus the weighted rest
    condition, Jacobian [0 -I 0; -[R g]x 0 -I] with rows weighted by sqrt(dt)/sigma.  [Rq], [Rl]: current
    orientation and the one linearized at. *)
Definition rest_jac (Rl : m3) (grav : R) : mat := fun r c =>
  if (r <? 3)%nat then if Nat.eqb c (r + 3) then -1 else 0
  else if (c <? 3)%nat then - vnth (mrow (skew_x (m3v Rl (V3 0 0 grav))) (r - 3)) c
       else if Nat.eqb c (r + 3) then -1 else 0.
Definition weight (ns : noises) (dt : R) (r : nat) : R := sqrt dt / (if (r <? 3)%nat then sigma_w ns else sigma_a ns).
Definition rest_stack (ns : noises) (grav : R) (x : pst) (Rq Rl : m3) (bg ba : v3) (l : list imu) (H : mat) (res : vec) : Prop :=
  forall i m p r, nth_error l i = Some m -> nth_error l (S i) = Some p -> (r < 6)%nat ->
    let w := weight ns (i_t p - i_t m) r in
    (forall c, (c < 9)%nat -> H (6 * i + r)%nat c = w * rest_jac Rl grav r c) /\
    res (6 * i + r)%nat = - (w * (if (r <? 3)%nat then vnth (rest_rate x bg ba m) r else vnth (rest_force x Rq ba grav m) (r - 3))).

(** the rows of [rest_jac] are the derivatives of the rest conditions *)
Definition rest_jac_exact (x : pst) (q : q4) (bg ba : v3) (grav : R) (m : imu) : Prop := forall th dbg dba,
  let e : vec := fun c => nth c (vlist th ++ vlist dbg ++ vlist dba) 0 in
  let J := mvec 9 (rest_jac (quat_2_Rot q) grav) e in
  v3_derive (fun s => rest_rate x (shift s dbg bg) (shift s dba ba) m) 0 (rows3 J 0) /\
  v3_derive (fun s => rest_force x (quat_2_Rot (turn s th q)) (shift s dba ba) grav m) 0 (rows3 J 3).

(** random walk of the biases over [T] seconds, on the whole state *)
Definition bias_walk (ns : noises) (T : R) : mat := fun i j =>
  if Nat.eqb i j then
    if ((9 <=? i) && (i <? 12))%nat%bool then T * sigma_wb ns ^ 2
    else if ((12 <=? i) && (i <? 15))%nat%bool then T * sigma_ab ns ^ 2 else 0
  else 0.
(** orientation, gyroscope bias, accelerometer bias *)
Definition rest_idx : list nat := [0; 1; 2; 9; 10; 11; 12; 13; 14]%nat.

(** only values and covariance entries differ *)
Definition same_shape (a b : state) : Prop :=
  s_opts b = s_opts a /\ s_dim b = s_dim a /\ s_next b = s_next a /\ s_imu b = s_imu a /\ s_dt b = s_dt a /\
  s_clones b = s_clones a /\ s_slam b = s_slam a /\ s_cintr b = s_cintr a /\
  map ty_ptrs (s_vars b) = map ty_ptrs (s_vars a) /\ map ty_id (s_vars b) = map ty_id (s_vars a).

(** readings in order *)
Fixpoint nondecreasing (l : list imu) : Prop :=
  match l with
  | a :: ((b :: _) as l') => i_t a <= i_t b /\ nondecreasing l'
  | _ => True
  end.

(** the Kalman update from prior covariance [C0] with the stack (H, res) of [m] rows over orientation and
    biases and noise [sig] I, written over the whole state *)
Definition rest_update (st : state) (C0 : mat) (m : nat) (H : mat) (res : vec) (sig : R) (st' : state) : Prop :=
  let n := s_dim st in
  let Hf := widen rest_idx H in
  let S := madd (congr n Hf C0) (mscal sig mid) in
  pd m S /\
  exists K, meq n m (mmul m K S) (mmul n C0 (mtr Hf)) /\
    meq n n (s_cov st') (msub C0 (congr m K S)) /\
    Forall2 (applied (mvec m K res)) (s_vars st) (s_vars st').
(** enough features with little motion in the image *)
Definition image_still (dmax : R) (s : option R * option R * nat) : Prop :=
  exists a v n, s = (Some a, v, n) /\ a < dmax /\ (20 < n)%nat.
