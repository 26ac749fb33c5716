(** The classical Runge-Kutta step, and a state carried over readings (C71, C72). *)
From Coq Require Import Reals List.
From Verif Require Import GeoModel GeoSpec Lin TypesModel ImuModel PropModel.
Import ListNotations.
Open Scope R_scope.

(** rotation since the start, velocity, position *)
Record ry := mkRy { ry_q : q4; ry_v : v3; ry_p : v3 }.
Definition ry_add (a b : ry) : ry :=
  mkRy (Q4 (qx (ry_q a) + qx (ry_q b)) (qy (ry_q a) + qy (ry_q b)) (qz (ry_q a) + qz (ry_q b)) (qw (ry_q a) + qw (ry_q b)))
       (v3add (ry_v a) (ry_v b)) (v3add (ry_p a) (ry_p b)).
Definition ry_scal (c : R) (a : ry) : ry :=
  mkRy (Q4 (c * qx (ry_q a)) (c * qy (ry_q a)) (c * qz (ry_q a)) (c * qw (ry_q a))) (v3scal c (ry_v a)) (v3scal c (ry_p a)).

(** y' = f t y from time 0 with step h: the tableau (0, 1/2, 1/2, 1; weights 1/6, 1/3, 1/3, 1/6), every stage projected by [pr] *)
Definition rk4_step (pr : ry -> ry) (f : R -> ry -> ry) (h : R) (y : ry) : ry :=
  let k1 := f 0 y in
  let k2 := f (h / 2) (pr (ry_add y (ry_scal (h / 2) k1))) in
  let k3 := f (h / 2) (pr (ry_add y (ry_scal (h / 2) k2))) in
  let k4 := f h (pr (ry_add y (ry_scal h k3))) in
  pr (ry_add y (ry_scal (h / 6) (ry_add k1 (ry_add (ry_scal 2 k2) (ry_add (ry_scal 2 k3) k4))))).
Definition unit_part (y : ry) : ry := mkRy (quatnorm (ry_q y)) (ry_v y) (ry_p y).
(** the strap-down equations with readings linear in time over [0, h]: dq' = 1/2 Omega(w) dq, v' = R^T a - g, p' = v *)
Definition ramp (h : R) (a b : v3) (t : R) : v3 := v3add a (v3scal (t / h) (v3sub b a)).
Definition strapdown (g : v3) (q0 : q4) (h : R) (w1 w2 a1 a2 : v3) (t : R) (y : ry) : ry :=
  let w := ramp h w1 w2 t in let d := Omega_mul w (ry_q y) in
  mkRy (Q4 (qx d / 2) (qy d / 2) (qz d / 2) (qw d / 2))
       (v3sub (m3v (m3tr (quat_2_Rot (quat_multiply (ry_q y) q0))) (ramp h a1 a2 t)) g) (ry_v y).

(** ** a state carried over the readings *)
(** everything that propagation has to leave alone *)
Definition same_params (x y : pst) : Prop :=
  ps_model y = ps_model x /\ ps_calib y = ps_calib x /\ ps_gsens y = ps_gsens x /\ ps_dofej y = ps_dofej x /\
  ps_dw y = ps_dw x /\ ps_da y = ps_da x /\ ps_tg y = ps_tg x /\ ps_qw y = ps_qw x /\ ps_qa y = ps_qa x /\
  iv_bg (ps_imu y) = iv_bg (ps_imu x) /\ iv_ba (ps_imu y) = iv_ba (ps_imu x).
(** over each pair of neighbouring readings the mean moves by the integration method, and the first estimates become the values *)
Inductive carried (meth : integration) (g : v3) : list imu -> pst -> pst -> Prop :=
| ca_none x : carried meth g [] x x
| ca_one m x : carried meth g [m] x x
| ca_next m p l x y z :
    same_params x y -> iv_q (ps_imu y) = mn_q (predict_mean meth g x m p) -> iv_v (ps_imu y) = mn_v (predict_mean meth g x m p) ->
    iv_p (ps_imu y) = mn_p (predict_mean meth g x m p) -> ps_fej y = ps_imu y ->
    carried meth g (p :: l) y z -> carried meth g (m :: p :: l) x z.
