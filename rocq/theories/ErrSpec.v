(** What errors and bounds along the axes should be. *)
From Coq Require Import Reals List ZArith.
From Verif Require Import GeoModel EvalModel EvalSpec JacSo3.
Import ListNotations.
Open Scope R_scope.

(** the rotation by the angle [a] about the unit axis [u] *)
Definition about (u : v3) (a : R) : m3 :=
  let K := skew_x u in m3add (m3add m3id (m3scal (sin a) K)) (m3scal (1 - cos a) (m3mul K K)).
(** the true attitude is the estimate turned in the body by [a] about [u] *)
Definition turned_body (e g : pose) (u : v3) (a : R) : Prop :=
  v3dot u u = 1 /\ 0 <= a <= PI /\ att g = m3mul (att e) (about u a).
(** yaw about z after pitch about y after roll about x *)
Definition about_x := about (V3 1 0 0).
Definition about_y := about (V3 0 1 0).
Definition about_z := about (V3 0 0 1).
Definition euler (v : v3) : m3 := m3mul (about_z (vz v)) (m3mul (about_y (vy v)) (about_x (vx v))).
(** [x] and [y] differ by full turns *)
Definition same_angle (x y : R) : Prop := exists k : Z, x = y + 2 * PI * IZR k.
Definition half_turn (x : R) : Prop := - PI <= x <= PI.
(** [A] carries rates of the angles at [v] to rates of the rotation in the body *)
Definition rates (v : v3) (A : m3) : Prop :=
  forall d, m3_derive (fun s => euler (v3add v (v3scal s d))) 0 (m3mul (euler v) (skew_x (m3v A d))).
(** [c] times the standard deviations of the covariance [P] *)
Definition sigmas (c : R) (P : m3) (b : list (option R)) : Prop :=
  Forall2 (fun x s => (x < 0 -> s = None) /\ (0 <= x -> exists y, s = Some (c * y) /\ 0 <= y /\ y * y = x)) [m00 P; m11 P; m22 P] b.
(** [P] carried over by the linear map [A] *)
Definition carried (A P : m3) : m3 := m3mul (m3mul A P) (m3tr A).
(** the squared length of [v] in the metric of [P]: [v . y] for the solution of [P y = v] *)
Definition normalized (P : m3) (v : v3) (x : R) : Prop := exists y, m3v P y = v /\ x = v3dot v y.
Definition positive (P : m3) : Prop := m3tr P = P /\ forall v, v <> v3zero -> 0 < v3dot v (m3v P v).

(** roll, pitch and yaw of an attitude, pitch within a quarter turn; nothing is asked at a vertical nose *)
Definition angles_of (A : m3) (v : v3) : Prop :=
  half_turn (vx v) /\ - (PI / 2) <= vy v <= PI / 2 /\ half_turn (vz v) /\ (1 / 10 ^ 12 < sqrt (m00 A * m00 A + m10 A * m10 A) -> euler v = A).
(** values in metres and degrees with three-sigma bounds: position in the world, rotation about the axes of the world
    (as twice the sine of half the angle), roll-pitch-yaw *)
Definition axis_errors (e g : pose) (co cp : option m3) (pos ori rpy : v3) (bp bo br : list (option R)) : Prop :=
  v3add (po_p e) pos = po_p g /\
  (exists u a, turned_body e g u a /\ ori = v3scal (180 / PI) (m3v (att e) (v3scal (2 * sin (a / 2)) u))) /\
  (exists ae ag d, angles_of (att e) ae /\ angles_of (att g) ag /\ rpy = v3scal (180 / PI) d /\
     half_turn (vx d) /\ half_turn (vy d) /\ half_turn (vz d) /\
     same_angle (vx ae + vx d) (vx ag) /\ same_angle (vy ae + vy d) (vy ag) /\ same_angle (vz ae + vz d) (vz ag) /\
     match co with
     | None => br = []
     | Some P => cos (vy ae) <> 0 -> exists A C, rates ae A /\ carried A C = P /\ sigmas (3 * 180 / PI) C br
     end) /\
  match co with None => bo = [] | Some P => sigmas (3 * 180 / PI) (carried (att e) P) bo end /\
  match cp with None => bp = [] | Some P => sigmas 3 P bp end.
(** normalized squared errors; a half turn is left out, and [k] is the angle up to the series of the logarithm *)
Definition nees (e g : pose) (co cp : m3) (xo xp : R) : Prop :=
  (exists u a k, turned_body e g u a /\ Rabs (k - a) <= 1 / 10 ^ 18 /\ normalized co (v3scal k u) xo) /\
  (exists d, v3add (po_p e) d = po_p g /\ normalized cp d xp).
