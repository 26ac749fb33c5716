(** What the fast propagation property means (C58). *)
From Coq Require Import Reals List Arith Bool.
From Coquelicot Require Import Coquelicot.
From Verif Require Import Outcome GeoModel JacSo3 Calc3 Lin TypesModel StateSpec ImuModel ImuSpec PropModel PropSpec FastModel.
Import ListNotations.
Open Scope R_scope.

(** the same orientation, position, velocity and biases (the sign of a quaternion is immaterial) *)
Definition same_est (e i : ival) : Prop :=
  quat_2_Rot (iv_q e) = quat_2_Rot (iv_q i) /\ iv_p e = iv_p i /\ iv_v e = iv_v i /\ iv_bg e = iv_bg i /\ iv_ba e = iv_ba i.
(** every interval's mean rate satisfies [P] *)
Fixpoint rates (P : R -> v3 -> Prop) (x : pst) (l : list imu) : Prop :=
  match l with
  | m :: ((p :: _) as l') => P (i_t p - i_t m) (c_wavg (correct x m p)) /\ rates P x l'
  | _ => True
  end.
(** the rate is zero or outside the series switches of the mean *)
Definition exact_rate (dt : R) (w : v3) : Prop :=
  v3norm w = 0 \/ (1 / 10 ^ 12 < v3norm w /\ 1 / 10 ^ 7 <= dt * v3norm w).
(** an ideal sensor model: unit scale, no misalignment, no gravity sensitivity, not being calibrated *)
Definition plain (x : pst) : Prop :=
  Dm (ps_model x) (ps_dw x) = m3id /\ Dm (ps_model x) (ps_da x) = m3id /\ Tg_of (ps_tg x) = M3 0 0 0 0 0 0 0 0 0 /\
  quat_2_Rot (ps_qw x) = m3id /\ quat_2_Rot (ps_qa x) = m3id /\ ps_calib x = false.

(** an estimate reached from [s], valid at IMU time [a], by runs of readings over adjoining intervals, ending at [b] *)
Inductive replayed (ns : noises) (g : v3) (s : ival * mat) (a : R) : ival * mat -> R -> Prop :=
  | rp_start : replayed ns g s a s a
  | rp_more s' b x data l c : replayed ns g s a s' b -> select_imu_readings data b c = Ok l -> (2 <= length l)%nat ->
      replayed ns g s a (fast_steps ns g x l s') c.

(** the calls other than queries *)
Definition not_query {St} (c : call St) : bool := match c with Query _ => false | _ => true end.
Definition not_invalidate {St} (c : call St) : bool := match c with Invalidate => false | _ => true end.
(** all fields of the propagator but the cache *)
Definition same_but_cache (o o' : propobj) : Prop := pr_data o = pr_data o' /\ pr_last o = pr_last o' /\ pr_have o = pr_have o'.
(** what is left of a run when the cache and the answers are forgotten *)
Definition visible {St} (r : outcome (St * propobj * list (option plus))) : outcome (St * list imu * R * bool) :=
  match r with
  | Ok (s, o, _) => Ok (s, pr_data o, pr_last o, pr_have o)
  | Exit => Exit
  | UB => UB
  end.

(** an error of orientation, position and velocity *)
Definition pv_err (th dp dv : v3) : vec := fun i => nth i (vlist th ++ vlist dp ++ vlist dv) 0.
(** the velocity rows of Phi are the derivative of the reported, IMU-frame velocity R(q) v *)
Definition local_ok (q : q4) (v : v3) : Prop := forall th dp dv,
  v3_derive (fun s => m3v (quat_2_Rot (turn s th q)) (v3add v (v3scal s dv))) 0 (rows3 (mvec 15 (local_Phi q) (pv_err th dp dv)) 6).
