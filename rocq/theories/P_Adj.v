(** C112: consecutive propagations use adjoining stretches of the IMU clock. *)
From Coq Require Import Reals List Arith Bool.
From Verif Require Import Outcome GeoModel Lin ImuModel ImuSpec PropModel FastModel FastThms AdjSpec AdjProofs.
Import ListNotations.
Open Scope R_scope.

(** whatever is fed, queried or estimated between propagations (also when the clock offset changes),
    each propagation starts at the IMU time at which the one before ended *)
Theorem C112_adjoin : forall {St : Type} ns g (view : St -> fview) prop, (forall s l t s', prop s l t = Ok s' -> fv_time (view s') = t) ->
  forall cs s o s' o' outs, Forall (keeps_time view) cs -> (pr_have o = true \/ exists t cs', cs = Propagate t :: cs') ->
  run_calls ns g view prop (s, o) cs = Ok ((s', o'), outs) ->
  exists H, history ns g view prop (s, o) cs H (s', o') /\
    adjoin (fv_time (view s) + if pr_have o then pr_last o else fv_toff (view s)) H (fv_time (view s') + pr_last o') /\
    length H = length (filter (fun c => match c with Propagate _ => true | _ => false end) cs).
Proof. exact @adjoin_run. Qed.
Print Assumptions C112_adjoin.

(** so the time integrated over a whole run is the time between its ends *)
Theorem C112_total : forall {St : Type} ns g (view : St -> fview) prop cs s o s' o' outs, (forall s l t s', prop s l t = Ok s' -> fv_time (view s') = t) ->
  Forall (keeps_time view) cs -> (pr_have o = true \/ exists t cs', cs = Propagate t :: cs') ->
  run_calls ns g view prop (s, o) cs = Ok ((s', o'), outs) ->
  exists H, history ns g view prop (s, o) cs H (s', o') /\
    (Forall covered H -> used H = (fv_time (view s') + pr_last o') - (fv_time (view s) + if pr_have o then pr_last o else fv_toff (view s))).
Proof. exact @total_run. Qed.
Print Assumptions C112_total.

(** a zero velocity update moves the time of the state (UpdaterZeroVelocity.cpp 277) but not the offset kept by
    the propagator: it used the readings up to 2 + 1/100, the next propagation starts at 2 *)
Theorem C112_zero_velocity_refuted : forall c, exists s2 o2 s3 o3 l1 l2 outs,
  run_calls unit_noise v3zero bview bprop (start0, fresh_prop c) [Propagate 1; Change (set_offset (1 / 100)); Change (set_time 2)] = Ok ((s2, o2), outs) /\
  do_call unit_noise v3zero bview bprop (s2, o2) (Propagate 3) = Ok ((s3, o3), None) /\ snd s3 = [l1; l2] /\
  first_at l2 2 /\ fv_time (bview s2) + fv_toff (bview s2) = 2 + 1 / 100.
Proof. exact zv_stale. Qed.
Print Assumptions C112_zero_velocity_refuted.

(** a run meeting the hypotheses, with a change of the offset between two propagations *)
Example C112_ex : forall c, (forall s l t s', bprop s l t = Ok s' -> fv_time (bview s') = t) /\ Forall (keeps_time bview) turn_calls /\
  exists s' o' outs, run_calls unit_noise v3zero bview bprop (start0, fresh_prop c) turn_calls = Ok ((s', o'), outs) /\ fv_time (bview s') = 2 /\ pr_last o' = 1 / 100.
Proof. intros c. split; [exact bprop_time|]. split; [exact turn_keeps|]. exact (turn_runs c). Qed.
