(** C58: fast_state_propagate. *)
From Coq Require Import Reals List Arith Bool Lra Lia.
From Verif Require Import Outcome RBool GeoModel GeoSpec Lin TypesModel StateSpec ImuModel ImuSpec PropModel PropSpec.
From Verif Require Import FastModel FastSpec FastProofs FastThms PropThms.
Import ListNotations.
Open Scope R_scope.

(** queries change nothing the filter uses: forgetting them leaves every run as it was, including how
    it ends; [view] and [prop] are any filter *)
Theorem C58_noninterference : forall (St : Type) ns g (view : St -> fview) (prop : St -> list imu -> R -> outcome St) s o cs,
  visible (run_calls ns g view prop (s, o) cs) = visible (run_calls ns g view prop (s, o) (filter not_query cs)).
Proof. exact @run_noninterference. Qed.
Print Assumptions C58_noninterference.

(** a query always returns *)
Theorem C58_returns : forall ns g data c x t, exists r, fast_query ns g data c x t = Ok r.
Proof. exact query_ok. Qed.
Print Assumptions C58_returns.

(** from the first query after an invalidation to the next invalidation, whatever else is called, the
    cache is the filter state at that first query carried over adjoining intervals *)
Theorem C58_replay : forall (St : Type) ns g (view : St -> fview) (prop : St -> list imu -> R -> outcome St) s o t cs s' o' outs,
  ca_valid (pr_cache o) = false -> forallb not_invalidate cs = true ->
  run_calls ns g view prop (s, o) (Query t :: cs) = Ok (s', o', outs) ->
  let c := pr_cache o' in
  replayed ns g (ps_imu (fv_pst (view s)), fv_cov (view s)) (fv_time (view s) + fv_toff (view s)) (ca_est c, ca_cov c) (ca_time c + ca_toff c).
Proof. exact @run_from_snapshot. Qed.
Print Assumptions C58_replay.

(** the readings of one such interval go from one end to the other *)
Theorem C58_interval : forall data t0 t1, chrono data -> t0 < t1 -> covers data t0 t1 ->
  (exists r0 r1, i_t r0 = t0 /\ i_t r1 = t1 /\ spaced (1 / 10 ^ 12) (r0 :: inside t0 t1 data ++ [r1])) ->
  exists l, select_imu_readings data t0 t1 = Ok l /\ first_at l t0 /\ last_at l t1 /\ times_up l /\ (2 <= length l)%nat /\ durations l = t1 - t0.
Proof. exact covered_run. Qed.
Print Assumptions C58_interval.

(** the answer is the filter's own prediction over the same readings; with an ideal sensor model also
    the covariance *)
Theorem C58_answer : forall ns g data c x t l, ca_valid c = false -> pst_ok (fv_pst x) ->
  select_imu_readings data (fv_time x + fv_toff x) (t + fv_toff x) = Ok l -> (2 <= length l)%nat -> times_up l -> rates exact_rate (fv_pst x) l ->
  let '(x', Phi, Q) := prop_sum DISCRETE ns g (fv_pst x) l in
  exists c' o, fast_query ns g data c x t = Ok (c', Some o) /\
    unit_q (pl_q o) /\ quat_2_Rot (pl_q o) = quat_2_Rot (iv_q (ps_imu x')) /\ pl_p o = iv_p (ps_imu x') /\
    pl_v o = m3v (quat_2_Rot (iv_q (ps_imu x'))) (iv_v (ps_imu x')) /\ pl_w o = last_w x' l /\
    ca_time c' + ca_toff c' = t + fv_toff x /\
    (plain (fv_pst x) -> fej_inactive (fv_pst x) -> rates regular_rate (fv_pst x) l ->
       meq 15 15 (ca_cov c') (madd (congr 15 Phi (fv_cov x)) Q)).
Proof. exact first_answer. Qed.
Print Assumptions C58_answer.

(** covariances stay symmetric and positive semi-definite while time goes forward *)
Theorem C58_psd : forall ns g data c x t l,
  let c0 := if ca_valid c then c else mkCache true (fv_time x) (ps_imu (fv_pst x)) (fv_cov x) (fv_toff x) in
  select_imu_readings data (ca_time c0 + ca_toff c0) (t + ca_toff c0) = Ok l -> (2 <= length l)%nat -> times_up l -> spsd 15 (ca_cov c0) ->
  exists c' o, fast_query ns g data c x t = Ok (c', Some o) /\ spsd 15 (ca_cov c') /\ spsd 12 (pl_cov o).
Proof. exact query_spsd. Qed.
Print Assumptions C58_psd.

(** which time an answer is for: the first one reads [t] as camera time, the later ones as IMU time *)
Theorem C58_clock : forall ns g data c x t c' o, fast_query ns g data c x t = Ok (c', Some o) ->
  ca_valid c' = true /\ ca_toff c' = 0 /\ ca_time c' = t + (if ca_valid c then ca_toff c else fv_toff x).
Proof. exact query_time. Qed.
Print Assumptions C58_clock.
Theorem C58_no_answer : forall ns g data c x t c', fast_query ns g data c x t = Ok (c', None) ->
  c' = if ca_valid c then c else mkCache true (fv_time x) (ps_imu (fv_pst x)) (fv_cov x) (fv_toff x).
Proof. exact query_fail. Qed.
Print Assumptions C58_no_answer.

(** so a query at a later IMU time than the state's can go backwards in time, with negative variances *)
Theorem C58_backwards_refuted : exists ns g data c x t c' o,
  chrono data /\ ca_valid c = false /\ pst_ok (fv_pst x) /\ spsd 15 (fv_cov x) /\
  fv_time x + fv_toff x < t /\ covers data (fv_time x + fv_toff x) t /\
  fast_query ns g data c x t = Ok (c', Some o) /\
  ca_time c' + ca_toff c' < fv_time x + fv_toff x /\ pl_cov o 9%nat 9%nat < 0 /\ ~ spsd 15 (ca_cov c').
Proof. exact backwards_refuted. Qed.
Print Assumptions C58_backwards_refuted.

(** with a scaled gyroscope the transition matrix is not the filter's, which is the right one *)
Theorem C58_intrinsics_refuted : exists g x m p, pst_ok x /\ fej_inactive x /\ ps_calib x = false /\ 0 < i_t p - i_t m /\
  regular_rate (i_t p - i_t m) (c_wavg (correct x m p)) /\
  is_transition x (fun z => predict_mean DISCRETE g z m p) (predict_F DISCRETE g x m p) /\
  ~ meq 15 15 (fast_F (quat_2_Rot (iv_q (ps_imu x))) (c_aavg (correct x m p)) (c_wavg (correct x m p)) (i_t p - i_t m)) (predict_F DISCRETE g x m p).
Proof. exact intrinsics_refuted. Qed.
Print Assumptions C58_intrinsics_refuted.

(** the covariance of the IMU-frame velocity leaves out the orientation error, unless at rest *)
Theorem C58_local_velocity : forall q v, unit_q q -> (local_ok q v <-> v = v3zero).
Proof. exact local_ok_iff. Qed.
Print Assumptions C58_local_velocity.
Theorem C58_local_velocity_refuted : exists q v, unit_q q /\ ~ local_ok q v.
Proof.
  exists (Q4 0 0 0 1), (V3 1 0 0). assert (U : unit_q (Q4 0 0 0 1)) by (unfold unit_q; simpl; lra).
  split; [exact U|]. intros H. apply local_ok_iff in H; [|exact U]. injection H as H. lra.
Qed.
Print Assumptions C58_local_velocity_refuted.

(** the hypotheses are met: four readings at rest, a query two seconds on *)
Example C58_example : exists l, select_imu_readings still4 (fv_time on_time + fv_toff on_time) (2 + fv_toff on_time) = Ok l /\
  (2 <= length l)%nat /\ times_up l /\ durations l = 2 /\ pst_ok (fv_pst on_time) /\ plain (fv_pst on_time) /\ fej_inactive (fv_pst on_time) /\
  spsd 15 (fv_cov on_time).
Proof.
  destruct still_run as (l & E & _ & _ & T & N & D). exists l. split; [exact E|]. split; [exact N|]. split; [exact T|]. split; [exact D|].
  split; [apply rest_ok|]. split; [apply rest_plain|]. split; [left; reflexivity|apply mid_spsd].
Qed.
Example C58_rates : forall s t u, rates exact_rate (fv_pst on_time) [still s; still t; still u] /\ rates regular_rate (fv_pst on_time) [still s; still t; still u].
Proof.
  intros s t u. split; apply rest_rates.
  1,3: intros dt; left; apply v3norm_0.
  all: intros m Hm; repeat destruct Hm as [<-|Hm]; try (split; reflexivity); destruct Hm.
Qed.
