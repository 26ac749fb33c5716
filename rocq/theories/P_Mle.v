(** C92, C93: the least-squares problem of the dynamic initializer and what it hands over. *)
From Coq Require Import Reals List ZArith Sorted.
From Verif Require Import RBool Outcome GeoModel GeoSpec Lin StateSpec ImuModel ImuSpec DbModel DbSpec InitModel StartModel StartSpec CeresModel CeresSpec DynModel DynSpec DynEx MleModel MleSpec MleBuild MleZero MleHand MleEx.
Import ListNotations.
Open Scope R_scope.

Theorem C92_problem : forall F L o d0 data0 d data gu, let y := mo_y o in db_ok d0 -> 0 < yo_window y -> (0 <= yo_npose y)%Z -> chrono data0 -> cams_known y d -> ints_known o d ->
  dynamic_guess L y d0 data0 = Ok (Some gu, d, data) -> priors_ok F -> spans_ok F y data (map ptime (gu_poses gu)) ->
  exists tn pr, newest d0 tn /\ assemble F o d data tn gu = Ok pr /\ In tn (pr_times pr) /\ built F o d data gu pr.
Proof. exact built_thm. Qed.
Print Assumptions C92_problem.
Example C92_problem_ex : db_ok exy_db /\ 0 < yo_window exy_o /\ (0 <= yo_npose exy_o)%Z /\ chrono exy_data /\ cams_known exy_o exy_cut /\ ints_known exm_o exy_cut /\
  (exists L gu, dynamic_guess L exy_o exy_db exy_data = Ok (Some gu, exy_cut, exm_data)) /\ priors_ok exm_F /\ forall P, spans_ok exm_F exy_o exm_data P.
Proof.
  split; [apply exy_dbok|]. split; [apply exy_win|]. split; [apply exy_np|]. split; [cbn; repeat split; intros b H; repeat (destruct H as [<-|H]; [cbn; Lra.lra|]); destruct H|].
  split; [apply exy_known|]. split; [apply exm_ints|]. split; [apply exy_guess|]. split; [apply exm_priors|apply exm_spans].
Qed.

Theorem C92_zero : forall F o d data gu pr A, built F o d data gu pr -> priors_ok F -> spans_ok F (mo_y o) data (map ptime (gu_poses gu)) ->
  steady (mo_y o) data (map ptime (gu_poses gu)) -> mo_sigma o <> 0 -> values o gu pr A ->
  exists c, cost pr A = Ok c /\ 0 <= c /\ (c = 0 <-> fits o d data gu pr A).
Proof. exact zero_thm. Qed.
Print Assumptions C92_zero.
Theorem C92_truth : forall F o d data gu pr A, built F o d data gu pr -> priors_ok F -> spans_ok F (mo_y o) data (map ptime (gu_poses gu)) ->
  steady (mo_y o) data (map ptime (gu_poses gu)) -> mo_sigma o <> 0 -> values o gu pr A -> truth o d data gu pr A ->
  cost pr A = Ok 0 /\ forall A', values o gu pr A' -> exists c, cost pr A' = Ok c /\ 0 <= c.
Proof. exact truth_thm. Qed.
Print Assumptions C92_truth.
(** a problem with the true values, and other values of positive cost *)
Example C92_zero_ex : exists pr, built exm_F exm_o exy_cut exm_data exm_gu pr /\ steady exy_o exm_data [3; 4] /\ values exm_o exm_gu pr (exm_A pr (V3 0 0 4)) /\ truth exm_o exy_cut exm_data exm_gu pr (exm_A pr (V3 0 0 4)) /\
  cost pr (exm_A pr (V3 0 0 4)) = Ok 0 /\ exists c, cost pr (exm_A pr (V3 4 0 4)) = Ok c /\ 0 < c.
Proof.
  destruct exm_cost as (pr & B & C). exists pr. split; [exact B|]. split; [apply exm_steady|]. split; [apply exm_values, B|]. split; [apply exm_truth, B|exact C].
Qed.

Theorem C93_cov : forall o B C, sym 15 C -> blocks_of C B -> meq 15 15 (cov_out o B) (inflated o C).
Proof. exact cov_entries. Qed.
Print Assumptions C93_cov.
Theorem C93_psd : forall o B C, spsd 15 C -> blocks_of C B -> (forall a, 1 <= inflation o a) -> spsd 15 (cov_out o B).
Proof. exact cov_psd. Qed.
Print Assumptions C93_psd.
Example C93_psd_ex : spsd 15 exh_C /\ blocks_of exh_C exh_B /\ forall a, 1 <= inflation exh_o a.
Proof. split; [apply exh_spsd|]. split; [apply exh_blocks|apply defaults_inflate]. Qed.
Theorem C93_shrink_refuted : exists o B C, spsd 15 C /\ blocks_of C B /\ (forall a, 0 < inflation o a) /\ ~ psd 15 (cov_out o B).
Proof. exact shrink_refuted. Qed.
Print Assumptions C93_shrink_refuted.
Theorem C93_defined : forall o pr tn A conv cov old, In tn (pr_times pr) -> length (as_x A) = length (pr_times pr) -> exists r h, finish o pr tn A conv cov old = Ok (r, h).
Proof. exact finish_total. Qed.
Print Assumptions C93_defined.
Theorem C93_state : forall o pr tn A conv cov old r h, finish o pr tn A conv cov old = Ok (r, h) ->
  (r = None /\ h = old /\ mo_no_iter o = false /\ conv = false) \/
  exists i x, nth_error (pr_times pr) i = Some tn /\ nth_error (as_x A) i = Some x /\ hd_clones h = combine (pr_times pr) (map (fun y => (cl_q y, cl_p y)) (as_x A)) /\ hd_feats h = combine (pr_fids pr) (as_f A) /\
    ((r = None /\ cov i = None /\ hd_imu h = x) \/
     exists B, cov i = Some B /\ r = Some (cov_out o B) /\ cl_q (hd_imu h) = cl_q x /\ cl_bg (hd_imu h) = cl_bg x /\ cl_v (hd_imu h) = cl_v x /\ cl_ba (hd_imu h) = cl_ba x /\ cl_p (hd_imu h) = v3zero).
Proof. exact finish_spec. Qed.
Print Assumptions C93_state.
(** a call that returns false has already replaced the IMU state it was given *)
Theorem C93_untouched_refuted : exists F o d data gu pr tn A cov old h, built F o d data gu pr /\ values o gu pr A /\ finish o pr tn A true cov old = Ok (None, h) /\ hd_imu h <> hd_imu old.
Proof. destruct late_failure as (pr & h & H). exists exm_F, exm_o, exy_cut, exm_data, exm_gu, pr, 4, (exm_A5 pr), (fun _ => None), exm_old, h. exact H. Qed.
Print Assumptions C93_untouched_refuted.
(** the position of the returned IMU state is not that of the clone of the same time *)
Theorem C93_position_refuted : exists F o d data gu pr tn A B C old P h p, built F o d data gu pr /\ values o gu pr A /\ spsd 15 C /\ blocks_of C B /\
  finish o pr tn A true (fun _ => Some B) old = Ok (Some P, h) /\ In (tn, (cl_q (hd_imu h), p)) (hd_clones h) /\ p <> cl_p (hd_imu h).
Proof.
  destruct zeroed as (pr & h & P & p & H1 & H2 & H). exists exm_F, exm_o, exy_cut, exm_data, exm_gu, pr, 4, (exm_A5 pr), exh_B, exh_C, exm_old, P, h, p.
  split; [exact H1|]. split; [exact H2|]. split; [apply exh_spsd|]. split; [apply exh_blocks|exact H].
Qed.
Print Assumptions C93_position_refuted.
