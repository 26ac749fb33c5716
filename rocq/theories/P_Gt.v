(** C96: start from a known state (VioManagerHelper.cpp 40-62). *)
From Coq Require Import Reals List Arith ZArith Bool Lra.
From Verif Require Import RBool Outcome GeoModel GeoSpec Lin TypesModel StateModel StateSpec ReachModel ReachSpec StateInit StateEx DbModel DbSpec DbProofs DbProofs2 DbThms StartEx GtModel GtSpec GtProofs.
Import ListNotations.
Open Scope R_scope.

(** C96: a state whose IMU block is not correlated with the rest gets the given value and linearization point, the
    stated variances and time, everything else being kept, and the filter's invariants hold (so the covariance is
    positive semi-definite, C07) *)
Theorem C96_start chi2q st d t x : reach chi2q st -> uncorrelated (s_dim st) (s_cov st) (seq 0 15) -> db_ok d -> unit_q (iv_q x) ->
  exists st' d' imu, initialize_with_gt st d t x = Ok (st', d') /\ reach chi2q st' /\
    s_time st' = t /\ s_clones st' = s_clones st /\ s_slam st' = s_slam st /\ s_opts st' = s_opts st /\ s_dim st' = s_dim st /\
    In (TImu imu) (s_vars st') /\ io_ptr imu = s_imu st /\ io_val imu = x /\ io_fej imu = x /\
    (forall v, In v (s_vars st) -> ty_ptr v <> s_imu st -> In v (s_vars st')) /\
    (forall i j, (i < s_dim st)%nat -> (j < s_dim st)%nat -> s_cov st' i j = if (i <? 15)%nat && (j <? 15)%nat then (if Nat.eqb i j then nth i gt_sigma 0 ^ 2 else 0) else s_cov st i j) /\
    db_ok d' /\ cleaned (fun s => t < s) d d'.
Proof. exact (gt_thm chi2q st d t x). Qed.
Print Assumptions C96_start.

(** the constructor of the state leaves it so *)
Theorem C96_constructed o cams st : new_state o cams = Ok st -> uncorrelated (s_dim st) (s_cov st) (seq 0 15).
Proof. exact (new_uncorrelated o cams st). Qed.
Print Assumptions C96_constructed.

Example C96_ex : exists st, reach ex_chi2 st /\ uncorrelated (s_dim st) (s_cov st) (seq 0 15) /\ db_ok ex_db /\ unit_q (Q4 0 0 0 1).
Proof.
  destruct (new_state_ok ext_opts ex_cams) as (st & E & _). exists st. split; [|split; [exact (new_uncorrelated _ _ _ E)|split; [apply reach_ok, ex_db_reach|unfold unit_q; simpl; ring]]].
  eapply reach_new; [|exact E]. simpl. intros i Hi. assert (i = 0 \/ i = 1)%nat as [-> | ->] by Lia.lia; auto.
Qed.
