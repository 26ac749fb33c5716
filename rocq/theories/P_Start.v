(** C65: which initializer runs.  C81: the images that arrive while it runs. *)
From Coq Require Import Reals List Arith ZArith Bool.
From Verif Require Import RBool Outcome GeoModel TypesModel StateModel ReachModel ReachSpec ImuModel DbModel DbSpec InitModel InitSpec StateEx StartModel StartSpec StartThms StartEx.
Import ListNotations.
Open Scope R_scope.

(** Nothing happens before there is a window of images.  Then both buffers are cut to the window; with too few tracks the
    attempt ends; otherwise the static initializer runs after a jerk that was waited for, or at rest when none is
    waited for, and the dynamic one (if enabled) in every other case with motion. *)
Theorem C65_dispatch : forall A (o : dopts) (dyn : db -> list imu -> outcome (option A)) d data wait v d' data', db_ok d -> strictly_chron d ->
  inertial_initialize o dyn d data wait = Ok (v, d', data') -> dispatched o dyn d data wait v d' data'.
Proof. exact @dispatch_thm. Qed.
Print Assumptions C65_dispatch.
(** The dispatch itself never fails: it returns whenever the initializers do. *)
Theorem C65_returns : forall A (o : dopts) (dyn : db -> list imu -> outcome (option A)) d data wait, db_ok d -> strictly_chron d ->
  (forall old data', data = old ++ data' -> exists r, static_initialize (do_stat o) data' wait = Ok r) -> (forall d' data', exists r, dyn d' data' = Ok r) ->
  exists r, inertial_initialize o dyn d data wait = Ok r.
Proof. exact @dispatch_defined. Qed.
Print Assumptions C65_returns.
(** The comment "If disparity is zero or negative we will always use the static initializer" (106) does not hold: with
    wait_for_jerk no initializer ever runs. *)
Theorem C65_never_without_threshold : forall A (o : dopts) (dyn : db -> list imu -> outcome (option A)) d data v d' data', do_disp o <= 0 ->
  inertial_initialize o dyn d data true = Ok (v, d', data') -> v = VWait \/ v = VNone.
Proof. exact @never_thm. Qed.
Print Assumptions C65_never_without_threshold.

(** fifteen tracks with a jerk between 3.2 and 3.8 *)
Example C65_ex : db_ok exj_db /\ strictly_chron exj_db /\ forall data,
  inertial_initialize (A := nat) (exj_opts true) (fun _ _ => Ok (Some 7%nat)) exj_db data false = Ok (VDyn (Some 7%nat), exj_cut, drop_before (19 / 10) data) /\
  inertial_initialize (A := nat) (exj_opts true) (fun _ _ => Ok (Some 7%nat)) exj_db [mkImu 0 v3zero v3zero] true = Ok (VStatic None, exj_cut, []).
Proof. destruct exj_ok. auto using exj_runs. Qed.

(** Moving the fresh state over the queued images succeeds: clones at evenly picked images, at most the window's size,
    the first one newer than the state always and all of them if they fit; the state is one of the filter's. *)
Theorem C81_forward : forall chi2q pin queue ts st, pin_ok pin -> fresh chi2q ts st -> increasing queue ->
  exists st' l, forward pin queue ts st = Ok st' /\ filter_state chi2q st' /\ picked queue ts (o_max_clones (s_opts st)) l /\
    map fst (s_clones st') = l /\ s_time st' = last l ts /\ s_opts st' = s_opts st.
Proof. exact forward_thm. Qed.
Print Assumptions C81_forward.
(** Whatever the interleaving of the two threads: the program never ends, try_to_initialize answers true exactly when
    the thread succeeded and has stopped, and then the clones are at times of received images. *)
Theorem C81_interleaved : forall chi2q pin st0 l, pin_ok pin -> orderly chi2q false false false l -> increasing (msg_times l) ->
  exists s', truns pin (mkTI false false false [] st0) l = Ok (answers false false false l, s') /\ started chi2q (msg_times l) s'.
Proof. exact interleaved_thm. Qed.
Print Assumptions C81_interleaved.
(** The order of the images matters: one that is not newer than the one queued before it ends the program. *)
Theorem C81_unordered_exits : forall chi2q pin ts st t t', pin_ok pin -> fresh chi2q ts st -> (3 <= o_max_clones (s_opts st))%Z -> ts < t' -> t' <= t ->
  forward pin [t; t'] ts st = Exit.
Proof. exact repeat_thm. Qed.
Print Assumptions C81_unordered_exits.

(** four images, one of them as old as the state, and a window of two *)
Example C81_ex : pin_ok ext_pin /\ exists st st', fresh ex_chi2 (s_time st) st /\ increasing [s_time st; s_time st + 1; s_time st + 2; s_time st + 3] /\
  forward ext_pin [s_time st; s_time st + 1; s_time st + 2; s_time st + 3] (s_time st) st = Ok st' /\
  map fst (s_clones st') = [s_time st + 1; s_time st + 3].
Proof. split; [exact ext_pin_ok|exact ext_forward]. Qed.
Example C81_ex_run : exists st, orderly ex_chi2 false false false (ext_events (s_time st) st) /\ increasing (msg_times (ext_events (s_time st) st)) /\
  answers false false false (ext_events (s_time st) st) = [Some false; Some false; Some false; Some false; None; Some false; None; Some true].
Proof. exact ext_run. Qed.
