(** C78: noise and gate in delayed initialization; tag corners. *)
From Coq Require Import Reals List Arith ZArith Bool.
From Verif Require Import RBool Outcome Lin GeoModel TypesModel GivensModel StateModel ReachModel ReachSpec StateEx DbModel DbSpec TrackModel UpdModel UpdSpec UpdEx TagSpec TagThms TagEx.
Import ListNotations.
Open Scope R_scope.

(** Delayed initialization calls initialize for exactly the prepared tracks, in the order handed in, each linearized at the state left by its predecessors, with the noise and the gate of its id. *)
Theorem C78_delayed_calls : forall chi2q so single lm_val tri jac st d ids st' d' kept, db_ok d -> handed d ids ->
  delayed_init chi2q so single lm_val tri jac st d ids = Ok (st', d', kept) ->
  exists p, (forall id f, In id ids -> alook d id = Some f -> (p id = true <-> exists g, prepared st tri f g)) /\
    init_run chi2q so single lm_val jac (fun id g => exists f, alook d id = Some f /\ prepared st tri f g) st (filter p ids) st' kept.
Proof. exact delayed_run. Qed.
Print Assumptions C78_delayed_calls.
(** Only the first corner of the tags below the maximum gets the options of tags; the other three corners, and every corner of the tag with the maximal id, get those of ordinary landmarks. *)
Theorem C78_corner_options : forall so st M tag n sig mult, o_max_aruco (s_opts st) = Z.of_nat M -> (tag <= M)%nat -> (0 < M)%nat ->
  slam_noise so st (aruco_id M tag n) sig mult ->
  ((tag < M /\ n = 0)%nat -> sig = so_sig_aruco so /\ mult = so_mult_aruco so) /\
  ((0 < n)%nat \/ tag = M -> sig = so_sig_slam so /\ mult = so_mult_slam so).
Proof. exact corner_noise. Qed.
Print Assumptions C78_corner_options.
(** so "the corners of tags get the noise of tags" is false *)
Theorem C78_tag_noise_refuted : exists chi2q st o und s t fr cam tags s' so id sig mult,
  reach chi2q st /\ o_max_aruco (s_opts st) = Z.of_nat (ko_aruco o) /\
  aruco_track o und s t fr cam tags = Ok s' /\ In id (aget (k_ids s') cam) /\
  slam_noise so st id sig mult /\ sig <> so_sig_aruco so.
Proof. exact tag_refuted. Qed.
Print Assumptions C78_tag_noise_refuted.

Example C78_ex : exists st t, reach ex_chi2 st /\ db_ok (exu_db t) /\ handed (exu_db t) [5%nat] /\
  exists st' d' kept, delayed_init ex_chi2 exu_so (fun _ => false) (fun _ => [1; 2; 3]) exu_tri exu_jac st (exu_db t) [5%nat] = Ok (st', d', kept) /\
  exists f g, alook (exu_db t) 5%nat = Some f /\ prepared st exu_tri f g.
Proof. exact tag_ex. Qed.
Example C78_corner_ex : exists st, reach ex_chi2 st /\ o_max_aruco (s_opts st) = Z.of_nat 2 /\ slam_noise exu_so st (aruco_id 2 1 0) 2 1 /\ slam_noise exu_so st (aruco_id 2 1 1) 1 1.
Proof. destruct ext_new as (st & Rc & Ho). exists st. unfold slam_noise. rewrite Ho. split; [exact Rc|]. split; [reflexivity|]. cbn. split; [left|right]; repeat split; discriminate. Qed.
