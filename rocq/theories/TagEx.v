(** The concrete cases quoted next to C78. *)
From Coq Require Import Reals List Arith Lia Lra ZArith Bool.
From Verif Require Import RBool Outcome Lin GeoModel TypesModel GivensModel StateModel StateOps StateInit ReachModel ReachSpec StateReach StateEx DbModel DbSpec DbProofs TrackModel TrackEx
  UpdModel UpdSpec UpdProofs5 UpdEx TagSpec TagThms.
Import ListNotations.
Open Scope R_scope.

(** a system with two tags *)
Definition ext_opts : opts := mkOpts true true true true true true 2 1 2.
Lemma ext_new : exists st, reach ex_chi2 st /\ s_opts st = ext_opts.
Proof.
  destruct (new_state_ok ext_opts ex_cams) as (st & E & _ & D & _ & _ & O & C & Sl & _).
  exists st. split; auto. eapply reach_new; [|exact E]. simpl. intros i Hi. assert (i = 0 \/ i = 1)%nat as [-> | ->] by lia; auto.
Qed.

Lemma tag_refuted : exists chi2q st o und s t fr cam tags s' so id sig mult,
  reach chi2q st /\ o_max_aruco (s_opts st) = Z.of_nat (ko_aruco o) /\
  aruco_track o und s t fr cam tags = Ok s' /\ In id (aget (k_ids s') cam) /\
  slam_noise so st id sig mult /\ sig <> so_sig_aruco so.
Proof.
  destruct ext_new as (st & Rc & Ho). set (c := [(1, 1); (2, 1); (2, 2); (1, 2)] : list pt).
  exists ex_chi2, st, (mkKO 30 2 true 2 1 1 10), (fun _ p => p), (track_new (mkKO 30 2 true 2 1 1 10)), 1, ex_f, 0%nat, [(1%nat, c)].
  eexists. exists exu_so, 3%nat, 1, 1. split; [exact Rc|]. split; [rewrite Ho; reflexivity|]. split; [reflexivity|]. split; [cbn; tauto|].
  split; [right; rewrite Ho; cbn; split; [lia|auto]|]. cbn. lra.
Qed.

Lemma tag_ex : exists st t, reach ex_chi2 st /\ db_ok (exu_db t) /\ handed (exu_db t) [5%nat] /\
  exists st' d' kept, delayed_init ex_chi2 exu_so (fun _ => false) (fun _ => [1; 2; 3]) exu_tri exu_jac st (exu_db t) [5%nat] = Ok (st', d', kept) /\
  exists f g, alook (exu_db t) 5%nat = Some f /\ prepared st exu_tri f g.
Proof.
  destruct ex_rich as (st & p & t & q & Rc & Ec & Es & _). exists st, t. split; auto. split; [apply exu_db_ok|].
  assert (H : handed (exu_db t) [5%nat]) by (apply exu_handed; [intros z [<-|[]]; simpl; auto|repeat constructor; simpl; auto]).
  split; [exact H|].
  destruct (c17_delayed ex_chi2 exu_so (fun _ => false) (fun _ => [1; 2; 3]) exu_tri exu_jac st (exu_db t) [5%nat] Rc (exu_db_ok t) H) as (st' & d' & kept & E & _).
  { cbn. lra. } { cbn. lra. } { reflexivity. } { intros s Rs _. apply (exu_init_ok ex_chi2); auto. } { intros id [<-|[]]. rewrite Es. cbn. intuition lia. }
  exists st', d', kept. split; [exact E|]. exists (exu_feat 5 t), (exu_feat 5 t). split; [reflexivity|].
  exists (exu_feat 5 t). rewrite Ec. cbn [map fst]. split; [apply exu_clean|]. split; [cbn; lia|]. split; reflexivity.
Qed.
