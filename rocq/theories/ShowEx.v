(** A listing with one anchored landmark. *)
From Coq Require Import Reals Lra Lia List ZArith Bool.
From Verif Require Import RBool Outcome Lin GeoModel TypesModel StateModel ReachSpec StateEx LandModel AnchorModel AnchorSpec AnchorThms AnchorRun ShowModel ShowProofs StateFrame.
Import ListNotations.
Open Scope R_scope.
Lemma listing_ex : exists a p g, passes ex_chi2 Idle a /\ s_slam (sl_st a) = [(7%nat, (p, false))] /\ lm_rep (sl_meta a p) = AnchMsckf /\ get_features_SLAM a = Ok [g] /\ get_features_ARUCO a = Ok [] /\ located a p g.
Proof.
  destruct ex_slam_frames as (a0 & a1 & a2 & p & T & P0 & T0 & F1 & F2 & S1 & S2 & M2 & C1 & C2 & A1 & A2 & P2 & O2).
  destruct (listing_thm _ _ _ P2) as (tags & others & E1 & E2 & G1 & G2). rewrite S2 in G1, G2. cbn [filter] in G1, G2. unfold is_tag in G1, G2. rewrite O2 in G1, G2. cbn in G1, G2.
  inversion G1 as [|? g ? r Hg G3]; subst. inversion G3; subst. inversion G2; subst. exists a2, p, g. auto 10.
Qed.
