(** Landmark listings: C61. *)
From Coq Require Import Reals List ZArith Bool Permutation.
From Verif Require Import RBool Outcome Lin GeoModel TypesModel StateModel ReachModel ReachSpec StateEx LandModel AnchorModel AnchorSpec AnchorThms ShowModel ShowProofs ShowEx.
Import ListNotations.
Open Scope R_scope.

(** each listing is defined and gives, in order, the global position of every landmark of its kind: ids up to four times the number of tags are tag corners *)
Theorem C61_listings : forall chi2q ph a, passes chi2q ph a -> exists tags others,
  get_features_SLAM a = Ok others /\ get_features_ARUCO a = Ok tags /\
  Forall2 (fun e g => located a (fst (snd e)) g) (filter (fun e => negb (is_tag a e)) (s_slam (sl_st a))) others /\
  Forall2 (fun e g => located a (fst (snd e)) g) (filter (is_tag a) (s_slam (sl_st a))) tags.
Proof. exact listing_thm. Qed.
Print Assumptions C61_listings.

(** together they list every landmark exactly once *)
Theorem C61_every_landmark_once : forall chi2q ph a, passes chi2q ph a -> exists tags others gs,
  get_features_SLAM a = Ok others /\ get_features_ARUCO a = Ok tags /\ Permutation (others ++ tags) gs /\
  Forall2 (fun e g => located a (fst (snd e)) g) (s_slam (sl_st a)) gs /\ NoDup (map fst (s_slam (sl_st a))).
Proof. exact listing_once. Qed.
Print Assumptions C61_every_landmark_once.

(** and the position is determined by the state *)
Theorem C61_position_unique : forall a p g g', located a p g -> located a p g' -> g = g'.
Proof. exact located_unique. Qed.
Print Assumptions C61_position_unique.

Example C61_ex : exists a p g, passes ex_chi2 Idle a /\ s_slam (sl_st a) = [(7%nat, (p, false))] /\ lm_rep (sl_meta a p) = AnchMsckf /\ get_features_SLAM a = Ok [g] /\ get_features_ARUCO a = Ok [] /\ located a p g.
Proof. exact listing_ex. Qed.

