(** C34: landmark parametrizations. *)
From Coq Require Import Reals Lra List.
From Verif Require Import Outcome GeoModel GeoProofs LandModel LandSpec LandProofs.
Import ListNotations.
Open Scope R_scope.

(** every expressible point survives storing and reading back, and the first estimate is not touched *)
Theorem C34_round_trip l p : expressible (l_rep l) p ->
  exists l', set_from_xyz l p false = Ok l' /\ get_xyz l' false = Ok p /\ l_fej l' = l_fej l /\ l_rep l' = l_rep l.
Proof. exact (land_round l p). Qed.
Print Assumptions C34_round_trip.

(** so does the first estimate for four of the six representations, and the value is not touched *)
Theorem C34_round_trip_fej l p : expressible (l_rep l) p -> l_rep l <> AnchMsckf -> l_rep l <> AnchSingle ->
  exists l', set_from_xyz l p true = Ok l' /\ get_xyz l' true = Ok p /\ get_xyz l' false = get_xyz l false.
Proof. exact (land_round_fej l p). Qed.
Print Assumptions C34_round_trip_fej.

(** for the other two, reading the first estimate gives the value *)
Theorem C34_fej_refuted : exists l p q, expressible (l_rep l) p /\ expressible (l_rep l) q /\ p <> q /\
  exists l1 l2, set_from_xyz l p false = Ok l1 /\ set_from_xyz l1 q true = Ok l2 /\ get_xyz l2 true = Ok p.
Proof.
  exists (mkLmk AnchMsckf [0; 0; 1] [0; 0; 1] v3zero v3zero), (V3 1 2 3), (V3 1 2 4). cbn [expressible l_rep vz].
  split; [lra|]. split; [lra|]. split; [intros H; apply (f_equal vz) in H; cbn in H; lra|].
  apply land_fej_ignored; [left; reflexivity|cbn; lra].
Qed.
Print Assumptions C34_fej_refuted.

(** inverse-depth parameters come back from the point they describe *)
Theorem C34_parameters p : vz p <> 0 -> msckf_of (msckf_xyz p) = p.
Proof. exact (msckf_round' p). Qed.
Print Assumptions C34_parameters.

(** a point behind the camera and off the axis, in the full inverse depth form *)
Example C34_example : expressible AnchFullInv (V3 (-1) 2 (-3)) /\ full_inv_xyz (full_inv_of (V3 (-1) 2 (-3))) = V3 (-1) 2 (-3).
Proof.
  assert (N : V3 (-1) 2 (-3) <> v3zero) by (intros H; apply (f_equal vx) in H; cbn in H; lra).
  split; [exact N|]. apply full_inv_round. exact N.
Qed.
