(** C79: which tracks a message's update takes, and what is left of them.  C80: the fate of the landmarks. *)
From Coq Require Import Reals List Arith ZArith Bool.
From Verif Require Import RBool Outcome TypesModel StateModel DbModel DbSpec ImuModel PropModel ZuptModel AnchorModel SelModel SelSpec SelEx FateSpec FateRun FateEx.
Import ListNotations.
Open Scope R_scope.

(** Every track that ended in this message or is seen from the clone about to leave is taken exactly once, up to the quota of the MSCKF update, which goes to the longest tracks; nothing else is touched. *)
Theorem C79_tracks_taken : forall E g m l i g' uses, (forall id, en_single E id = false) -> sorts (en_sort E) -> ready E g (m :: l) -> msg_ok m ->
  message E g m i = Ok (g', uses) -> no_update E g g' uses \/
  exists st, at_update g m st /\ tracks_taken (en_isA E) (en_opt E) st (feed (g_db g) m) m (g_db g') uses.
Proof. exact tracks_thm. Qed.
Print Assumptions C79_tracks_taken.

(** An image older than the state is fed to the tracks and takes none of them. *)
Theorem C79_late_image : forall E g m i, se_zupt (en_opt E) = false -> m_t m < s_time (g_st g) ->
  exists g', message E g m i = Ok (g', []) /\ g_st g' = g_st g /\ g_db g' = feed (g_db g) m /\ g_fail g' = g_fail g /\ g_cam g' = g_cam g.
Proof. exact late_image. Qed.
Print Assumptions C79_late_image.
Example C79_late_ex : forall zo zc z st d, se_zupt (en_opt (exs_env zo zc)) = false /\ m_t (exs_m1 1) < s_time (g_st (exs_mgr (set_time st 2) d z)).
Proof. intros. split; [reflexivity|]. cbn. destruct st; cbn. apply (IZR_lt 1 2). reflexivity. Qed.

(** A landmark stays unless it is given up for one of three reasons, and its failures are counted one by one. *)
Theorem C80_landmark_fate : forall E g m l i g' uses, (forall id, en_single E id = false) -> sorts (en_sort E) -> ready E g (m :: l) -> msg_ok m ->
  message E g m i = Ok (g', uses) -> no_update E g g' uses \/
  exists st, at_update g m st /\ landmarks_after (en_isA E) (en_opt E) g st (feed (g_db g) m) m g' uses.
Proof. exact landmarks_thm. Qed.
Print Assumptions C80_landmark_fate.

(** A successful update does not reset the count of failures (unless the landmark was given up and initialized anew in the same message): the two failures that end a landmark need not be in a row, contrary to the comment in VioManager.cpp 459. *)
Theorem C80_failures_accumulate : forall E g m l i g' uses id, (forall id, en_single E id = false) -> sorts (en_sort E) -> ready E g (m :: l) -> msg_ok m ->
  message E g m i = Ok (g', uses) -> In id (landmarks (g_st g)) -> In id (landmarks (g_st g')) -> was_used uses id ->
  g_fail g' id = g_fail g id \/ (g_fail g' id = 0%nat /\ exists st, at_update g m st /\ given_up (en_isA E) g st (feed (g_db g) m) m id).
Proof. exact no_forgiveness. Qed.
Print Assumptions C80_failures_accumulate.

Example C79_C80_ex : forall zo zc z pi lm, exists T g g' f, let E := exs_env zo zc in
  (forall id, en_single E id = false) /\ sorts (en_sort E) /\ ready E g [exs_m1 T; exs_m2 T] /\ msg_ok (exs_m1 T) /\
  message E g (exs_m1 T) (exs_fin pi lm) = Ok (g', [f]) /\ f_id f = 5%nat /\ landmarks (g_st g) = [7%nat] /\ z = g_z g /\
  landmarks (g_st g') = [7%nat] /\ g_fail g' 7%nat = 0%nat.
Proof. exact fate_ex. Qed.

