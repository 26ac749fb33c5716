(** C64: over a run of camera messages no measurement enters two updates.  C77: the number of landmarks stays within
    its budget. *)
From Coq Require Import Reals List Arith ZArith Bool.
From Verif Require Import RBool Outcome TypesModel StateModel ReachModel DbModel DbSpec UpdModel ImuModel PropModel ZuptModel AnchorModel SelModel SelSpec SelRun SelEx.
Import ListNotations.
Open Scope R_scope.

(** In a run that returns, the measurements used by all the updates together (MSCKF, SLAM and delayed initialization)
    are pairwise distinct, each was in the database at the beginning or came with a message, and the final manager is
    again ready. *)
Theorem C64_used_once : forall E l g g' uses, (forall id, en_single E id = false) -> sorts (en_sort E) ->
  ready E g (map fst l) -> Forall msg_ok (map fst l) -> in_order (map fst l) ->
  run_msgs E l g = Ok (g', uses) ->
  NoDup (flat_map meas_of uses) /\
  (forall x, In x (flat_map meas_of uses) -> in_db (g_db g) x \/ exists m, In m (map fst l) /\ came_with m x) /\
  ready E g' [].
Proof. exact once_thm. Qed.
Print Assumptions C64_used_once.

(** The landmarks that are not tags never exceed max_slam_features, and all landmarks together max_slam_features and
    four per tag. *)
Theorem C77_landmark_budget : forall E l g g' uses, (forall id, en_single E id = false) -> sorts (en_sort E) ->
  ready E g (map fst l) -> Forall msg_ok (map fst l) -> in_order (map fst l) ->
  run_msgs E l g = Ok (g', uses) ->
  let A := o_max_aruco (s_opts (g_st g)) in let M := se_max_slam (en_opt E) in
  (forall id, en_isA E id = true -> (Z.of_nat id <= 4 * A)%Z) -> (0 <= A)%Z ->
  (Z.of_nat (plain_landmarks (g_st g)) <= Z.max 0 M)%Z ->
  (Z.of_nat (plain_landmarks (g_st g')) <= Z.max 0 M)%Z /\ (Z.of_nat (length (s_slam (g_st g'))) <= Z.max 0 M + 4 * A + 1)%Z.
Proof. exact budget_thm. Qed.
Print Assumptions C77_landmark_budget.

(** a run with a landmark in the state: the first message makes the lost track 5 be used in both cameras, the second
    one brings the same feature id back *)
Example C64_C77_ex : forall zo zc z pi lm, exists T l g g' uses, let E := exs_env zo zc in
  (l = [(exs_m1 T, exs_fin pi lm); (exs_m2 T, exs_fin pi lm)]) /\
  (forall id, en_single E id = false) /\ sorts (en_sort E) /\ ready E g (map fst l) /\ Forall msg_ok (map fst l) /\ in_order (map fst l) /\
  s_slam (g_st g) <> [] /\ z = g_z g /\
  run_msgs E l g = Ok (g', uses) /\ (exists t, flat_map meas_of uses = [(5%nat, 0%nat, t); (5%nat, 1%nat, t)]) /\ in_db (g_db g') (5%nat, 1%nat, T) /\
  (forall id, en_isA E id = true -> (Z.of_nat id <= 4 * o_max_aruco (s_opts (g_st g)))%Z) /\ (0 <= o_max_aruco (s_opts (g_st g)))%Z /\
  (Z.of_nat (plain_landmarks (g_st g)) <= Z.max 0 (se_max_slam (en_opt E)))%Z.
Proof. exact exs_run. Qed.
