(** Specification of C79 (which tracks a message's update takes) and C80 (the fate of the landmarks). *)
From Coq Require Import Reals List Arith ZArith Bool.
From Verif Require Import RBool Outcome TypesModel StateModel ReachSpec StateFrame DbModel DbSpec SelModel SelSpec.
Import ListNotations.
Open Scope R_scope.

(** what holds when the selection starts: clock at the message, clones in the past and in order, and no landmark has an
    unused measurement at an older clone *)
Record frame_ok (st : state) (d : db) (m : msg) : Prop := mkFrame
  { fo_db : db_ok d; fo_tick : ticking d; fo_time : s_time st = m_t m; fo_ids : NoDup (map fst (s_slam st));
    fo_max : (1 <= o_max_clones (s_opts st))%Z; fo_inc : increasing (map fst (s_clones st)); fo_last : last_le st;
    fo_land : forall id c t, In id (map fst (s_slam st)) -> in_db d (id, c, t) ->
      t <= m_t m /\ (In t (map fst (s_clones st)) -> t = m_t m) }.

Definition seen_at (d : db) (id : nat) (t : R) : Prop := exists c, in_db d (id, c, t).
(** the sliding window has more clones than it may keep, or more than five *)
Definition full (st : state) : Prop :=
  (o_max_clones (s_opts st) < Z.of_nat (length (s_clones st)))%Z \/ (5 < length (s_clones st))%nat.
Definition oldest (st : state) (t : R) : Prop :=
  In t (map fst (s_clones st)) /\ forall t', In t' (map fst (s_clones st)) -> t <= t'.
(** the track is seen from the clone that is about to leave *)
Definition leaving (st : state) (d : db) (id : nat) : Prop := full st /\ exists t, oldest st t /\ seen_at d id t.
(** the track did not continue into this message, and one of the message's cameras was following it *)
Definition ended (d : db) (m : msg) (id : nat) : Prop :=
  (forall t, seen_at d id t -> t < m_t m) /\
  exists f c, alook d id = Some f /\ In c (m_cams m) /\ In c (map fst (f_uvs f)).
Definition unused (d : db) (id : nat) : Prop := exists f, alook d id = Some f /\ f_del f = false.
(** an ordinary track the update has to take *)
Definition eligible (isA : nat -> bool) (st : state) (d : db) (m : msg) (id : nat) : Prop :=
  isA id = false /\ unused d id /\ (leaving st d id \/ ended d m id).
(** some camera has followed it for longer than the window *)
Definition long (st : state) (d : db) (id : nat) : Prop :=
  exists f c l, alook d id = Some f /\ In (c, l) (f_ts f) /\ (o_max_clones (s_opts st) < Z.of_nat (length l))%Z.
Definition meas_count (d : db) (id : nat) : nat :=
  match alook d id with Some f => length (meas_of f) | None => 0%nat end.
(** free places for landmarks *)
Definition room (o : sopts) (st : state) (t : R) (k : Z) : Prop :=
  (se_delay o <= t - se_start o -> k = Z.max 0 (se_max_slam o - Z.of_nat (plain_landmarks st))) /\
  (t - se_start o < se_delay o -> k = 0%Z).
(** a tag corner taken for initialization *)
Definition tag_taken (isA : nat -> bool) (o : sopts) (st : state) (d : db) (m : msg) (id : nat) : Prop :=
  isA id = true /\ unused d id /\ leaving st d id /\ se_delay o <= m_t m - se_start o.

(** a landmark is given up when it is not a tag corner and it is flagged already, or its track is gone while its camera
    belongs to the message, or it has been rejected twice *)
Definition given_up (isA : nat -> bool) (g : mgr) (st : state) (d : db) (m : msg) (id : nat) : Prop :=
  (4 * o_max_aruco (s_opts st) < Z.of_nat id)%Z /\
  ((exists p, In (id, (p, true)) (s_slam st)) \/
   (~ (isA id = false /\ exists f, alook d id = Some f) /\ exists c, In c (m_cams m) /\ Z.of_nat c = g_cam g id) \/
   (2 <= g_fail g id)%nat).
(** seen from a clone of the window *)
Definition seen_from_window (st : state) (d : db) (id : nat) : Prop :=
  exists t, seen_at d id t /\ In t (map fst (s_clones st)).

(** [uses] are the tracks an update has used, [d'] the database afterwards *)
Definition was_used (uses : list feature) (id : nat) : Prop := exists f, In f uses /\ f_id f = id.
Definition landmarks (st : state) : list nat := map fst (s_slam st).

(** C79: the eligible tracks are divided into those handed to the MSCKF update, those promoted to landmarks and those cut
    off; the longest are handed over, the quota is used up before any is cut; long tracks are promoted as long as there is
    room; everything taken is gone afterwards, nothing else is used, and what was not taken keeps its measurements except
    those at the clone that leaves. *)
Definition tracks_taken (isA : nat -> bool) (o : sopts) (st : state) (d : db) (m : msg) (d' : db) (uses : list feature) : Prop :=
  exists handed promo cut,
  let taken := fun id => In id handed \/ In id promo \/ In id (landmarks st) \/ tag_taken isA o st d m id in
  NoDup (handed ++ promo ++ cut) /\ (forall id, In id (handed ++ promo ++ cut) <-> eligible isA st d m id) /\
  (forall id, In id promo -> leaving st d id /\ long st d id) /\
  (forall k, room o st (m_t m) k -> (Z.of_nat (length promo) <= k)%Z /\
    ((Z.of_nat (length promo) < k)%Z -> forall id, isA id = false -> unused d id -> leaving st d id -> long st d id -> In id promo)) /\
  (Z.of_nat (length handed) <= se_max_msckf o)%Z /\ (cut <> [] -> Z.of_nat (length handed) = se_max_msckf o) /\
  (forall a b, In a handed -> In b cut -> (meas_count d b <= meas_count d a)%nat) /\
  (forall id, taken id -> alook d' id = None) /\ (forall id, was_used uses id -> taken id) /\
  (forall id c t, unused d id -> ~ taken id -> in_db d (id, c, t) ->
    ((o_max_clones (s_opts st) < Z.of_nat (length (s_clones st)))%Z -> exists t0, oldest st t0 /\ t0 < t) -> in_db d' (id, c, t)).

(** C80: the landmarks afterwards are those not given up and the new ones; a new one was used for its own initialization
    and is a promoted track, a tag corner, or a landmark given up in this very message; the count of failures grows by one
    exactly for the landmarks that stay, are not tags, were seen from the window and were not used; it starts at zero. *)
Definition landmarks_after (isA : nat -> bool) (o : sopts) (g : mgr) (st : state) (d : db) (m : msg) (g' : mgr) (uses : list feature) : Prop :=
  exists new rejected,
  let stays := fun id => In id (landmarks st) /\ ~ given_up isA g st d m id in
  (forall id, In id (landmarks (g_st g')) <-> stays id \/ In id new) /\
  (forall id, In id new -> was_used uses id /\ ~ stays id /\
     ((isA id = false /\ leaving st d id /\ long st d id) \/ tag_taken isA o st d m id \/ In id (landmarks st))) /\
  (forall id, In id rejected <-> stays id /\ (o_max_aruco (s_opts st) <= Z.of_nat id)%Z /\ seen_from_window st d id /\ ~ was_used uses id) /\
  (forall id, In id new -> g_fail g' id = 0%nat) /\
  (forall id, ~ In id new -> In id rejected -> g_fail g' id = S (g_fail g id)) /\
  (forall id, ~ In id new -> ~ In id rejected -> g_fail g' id = g_fail g id).

(** the state when the update begins: that of the manager, or that after propagation to the message *)
Definition at_update (g : mgr) (m : msg) (st : state) : Prop :=
  frame_ok st (feed (g_db g) m) m /\ s_slam st = s_slam (g_st g) /\ s_opts st = s_opts (g_st g) /\
  (Z.min (o_max_clones (s_opts st)) 5 <= Z.of_nat (length (s_clones st)))%Z /\
  forall t, In t (map fst (s_clones st)) -> In t (map fst (s_clones (g_st g))) \/ t = m_t m.
(** no update: a zero-velocity update, or too few clones *)
Definition no_update (E : env) (g g' : mgr) (uses : list feature) : Prop :=
  uses = [] /\ s_slam (g_st g') = s_slam (g_st g) /\ g_fail g' = g_fail g /\
  ((se_zupt (en_opt E) = true /\ g_did g' = true) \/
   (Z.of_nat (length (s_clones (g_st g'))) < Z.min (o_max_clones (s_opts (g_st g))) 5)%Z).
