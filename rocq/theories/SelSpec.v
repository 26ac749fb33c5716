(** Specification of the run-level claims C64 and C77: which measurements an update uses, what a caller must respect,
    and what is counted. *)
From Coq Require Import Reals List Arith ZArith Bool Sorted Permutation.
From Verif Require Import RBool Outcome TypesModel StateModel ReachSpec StateFrame DbModel DbSpec SelModel.
Import ListNotations.
Open Scope R_scope.

(** a measurement: feature, camera, time *)
Definition meas := (nat * nat * R)%type.
(** the measurements of a track *)
Definition meas_of (f : feature) : list meas := flat_map (fun p => map (fun t => (f_id f, fst p, t)) (snd p)) (f_ts f).
(** it is in the database *)
Definition in_db (d : db) (x : meas) : Prop := let '(id, c, t) := x in exists o, In o (track d id c) /\ otime o = t.
(** it came with message [m] *)
Definition came_with (m : msg) (x : meas) : Prop := let '(id, c, t) := x in t = m_t m /\ exists u n, In (id, c, u, n) (m_obs m).

(** every camera sees a feature at strictly increasing times *)
Definition ticking (d : db) : Prop := forall id c, StronglySorted Rlt (map otime (track d id c)).

(** one measurement per feature and camera, from the cameras of the message *)
Definition msg_ok (m : msg) : Prop :=
  NoDup (map (fun x => fst (fst x)) (m_obs m)) /\ forall id c u n, In (id, c, u, n) (m_obs m) -> In c (m_cams m).
(** messages arrive in the order of time, those of one camera at strictly increasing times *)
Definition before (t : R) (c : nat) (m : msg) : Prop := t <= m_t m /\ (In c (m_cams m) -> t < m_t m).
Definition in_order (l : list msg) : Prop :=
  ForallOrdPairs (fun m m' => m_t m <= m_t m' /\ forall c, In c (m_cams m) -> In c (m_cams m') -> m_t m < m_t m') l.

(** A manager at the beginning of a sequence of messages: nothing in the database is newer than the messages; the
    clones are in the past and in order; a landmark's track has nothing at the time of a clone (everything seen from the
    clones has been used); with landmarks there are enough clones; if the last decision was a zero-velocity update there
    is no clone at the current time. *)
Record ready (E : env) (g : mgr) (l : list msg) : Prop := mkReady
  { rd_db : db_ok (g_db g); rd_tick : ticking (g_db g);
    rd_past : forall id c t m, in_db (g_db g) (id, c, t) -> In m l -> before t c m;
    rd_time : forall m, In m l -> s_time (g_st g) <= m_t m;
    rd_max : (1 <= o_max_clones (s_opts (g_st g)))%Z;
    rd_inc : increasing (map fst (s_clones (g_st g))); rd_last : last_le (g_st g);
    rd_ids : NoDup (map fst (s_slam (g_st g)));
    rd_enough : s_slam (g_st g) <> [] -> (Z.min (o_max_clones (s_opts (g_st g))) 5 <= Z.of_nat (length (s_clones (g_st g))))%Z;
    rd_land : forall id c t, In id (map fst (s_slam (g_st g))) -> in_db (g_db g) (id, c, t) ->
      t <= s_time (g_st g) /\ ~ In t (map fst (s_clones (g_st g)));
    rd_did : se_zupt (en_opt E) = true -> (se_once (en_opt E) = false \/ g_moved g = false) -> g_did g = true ->
      ~ In (s_time (g_st g)) (map fst (s_clones (g_st g))) }.

(** std::sort *)
Definition sorts (s : (nat -> nat) -> list nat -> list nat) : Prop :=
  forall k l, Permutation l (s k l) /\ StronglySorted (fun a b => (k a <= k b)%nat) (s k l).

(** the landmarks that are not tags *)
Definition plain_landmarks (st : state) : nat :=
  length (filter (fun e => (4 * o_max_aruco (s_opts st) <? Z.of_nat (fst e))%Z) (s_slam st)).
