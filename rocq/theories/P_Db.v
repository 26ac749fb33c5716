(** Properties of the feature database (C19-C22, C63). *)
From Coq Require Import Reals List Arith ZArith Bool Sorted Lra.
From Verif Require Import RBool Outcome GeoModel DbModel DbSpec DbProofs DbProofs2 DbThms.
Import ListNotations.
Open Scope R_scope.

(** ** C19 *)
Theorem C19_update_feature : forall d id t cam u n,
  db_ok d ->
  let d' := update_feature d id t cam u n in
  db_ok d' /\
  track d' id cam = track d id cam ++ [(t, u, n)] /\
  (forall cam', cam' <> cam -> track d' id cam' = track d id cam') /\
  (forall id', id' <> id -> alook d' id' = alook d id') /\
  (forall f, alook d id = Some f -> exists f', alook d' id = Some f' /\ same_info f' f) /\
  (alook d id = None -> exists f', alook d' id = Some f' /\ f_id f' = id /\ f_del f' = false).
Proof. exact update_feature_spec. Qed.
Print Assumptions C19_update_feature.

(** whatever calls are made, no call fails and the lists stay parallel *)
Theorem C19_reachable : forall d, db_reach d -> db_ok d.
Proof. exact reach_ok. Qed.
Print Assumptions C19_reachable.
Theorem C19_calls_return : forall d o,
  db_reach d -> (forall other, o = DAppend other -> db_reach other) ->
  exists d', dbexec d o = Ok d' /\ db_reach d' /\ db_ok d'.
Proof. exact calls_return. Qed.
Print Assumptions C19_calls_return.

Example C19_ex : db_reach ex_db /\ track ex_db 7 0 = [(1, u0, u0); (3, (4, 5), u0)] /\ track ex_db 7 1 = [(2, u0, u0)].
Proof. split; [exact ex_db_reach|]. split; reflexivity. Qed.

(** ** C20 *)
Theorem C20_not_containing_newer : forall d t remove skip,
  db_ok d -> db_chron d ->
  let r := features_not_containing_newer t remove skip d in
  selects (fun f => forall t', seen f t' -> t' < t) remove skip d (fst r) (snd r).
Proof. exact not_newer_thm. Qed.
Print Assumptions C20_not_containing_newer.
Theorem C20_containing_older : forall d t remove skip,
  db_ok d -> db_chron d ->
  let r := features_containing_older t remove skip d in
  selects (fun f => exists t', seen f t' /\ t' < t) remove skip d (fst r) (snd r).
Proof. exact older_thm. Qed.
Print Assumptions C20_containing_older.
Theorem C20_containing : forall d t remove skip,
  db_ok d ->
  let r := features_containing t remove skip d in
  selects (fun f => seen f t) remove skip d (fst r) (snd r).
Proof. exact containing_thm. Qed.
Print Assumptions C20_containing.
(** tracks fed in time order are chronological and stay so under every call except feeding and
    merging *)
Theorem C20_fed_in_order : forall l : list (nat * nat * obs),
  StronglySorted Rle (map (fun e => otime (snd e)) l) -> db_ok (fed [] l) /\ db_chron (fed [] l).
Proof. exact chron_thm. Qed.
Print Assumptions C20_fed_in_order.
Theorem C20_order_kept : forall d o d',
  db_ok d -> db_chron d ->
  match o with DUpdate _ _ _ _ _ | DAppend _ => False | _ => True end ->
  dbexec d o = Ok d' -> db_chron d'.
Proof. exact chron_kept_thm. Qed.
Print Assumptions C20_order_kept.
(** out-of-order tracks: a feature with a newer observation is reported as having none *)
Theorem C20_unordered_refuted :
  exists d t f, db_reach d /\ In f (fst (features_not_containing_newer t false false d)) /\
    exists t', seen f t' /\ t < t'.
Proof. exact unordered_refuted. Qed.
Print Assumptions C20_unordered_refuted.

Example C20_ex : db_ok ex_db /\ db_chron ex_db /\
  map f_id (fst (features_not_containing_newer 2 true true ex_db)) = [9%nat] /\
  map f_id (fst (features_containing_older 2 true true ex_db)) = [7%nat; 9%nat] /\
  map f_id (fst (features_containing 2 true true ex_db)) = [7%nat].
Proof.
  split; [apply reach_ok, ex_db_reach|]. split; [exact ex_db_chron|].
  repeat split; unfold ex_db; cbn;
    repeat (match goal with
    | |- context [Rleb ?a ?b] => first [rewrite (proj2 (Rleb_true a b)) by lra | rewrite (proj2 (Rleb_false a b)) by lra]
    | |- context [Rltb ?a ?b] => first [rewrite (proj2 (Rltb_true a b)) by lra | rewrite (proj2 (Rltb_false a b)) by lra]
    | |- context [Reqb ?a ?b] => first [rewrite (proj2 (Reqb_true a b)) by lra | rewrite (proj2 (Reqb_false a b)) by lra]
    end; cbn); reflexivity.
Qed.

(** ** C21 *)
Theorem C21_cleanup : forall d id, db_ok d ->
  alook (cleanup d) id = match alook d id with
                         | Some f => if f_del f then None else Some f
                         | None => None
                         end.
Proof. exact cleanup_thm. Qed.
Print Assumptions C21_cleanup.
Theorem C21_cleanup_measurements : forall d t, db_ok d ->
  exists d', cleanup_measurements t d = Ok d' /\ db_ok d' /\ cleaned (fun x => t < x) d d'.
Proof. exact cleanup_measurements_thm. Qed.
Print Assumptions C21_cleanup_measurements.
Theorem C21_cleanup_measurements_exact : forall d t, db_ok d ->
  exists d', cleanup_measurements_exact t d = Ok d' /\ db_ok d' /\ cleaned (fun x => x <> t) d d'.
Proof. exact cleanup_measurements_exact_thm. Qed.
Print Assumptions C21_cleanup_measurements_exact.
Theorem C21_clean_old : forall valid f, feat_ok f ->
  exists f', clean_old_measurements valid f = Ok f' /\ feat_ok f' /\ same_info f' f /\
    exists sel : obs -> bool, (forall o, sel o = true <-> In (otime o) valid) /\
      forall cam, ftrack f' cam = filter sel (ftrack f cam).
Proof. exact clean_old_thm. Qed.
Print Assumptions C21_clean_old.
Theorem C21_clean_invalid : forall inv f, feat_ok f ->
  exists f', clean_invalid_measurements inv f = Ok f' /\ feat_ok f' /\ same_info f' f /\
    exists sel : obs -> bool, (forall o, sel o = true <-> ~ In (otime o) inv) /\
      forall cam, ftrack f' cam = filter sel (ftrack f cam).
Proof. exact clean_invalid_thm. Qed.
Print Assumptions C21_clean_invalid.

Example C21_ex : db_ok ex_db /\ exists d', cleanup_measurements 1 ex_db = Ok d' /\
  map fst d' = [7%nat] /\ track d' 7 0 = [(3, (4, 5), u0)].
Proof.
  split; [apply reach_ok, ex_db_reach|].
  unfold ex_db, fed, update_feature, cleanup_measurements, clean_older_measurements, clean_feature, clean_cam.
  cbn. rewrite (proj2 (Rleb_true 1 1)) by lra. rewrite (proj2 (Rleb_false 3 1)) by lra. cbn.
  rewrite (proj2 (Rleb_false 2 1)) by lra. cbn.
  eexists. split; [reflexivity|]. split; reflexivity.
Qed.

(** ** C22 *)
Theorem C22_append : forall d other,
  db_ok d -> db_ok other ->
  exists d', append_new_measurements d other = Ok d' /\ db_ok d' /\
    (forall id cam, track d' id cam = track d id cam ++ unseen (track d id cam) (track other id cam)) /\
    (forall id f, alook d id = Some f -> exists f', alook d' id = Some f' /\ same_info f' f) /\
    (forall id, (exists f', alook d' id = Some f') <->
                (exists f, alook d id = Some f) \/ (exists f, alook other id = Some f)).
Proof. exact append_thm. Qed.
Print Assumptions C22_append.
Theorem C22_union : forall d other d',
  db_ok d -> db_ok other -> append_new_measurements d other = Ok d' ->
  forall id cam t,
    In t (map otime (track d' id cam)) <->
    In t (map otime (track d id cam)) \/ In t (map otime (track other id cam)).
Proof. exact append_union. Qed.
Print Assumptions C22_union.
Theorem C22_no_new_duplicates : forall d other d',
  db_ok d -> db_ok other -> append_new_measurements d other = Ok d' ->
  forall id cam,
    NoDup (map otime (track d id cam)) -> NoDup (map otime (track other id cam)) ->
    NoDup (map otime (track d' id cam)).
Proof. exact append_nodup. Qed.
Print Assumptions C22_no_new_duplicates.
(** merging chronological databases can give a track that is not chronological *)
Theorem C22_order_refuted :
  exists d other d', db_reach d /\ db_reach other /\ db_chron d /\ db_chron other /\
    append_new_measurements d other = Ok d' /\ ~ db_chron d'.
Proof. exact append_order_refuted. Qed.
Print Assumptions C22_order_refuted.
(** an observation repeated in the source is copied twice *)
Theorem C22_source_duplicates_refuted :
  exists d other d' id cam, db_reach d /\ db_reach other /\
    append_new_measurements d other = Ok d' /\
    NoDup (map otime (track d id cam)) /\ ~ NoDup (map otime (track d' id cam)).
Proof. exact append_source_duplicates_refuted. Qed.
Print Assumptions C22_source_duplicates_refuted.

Example C22_ex : db_ok ex_db /\ db_ok (fed [] [(7%nat, 0%nat, (1, u0, u0)); (7%nat, 0%nat, (4, u0, u0))]) /\
  unseen (track ex_db 7 0) (track (fed [] [(7%nat, 0%nat, (1, u0, u0)); (7%nat, 0%nat, (4, u0, u0))]) 7 0)
  = [(4, u0, u0)].
Proof.
  split; [apply reach_ok, ex_db_reach|]. split; [apply reach_ok, fed_reach; constructor|].
  change (filter (fun o => if in_dec Req_EM_T (otime o) [1; 3] then false else true) [(1, u0, u0); (4, u0, u0)]
          = [(4, u0, u0)]).
  cbn [filter]. destruct (in_dec Req_EM_T (otime (1, u0, u0)) [1; 3]) as [I|I]; [|exfalso; apply I; left; reflexivity].
  destruct (in_dec Req_EM_T (otime (4, u0, u0)) [1; 3]) as [J|J]; [|reflexivity].
  exfalso. unfold otime in J; cbn in J. destruct J as [J|[J|[]]]; lra.
Qed.

(** ** C63 *)
Theorem C63_oldest_timestamp : forall d,
  db_ok d -> db_chron d -> (forall id f t, alook d id = Some f -> seen f t -> t <> -1) ->
  let r := get_oldest_timestamp d in
  (r = -1 /\ forall id f t, alook d id = Some f -> ~ seen f t) \/
  ((exists id f, alook d id = Some f /\ seen f r) /\
   forall id f t, alook d id = Some f -> seen f t -> r <= t).
Proof. exact oldest_spec. Qed.
Print Assumptions C63_oldest_timestamp.
Theorem C63_get_feature : forall d id remove, db_ok d ->
  let r := get_feature d id remove in
  fst r = alook d id /\
  forall id', alook (snd r) id' = if (remove && Nat.eqb id' id)%bool then None else alook d id'.
Proof. exact get_feature_thm. Qed.
Print Assumptions C63_get_feature.
Theorem C63_get_feature_clone : forall d id dst,
  let r := get_feature_clone d id dst in
  match alook d id with Some f => r = (true, f) | None => r = (false, dst) end.
Proof. exact get_feature_clone_thm. Qed.
Print Assumptions C63_get_feature_clone.

Example C63_ex : get_oldest_timestamp ex_db = 1 /\ get_oldest_timestamp [] = -1.
Proof.
  split; [|reflexivity]. unfold ex_db. cbn. unfold oldest_step; cbn.
  repeat (match goal with
    | |- context [Rltb ?a ?b] => first [rewrite (proj2 (Rltb_true a b)) by lra | rewrite (proj2 (Rltb_false a b)) by lra]
    | |- context [Reqb ?a ?b] => first [rewrite (proj2 (Reqb_true a b)) by lra | rewrite (proj2 (Reqb_false a b)) by lra]
    end; cbn); reflexivity.
Qed.
