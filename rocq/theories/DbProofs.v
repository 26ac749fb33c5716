From Coq Require Import Reals List Arith ZArith Bool Sorted Lia Lra.
From Verif Require Import RBool Outcome GeoModel DbModel DbSpec.
Import ListNotations.
Open Scope R_scope.

(** ** association lists *)
Lemma alook_aset {A} (m : amap A) k v k' :
  alook (aset m k v) k' = if Nat.eqb k' k then Some v else alook m k'.
Proof.
  induction m as [|[k0 v0] m IH]; cbn [aset alook].
  - destruct (Nat.eqb_spec k' k); reflexivity.
  - destruct (Nat.eqb_spec k k0) as [->|N]; cbn [alook].
    + destruct (Nat.eqb_spec k' k0); reflexivity.
    + destruct (Nat.eqb_spec k' k0) as [->|N2].
      * destruct (Nat.eqb_spec k0 k); [congruence|reflexivity].
      * exact IH.
Qed.

Lemma alook_some_key {A} (m : amap A) k v : alook m k = Some v -> In (k, v) m.
Proof.
  induction m as [|[k0 v0] m IH]; cbn [alook]; [discriminate|].
  destruct (Nat.eqb_spec k k0) as [->|N]; intros H; [injection H as ->; left; auto|right; auto].
Qed.

Lemma alook_key {A} (m : amap A) k : In k (map fst m) <-> exists v, alook m k = Some v.
Proof.
  induction m as [|[k0 v0] m IH]; cbn [alook map fst In].
  - split; [tauto|intros [v H]; discriminate].
  - destruct (Nat.eqb_spec k k0) as [->|N].
    + split; [eauto|auto].
    + rewrite <- IH. split; [intros [H|H]; [congruence|auto]|auto].
Qed.

Lemma alook_none_key {A} (m : amap A) k : alook m k = None <-> ~ In k (map fst m).
Proof.
  rewrite alook_key. split; [intros H [v Hv]; congruence|].
  intros H. destruct (alook m k) eqn:E; [exfalso; eauto|reflexivity].
Qed.

Lemma alook_in {A} (m : amap A) k v : NoDup (map fst m) -> (In (k, v) m <-> alook m k = Some v).
Proof.
  intros ND. split; [|apply alook_some_key].
  induction m as [|[k0 v0] m IH]; cbn [alook]; [contradiction|].
  cbn [map fst] in ND. apply NoDup_cons_iff in ND. destruct ND as [NI ND].
  intros [H|H].
  - injection H as -> ->. rewrite Nat.eqb_refl. reflexivity.
  - destruct (Nat.eqb_spec k k0) as [->|N]; [|auto].
    exfalso. apply NI. change k0 with (fst (k0, v)). apply in_map. exact H.
Qed.

Lemma aset_keys_old {A} (m : amap A) k v : In k (map fst m) -> map fst (aset m k v) = map fst m.
Proof.
  induction m as [|[k0 v0] m IH]; cbn [aset map fst In]; [tauto|].
  destruct (Nat.eqb_spec k k0) as [->|N]; cbn [map fst]; [reflexivity|].
  intros [H|H]; [congruence|]. rewrite IH; auto.
Qed.

Lemma aset_keys_new {A} (m : amap A) k v : ~ In k (map fst m) -> map fst (aset m k v) = map fst m ++ [k].
Proof.
  induction m as [|[k0 v0] m IH]; cbn [aset map fst In]; [reflexivity|].
  intros H. destruct (Nat.eqb_spec k k0) as [->|N]; [tauto|].
  cbn [map fst app]. rewrite IH; auto.
Qed.

Lemma nodup_snoc {A} (l : list A) a : NoDup l -> ~ In a l -> NoDup (l ++ [a]).
Proof.
  induction l as [|x l IH]; cbn [app]; intros H N; [constructor; [tauto|constructor]|].
  apply NoDup_cons_iff in H. destruct H as [H1 H2]. constructor.
  - rewrite in_app_iff. cbn [In] in *. intuition congruence.
  - apply IH; [auto|cbn [In] in N; tauto].
Qed.

Lemma aset_nodup {A} (m : amap A) k v : NoDup (map fst m) -> NoDup (map fst (aset m k v)).
Proof.
  intros H. destruct (in_dec Nat.eq_dec k (map fst m)) as [I|N].
  - rewrite aset_keys_old; auto.
  - rewrite aset_keys_new; auto using nodup_snoc.
Qed.

Lemma aset_in {A} (m : amap A) k v k' v' :
  NoDup (map fst m) -> In (k', v') (aset m k v) -> (k' = k /\ v' = v) \/ In (k', v') m.
Proof.
  intros ND H. apply alook_in in H; [|apply aset_nodup; auto].
  rewrite alook_aset in H. destruct (Nat.eqb_spec k' k) as [->|N].
  - injection H as <-. auto.
  - right. apply alook_some_key. exact H.
Qed.

Lemma aget_aset {A} (m : amap (list A)) k v k' :
  aget (aset m k v) k' = if Nat.eqb k' k then v else aget m k'.
Proof. unfold aget. rewrite alook_aset. destruct (Nat.eqb k' k); reflexivity. Qed.

Lemma alook_filter_keys {A} (p : nat -> bool) (m : amap A) k :
  alook (filter (fun e => p (fst e)) m) k = if p k then alook m k else None.
Proof.
  induction m as [|[k0 v0] m IH]; cbn [filter alook fst]; [destruct (p k); reflexivity|].
  destruct (p k0) eqn:E; cbn [alook].
  - destruct (Nat.eqb_spec k k0) as [->|N]; [rewrite E; reflexivity|exact IH].
  - destruct (Nat.eqb_spec k k0) as [->|N]; [rewrite E in *; exact IH|exact IH].
Qed.

Lemma nodup_filter_keys {A} (p : nat * A -> bool) (m : amap A) :
  NoDup (map fst m) -> NoDup (map fst (filter p m)).
Proof.
  induction m as [|e m IH]; cbn [filter map]; intros H; [constructor|].
  apply NoDup_cons_iff in H. destruct H as [H1 H2].
  destruct (p e); cbn [map]; [constructor|]; auto.
  intros I. apply H1. apply in_map_iff in I. destruct I as [x [E I]].
  rewrite <- E. apply in_map. apply filter_In in I. tauto.
Qed.

Lemma tfind_in l t : tfind l t = true <-> In t l.
Proof.
  unfold tfind. rewrite existsb_exists. split.
  - intros [x [I E]]. apply Reqb_true in E. congruence.
  - intros I. exists t. split; [auto|apply Reqb_true; reflexivity].
Qed.
Lemma tfind_false l t : tfind l t = false <-> ~ In t l.
Proof. rewrite <- tfind_in. destruct (tfind l t); split; congruence. Qed.

(** ** zipped tracks *)
Lemma zip3_len a b c : length b = length a -> length c = length a -> length (zip3 a b c) = length a.
Proof.
  revert b c; induction a as [|x a IH]; intros [|y b] [|z c] H1 H2; cbn in *; try discriminate; auto.
Qed.
Lemma zip3_times a b c : length b = length a -> length c = length a -> map otime (zip3 a b c) = a.
Proof.
  revert b c; induction a as [|x a IH]; intros [|y b] [|z c] H1 H2; cbn in *; try discriminate; auto.
  unfold otime at 1; cbn. f_equal. apply IH; lia.
Qed.
Lemma zip3_app a b c a' b' c' :
  length b = length a -> length c = length a ->
  zip3 (a ++ a') (b ++ b') (c ++ c') = zip3 a b c ++ zip3 a' b' c'.
Proof.
  revert b c; induction a as [|x a IH]; intros [|y b] [|z c] H1 H2; cbn in *; try discriminate; auto.
  f_equal. apply IH; lia.
Qed.

Lemma par_len f cam : parallel f ->
  length (aget (f_uvs f) cam) = length (aget (f_ts f) cam) /\
  length (aget (f_uvn f) cam) = length (aget (f_ts f) cam).
Proof.
  intros H. specialize (H cam). unfold aget.
  destruct (alook (f_ts f) cam), (alook (f_uvs f) cam), (alook (f_uvn f) cam); tauto || auto.
Qed.

Lemma ftrack_times f cam : parallel f -> map otime (ftrack f cam) = aget (f_ts f) cam.
Proof. intros H. destruct (par_len f cam H). apply zip3_times; auto. Qed.

Lemma ftrack_nokey f cam : ~ In cam (map fst (f_ts f)) -> ftrack f cam = [].
Proof. intros H. apply alook_none_key in H. unfold ftrack, aget at 1. rewrite H. reflexivity. Qed.

(** replacing the three lists of one camera *)
Definition set3 (f : feature) (cam : nat) (a : list R) (b c : list uv) : feature :=
  set_meas f (aset (f_uvs f) cam b) (aset (f_uvn f) cam c) (aset (f_ts f) cam a).

Lemma set3_spec f cam a b c :
  feat_ok f -> length b = length a -> length c = length a ->
  feat_ok (set3 f cam a b c) /\ same_info (set3 f cam a b c) f /\
  forall cam', ftrack (set3 f cam a b c) cam' = if Nat.eqb cam' cam then zip3 a b c else ftrack f cam'.
Proof.
  intros [ND P] H1 H2. split; [split|split].
  - cbn [f_ts set3 set_meas]. apply aset_nodup; auto.
  - intros cam'. cbn [f_ts f_uvs f_uvn set3 set_meas]. rewrite !alook_aset.
    destruct (Nat.eqb cam' cam); [auto|apply P].
  - unfold same_info. cbn. auto.
  - intros cam'. unfold ftrack. cbn [f_ts f_uvs f_uvn set3 set_meas]. rewrite !aget_aset.
    destruct (Nat.eqb cam' cam); reflexivity.
Qed.

Lemma same_info_refl f : same_info f f.
Proof. unfold same_info; auto. Qed.
Lemma same_info_trans f g h : same_info f g -> same_info g h -> same_info f h.
Proof. unfold same_info. intuition congruence. Qed.

(** ** erasing measurements *)
Lemma erase_loop_spec drop ts us ns :
  length us = length ts -> length ns = length ts ->
  exists a b c, erase_loop drop ts us ns = Ok (a, b, c) /\
    length b = length a /\ length c = length a /\
    zip3 a b c = filter (fun o => negb (drop (otime o))) (zip3 ts us ns).
Proof.
  revert us ns; induction ts as [|t ts IH]; intros [|u us] [|n ns] H1 H2; cbn in H1, H2; try discriminate.
  - exists [], [], []. cbn. auto.
  - destruct (IH us ns) as [a [b [c [E [L1 [L2 Z]]]]]]; try lia.
    cbn [erase_loop]. rewrite E. cbn [obind].
    cbn [zip3 filter]. unfold otime at 1; cbn [fst].
    destruct (drop t); cbn [negb].
    + exists a, b, c. auto.
    + exists (t :: a), (u :: b), (n :: c). cbn [length zip3]. rewrite Z.
      repeat (split; [congruence|]). reflexivity.
Qed.

Lemma clean_cam_spec drop f cam :
  feat_ok f -> In cam (map fst (f_ts f)) ->
  exists f', clean_cam drop f cam = Ok f' /\ feat_ok f' /\ same_info f' f /\
    map fst (f_ts f') = map fst (f_ts f) /\
    forall cam', ftrack f' cam' =
      if Nat.eqb cam' cam then filter (fun o => negb (drop (otime o))) (ftrack f cam) else ftrack f cam'.
Proof.
  intros OK I. pose proof OK as [ND P]. destruct (par_len f cam P) as [L1 L2].
  destruct (erase_loop_spec drop _ _ _ L1 L2) as [a [b [c [E [M1 [M2 Z]]]]]].
  exists (set3 f cam a b c). unfold clean_cam. rewrite L1, L2, Nat.eqb_refl. cbn [andb guard].
  rewrite E. cbn [obind]. split; [reflexivity|].
  destruct (set3_spec f cam a b c OK M1 M2) as [A [B C]].
  split; [auto|]. split; [auto|]. split; [cbn; apply aset_keys_old; auto|].
  intros cam'. rewrite C. destruct (Nat.eqb cam' cam); [exact Z|reflexivity].
Qed.

Lemma filter_idem {A} (p : A -> bool) l : filter p (filter p l) = filter p l.
Proof.
  induction l as [|a l IH]; cbn [filter]; [reflexivity|].
  destruct (p a) eqn:E; cbn [filter]; rewrite ?E, IH; reflexivity.
Qed.

Lemma clean_fold_spec drop l f :
  feat_ok f -> incl l (map fst (f_ts f)) ->
  exists f', ofold (clean_cam drop) l f = Ok f' /\ feat_ok f' /\ same_info f' f /\
    map fst (f_ts f') = map fst (f_ts f) /\
    forall cam', ftrack f' cam' =
      if existsb (Nat.eqb cam') l then filter (fun o => negb (drop (otime o))) (ftrack f cam')
      else ftrack f cam'.
Proof.
  revert f; induction l as [|cam l IH]; intros f OK I.
  - exists f. cbn. repeat (split; [auto using same_info_refl|]). reflexivity.
  - destruct (clean_cam_spec drop f cam OK) as [f1 [E1 [O1 [S1 [K1 T1]]]]]; [apply I; left; auto|].
    destruct (IH f1 O1) as [f2 [E2 [O2 [S2 [K2 T2]]]]].
    { rewrite K1. intros x Hx. apply I. right. auto. }
    exists f2. cbn [ofold]. rewrite E1. cbn [obind]. split; [auto|]. split; [auto|].
    split; [eapply same_info_trans; eauto|]. split; [congruence|].
    intros cam'. rewrite T2, T1. cbn [existsb].
    destruct (Nat.eqb_spec cam' cam) as [->|N]; cbn [orb]; [|reflexivity].
    destruct (existsb (Nat.eqb cam) l); [apply filter_idem|reflexivity].
Qed.

Lemma clean_feature_spec drop f :
  feat_ok f ->
  exists f', clean_feature drop f = Ok f' /\ feat_ok f' /\ same_info f' f /\
    forall cam, ftrack f' cam = filter (fun o => negb (drop (otime o))) (ftrack f cam).
Proof.
  intros OK. destruct (clean_fold_spec drop (map fst (f_ts f)) f OK (incl_refl _)) as [f' [E [O [S [K T]]]]].
  exists f'. split; [exact E|]. split; [auto|]. split; [auto|].
  intros cam. rewrite T. destruct (existsb (Nat.eqb cam) (map fst (f_ts f))) eqn:X; [reflexivity|].
  rewrite ftrack_nokey; [reflexivity|]. intros I.
  assert (existsb (Nat.eqb cam) (map fst (f_ts f)) = true); [|congruence].
  apply existsb_exists. exists cam. split; [auto|apply Nat.eqb_refl].
Qed.

(** ** update_feature *)
Lemma new_feature_ok id : feat_ok (new_feature id).
Proof. split; [constructor|intros cam; cbn; auto]. Qed.

Lemma push_meas_spec f t cam u n :
  feat_ok f ->
  feat_ok (push_meas f t cam u n) /\ same_info (push_meas f t cam u n) f /\
  forall cam', ftrack (push_meas f t cam u n) cam' =
    if Nat.eqb cam' cam then ftrack f cam ++ [(t, u, n)] else ftrack f cam'.
Proof.
  intros OK. pose proof OK as [ND P]. destruct (par_len f cam P) as [L1 L2].
  destruct (set3_spec f cam (aget (f_ts f) cam ++ [t]) (aget (f_uvs f) cam ++ [u])
              (aget (f_uvn f) cam ++ [n]) OK) as [A [B C]]; try (rewrite !app_length; cbn; lia).
  split; [exact A|]. split; [exact B|]. intros cam'. etransitivity; [exact (C cam')|].
  destruct (Nat.eqb cam' cam); [|reflexivity].
  rewrite zip3_app; auto.
Qed.

Lemma aset_db_ok d id f : db_ok d -> f_id f = id -> feat_ok f -> db_ok (aset d id f).
Proof.
  intros [ND H] E F. split; [apply aset_nodup; auto|].
  intros id' f' I. apply aset_in in I; auto. destruct I as [[-> ->]|I]; auto.
Qed.

Lemma db_ok_look d id f : db_ok d -> alook d id = Some f -> f_id f = id /\ feat_ok f.
Proof. intros [ND H] E. apply H. apply alook_some_key. auto. Qed.

Lemma update_feature_spec d id t cam u n :
  db_ok d ->
  let d' := update_feature d id t cam u n in
  db_ok d' /\
  track d' id cam = track d id cam ++ [(t, u, n)] /\
  (forall cam', cam' <> cam -> track d' id cam' = track d id cam') /\
  (forall id', id' <> id -> alook d' id' = alook d id') /\
  (forall f, alook d id = Some f -> exists f', alook d' id = Some f' /\ same_info f' f) /\
  (alook d id = None -> exists f', alook d' id = Some f' /\ f_id f' = id /\ f_del f' = false).
Proof.
  intros OK d'. subst d'. unfold update_feature, track.
  assert (X : forall f, f_id f = id -> feat_ok f ->
    db_ok (aset d id (push_meas f t cam u n))).
  { intros f E F. destruct (push_meas_spec f t cam u n F) as [A [[B1 B2] C]].
    apply aset_db_ok; auto. }
  destruct (alook d id) as [f|] eqn:E.
  - destruct (db_ok_look _ _ _ OK E) as [E1 F]. destruct (push_meas_spec f t cam u n F) as [A [B C]].
    split; [auto|]. rewrite alook_aset, Nat.eqb_refl. split; [rewrite C, Nat.eqb_refl; reflexivity|].
    split; [intros cam' N; rewrite C; destruct (Nat.eqb_spec cam' cam); congruence|].
    split; [intros id' N; rewrite alook_aset; destruct (Nat.eqb_spec id' id); congruence|].
    split; [intros g G; injection G as <-; eauto|discriminate].
  - pose proof (new_feature_ok id) as F. destruct (push_meas_spec _ t cam u n F) as [A [B C]].
    split; [apply X; auto|]. rewrite alook_aset, Nat.eqb_refl.
    split; [rewrite C, Nat.eqb_refl; reflexivity|].
    split; [intros cam' N; rewrite C; destruct (Nat.eqb_spec cam' cam); [congruence|reflexivity]|].
    split; [intros id' N; rewrite alook_aset; destruct (Nat.eqb_spec id' id); congruence|].
    split; [discriminate|]. intros _. eexists. split; [reflexivity|]. split; reflexivity.
Qed.

(** ** queries *)
Lemma query_loop_eq pred remove skip d :
  query_loop pred remove skip d =
  (map snd (filter (fun e => negb (skip && f_del (snd e)) && pred (snd e))%bool d),
   if remove then filter (fun e => negb (negb (skip && f_del (snd e)) && pred (snd e)))%bool d else d).
Proof.
  induction d as [|e d IH]; cbn [query_loop filter map]; [destruct remove; reflexivity|].
  rewrite IH. destruct (skip && f_del (snd e))%bool; cbn [negb andb]; [destruct remove; reflexivity|].
  destruct (pred (snd e)); cbn [map negb]; destruct remove; reflexivity.
Qed.

Lemma alook_filter_nodup {A} (p : nat * A -> bool) (m : amap A) k :
  NoDup (map fst m) ->
  alook (filter p m) k = match alook m k with Some v => if p (k, v) then Some v else None | None => None end.
Proof.
  induction m as [|[k0 v0] m IH]; cbn [filter alook map fst]; intros ND; [reflexivity|].
  apply NoDup_cons_iff in ND. destruct ND as [NI ND].
  destruct (p (k0, v0)) eqn:E; cbn [alook].
  - destruct (Nat.eqb_spec k k0) as [->|N]; [rewrite E; reflexivity|auto].
  - rewrite IH; auto. destruct (Nat.eqb_spec k k0) as [->|N]; [|reflexivity].
    apply alook_none_key in NI. rewrite NI, E. reflexivity.
Qed.

Lemma query_selects P pred remove skip d :
  db_ok d ->
  (forall id f, alook d id = Some f -> (pred f = true <-> P f)) ->
  let r := query_loop pred remove skip d in selects P remove skip d (fst r) (snd r).
Proof.
  intros OK H r. subst r. rewrite query_loop_eq. cbn [fst snd]. pose proof OK as [ND F].
  set (p := fun e : nat * feature => (negb (skip && f_del (snd e)) && pred (snd e))%bool).
  assert (K : map f_id (map snd (filter p d)) = map fst (filter p d)).
  { rewrite map_map. apply map_ext_in. intros [id f] I. apply filter_In in I. destruct I as [I _].
    cbn. apply F in I. tauto. }
  assert (Q : forall f, negb (skip && f_del f) = true <-> (skip = true -> f_del f = false)).
  { intros f. destruct skip, (f_del f); cbn; intuition congruence. }
  split; [rewrite K; apply nodup_filter_keys; auto|]. split.
  - intros f. split.
    + intros I. apply in_map_iff in I. destruct I as [[id g] [E I]]. cbn in E; subst g.
      apply filter_In in I. destruct I as [I T]. apply alook_in in I; auto. unfold p in T; cbn [snd] in T.
      apply andb_true_iff in T. destruct T as [T1 T2].
      split; [eauto|]. split; [apply Q; auto|]. apply (H id f); auto.
    + intros [[id E] [S T]]. apply in_map_iff. exists (id, f). split; [reflexivity|].
      apply filter_In. split; [apply alook_some_key; auto|]. unfold p; cbn [snd].
      apply andb_true_iff. split; [apply Q; auto|apply (H id f); auto].
  - intros id. destruct remove; cbn [andb]; [|destruct (alook d id); reflexivity].
    rewrite alook_filter_nodup; auto. destruct (alook d id) as [f|] eqn:E; [|reflexivity].
    rewrite K. change (negb (negb (skip && f_del (snd (id, f))) && pred (snd (id, f)))%bool) with (negb (p (id, f))).
    destruct (p (id, f)) eqn:T; cbn [negb].
    + replace (existsb (Nat.eqb id) (map fst (filter p d))) with true; [reflexivity|].
      symmetry. apply existsb_exists. exists id. split; [|apply Nat.eqb_refl].
      change id with (fst (id, f)). apply in_map. apply filter_In. split; [apply alook_some_key|]; auto.
    + replace (existsb (Nat.eqb id) (map fst (filter p d))) with false; [reflexivity|].
      symmetry. apply not_true_is_false. intros X. apply existsb_exists in X.
      destruct X as [x [I EQ]]. apply Nat.eqb_eq in EQ; subst x.
      apply in_map_iff in I. destruct I as [[id' g] [E2 I]]. cbn in E2; subst id'.
      apply filter_In in I. destruct I as [I T2]. apply alook_in in I; auto. congruence.
Qed.

Lemma seen_times f t : feat_ok f ->
  (seen f t <-> exists cam l, In (cam, l) (f_ts f) /\ In t l).
Proof.
  intros [ND P]. unfold seen. split.
  - intros [cam [o [I E]]].
    assert (J : In t (aget (f_ts f) cam)) by (rewrite <- (ftrack_times f cam P), <- E; apply in_map; auto).
    unfold aget in J. destruct (alook (f_ts f) cam) as [l|] eqn:L; [|contradiction].
    exists cam, l. split; [apply alook_some_key|]; auto.
  - intros [cam [l [I J]]]. apply alook_in in I; auto.
    assert (X : In t (map otime (ftrack f cam))) by (rewrite ftrack_times; auto; unfold aget; rewrite I; auto).
    apply in_map_iff in X. destruct X as [o [E O]]. eauto.
Qed.

Lemma chron_times f cam l : feat_ok f -> chron f -> In (cam, l) (f_ts f) -> StronglySorted Rle l.
Proof.
  intros [ND P] C I. specialize (C cam). rewrite ftrack_times in C; auto.
  unfold aget in C. apply alook_in in I; auto. rewrite I in C. exact C.
Qed.

Lemma sorted_last_max l x t :
  StronglySorted Rle l -> nth_error l (length l - 1) = Some x -> In t l -> t <= x.
Proof.
  induction l as [|a l IH]; intros SS N I; [contradiction|].
  apply StronglySorted_inv in SS. destruct SS as [SS F]. cbn [length] in N.
  destruct l as [|b l].
  - cbn in N. injection N as <-. destruct I as [->|[]]. lra.
  - replace (S (length (b :: l)) - 1)%nat with (S (length (b :: l) - 1)) in N by (cbn; lia).
    cbn [nth_error] in N. destruct I as [->|I]; [|auto].
    rewrite Forall_forall in F. apply F. eapply nth_error_In. exact N.
Qed.

Lemma sorted_head_min l x t :
  StronglySorted Rle l -> nth_error l 0 = Some x -> In t l -> x <= t.
Proof.
  destruct l as [|a l]; intros S N I; [contradiction|]. cbn in N. injection N as <-.
  apply StronglySorted_inv in S. destruct S as [S F]. rewrite Forall_forall in F.
  destruct I as [->|I]; [lra|auto].
Qed.

Lemma has_newer_spec t f : feat_ok f -> chron f ->
  (has_newer t f = true <-> exists t', seen f t' /\ t <= t').
Proof.
  intros OK C. unfold has_newer. rewrite existsb_exists. split.
  - intros [[cam l] [I H]]. cbn [snd] in H. destruct (nth_error l (length l - 1)) as [x|] eqn:N; [|discriminate].
    apply Rleb_true in H. exists x. split; [|auto]. apply seen_times; auto.
    exists cam, l. split; [auto|]. eapply nth_error_In; eauto.
  - intros [t' [S L]]. apply seen_times in S; auto. destruct S as [cam [l [I J]]].
    exists (cam, l). split; [auto|]. cbn [snd].
    destruct (nth_error l (length l - 1)) as [x|] eqn:N.
    + apply Rleb_true. assert (t' <= x); [|lra]. exact (sorted_last_max l x t' (chron_times _ _ _ OK C I) N J).
    + exfalso. apply nth_error_None in N. destruct l; [contradiction|cbn in N; lia].
Qed.

Lemma has_older_spec t f : feat_ok f -> chron f ->
  (has_older t f = true <-> exists t', seen f t' /\ t' < t).
Proof.
  intros OK C. unfold has_older. rewrite existsb_exists. split.
  - intros [[cam l] [I H]]. cbn [snd] in H. destruct (nth_error l 0) as [x|] eqn:N; [|discriminate].
    apply Rltb_true in H. exists x. split; [|auto]. apply seen_times; auto.
    exists cam, l. split; [auto|]. eapply nth_error_In; eauto.
  - intros [t' [S L]]. apply seen_times in S; auto. destruct S as [cam [l [I J]]].
    exists (cam, l). split; [auto|]. cbn [snd].
    destruct (nth_error l 0) as [x|] eqn:N.
    + apply Rltb_true. assert (x <= t'); [|lra]. exact (sorted_head_min l x t' (chron_times _ _ _ OK C I) N J).
    + exfalso. apply nth_error_None in N. destruct l; [contradiction|cbn in N; lia].
Qed.

Lemma has_time_spec t f : feat_ok f -> (has_time t f = true <-> seen f t).
Proof.
  intros OK. unfold has_time. rewrite existsb_exists, seen_times; auto. split.
  - intros [[cam l] [I H]]. cbn [snd] in H. apply tfind_in in H. eauto.
  - intros [cam [l [I J]]]. exists (cam, l). split; [auto|]. apply tfind_in. auto.
Qed.

(** ** cleaning *)
Lemma cleanup_eq d : cleanup d = filter (fun e => negb (f_del (snd e))) d.
Proof.
  induction d as [|e d IH]; cbn [cleanup filter]; [reflexivity|].
  destruct (f_del (snd e)); cbn [negb]; rewrite IH; reflexivity.
Qed.

Lemma filter_db_ok p d : db_ok d -> db_ok (filter p d).
Proof.
  intros [ND H]. split; [apply nodup_filter_keys; auto|].
  intros id f I. apply filter_In in I. apply H. tauto.
Qed.

Lemma fold_len_acc (l : amap (list R)) a :
  fold_left (fun a p => (a + length (snd p))%nat) l a =
  (a + fold_left (fun a p => (a + length (snd p))%nat) l 0)%nat.
Proof.
  revert a; induction l as [|p l IH]; intros a; cbn [fold_left]; [lia|].
  rewrite IH, (IH (0 + _)%nat). lia.
Qed.

Lemma count_meas_zero f : feat_ok f -> ((count_meas f <? 1)%nat = true <-> forall cam, ftrack f cam = []).
Proof.
  intros [ND P]. rewrite Nat.ltb_lt. unfold count_meas.
  assert (X : (fold_left (fun a p => (a + length (snd p))%nat) (f_ts f) 0 < 1)%nat <->
              forall cam l, In (cam, l) (f_ts f) -> l = []).
  { clear ND P. induction (f_ts f) as [|[c l] m IH]; cbn [fold_left].
    - split; [intros _ cam l []|intros; lia].
    - rewrite fold_len_acc. cbn [snd]. split.
      + intros H cam l' [E|I].
        * injection E as -> ->. destruct l'; [reflexivity|cbn in H; lia].
        * eapply IH; [lia|exact I].
      + intros H. rewrite (H c l) by (left; auto). cbn.
        apply IH. intros cam l' I. apply (H cam). right; auto. }
  rewrite X. split.
  - intros H cam. unfold ftrack, aget at 1. destruct (alook (f_ts f) cam) as [l|] eqn:E; [|reflexivity].
    apply alook_some_key in E. rewrite (H cam l E). reflexivity.
  - intros H cam l I. apply alook_in in I; auto.
    assert (map otime (ftrack f cam) = l) as <- by (rewrite ftrack_times; auto; unfold aget; rewrite I; auto).
    rewrite H. reflexivity.
Qed.

Lemma clean_loop_spec drop d :
  db_ok d ->
  exists d', clean_loop (clean_feature drop) d = Ok d' /\ db_ok d' /\
    (forall id, In id (map fst d') -> In id (map fst d)) /\
    forall id, match alook d id with
    | None => alook d' id = None
    | Some f =>
        let keep := fun o => negb (drop (otime o)) in
        match alook d' id with
        | None => forall cam, filter keep (ftrack f cam) = []
        | Some f' => same_info f' f /\ (exists cam, ftrack f' cam <> []) /\
                     forall cam, ftrack f' cam = filter keep (ftrack f cam)
        end
    end.
Proof.
  induction d as [|[id0 f0] d IH]; intros [ND H].
  - exists []. cbn. repeat split; auto; try constructor; intros; contradiction.
  - cbn [map fst] in ND. apply NoDup_cons_iff in ND. destruct ND as [NI ND].
    destruct IH as [d' [E [OK [K T]]]].
    { split; [auto|]. intros id f I. apply H. right; auto. }
    destruct (H id0 f0) as [E0 F0]; [left; auto|].
    destruct (clean_feature_spec drop f0 F0) as [f1 [E1 [F1 [S1 T1]]]].
    cbn [clean_loop]. rewrite E1. cbn [obind]. rewrite E. cbn [obind].
    assert (NI' : ~ In id0 (map fst d')) by (intros X; apply NI, K, X).
    eexists. split; [reflexivity|].
    pose proof (count_meas_zero f1 F1) as CZ. destruct (count_meas f1 <? 1)%nat.
    + split; [auto|]. split; [intros id X; right; auto|].
      intros id. cbn [alook]. destruct (Nat.eqb_spec id id0) as [->|N].
      * apply alook_none_key in NI'. rewrite NI'. intros cam. cbn. rewrite <- T1. apply CZ; auto.
      * apply T.
    + split; [|split].
      * destruct OK as [OK1 OK2]. split; [cbn [map fst]; constructor; auto|].
        intros id f [X|X]; [injection X as <- <-; split; [destruct S1; congruence|auto]|auto].
      * intros id [X|X]; [left; auto|right; auto].
      * intros id. cbn [alook]. destruct (Nat.eqb_spec id id0) as [->|N]; [|apply T].
        split; [auto|]. split; [|auto].
        assert (X : ~ (forall cam, ftrack f1 cam = [])) by (intros X; apply CZ in X; discriminate).
        destruct (existsb (fun cam => match ftrack f1 cam with [] => false | _ => true end) (map fst (f_ts f1))) eqn:B.
        -- apply existsb_exists in B. destruct B as [cam [_ B]]. exists cam. intros Z. rewrite Z in B. discriminate.
        -- exfalso. apply X. intros cam. destruct (in_dec Nat.eq_dec cam (map fst (f_ts f1))) as [I|I]; [|apply ftrack_nokey; auto].
           destruct (ftrack f1 cam) eqn:Z; [reflexivity|]. exfalso.
           enough (existsb (fun cam => match ftrack f1 cam with [] => false | _ => true end) (map fst (f_ts f1)) = true) by congruence.
           apply existsb_exists. exists cam. rewrite Z. auto.
Qed.
