From Coq Require Import Reals List Arith ZArith Bool Sorted Lia Lra.
From Verif Require Import RBool Outcome GeoModel DbModel DbSpec DbProofs.
Import ListNotations.
Open Scope R_scope.

(** ** append_new_measurements *)
Definition fresh (old : list obs) (new : list obs) : list obs :=
  filter (fun o => negb (tfind (map otime old) (otime o))) new.

Lemma append_loop_spec snap ts us ns cam : forall acc,
  feat_ok acc -> In cam (map fst (f_ts acc)) ->
  length us = length ts -> length ns = length ts ->
  exists f', append_loop snap ts us ns acc cam = Ok f' /\ feat_ok f' /\ same_info f' acc /\
    forall cam', ftrack f' cam' =
      if Nat.eqb cam' cam
      then ftrack acc cam ++ filter (fun o => negb (tfind snap (otime o))) (zip3 ts us ns)
      else ftrack acc cam'.
Proof.
  revert us ns; induction ts as [|t ts IH]; intros [|u us] [|n ns] acc OK K H1 H2;
    cbn in H1, H2; try discriminate.
  - exists acc. cbn. split; [auto|]. split; [auto|]. split; [apply same_info_refl|].
    intros cam'. destruct (Nat.eqb_spec cam' cam) as [->|]; [rewrite app_nil_r|]; reflexivity.
  - cbn [append_loop zip3 filter]. unfold otime at 1; cbn [fst].
    destruct (tfind snap t); cbn [negb tl].
    + apply IH; auto.
    + pose proof OK as [ND P]. pose proof (P cam) as Pc. apply alook_key in K. destruct K as [a Ea].
      rewrite Ea in *. destruct (alook (f_uvs acc) cam) as [b|] eqn:Eb; [|contradiction].
      destruct (alook (f_uvn acc) cam) as [c|] eqn:Ec; [|contradiction]. destruct Pc as [L1 L2].
      destruct (set3_spec acc cam (a ++ [t]) (b ++ [u]) (c ++ [n]) OK) as [A [B C]];
        try (rewrite !app_length; cbn; lia).
      destruct (IH us ns (set3 acc cam (a ++ [t]) (b ++ [u]) (c ++ [n]))) as [f' [E [O [S T]]]];
        auto; try lia.
      { cbn. apply alook_key. rewrite alook_aset, Nat.eqb_refl. eauto. }
      exists f'. split; [exact E|]. split; [auto|]. split; [eapply same_info_trans; eauto|].
      intros cam'. rewrite T. rewrite !C, Nat.eqb_refl.
      destruct (Nat.eqb_spec cam' cam) as [->|N]; [|reflexivity].
      rewrite zip3_app; auto. rewrite <- app_assoc. cbn [zip3 app].
      unfold ftrack, aget. rewrite Ea, Eb, Ec. reflexivity.
Qed.

Lemma append_cam_spec src acc p :
  feat_ok acc -> feat_ok src -> In (fst p) (map fst (f_ts src)) ->
  exists f', append_cam src acc p = Ok f' /\ feat_ok f' /\ same_info f' acc /\
    forall cam', ftrack f' cam' =
      if Nat.eqb cam' (fst p) then ftrack acc (fst p) ++ fresh (ftrack acc (fst p)) (ftrack src (fst p))
      else ftrack acc cam'.
Proof.
  intros OK OS K. set (cam := fst p) in *. unfold append_cam. fold cam.
  pose proof OS as [NDs Ps]. pose proof OK as [ND P].
  destruct (alook (f_ts acc) cam) as [snap|] eqn:Es.
  - destruct (par_len src cam Ps) as [L1 L2].
    destruct (append_loop_spec snap (aget (f_ts src) cam) (aget (f_uvs src) cam)
                (aget (f_uvn src) cam) cam acc) as [f' [E [O [S T]]]]; auto.
    { apply alook_key; eauto. }
    exists f'. split; [auto|]. split; [auto|]. split; [auto|].
    intros cam'. rewrite T. unfold fresh. rewrite (ftrack_times acc cam P). unfold aget at 4. rewrite Es.
    reflexivity.
  - apply alook_key in K. destruct K as [a Ea]. pose proof (Ps cam) as Pc. rewrite Ea in *.
    destruct (alook (f_uvs src) cam) as [b|] eqn:Eb; [|contradiction].
    destruct (alook (f_uvn src) cam) as [c|] eqn:Ec; [|contradiction]. destruct Pc as [L1 L2].
    destruct (set3_spec acc cam a b c OK L1 L2) as [A [B C]].
    exists (set3 acc cam a b c). split; [reflexivity|]. split; [auto|]. split; [auto|].
    intros cam'. rewrite C.
    assert (Z : ftrack acc cam = []) by (unfold ftrack, aget at 1; rewrite Es; reflexivity).
    rewrite Z. cbn [app]. unfold fresh. cbn [map tfind existsb negb].
    destruct (Nat.eqb_spec cam' cam) as [->|N]; [|reflexivity].
    unfold ftrack, aget. rewrite Ea, Eb, Ec.
    symmetry. clear. induction (zip3 a b c) as [|o l IH]; cbn [filter]; congruence.
Qed.

Lemma append_fold_spec src l : forall f,
  feat_ok f -> feat_ok src -> NoDup (map fst l) -> incl (map fst l) (map fst (f_ts src)) ->
  exists f', ofold (append_cam src) l f = Ok f' /\ feat_ok f' /\ same_info f' f /\
    forall cam, ftrack f' cam =
      if existsb (Nat.eqb cam) (map fst l) then ftrack f cam ++ fresh (ftrack f cam) (ftrack src cam)
      else ftrack f cam.
Proof.
  induction l as [|p l IH]; intros f OK OS ND I.
  - exists f. cbn. repeat (split; [auto using same_info_refl|]). reflexivity.
  - cbn [map] in ND, I. apply NoDup_cons_iff in ND. destruct ND as [NI ND].
    destruct (append_cam_spec src f p OK OS) as [f1 [E1 [O1 [S1 T1]]]]; [apply I; left; auto|].
    destruct (IH f1 O1 OS ND) as [f2 [E2 [O2 [S2 T2]]]]; [intros x X; apply I; right; auto|].
    exists f2. cbn [ofold]. rewrite E1. cbn [obind]. split; [auto|]. split; [auto|].
    split; [eapply same_info_trans; eauto|].
    intros cam. rewrite T2, T1. cbn [map existsb].
    destruct (Nat.eqb_spec cam (fst p)) as [->|N]; cbn [orb]; [|reflexivity].
    destruct (existsb (Nat.eqb (fst p)) (map fst l)) eqn:X; [|reflexivity].
    exfalso. apply existsb_exists in X. destruct X as [x [X1 X2]]. apply Nat.eqb_eq in X2. congruence.
Qed.

Lemma fresh_nil l : fresh [] l = l.
Proof. unfold fresh. cbn. induction l as [|o l IH]; cbn [filter]; congruence. Qed.
Lemma fresh_of_nil l : fresh l [] = [].
Proof. reflexivity. Qed.

Lemma append_feature_spec d e :
  db_ok d -> feat_ok (snd e) -> f_id (snd e) = fst e ->
  exists d', append_feature d e = Ok d' /\ db_ok d' /\
    (forall id, id <> fst e -> alook d' id = alook d id) /\
    (forall cam, track d' (fst e) cam = track d (fst e) cam ++ fresh (track d (fst e) cam) (ftrack (snd e) cam)) /\
    exists f', alook d' (fst e) = Some f' /\
      match alook d (fst e) with Some f => same_info f' f | None => f_id f' = fst e /\ f_del f' = false end.
Proof.
  intros OK OS E0. unfold append_feature, track. destruct (alook d (fst e)) as [f|] eqn:E.
  - destruct (db_ok_look _ _ _ OK E) as [E1 F].
    destruct (append_fold_spec (snd e) (f_ts (snd e)) f F OS (proj1 OS) (incl_refl _)) as [f' [X [O [S T]]]].
    rewrite X. cbn [obind]. eexists. split; [reflexivity|].
    split; [apply aset_db_ok; auto; destruct S; congruence|].
    split; [intros id N; rewrite alook_aset; destruct (Nat.eqb_spec id (fst e)); congruence|].
    rewrite alook_aset, Nat.eqb_refl. split; [|eauto].
    intros cam. rewrite T. destruct (existsb (Nat.eqb cam) (map fst (f_ts (snd e)))) eqn:B; [reflexivity|].
    rewrite (ftrack_nokey (snd e)); [rewrite fresh_of_nil, app_nil_r; reflexivity|].
    intros I. enough (existsb (Nat.eqb cam) (map fst (f_ts (snd e))) = true) by congruence.
    apply existsb_exists. exists cam. split; [auto|apply Nat.eqb_refl].
  - eexists. split; [reflexivity|].
    set (g := set_meas _ _ _ _).
    assert (G : feat_ok g) by exact OS.
    split; [apply aset_db_ok; auto|].
    split; [intros id N; rewrite alook_aset; destruct (Nat.eqb_spec id (fst e)); congruence|].
    rewrite alook_aset, Nat.eqb_refl. split.
    + intros cam. rewrite fresh_nil. reflexivity.
    + eexists. split; [reflexivity|]. split; [exact E0|reflexivity].
Qed.

Lemma append_spec_aux other : forall d,
  db_ok d -> db_ok other ->
  exists d', append_new_measurements d other = Ok d' /\ db_ok d' /\
    (forall id cam, track d' id cam = track d id cam ++ fresh (track d id cam) (track other id cam)) /\
    (forall id, match alook d id with
                | Some f => exists f', alook d' id = Some f' /\ same_info f' f
                | None => match alook other id with
                          | Some _ => exists f', alook d' id = Some f' /\ f_id f' = id /\ f_del f' = false
                          | None => alook d' id = None
                          end
                end).
Proof.
  unfold append_new_measurements. induction other as [|[id0 f0] other IH]; intros d OK OO.
  - exists d. cbn [ofold alook]. split; [auto|]. split; [auto|]. split.
    + intros id cam. change (track [] id cam) with (@nil obs). rewrite fresh_of_nil, app_nil_r. reflexivity.
    + intros id. destruct (alook d id); eauto using same_info_refl.
  - destruct OO as [ND H]. cbn [map fst] in ND. apply NoDup_cons_iff in ND. destruct ND as [NI ND].
    destruct (H id0 f0) as [E0 F0]; [left; auto|].
    destruct (append_feature_spec d (id0, f0) OK F0 E0) as [d1 [E1 [O1 [K1 [T1 I1]]]]].
    cbn [fst snd] in *.
    destruct (IH d1 O1) as [d2 [E2 [O2 [T2 I2]]]].
    { split; [auto|]. intros id f I. apply H. right; auto. }
    exists d2. cbn [ofold]. rewrite E1. cbn [obind]. split; [auto|]. split; [auto|].
    apply alook_none_key in NI. split.
    + intros id cam. rewrite T2. destruct (Nat.eq_dec id id0) as [->|N].
      * assert (Z1 : track other id0 cam = []) by (unfold track; rewrite NI; reflexivity).
        assert (Z2 : track ((id0, f0) :: other) id0 cam = ftrack f0 cam)
          by (unfold track; cbn [alook]; rewrite Nat.eqb_refl; reflexivity).
        rewrite T1, Z1, Z2, fresh_of_nil, app_nil_r. reflexivity.
      * assert (Z1 : track d1 id cam = track d id cam) by (unfold track; rewrite (K1 id N); reflexivity).
        assert (Z2 : track ((id0, f0) :: other) id cam = track other id cam)
          by (unfold track; cbn [alook]; destruct (Nat.eqb_spec id id0); [congruence|reflexivity]).
        rewrite Z1, Z2. reflexivity.
    + intros id. specialize (I2 id). cbn [alook]. destruct (Nat.eqb_spec id id0) as [->|N].
      * destruct I1 as [f1 [X1 X2]]. rewrite X1 in I2. destruct I2 as [f2 [Y1 Y2]].
        destruct (alook d id0) as [f|].
        -- exists f2. split; [auto|]. eapply same_info_trans; eauto.
        -- exists f2. split; [auto|]. destruct Y2 as [Y2 [Y3 Y4]]. destruct X2. split; congruence.
      * rewrite (K1 id N) in I2. exact I2.
Qed.

(** ** get_oldest_timestamp *)

(** minimum over a list of head times, folded with the -1 sentinel *)
Definition ostep (acc x : R) : R := if (Reqb acc (-1) || Rltb x acc)%bool then x else acc.
Lemma ostep_spec (l : list R) : forall acc,
  Forall (fun x => x <> -1) l ->
  let r := fold_left ostep l acc in
  (acc = -1 /\ l = [] /\ r = -1) \/
  (r <> -1 /\ (In r l \/ (r = acc)) /\ Forall (fun x => r <= x) l /\ (acc <> -1 -> r <= acc)).
Proof.
  induction l as [|x l IH]; intros acc F; cbn [fold_left].
  - destruct (Req_EM_T acc (-1)) as [->|N]; [left; auto|right].
    split; [auto|]. split; [auto|]. split; [constructor|intros; lra].
  - inversion F as [|? ? Fx Fl]; subst. right.
    assert (S : ostep acc x <> -1 /\ (ostep acc x = x \/ ostep acc x = acc) /\ ostep acc x <= x /\
                (acc <> -1 -> ostep acc x <= acc)).
    { unfold ostep. destruct (Reqb_spec acc (-1)) as [->|N]; cbn [orb].
      - repeat split; auto; try lra. 
      - destruct (Rltb_spec x acc); repeat split; auto; intros; lra. }
    destruct S as [S1 [S2 [S3 S4]]].
    destruct (IH (ostep acc x) Fl) as [[A _]|[A [B [C D]]]]; [congruence|].
    specialize (D S1). split; [auto|]. split; [|split].
    + destruct B as [B|B]; [left; right; auto|]. rewrite B. destruct S2 as [->| ->]; [left; left; auto|auto].
    + constructor; [lra|auto].
    + intros N. specialize (S4 N). lra.
Qed.

Definition heads (l : list (nat * list R)) : list R :=
  flat_map (fun p => match snd p with [] => [] | x :: _ => [x] end) l.
Lemma oldest_step_heads l acc : fold_left oldest_step l acc = fold_left ostep (heads l) acc.
Proof.
  revert acc; induction l as [|[c m] l IH]; intros acc; cbn [fold_left heads flat_map]; [reflexivity|].
  unfold heads in IH. destruct m as [|x m]; cbn [snd app fold_left]; rewrite IH; reflexivity.
Qed.
Definition dheads (d : db) : list R := flat_map (fun e => heads (f_ts (snd e))) d.
Lemma oldest_heads d : get_oldest_timestamp d = fold_left ostep (dheads d) (-1).
Proof.
  unfold get_oldest_timestamp. generalize (-1). induction d as [|e d IH]; intros acc; [reflexivity|].
  cbn [fold_left]. rewrite IH, oldest_step_heads. unfold dheads. cbn [flat_map].
  rewrite fold_left_app. reflexivity.
Qed.

Lemma oldest_spec d :
  db_ok d -> db_chron d -> (forall id f t, alook d id = Some f -> seen f t -> t <> -1) ->
  let r := get_oldest_timestamp d in
  (r = -1 /\ forall id f t, alook d id = Some f -> ~ seen f t) \/
  ((exists id f, alook d id = Some f /\ seen f r) /\
   forall id f t, alook d id = Some f -> seen f t -> r <= t).
Proof.
  intros OK C N r. unfold r. rewrite oldest_heads. pose proof OK as [ND H].
  assert (HS : forall x, In x (dheads d) -> exists id f, alook d id = Some f /\ seen f x).
  { intros x I. unfold dheads in I. apply in_flat_map in I. destruct I as [[id f] [I J]].
    unfold heads in J. apply in_flat_map in J. destruct J as [[cam l] [J K]]. cbn [snd] in *.
    destruct l as [|y l]; [contradiction|]. destruct K as [->|[]].
    exists id, f. split; [apply alook_in; auto|]. apply seen_times; [apply (H id f I)|].
    exists cam, (x :: l). split; [auto|left; auto]. }
  assert (SH : forall id f t, alook d id = Some f -> seen f t -> exists x, In x (dheads d) /\ x <= t).
  { intros id f t E S. destruct (db_ok_look _ _ _ OK E) as [_ F]. pose proof (C id f E) as Cf.
    apply seen_times in S; auto. destruct S as [cam [l [I J]]].
    destruct l as [|x l]; [contradiction|]. exists x. split.
    - unfold dheads. apply in_flat_map. exists (id, f). split; [apply alook_some_key; auto|].
      unfold heads. apply in_flat_map. exists (cam, x :: l). split; [auto|left; auto].
    - exact (sorted_head_min (x :: l) x t (chron_times _ _ _ F Cf I) eq_refl J). }
  destruct (ostep_spec (dheads d) (-1)) as [[_ [A B]]|[A [B [D _]]]].
  - apply Forall_forall. intros x I. destruct (HS x I) as [id [f [E S]]]. eapply N; eauto.
  - left. split; [exact B|]. intros id f t E S. destruct (SH id f t E S) as [x [I _]].
    rewrite A in I. contradiction.
  - right. destruct B as [B|B]; [|congruence]. split; [apply HS; auto|].
    intros id f t E S. destruct (SH id f t E S) as [x [I L]].
    rewrite Forall_forall in D. specialize (D x I). cbn beta in D. lra.
Qed.

(** ** reachable databases *)
Lemma on_feature_ok d id g d' :
  db_ok d ->
  (forall f f', feat_ok f -> g f = Ok f' -> feat_ok f' /\ f_id f' = f_id f) ->
  on_feature d id g = Ok d' -> db_ok d'.
Proof.
  intros OK G. unfold on_feature. destruct (alook d id) as [f|] eqn:E.
  - intros H. apply obind_ok in H. destruct H as [f' [H1 H2]]. injection H2 as <-.
    destruct (db_ok_look _ _ _ OK E) as [E1 F]. destruct (G _ _ F H1) as [A B].
    apply aset_db_ok; auto. congruence.
  - intros H; injection H as <-; auto.
Qed.

Lemma clean_feature_ok drop f f' : feat_ok f -> clean_feature drop f = Ok f' -> feat_ok f' /\ f_id f' = f_id f.
Proof.
  intros OK H. destruct (clean_feature_spec drop f OK) as [g [E [O [S _]]]].
  rewrite E in H. injection H as <-. split; [auto|apply S].
Qed.

Lemma query_db_ok pred remove skip d : db_ok d -> db_ok (snd (query_loop pred remove skip d)).
Proof. intros OK. rewrite query_loop_eq. cbn [snd]. destruct remove; [apply filter_db_ok|]; auto. Qed.

Lemma dbexec_ok d o d' :
  db_ok d -> (forall other, o = DAppend other -> db_ok other) -> dbexec d o = Ok d' -> db_ok d'.
Proof.
  intros OK A. destruct o; cbn [dbexec]; intros H;
    try (injection H as <-; apply query_db_ok; assumption).
  - injection H as <-. apply update_feature_spec; auto.
  - injection H as <-. unfold get_feature. destruct (alook d id); [|auto]. destruct remove; cbn [snd]; [|auto].
    apply filter_db_ok; auto.
  - injection H as <-. rewrite cleanup_eq. apply filter_db_ok; auto.
  - destruct (clean_loop_spec (fun x => Rleb x t) d OK) as [d1 [E [O _]]].
    unfold cleanup_measurements, clean_older_measurements in H. rewrite E in H. injection H as <-. auto.
  - destruct (clean_loop_spec (fun x => tfind [t] x) d OK) as [d1 [E [O _]]].
    unfold cleanup_measurements_exact, clean_invalid_measurements in H. rewrite E in H. injection H as <-. auto.
  - apply on_feature_ok in H; auto. intros f f' F E. injection E as <-. split; [exact F|reflexivity].
  - apply on_feature_ok in H; auto. intros f f' F E. exact (clean_feature_ok _ _ _ F E).
  - apply on_feature_ok in H; auto. intros f f' F E. exact (clean_feature_ok _ _ _ F E).
  - apply on_feature_ok in H; auto. intros f f' F E. injection E as <-. split; [exact F|reflexivity].
  - destruct (append_spec_aux other d OK (A other eq_refl)) as [d1 [E [O _]]].
    rewrite E in H. injection H as <-. auto.
Qed.

Lemma on_feature_total d id g :
  db_ok d -> (forall f, feat_ok f -> exists f', g f = Ok f') -> exists d', on_feature d id g = Ok d'.
Proof.
  intros OK G. unfold on_feature. destruct (alook d id) as [f|] eqn:E; [|eauto].
  destruct (db_ok_look _ _ _ OK E) as [_ F]. destruct (G f F) as [f' ->]. cbn. eauto.
Qed.

Lemma clean_feature_total drop f : feat_ok f -> exists f', clean_feature drop f = Ok f'.
Proof. intros OK. destruct (clean_feature_spec drop f OK) as [g [E _]]. eauto. Qed.

Lemma dbexec_total d o :
  db_ok d -> (forall other, o = DAppend other -> db_ok other) -> exists d', dbexec d o = Ok d'.
Proof.
  intros OK A. destruct o; cbn [dbexec]; eauto.
  - destruct (clean_loop_spec (fun x => Rleb x t) d OK) as [d1 [E _]]. exists d1. exact E.
  - destruct (clean_loop_spec (fun x => tfind [t] x) d OK) as [d1 [E _]]. exists d1. exact E.
  - apply on_feature_total; auto. intros f F. eauto.
  - apply on_feature_total; auto. intros f F. apply clean_feature_total. auto.
  - apply on_feature_total; auto. intros f F. apply clean_feature_total. auto.
  - apply on_feature_total; auto. intros f F. eauto.
  - destruct (append_spec_aux other d OK (A other eq_refl)) as [d1 [E _]]. eauto.
Qed.

Lemma reach_ok d : db_reach d -> db_ok d.
Proof.
  induction 1 as [|d o d' R IH RA IHA E].
  - split; [constructor|intros ? ? []].
  - eapply dbexec_ok; eauto.
Qed.

(** ** chronological feeding *)
Lemma SS_snoc l t : StronglySorted Rle l -> Forall (fun x => x <= t) l -> StronglySorted Rle (l ++ [t]).
Proof.
  induction l as [|a l IH]; intros S F; cbn [app]; [constructor; [constructor|constructor]|].
  apply StronglySorted_inv in S. destruct S as [S A]. inversion F; subst.
  constructor; [auto|]. apply Forall_app. split; [auto|constructor; [auto|constructor]].
Qed.

Lemma fed_chron l : forall d T,
  db_ok d ->
  (forall id cam, StronglySorted Rle (map otime (track d id cam)) /\
                  Forall (fun x => x <= T) (map otime (track d id cam))) ->
  StronglySorted Rle (T :: map (fun e => otime (snd e)) l) ->
  db_ok (fed d l) /\ db_chron (fed d l).
Proof.
  induction l as [|[[id0 cam0] [[t u] n]] l IH]; intros d T OK H S; cbn [fed].
  - split; [auto|]. intros id f E cam. destruct (H id cam) as [A _]. unfold track in A. rewrite E in A. exact A.
  - cbn [map snd otime fst] in S. unfold otime at 1 in S. cbn [fst] in S.
    apply StronglySorted_inv in S. destruct S as [S F]. inversion F; subst.
    destruct (update_feature_spec d id0 t cam0 u n OK) as [O [T1 [T2 [T3 _]]]].
    apply (IH _ t); auto.
    intros id cam. destruct (H id cam) as [A B].
    assert (B' : Forall (fun x => x <= t) (map otime (track d id cam))).
    { eapply Forall_impl; [|exact B]. cbn. intros; lra. }
    destruct (Nat.eq_dec id id0) as [->|N]; [destruct (Nat.eq_dec cam cam0) as [->|N]|].
    + rewrite T1, map_app. cbn [map]. unfold otime at 2 4. cbn [fst]. split; [apply SS_snoc; auto|].
      apply Forall_app. split; [auto|]. constructor; [lra|constructor].
    + rewrite T2; auto.
    + unfold track. rewrite T3; auto.
Qed.

Lemma SS_filter (p : obs -> bool) l : StronglySorted Rle (map otime l) -> StronglySorted Rle (map otime (filter p l)).
Proof.
  induction l as [|o l IH]; cbn [map filter]; intros S; [constructor|].
  apply StronglySorted_inv in S. destruct S as [S F]. destruct (p o); [|auto].
  cbn [map]. constructor; [auto|]. rewrite Forall_forall in *. intros x I. apply F.
  apply in_map_iff in I. destruct I as [y [<- I]]. apply in_map. apply filter_In in I. tauto.
Qed.

Lemma clean_chron drop d d' :
  db_ok d -> db_chron d -> clean_loop (clean_feature drop) d = Ok d' -> db_chron d'.
Proof.
  intros OK C H. destruct (clean_loop_spec drop d OK) as [d1 [E [O [_ T]]]].
  rewrite E in H. injection H as <-. intros id f' E' cam. specialize (T id).
  destruct (alook d id) as [f|] eqn:Ef; [|congruence].
  rewrite E' in T. destruct T as [_ [_ T]]. rewrite T. apply SS_filter. exact (C id f Ef cam).
Qed.

Lemma query_chron pred remove skip d :
  db_ok d -> db_chron d -> db_chron (snd (query_loop pred remove skip d)).
Proof.
  intros OK C id f E. rewrite query_loop_eq in E. cbn [snd] in E. destruct remove; [|eapply C; eauto].
  rewrite alook_filter_nodup in E by apply OK. destruct (alook d id) as [g|] eqn:G; [|discriminate].
  destruct (negb _); [|discriminate]. injection E as <-. eapply C; eauto.
Qed.
