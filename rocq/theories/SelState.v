(** What one camera message does to the window and to the landmark list, for any state and any input. *)
From Coq Require Import Reals List Arith Lia Lra ZArith Bool.
From Verif Require Import RBool Outcome Lin GeoModel TypesModel GivensModel StateModel StateOps2 ReachModel ReachSpec StateFrame DbModel DbSpec DbProofs DbProofs2 DbThms
  ImuModel PropModel FeatModel LandModel CamModel HelpModel AnchorModel AnchorLive AnchorThms UpdModel InitModel ZuptModel ZuptThms SelUpd SelModel SelSpec SelDb.
Import ListNotations.
Open Scope R_scope.

Lemma ok_one {A} (a b : A) : Ok a = Ok b -> a = b.
Proof. intros E. injection E; auto. Qed.
Lemma ok_pair {A B} (a b : A) (c d : B) : Ok (a, c) = Ok (b, d) -> a = b /\ c = d.
Proof. intros E. injection E; auto. Qed.
Lemma marginalize_keeps st p st' v : marginalize st p = Ok (st', v) -> same_win st st' /\ s_slam st' = s_slam st.
Proof.
  unfold marginalize. destruct (find_top _ _) as [x|]; [|discriminate]. destruct (ty_id x); [|discriminate]. intros E.
  apply guard_ok in E; [|discriminate]. destruct E as [_ E]. cbv zeta in E. apply ok_pair in E. destruct E as [<- _]. split; [repeat split|reflexivity].
Qed.
Lemma prop_keeps st a b P Q st' : EKFPropagation st a b P Q = Ok st' -> same_win st st' /\ s_slam st' = s_slam st.
Proof.
  unfold EKFPropagation. destruct a as [|[s0 k] a]; [discriminate|]. destruct b; [discriminate|]. intros E.
  apply guard_ok in E; [|discriminate]. destruct E as [_ E]. apply obind_ok in E. destruct E as (? & _ & E). apply obind_ok in E. destruct E as (? & _ & E).
  apply guard_ok in E; [|discriminate]. destruct E as [_ E]. destruct s0; [|discriminate]. cbv zeta in E.
  apply guard_ok in E; [|discriminate]. destruct E as [_ E]. apply guard_ok in E; [|discriminate]. destruct E as [_ E]. apply ok_one in E. subst st'.
  split; [repeat split|reflexivity].
Qed.
Lemma marg_slam_keeps todo : forall st kept st', marg_slam_loop st todo kept = Ok st' ->
  same_win st st' /\ s_slam st' = kept ++ filter (fun e => negb (slam_kill (s_opts st) e)) todo.
Proof.
  induction todo as [|e todo IH]; intros st kept st' E; cbn [marg_slam_loop filter] in *.
  - injection E as <-. rewrite app_nil_r. split; [repeat split|reflexivity].
  - destruct (slam_kill (s_opts st) e) eqn:K; cbn [negb].
    + apply obind_ok in E. destruct E as ((s1 & v) & E1 & E). destruct (marginalize_keeps _ _ _ _ E1) as [W _]. destruct (IH _ _ _ E) as [W' S].
      cbn [fst] in *. split; [eapply same_win_trans; eauto|]. destruct W as (_ & _ & O). rewrite O in S. exact S.
    + destruct (IH _ _ _ E) as [W' S]. split; auto. rewrite S, <- app_assoc. reflexivity.
Qed.
Lemma flag_keeps isA d fail cam cams st st' : flag_landmarks isA d fail cam cams st = Ok st' -> same_win st st' /\ map fst (s_slam st') = map fst (s_slam st).
Proof.
  unfold flag_landmarks. intros E. apply guard_ok in E; [|discriminate]. destruct E as [_ E]. injection E as <-. split; [repeat split|].
  cbn [s_slam set_slam]. rewrite map_map. reflexivity.
Qed.
Lemma old_clone_keeps st st' : increasing (map fst (s_clones st)) -> marginalize_old_clone st = Ok st' ->
  s_slam st' = s_slam st /\ s_time st' = s_time st /\ s_opts st' = s_opts st /\
  s_clones st' = (if (o_max_clones (s_opts st) <? Z.of_nat (length (s_clones st)))%Z then tl (s_clones st) else s_clones st).
Proof.
  intros I. unfold marginalize_old_clone. destruct (_ <? _)%Z; [|intros E; injection E as <-; auto].
  destruct (margtimestep st) as [t|] eqn:M; [|discriminate]. destruct (find_clone_time _ _); [|discriminate]. intros E.
  apply obind_ok in E. destruct E as ((s1 & v) & E1 & E). injection E as <-. destruct (marginalize_keeps _ _ _ _ E1) as [(C & T & O) S].
  cbn [fst s_slam s_time s_opts s_clones set_clones] in *. rewrite C. destruct (margtimestep_min _ _ M). split; auto. split; auto. split; auto. apply drop_first; auto.
Qed.
Lemma pac_keeps st t i st' : propagate_and_clone st t i = Ok st' ->
  s_time st < t /\ s_slam st' = s_slam st /\ s_time st' = t /\ s_opts st' = s_opts st /\ exists p, s_clones st' = s_clones st ++ [(t, p)].
Proof.
  unfold propagate_and_clone. destruct (Reqb_spec (s_time st) t) as [|N]; [discriminate|]. destruct (Rltb_spec t (s_time st)) as [|L]; [discriminate|].
  intros E. split; [lra|]. apply obind_ok in E. destruct E as (s1 & E1 & E). cbv zeta in E. apply obind_ok in E. destruct E as (s2 & E2 & E).
  assert (X1 : same_win st s1 /\ s_slam s1 = s_slam st).
  { unfold with_var in E1. apply obind_ok in E1. destruct E1 as (v & _ & E1). injection E1 as <-. split; [repeat split|reflexivity]. }
  destruct X1 as [W1 S1]. destruct (prop_keeps _ _ _ _ _ _ E2) as [W2 S2]. destruct (same_win_trans _ _ _ W1 W2) as (C & _ & O).
  assert (X : exists p, s_slam st' = s_slam s2 /\ s_time st' = t /\ s_opts st' = s_opts s2 /\ s_clones st' = s_clones s2 ++ [(t, p)]).
  { unfold augment_clone in E. destruct (find_clone_time _ _); [discriminate|]. destruct (find_top _ _) as [[v|v|q|p|o]|]; try discriminate.
    apply obind_ok in E. destruct E as ((s3 & c) & E3 & E).
    assert (Y : same_win (set_time s2 t) s3 /\ s_slam s3 = s_slam s2).
    { unfold clone in E3. destruct (find_var _ _) as [x|]; [|discriminate]. destruct (ty_id x); [|discriminate]. cbv zeta in E3.
      apply guard_ok in E3; [|discriminate]. destruct E3 as [_ E3]. apply obind_ok in E3. destruct E3 as (c' & _ & E3). apply ok_pair in E3. destruct E3 as [<- _].
      split; [repeat split|reflexivity]. }
    destruct Y as [(Y1 & Y2 & Y3) Y4]. cbn [s_clones s_time s_opts set_time] in Y1, Y2, Y3.
    destruct c as [v|v|q|p|q]; try discriminate. cbv zeta in E. cbn [s_time set_time s_opts] in E. exists (po_ptr p). destruct (o_calib_dt _).
    - destruct (po_id p); [|discriminate]. destruct (find_top _ _); [|discriminate]. destruct (ty_id _); [|discriminate].
      apply guard_ok in E; [|discriminate]. destruct E as [_ E]. injection E as <-. cbn [s_slam s_time s_opts s_clones set_clones set_vars_cov]. rewrite Y1. auto.
    - injection E as <-. cbn [s_slam s_time s_opts s_clones set_clones]. rewrite Y1. auto. }
  destruct X as (p & A & B & D & F). split; [congruence|]. split; auto. split; [congruence|]. exists p. congruence.
Qed.
Lemma zupt_keeps chi2q zo x dt z d st t z' d' st' : try_update chi2q zo x dt z d st t = Ok (true, z', d', st') ->
  s_time st <> t /\ s_time st' = t /\ s_clones st' = s_clones st /\ s_opts st' = s_opts st /\ s_slam st' = s_slam st /\
  (d' = d \/ cleanup_measurements_exact (z_time z) d = Ok d').
Proof.
  intros E. unfold try_update in E. destruct (z_imu z) as [|a0 l0] eqn:Ez; [discriminate|].
  destruct (Reqb_spec (s_time st) t) as [|N]; [discriminate|]. split; auto.
  apply obind_ok in E. destruct E as (l & _ & E). destruct (length l <? 2)%nat; [discriminate|].
  destruct (find_top (s_vars st) (s_imu st)) as [[v|v|q|p|o]|]; try discriminate.
  apply obind_ok in E. destruct E as (((H0 & res0) & sum) & _ & E). apply obind_ok in E. destruct E as ((H & res) & Ec & E).
  destruct (dr H <? 1)%nat; [discriminate|]. apply obind_ok in E. destruct E as (P & _ & E).
  apply guard_ok in E; [|discriminate]. destruct E as [_ E]. apply obind_ok in E. destruct E as (ds & _ & E).
  match type of E with (if ?c then _ else _) = _ => destruct c end; [discriminate|].
  apply obind_ok in E. destruct E as (d1 & Ed & E). apply obind_ok in E. destruct E as (s1 & E1 & E). apply obind_ok in E. destruct E as (s2 & E2 & E).
  destruct (prop_keeps _ _ _ _ _ _ E1) as [(C1 & _ & O1) S1]. destruct (update_window _ _ _ _ _ _ E2) as (C2 & _ & O2). pose proof (update_slam _ _ _ _ _ _ E2) as S2.
  injection E as _ <- <-. cbn [s_time s_clones s_opts s_slam set_time]. split; auto. split; [congruence|]. split; [congruence|]. split; [congruence|].
  destruct (2 <=? z_count z)%nat; [auto|]. injection Ed as <-. auto.
Qed.

(** ** the two databases *)
Lemma alook_feats isA d id : NoDup (map fst d) -> alook (feats isA d) id = if isA id then None else alook d id.
Proof. intros N. unfold feats. rewrite alook_filter_nodup by auto. cbn [fst]. destruct (isA id); cbn; destruct (alook d id); reflexivity. Qed.
Lemma alook_arucos isA d id : NoDup (map fst d) -> alook (arucos isA d) id = if isA id then alook d id else None.
Proof. intros N. unfold arucos. rewrite alook_filter_nodup by auto. cbn [fst]. destruct (isA id); cbn; destruct (alook d id); reflexivity. Qed.
Lemma alook_app {A} (a b : amap A) k : alook (a ++ b) k = match alook a k with Some x => Some x | None => alook b k end.
Proof. induction a as [|[i x] a IH]; cbn [app alook]; auto. destruct (Nat.eqb k i); auto. Qed.
Lemma cleaned_keys keep d d' id f : cleaned keep d d' -> alook d' id = Some f -> exists g, alook d id = Some g.
Proof. intros H E. specialize (H id). destruct (alook d id); [eauto|congruence]. Qed.
Lemma recombine_thin isA d d' : db_ok d -> thin (feats isA d) d' -> (forall id f, alook d' id = Some f -> exists g, alook (feats isA d) id = Some g) -> thin d (d' ++ arucos isA d).
Proof.
  intros O [O' T] K. pose proof (filter_db_ok (fun e => isA (fst e)) d O) as OA. fold (arucos isA d) in OA. assert (ON : NoDup (map fst d)) by apply O.
  assert (P : forall id, In id (map fst d') -> isA id = false).
  { intros id I. apply in_map_iff in I. destruct I as ((i & f) & <- & I). cbn [fst]. destruct (K i f) as (g & G); [apply alook_in; auto; apply O'|].
    rewrite alook_feats in G by auto. destruct (isA i); congruence. }
  split.
  - split.
    + rewrite map_app. apply NoDup_app_intro; [apply O'|apply OA|]. intros id I J. apply P in I. apply in_map_iff in J. destruct J as ((i & f) & <- & J).
      apply filter_In in J. cbn [fst] in *. destruct J. congruence.
    + intros id f I. apply in_app_or in I. destruct I; [apply O'|apply OA]; auto.
  - intros id c. unfold track. rewrite alook_app. destruct (alook d' id) as [f|] eqn:E.
    + destruct (T id c) as (p & Q). unfold track in Q. rewrite E, alook_feats in Q by auto. exists p.
      rewrite (P id) in Q; [exact Q|]. apply in_map_iff. exists (id, f). split; auto. apply alook_some_key; auto.
    + rewrite alook_arucos by auto. destruct (isA id); [exists (fun _ => true); rewrite filter_all; reflexivity|exists (fun _ => false); rewrite filter_none; reflexivity].
Qed.
