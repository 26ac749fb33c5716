(** What a message's update does to the tracks and to the landmarks. *)
From Coq Require Import Reals List Arith Lia Lra ZArith Bool Sorted Permutation.
From Verif Require Import RBool Outcome Lin GeoModel TypesModel GivensModel StateModel StateSpec StateOps2 ReachModel ReachSpec StateReach StateFrame DbModel DbSpec DbProofs DbProofs2 DbThms
  FeatModel LandModel CamModel HelpModel AnchorModel AnchorLive AnchorThms UpdModel UpdSpec UpdProofs2 UpdProofs3 UpdProofs4 UpdProofs5 InitModel ImuModel PropModel ZuptModel
  SelUpd SelModel SelSpec SelDb SelState SelSelect SelThms SelRun FateSpec FateSel.
Import ListNotations.
Open Scope R_scope.

(** the landmarks counted as failed *)
Lemma slam_loop_fails chi2q so single jac maxm maxh st ids : forall d s used d' s' fl, NoDup ids ->
  slam_loop chi2q so single jac maxm maxh st ids d s = Ok (used, d', s', fl) ->
  NoDup fl /\ incl used ids /\ forall id, In id fl <-> In id ids /\ ~ In id used /\ (o_max_aruco (s_opts st) <= Z.of_nat id)%Z.
Proof.
  induction ids as [|id ids IH]; intros d s used d' s' fl N E; cbn [slam_loop] in E.
  - injection E as <- <- <- <-. split; [constructor|]. split; [intros z []|]. intros id; split; [intros []|intros ([] & _)].
  - apply NoDup_cons_iff in N. destruct N as [Ni N]. destruct (alook d id) as [f|]; [|discriminate]. destruct (slam_ptr st id) as [p|]; [|discriminate].
    apply obind_ok in E. destruct E as (l & _ & E). apply obind_ok in E. destruct E as ((Hx & res) & _ & E).
    cbv zeta in E. apply obind_ok in E. destruct E as (chi2 & _ & E). destruct (Rltb _ chi2).
    + apply obind_ok in E. destruct E as ((((u & d2) & s2) & f2) & E1 & E). injection E as <- _ _ <-. destruct (IH _ _ _ _ _ _ N E1) as (N2 & I2 & X).
      assert (Hf : ~ In id f2) by (intros C; apply X in C; tauto). unfold is_tag.
      destruct (Z.ltb_spec (Z.of_nat id) (o_max_aruco (s_opts st))) as [L|L].
      * split; auto. split; [intros z Hz; right; auto|]. intros k. rewrite X. cbn [In]. split; [tauto|]. intros ([<-|A] & B & C); [lia|auto].
      * split; [constructor; auto|]. split; [intros z Hz; right; auto|]. intros k. cbn [In]. rewrite X. split.
        -- intros [<-|A]; [split; [left; reflexivity|]; split; [intros C; apply Ni, I2, C|exact L]|tauto].
        -- intros ([<-|A] & B & C); auto.
    + apply obind_ok in E. destruct E as (s1 & _ & E). apply obind_ok in E. destruct E as ((((u & d2) & s2) & f2) & E1 & E). injection E as <- _ _ <-.
      destruct (IH _ _ _ _ _ _ N E1) as (N2 & I2 & X). split; auto. split; [intros z [<-|Hz]; simpl; auto|]. intros k. rewrite X. cbn [In]. split.
      * intros (A & B & C). split; auto. split; auto. intros [<-|D]; auto.
      * intros ([<-|A] & B & C); [exfalso; auto|]. split; auto.
Qed.

Lemma cleaned_seen T f f1 : feat_ok f -> clean_old_measurements T f = Ok f1 -> ((count_meas f1 <? 1)%nat = false <-> exists t, seen f t /\ In t T).
Proof.
  intros F B. destruct (clean_old_track _ _ _ F B) as (F1 & _ & X). split.
  - intros Z. destruct (Exists_dec (fun t => In t T) (flat_map (fun p => snd p) (f_ts f)) (fun t => in_dec Req_EM_T t T)) as [Ex|Nx].
    + apply Exists_exists in Ex. destruct Ex as (t & I & J). exists t. split; auto. apply in_flat_map in I. destruct I as ((c & l) & I & K). cbn [snd] in K.
      assert (M : In (f_id f, c, t) (meas_of f)). { unfold meas_of. apply in_flat_map. exists (c, l). split; auto. cbn [fst snd]. apply in_map_iff. exists t. auto. }
      apply (meas_of_in f F) in M. destruct M as [_ M]. apply in_map_iff in M. destruct M as (o & <- & M). exists c, o. auto.
    + exfalso. assert (Y : (count_meas f1 <? 1)%nat = true); [|congruence]. apply (count_meas_zero f1 F1). intros c. rewrite X.
      destruct (filter _ (ftrack f c)) as [|o l] eqn:E; auto. exfalso. assert (K : In o (o :: l)) by (left; reflexivity). rewrite <- E in K. apply filter_In in K. destruct K as [K L].
      apply Nx. apply Exists_exists. exists (otime o). split; [|apply tfind_in; auto].
      assert (M : In (f_id f, c, otime o) (meas_of f)) by (apply (meas_of_in f F); split; auto; apply in_map; auto).
      unfold meas_of in M. apply in_flat_map in M. destruct M as ((c' & l') & M1 & M2). cbn [fst snd] in M2. apply in_map_iff in M2. destruct M2 as (t & M2 & M3). injection M2 as -> ->.
      apply in_flat_map. exists (c, l'). auto.
  - intros (t & (c & o & I & E) & J). destruct (count_meas f1 <? 1)%nat eqn:Z; auto. exfalso. apply (count_meas_zero f1 F1) with (cam := c) in Z. rewrite X in Z.
    assert (K : In o (filter (fun o => tfind T (otime o)) (ftrack f c))); [|rewrite Z in K; destruct K]. apply filter_In. split; auto. apply tfind_in. congruence.
Qed.

(** seen in database [d] from one of the times *)
Definition seen_in_times (T : list R) (d : db) (id : nat) : Prop := exists t, seen_at d id t /\ In t T.

Lemma slam_fails chi2q so single jac st d ids st' d' used fl : (forall id, single id = false) -> NoDup ids -> (forall id, In id ids -> exists f, alook d id = Some f /\ feat_ok f) ->
  slam_update chi2q so single jac st d ids = Ok (st', d', used, fl) ->
  NoDup fl /\ forall id, In id fl <-> In id ids /\ ~ In id used /\ (o_max_aruco (s_opts st) <= Z.of_nat id)%Z /\ seen_in_times (map fst (s_clones st)) d id.
Proof.
  intros Hs Nd Hd. unfold slam_update. destruct ids as [|i0 l0] eqn:Ei.
  { intros E. injection E as <- <- <- <-. split; [constructor|]. intros id; split; [intros []|intros ([] & _)]. }
  rewrite <- Ei in *. clear Ei. intros E. apply obind_ok in E. destruct E as ((i2 & d2) & E2 & E).
  cbn [fst snd] in *. cbv zeta in E. apply obind_ok in E. destruct E as ((((u & d3) & s) & f2) & E3 & E). apply obind_ok in E. destruct E as (d4 & E4 & E).
  destruct (slam_clean_db _ _ _ _ Hs _ _ _ Nd Hd E2) as (N2 & I2 & M2 & U2 & P2).
  destruct (slam_loop_fails _ _ _ _ _ _ _ _ _ _ _ _ _ _ N2 E3) as (N3 & I3 & X3).
  assert (Eq : used = u /\ fl = f2).
  { destruct (sk_meas s <? 1)%nat; [injection E as _ _ <- <-; auto|]. apply guard_ok in E; [|discriminate]. destruct E as [_ E].
    apply obind_ok in E. destruct E as (st2 & _ & E). injection E as _ _ <- <-. auto. }
  destruct Eq as [-> ->]. split; auto. intros id. rewrite X3.
  assert (K : In id ids -> (In id i2 <-> seen_in_times (map fst (s_clones st)) d id)).
  { intros I. destruct (P2 id I) as (f & f' & b & A & B & (f1 & C & G & D) & D2). rewrite <- D2, G, negb_true_iff.
    destruct (Hd id I) as (f0 & A0 & F0). assert (f0 = f) by congruence. subst f0. rewrite (cleaned_seen _ _ _ F0 C). unfold seen_in_times.
    split; intros (t & S & T); exists t; split; auto; apply (look_seen d id f t A); auto. }
  split; [intros (A & B & C); split; [auto|]; split; [auto|]; split; [auto|]; apply K; auto|]. intros (A & B & C & D). split; [apply K; auto|auto].
Qed.

Lemma batches_full E jac : (forall id, en_single E id = false) -> forall fuel ids st d st' d' uses fails, NoDup ids -> db_ok d ->
  (forall id, In id ids -> exists f, alook d id = Some f) -> slam_batches E jac fuel ids st d = Ok (st', d', uses, fails) ->
  same_win st st' /\ s_slam st' = s_slam st /\ exists used, consumed 1 (map fst (s_clones st)) ids d used d' /\ uses = pick d' used /\
  NoDup fails /\ forall id, In id fails <-> In id ids /\ ~ In id used /\ (o_max_aruco (s_opts st) <= Z.of_nat id)%Z /\ seen_in_times (map fst (s_clones st)) d id.
Proof.
  intros Hs. induction fuel as [|n IH]; intros ids st d st' d' uses fails N O F Q.
  - destruct ids; [|discriminate]. injection Q as <- <- <- <-. split; [apply same_win_refl|]. split; auto. exists []. split; [apply consumed_nil|]. split; [reflexivity|].
    split; [constructor|]. intros id; split; [intros []|intros ([] & _)].
  - destruct ids as [|i0 l0] eqn:Ei.
    { injection Q as <- <- <- <-. split; [apply same_win_refl|]. split; auto. exists []. split; [apply consumed_nil|]. split; [reflexivity|].
      split; [constructor|]. intros id; split; [intros []|intros ([] & _)]. }
    rewrite <- Ei in *. cbn [slam_batches] in Q. rewrite Ei in Q at 1. cbv zeta in Q. clear Ei i0 l0. set (k := Z.to_nat _) in *.
    apply obind_ok in Q. destruct Q as ((((st1 & d1) & u) & fl) & Q1 & Q). apply obind_ok in Q. destruct Q as ((((st2 & d2) & u2) & f2) & Q2 & Q).
    injection Q as <- <- <- <-. rewrite <- (firstn_skipn k ids) in N. destruct (nodup_app_parts _ _ N) as (Na & Nb & Nab).
    assert (Fo : forall id, In id ids -> exists f, alook d id = Some f /\ feat_ok f).
    { intros id I. destruct (F id I) as (f & Ef). exists f. split; auto. apply (db_ok_look _ _ _ O Ef). }
    assert (Ia : incl (firstn k ids) ids) by (intros x I; rewrite <- (firstn_skipn k ids); apply in_or_app; auto).
    assert (Ib : incl (skipn k ids) ids) by (intros x I; rewrite <- (firstn_skipn k ids); apply in_or_app; auto).
    assert (Iab : forall x, In x ids <-> In x (firstn k ids) \/ In x (skipn k ids)) by (intros x; rewrite <- in_app_iff, firstn_skipn; tauto).
    destruct (slam_consumed _ _ _ _ _ _ _ _ _ _ _ Hs Na (fun id I => Fo id (Ia _ I)) Q1) as (C1 & W1 & S1).
    destruct (slam_fails _ _ _ _ _ _ _ _ _ _ _ Hs Na (fun id I => Fo id (Ia _ I)) Q1) as (Nf & Xf).
    assert (Fb : forall id, In id (skipn k ids) -> exists f, alook d1 id = Some f).
    { intros id I. destruct (F id (Ib _ I)) as (f & Ef). destruct (consumed_ok _ _ _ _ _ _ id O C1 f Ef) as (f' & Ef' & _). eauto. }
    destruct (IH _ _ _ _ _ _ _ Nb (proj1 (consumed_thin _ _ _ _ _ _ O C1)) Fb Q2) as (W2 & S2 & used & C2 & -> & Nf2 & Xf2).
    split; [eapply same_win_trans; eauto|]. split; [congruence|]. exists (u ++ used). destruct W1 as (W1 & _ & Wo). rewrite W1 in C2, Xf2. rewrite Wo in Xf2. split; [|split; [|split]].
    + rewrite <- (firstn_skipn k ids). apply consumed_app with d1; auto.
    + rewrite pick_app. f_equal. apply pick_ext. intros id I. symmetry. apply C2. intros J. apply (Nab id); auto. apply C1. auto.
    + apply NoDup_app_intro; auto. intros x I J. apply Xf in I. apply Xf2 in J. apply (Nab x); tauto.
    + intros id. rewrite in_app_iff, Xf, Xf2, in_app_iff, Iab.
      assert (Eq : In id (skipn k ids) -> (seen_in_times (map fst (s_clones st)) d1 id <-> seen_in_times (map fst (s_clones st)) d id)).
      { intros I. unfold seen_in_times, seen_at, in_db, track. destruct C1 as (_ & _ & _ & U & _). rewrite U; [reflexivity|]. intros J. eapply Nab; eauto. }
      assert (Iu : In id u -> In id (firstn k ids)) by (apply C1). assert (Iu2 : In id used -> In id (skipn k ids)) by (apply C2). specialize (Nab id). tauto.
Qed.

Lemma count_in_nodup x l : NoDup l -> count_in x l = if in_dec Nat.eq_dec x l then 1%nat else 0%nat.
Proof.
  unfold count_in. induction l as [|a l IH]; intros N; [reflexivity|]. apply NoDup_cons_iff in N. destruct N as [Na N]. specialize (IH N). cbn [filter].
  destruct (Nat.eqb_spec x a) as [->|Ne].
  - cbn [length]. rewrite IH. destruct (in_dec Nat.eq_dec a l); [contradiction|]. destruct (in_dec Nat.eq_dec a (a :: l)) as [_|C]; [reflexivity|exfalso; apply C; left; reflexivity].
  - rewrite IH. destruct (in_dec Nat.eq_dec x l) as [I|I], (in_dec Nat.eq_dec x (a :: l)) as [J|J]; auto; [exfalso; apply J; right; auto|exfalso; destruct J; congruence].
Qed.
Lemma pick_ids d ids : db_ok d -> (forall id, In id ids -> exists f, alook d id = Some f) -> forall id, In id ids <-> exists f, In f (pick d ids) /\ f_id f = id.
Proof.
  intros O F id. unfold pick. split.
  - intros I. destruct (F id I) as (f & E). exists f. split; [|apply (db_ok_look _ _ _ O E)]. apply in_flat_map. exists id. rewrite E. simpl; auto.
  - intros (f & I & E). apply in_flat_map in I. destruct I as (k & I & J). destruct (alook d k) as [g|] eqn:G; [|destruct J]. destruct J as [->|[]].
    destruct (db_ok_look _ _ _ O G) as [Fi _]. congruence.
Qed.

Lemma survivors isA g st d m st1 st2 : NoDup (map fst (s_slam st)) -> db_ok d ->
  flag_landmarks isA d (g_fail g) (g_cam g) (m_cams m) st = Ok st1 -> marginalize_slam st1 = Ok st2 ->
  forall id, In id (map fst (s_slam st2)) <-> In id (map fst (s_slam st)) /\ ~ given_up isA g st d m id.
Proof.
  intros N O Q1 Q2 id. destruct (flag_keeps _ _ _ _ _ _ _ Q1) as [(_ & _ & Wo) _]. destruct (marg_slam_keeps _ _ _ _ Q2) as [_ S2]. cbn [app] in S2.
  unfold flag_landmarks in Q1. apply guard_ok in Q1; [|discriminate]. destruct Q1 as [_ Q1]. apply ok_one in Q1.
  assert (E1 := f_equal s_slam Q1). cbn [s_slam set_slam] in E1. clear Q1. rewrite S2, <- E1, Wo. clear S2 E1 Q2.
  assert (G : forall p b, In (id, (p, b)) (s_slam st) ->
    (slam_kill (s_opts st) (id, (p, b || (match alook (feats isA d) id with Some _ => false | None => true end && existsb (fun c => (Z.of_nat c =? g_cam g id)%Z) (m_cams m)) || (1 <? g_fail g id)%nat)) = true
      <-> given_up isA g st d m id)).
  { intros p b I. unfold slam_kill, given_up. cbn [fst snd]. rewrite andb_true_iff, !orb_true_iff, andb_true_iff, Z.ltb_lt, Nat.ltb_lt, existsb_exists, alook_feats by apply O.
    assert (B : b = true <-> exists p, In (id, (p, true)) (s_slam st)).
    { split; [intros ->; eauto|]. intros (p' & I'). apply (alook_in _ _ _ N) in I, I'. congruence. }
    assert (C : match (if isA id then None else alook d id) with Some _ => false | None => true end = true <-> ~ (isA id = false /\ exists f, alook d id = Some f)).
    { destruct (isA id); [split; auto; intros _ (X & _); discriminate|]. destruct (alook d id); split; auto; try discriminate; [intros X; exfalso; apply X; split; eauto|intros _ (_ & f & X); discriminate]. }
    rewrite B, C. assert (D : (exists x, In x (m_cams m) /\ (Z.of_nat x =? g_cam g id)%Z = true) <-> exists c, In c (m_cams m) /\ Z.of_nat c = g_cam g id).
    { split; intros (c & X & Y); exists c; split; auto; apply Z.eqb_eq; auto. }
    rewrite D. lia || tauto. }
  rewrite in_map_iff. split.
  - intros (e & <- & I). apply filter_In in I. destruct I as [I K]. apply in_map_iff in I. destruct I as ((i & (p & b)) & <- & I). cbn [fst snd] in *.
    split; [apply in_map_iff; exists (i, (p, b)); auto|]. intros H. apply (G p b I) in H. rewrite H in K. discriminate.
  - intros (I & H). apply in_map_iff in I. destruct I as ((i & (p & b)) & <- & I). cbn [fst snd] in *. eexists. split; [|apply filter_In; split; [apply in_map_iff; exists (i, (p, b)); split; [reflexivity|exact I]|]].
    + reflexivity.
    + cbn [fst snd]. apply negb_true_iff. apply not_true_is_false. intros K. apply (G p b I) in K. contradiction.
Qed.

(** everything about one update *)
Lemma frame_fate E g st d m i g' uses : (forall id, en_single E id = false) -> sorts (en_sort E) -> frame_ok st d m ->
  update_frame E g st d m i = Ok (g', uses) ->
  let isA := en_isA E in let o := en_opt E in
  let lands := fun s => map fst (s_slam s) in
  let used := fun id => exists f, In f uses /\ f_id f = id in
  exists handed promo cut kept rejected,
  (NoDup (handed ++ promo ++ cut) /\ (forall id, In id (handed ++ promo ++ cut) <-> eligible isA st d m id) /\
   (forall id, In id promo -> leaving st d id /\ long st d id) /\
   (forall k, room o st (m_t m) k -> (Z.of_nat (length promo) <= k)%Z /\
     ((Z.of_nat (length promo) < k)%Z -> forall id, isA id = false -> unused d id -> leaving st d id -> long st d id -> In id promo)) /\
   (Z.of_nat (length handed) <= se_max_msckf o)%Z /\ (cut <> [] -> Z.of_nat (length handed) = se_max_msckf o) /\
   (forall a b, In a handed -> In b cut -> (meas_count d b <= meas_count d a)%nat) /\
   (forall id, In id handed \/ In id promo \/ In id (lands st) \/ tag_taken isA o st d m id -> alook (g_db g') id = None) /\
   (forall id, used id -> In id handed \/ In id promo \/ In id (lands st) \/ tag_taken isA o st d m id) /\
   (forall id c t, unused d id -> ~ In id handed -> ~ In id promo -> ~ In id (lands st) -> ~ tag_taken isA o st d m id -> in_db d (id, c, t) ->
     ((o_max_clones (s_opts st) < Z.of_nat (length (s_clones st)))%Z -> exists t0, oldest st t0 /\ t0 < t) -> in_db (g_db g') (id, c, t))) /\
  ((forall id, In id (lands (g_st g')) <-> (In id (lands st) /\ ~ given_up isA g st d m id) \/ In id kept) /\
   (forall id, In id kept -> used id /\ ~ (In id (lands st) /\ ~ given_up isA g st d m id) /\
      (In id promo \/ tag_taken isA o st d m id \/ In id (lands st))) /\
   (forall id, In id rejected <-> In id (lands st) /\ ~ given_up isA g st d m id /\ (o_max_aruco (s_opts st) <= Z.of_nat id)%Z /\
      seen_from_window st d id /\ ~ used id) /\
   (forall id, In id kept -> g_fail g' id = 0%nat) /\
   (forall id, ~ In id kept -> g_fail g' id = (g_fail g id + if in_dec Nat.eq_dec id rejected then 1 else 0)%nat)).
Proof.
  intros Hs Hsort Fo Q isA o lands used. pose proof (fo_db _ _ _ Fo) as Od. pose proof (fo_tick _ _ _ Fo) as Td.
  destruct (select isA o st d m) as [cand slam] eqn:Es.
  destruct (select_exact isA o st d m Fo cand slam Es) as (promo & Np & Xp & Lp & Rp & Sp).
  destruct (select_spec isA o st d m Od Td (fo_time _ _ _ Fo) (fo_ids _ _ _ Fo) (fo_max _ _ _ Fo) (fo_inc _ _ _ Fo) (fo_last _ _ _ Fo) (fo_land _ _ _ Fo) cand slam Es) as (Nc & Ns & Fsel & Lsel & Xsel).
  unfold update_frame in Q. cbv zeta in Q. fold isA o in Q. rewrite Es in Q.
  apply obind_ok in Q. destruct Q as (st1 & Q1 & Q). apply obind_ok in Q. destruct Q as (st2 & Q2 & Q).
  set (upd := filter (fun id => memn id (map fst (s_slam st2))) slam) in *. set (del := filter (fun id => negb (memn id (map fst (s_slam st2)))) slam) in *.
  apply obind_ok in Q. destruct Q as (msckf & Qm & Q). apply obind_ok in Q. destruct Q as (((st3 & d3) & used1) & Q3 & Q).
  apply obind_ok in Q. destruct Q as ((((st4 & d4) & uses2) & fails) & Q4 & Q). apply obind_ok in Q. destruct Q as (((st5 & d5) & kept) & Q5 & Q).
  apply obind_ok in Q. destruct Q as (d6 & Q6 & Q). apply obind_ok in Q. destruct Q as (a & Qa & Q). cbv zeta in Q.
  apply obind_ok in Q. destruct Q as (d7 & Q7 & Q). apply obind_ok in Q. destruct Q as (st7 & Q8 & Q). apply ok_pair in Q. destruct Q as [<- Eu].
  cbn [g_db g_st g_fail].
  pose proof (survivors _ _ _ _ _ _ _ (fo_ids _ _ _ Fo) Od Q1 Q2) as Sv.
  destruct (flag_keeps _ _ _ _ _ _ _ Q1) as [W1 S1]. destruct (marg_slam_keeps _ _ _ _ Q2) as [W2 S2]. cbn [app] in S2.
  pose proof (same_win_trans _ _ _ W1 W2) as W12.
  destruct (truncate_exact _ _ _ _ _ Hsort Qm Nc) as (cut & Nm & Xm & Bm & Fm & Lm).
  destruct (nodup_app_parts _ _ Nm) as (Nm1 & _ & _).
  assert (Im : incl msckf cand) by (intros x I; apply Xm; apply in_or_app; auto).
  destruct (msckf_consumed d msckf Nm1 (fun id I => Fsel id (or_introl (Im _ I))) _ _ _ _ _ _ _ _ _ Q3) as (C1 & W3 & S3).
  destruct W12 as (Wc & Wt & Wo). rewrite Wc in C1.
  pose proof (consumed_thin _ _ _ _ _ _ Od C1) as T3. pose proof (proj1 T3) as O3.
  assert (Nu : NoDup upd) by (apply NoDup_filter; auto). assert (Nd : NoDup del) by (apply NoDup_filter; auto).
  assert (Iu : incl upd slam) by (intros x I; apply filter_In in I; tauto). assert (Id : incl del slam) by (intros x I; apply filter_In in I; tauto).
  assert (Fu : forall id, In id upd -> exists f, alook d3 id = Some f).
  { intros id I. destruct (Fsel id (or_intror (Iu _ I))) as (f & Ef & _). destruct (consumed_ok _ _ _ _ _ _ id Od C1 f Ef) as (f' & Ef' & _). eauto. }
  destruct (batches_full E (fi_jac i) Hs _ _ _ _ _ _ _ _ Nu O3 Fu Q4) as (W4 & S4 & used2 & C2 & Eu2 & Nf & Xf).
  rewrite (proj1 W3), Wc in C2, Xf. pose proof (consumed_thin _ _ _ _ _ _ O3 C2) as T4. pose proof (proj1 T4) as O4.
  assert (Eo3 : s_opts st3 = s_opts st) by (destruct W3 as (_ & _ & ->); exact Wo). rewrite Eo3 in Xf.
  assert (Fd : forall id, In id del -> exists f, alook d4 id = Some f /\ feat_ok f).
  { intros id I. destruct (Fsel id (or_intror (Id _ I))) as (f & Ef & _). destruct (consumed_ok _ _ _ _ _ _ id Od C1 f Ef) as (f' & Ef' & _).
    destruct (consumed_ok _ _ _ _ _ _ id O3 C2 f' Ef') as (f'' & Ef'' & Of''). eauto. }
  destruct (delayed_consumed d4 del Nd Fd _ _ _ _ _ _ _ _ _ _ Q5) as (C3 & W5 & l5 & S5 & K5).
  pose proof (consumed_thin _ _ _ _ _ _ O4 C3) as T5. pose proof (proj1 T5) as O5.
  assert (Hud : forall id, In id upd -> ~ In id del).
  { intros id I J. apply filter_In in I, J. destruct I as [_ I], J as [_ J]. rewrite I in J. discriminate. }
  assert (Hsp : forall id, In id slam -> In id upd \/ In id del).
  { intros id I. destruct (memn id (map fst (s_slam st2))) eqn:B; [left|right]; apply filter_In; rewrite B; auto. }
  assert (H1 : forall id, In id used1 -> ~ In id slam).
  { intros id I J. refine (used_clone _ _ _ _ _ _ id _ Od C1 _ I); [lia|]. apply (Xsel id); auto. apply Im, C1. auto. }
  assert (P1 : pick d3 used1 = pick d5 used1).
  { apply pick_ext. intros id I. symmetry. transitivity (alook d4 id); [apply C3; intros J; apply (H1 id); auto|apply C2; intros J; apply (H1 id); auto]. }
  assert (P2 : pick d4 used2 = pick d5 used2).
  { apply pick_ext. intros id I. symmetry. apply C3. apply Hud. apply C2. auto. }
  rewrite Eu2, P1, P2, <- !pick_app in Eu.
  assert (Del5 : forall id, In id msckf \/ In id slam -> exists f, alook d5 id = Some f /\ f_del f = true).
  { assert (Del4 : forall id, In id msckf \/ In id upd -> exists f, alook d4 id = Some f /\ f_del f = true).
    { intros id I. destruct (in_dec Nat.eq_dec id upd) as [J|J]; [eapply consumed_del; eauto|]. destruct I as [I|I]; [|contradiction].
      destruct C2 as (_ & _ & _ & U & _). rewrite U by auto. eapply consumed_del; eauto. }
    intros id I. destruct (in_dec Nat.eq_dec id del) as [J|J]; [eapply consumed_del; eauto|].
    destruct C3 as (_ & _ & _ & U & _). rewrite U by auto. apply Del4. destruct I as [I|I]; auto. destruct (Hsp _ I); [auto|contradiction]. }
  assert (Usl : forall id, In id (used1 ++ used2 ++ kept) -> In id msckf \/ In id slam).
  { intros id I. apply in_app_or in I. destruct I as [I|I]; [left; apply C1; auto|right]. apply in_app_or in I. destruct I as [I|I]; [apply Iu, C2; auto|apply Id, C3; auto]. }
  assert (Us : forall id, used id <-> In id (used1 ++ used2 ++ kept)).
  { intros id. unfold used. rewrite <- Eu. symmetry. apply pick_ids; auto. intros k I. destruct (Del5 k (Usl k I)) as (f & Ef & _). eauto. }
  destruct (mark_thin used1 d5 d6 O5 Q6) as (T6 & _ & X6).
  destruct (mark_all used1 d5) as (d6' & Q6' & _ & U6 & _). { intros id I. destruct (Del5 id) as (f & Ef & _); [left; apply C1; auto|eauto]. }
  rewrite Q6 in Q6'. apply ok_one in Q6'. subst d6'.
  pose proof (proj1 T6) as O6. assert (Oc : db_ok (cleanup d6)) by (rewrite cleanup_eq; apply filter_db_ok; auto).
  assert (Gone6 : forall id, In id msckf \/ In id slam -> alook (cleanup d6) id = None).
  { intros id I. destruct (Del5 id I) as (f & Ef & Df). destruct (X6 id) as [X _]. destruct (X f Ef Df) as (f' & Ef' & Df'). rewrite cleanup_thm, Ef', Df' by auto. reflexivity. }
  assert (Stay6 : forall id f, ~ In id msckf -> ~ In id slam -> alook d id = Some f -> f_del f = false -> alook (cleanup d6) id = Some f).
  { intros id f A B Ef Df. assert (X : alook d6 id = Some f); [|rewrite cleanup_thm, X, Df by auto; reflexivity].
    rewrite U6 by (intros J; apply A, C1; auto). destruct C3 as (_ & _ & _ & U3 & _). rewrite U3 by (intros J; apply B, Id, J).
    destruct C2 as (_ & _ & _ & U2 & _). rewrite U2 by (intros J; apply B, Iu, J). destruct C1 as (_ & _ & _ & U1 & _). rewrite U1; auto. }
  destruct (change_keeps _ _ Qa) as (A1 & A2 & A3 & A4 & _). cbn [sl_st] in A1, A2, A3, A4.
  destruct W3 as (W3c & W3t & W3o), W4 as (W4c & W4t & W4o), W5 as (W5c & W5t & W5o).
  assert (Ec : s_clones (sl_st a) = s_clones st) by congruence. assert (Eo : s_opts (sl_st a) = s_opts st) by congruence. assert (Et : s_time (sl_st a) = s_time st) by congruence.
  rewrite Eo, Ec in Q7.
  assert (T7 : (forall id, alook (cleanup d6) id = None -> alook d7 id = None) /\
    forall id c t, in_db (cleanup d6) (id, c, t) -> ((o_max_clones (s_opts st) < Z.of_nat (length (s_clones st)))%Z -> exists t0, oldest st t0 /\ t0 < t) -> in_db d7 (id, c, t)).
  { destruct (Z.ltb_spec (o_max_clones (s_opts st)) (Z.of_nat (length (s_clones st)))) as [Lt|Ge] in Q7; [|injection Q7 as <-; split; auto].
    destruct (margtimestep (sl_st a)) as [t1|] eqn:M; [|discriminate]. destruct (cleanup_measurements_thm (cleanup d6) t1 Oc) as (d' & X & Y & Z).
    rewrite Q7 in X. injection X as <-. split; [intros id B; specialize (Z id); rewrite B in Z; exact Z|].
    intros id c t (ob & I & Eot) H. destruct (H Lt) as (t0 & Ot & Lt0). assert (t0 = t1).
    { apply marg_oldest in M. unfold oldest in M. rewrite Ec in M. eapply oldest_unique; eauto. }
    subst t0. specialize (Z id). unfold track in I. destruct (alook (cleanup d6) id) as [f|] eqn:Ef; [|destruct I]. destruct Z as [Z1 Z2].
    destruct (alook d7 id) as [f'|] eqn:Ef'.
    - destruct (Z1 f' eq_refl) as (_ & sel & Sel & Tr). exists ob. unfold track. rewrite Ef'. split; auto. rewrite Tr. apply filter_In. split; auto. apply Sel. lra.
    - exfalso. apply (proj1 Z2 eq_refl t); [exists c, ob; auto|auto]. }
  destruct T7 as [G7 K7].
  assert (Hi6 : increasing (map fst (s_clones (sl_st a)))) by (rewrite Ec; apply Fo).
  destruct (old_clone_keeps _ _ Hi6 Q8) as (B1 & B2 & B3 & B4).
  assert (S7 : map fst (s_slam st7) = map fst (s_slam st2) ++ kept).
  { rewrite B1, A1, S5, S4, S3, map_app, K5. reflexivity. }
  assert (Kd : forall id, In id kept -> In id slam /\ ~ In id (map fst (s_slam st2))).
  { intros id I. apply C3 in I. apply filter_In in I. destruct I as [I J]. split; auto. apply negb_true_iff, memn_notin in J. auto. }
  assert (Ssl : forall id, In id slam -> In id promo \/ In id (lands st) \/ tag_taken isA o st d m id) by (intros id I; apply Sp in I; tauto).
  assert (Gl : forall id, ~ In id slam -> In id (lands st) -> alook d id = None).
  { intros id A B. destruct (alook d id) as [f|] eqn:Ef; auto. exfalso. apply A. apply Sp. right. right. split; eauto. }
  assert (None7 : forall id, alook d id = None -> alook d7 id = None).
  { intros id B. apply G7. assert (X : alook d6 id = None); [|rewrite cleanup_thm, X by auto; reflexivity].
    assert (Nm' : ~ In id msckf) by (intros J; destruct (Fsel id (or_introl (Im _ J))) as (f & Ef & _); congruence).
    assert (Ns' : ~ In id slam) by (intros J; destruct (Fsel id (or_intror J)) as (f & Ef & _); congruence).
    rewrite U6 by (intros J; apply Nm', C1; auto). destruct C3 as (_ & _ & _ & U3 & _). rewrite U3 by (intros J; apply Ns', Id, J).
    destruct C2 as (_ & _ & _ & U2 & _). rewrite U2 by (intros J; apply Ns', Iu, J). destruct C1 as (_ & _ & _ & U1 & _). rewrite U1; auto. }
  exists msckf, promo, cut, kept, fails. split.
  - destruct (nodup_app_parts _ _ Np) as (_ & Np2 & Np3).
    assert (Pm : forall id, In id (msckf ++ promo ++ cut) <-> In id (cand ++ promo)).
    { intros id. rewrite !in_app_iff, <- Xm, in_app_iff. tauto. }
    split.
    { destruct (nodup_app_parts _ _ Nm) as (_ & Nm2 & Nm3). apply NoDup_app_intro; auto.
      - apply NoDup_app_intro; auto. intros x I J. apply (Np3 x); auto. apply Xm. apply in_or_app. auto.
      - intros x I J. apply in_app_or in J. destruct J as [J|J]; [apply (Np3 x); auto|apply (Nm3 x); auto]. }
    split; [intros id; rewrite Pm; apply Xp|]. split; [exact Lp|]. split; [exact Rp|]. split; [exact Bm|]. split; [exact Fm|]. split; [exact Lm|]. split; [|split].
    + intros id [I|[I|[I|I]]].
      * apply G7, Gone6. auto.
      * apply G7, Gone6. right. apply Sp. auto.
      * destruct (in_dec Nat.eq_dec id slam) as [J|J]; [apply G7, Gone6; auto|apply None7, Gl; auto].
      * apply G7, Gone6. right. apply Sp. auto.
    + intros id I. apply Us in I. destruct (Usl _ I) as [J|J]; [left; exact J|right; apply Ssl; exact J].
    + intros id c t (f & Ef & Df) N1 N2 N3 N4 I H. apply K7; auto. destruct I as (ob & I & Eot). unfold track in I. rewrite Ef in I. exists ob. split; auto. unfold track. rewrite (Stay6 id f); auto.
      intros J. apply Ssl in J. tauto.
  - assert (Lv : forall id, In id (map fst (s_slam st2)) <-> In id (lands st) /\ ~ given_up isA g st d m id) by exact Sv.
    split; [intros id; unfold lands at 1; rewrite S7, in_app_iff, Lv; tauto|]. split; [|split; [|split]].
    + intros id I. split; [apply Us; apply in_or_app; right; apply in_or_app; auto|]. destruct (Kd id I) as [K1 K2]. split; [rewrite <- Lv; exact K2|]. apply Ssl in K1. tauto.
    + intros id. rewrite Xf. rewrite Us. unfold seen_from_window.
      assert (Iupd : In id upd <-> In id slam /\ In id (map fst (s_slam st2))) by (unfold upd; rewrite filter_In, memn_in; tauto).
      assert (Nm' : In id slam -> In id msckf -> ~ seen_in_times (map fst (s_clones st)) d3 id /\ ~ exists t, seen_at d id t /\ In t (map fst (s_clones st))).
      { intros I J. split; intros (t & (c & D) & T); apply (Xsel id (Im _ J) I c t); auto. eapply thin_in; eauto. }
      assert (Eq : ~ In id msckf -> (seen_in_times (map fst (s_clones st)) d3 id <-> exists t, seen_at d id t /\ In t (map fst (s_clones st)))).
      { intros I. unfold seen_in_times, seen_at, in_db, track. destruct C1 as (_ & _ & _ & U & _). rewrite U by auto. reflexivity. }
      assert (Un : In id (map fst (s_slam st2)) -> In id slam -> (In id (used1 ++ used2 ++ kept) <-> In id used2)).
      { intros I J. rewrite !in_app_iff. split; auto. intros [K|[K|K]]; auto; [exfalso; apply (H1 id); auto|apply Kd in K; tauto]. }
      assert (Sd : (exists t, seen_at d id t /\ In t (map fst (s_clones st))) -> In id (lands st) -> In id slam).
      { intros (t & (c & (ob & I & _)) & _) L. unfold track in I. destruct (alook d id) as [f|] eqn:Ef; [|destruct I]. eapply Lsel; eauto. }
      rewrite Iupd, Lv. destruct (in_dec Nat.eq_dec id msckf) as [J|J].
      * split.
        -- intros ((A & B) & C & D & S). exfalso. destruct (Nm' A J) as [X _]. auto.
        -- intros (A & B & C & D & S). exfalso. destruct (Nm' (Sd D A) J) as [_ X]. auto.
      * rewrite (Eq J). split.
        -- intros ((A & B & B') & C & D & S). split; auto. split; auto. split; auto. split; auto. rewrite Un; auto. rewrite Lv. auto.
        -- intros (A & B & C & D & S). split; [split; [apply Sd; auto|auto]|]. split; [|split; auto]. intros K. apply S. apply in_or_app. right. apply in_or_app. auto.
    + intros id I. unfold new_fail. apply memn_in in I. rewrite I. reflexivity.
    + intros id I. unfold new_fail. apply memn_notin in I. rewrite I, (count_in_nodup _ _ Nf). reflexivity.
Qed.
