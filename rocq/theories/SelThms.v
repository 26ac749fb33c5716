(** C64: over a run no measurement enters two updates.  C77: the number of landmarks is bounded. *)
From Coq Require Import Reals List Arith Lia Lra ZArith Bool Sorted Permutation.
From Verif Require Import RBool Outcome Lin GeoModel TypesModel GivensModel StateModel StateOps2 ReachModel ReachSpec StateFrame DbModel DbSpec DbProofs DbProofs2 DbThms
  ImuModel PropModel FeatModel LandModel CamModel HelpModel AnchorModel AnchorLive AnchorThms UpdModel UpdProofs2 UpdProofs3 InitModel ZuptModel ZuptThms SelUpd SelModel SelSpec SelDb SelState SelSelect.
Import ListNotations.
Open Scope R_scope.

Lemma consumed_app n T a b d u d1 v d2 : (forall id, In id a -> ~ In id b) -> consumed n T a d u d1 -> consumed n T b d1 v d2 -> consumed n T (a ++ b) d (u ++ v) d2.
Proof.
  intros D (N1 & I1 & M1 & U1 & P1) (N2 & I2 & M2 & U2 & P2).
  split; [apply NoDup_app_intro; auto; intros x A B; apply (D x); auto|].
  split; [intros x I; apply in_app_or in I; apply in_or_app; destruct I; auto|]. split; [congruence|].
  split; [intros id I; rewrite U2, U1; auto; intros J; apply I; apply in_or_app; auto|].
  intros id I. destruct (in_dec Nat.eq_dec id b) as [Ib|Ib].
  - destruct (P2 id Ib) as (f & f1 & f' & A & B & C & E & F & G). assert (Ia : ~ In id a) by (intros J; apply (D id); auto).
    rewrite U1 in A by auto. exists f, f1, f'. do 5 (split; [auto|]). intros J. apply in_app_or in J. destruct J as [J|J]; [exfalso; apply Ia; auto|auto].
  - apply in_app_or in I. destruct I as [I|I]; [|contradiction]. destruct (P1 id I) as (f & f1 & f' & A & B & C & E & F & G).
    exists f, f1, f'. split; auto. split; auto. split; [rewrite U2; auto|]. split; auto. split; auto. intros J. apply in_app_or in J. destruct J as [J|J]; auto. exfalso. apply Ib. auto.
Qed.
Lemma consumed_del n T ids d u d' id : consumed n T ids d u d' -> In id ids -> exists f, alook d' id = Some f /\ f_del f = true.
Proof. intros (_ & _ & _ & _ & P) I. destruct (P id I) as (f & f1 & f' & _ & _ & A & B & _). eauto. Qed.
Lemma consumed_ok n T ids d u d' id : db_ok d -> consumed n T ids d u d' -> forall f, alook d id = Some f -> exists f', alook d' id = Some f' /\ feat_ok f'.
Proof.
  intros O C f E. pose proof (consumed_thin _ _ _ _ _ _ O C) as [O' _]. destruct C as (_ & _ & M & _).
  destruct (alook d' id) as [f'|] eqn:E'; [exists f'; split; auto; apply (db_ok_look _ _ _ O' E')|].
  exfalso. assert (I : In id (map fst d')) by (rewrite M; apply in_map_iff; exists (id, f); split; auto; apply alook_some_key; auto).
  apply in_map_iff in I. destruct I as ((i & g) & <- & I). cbn [fst] in *. apply alook_in in I; [congruence|apply O'].
Qed.
Lemma used_clone n T ids d u d' id : (1 <= n)%nat -> db_ok d -> consumed n T ids d u d' -> (forall c t, in_db d (id, c, t) -> ~ In t T) -> ~ In id u.
Proof.
  intros Hn O (_ & I & _ & _ & P) H J. destruct (P id (I _ J)) as (f & f1 & f' & A & B & _ & _ & _ & G). specialize (G J).
  destruct (db_ok_look _ _ _ O A) as [_ F]. destruct (clean_old_track _ _ _ F B) as (F1 & _ & X).
  assert (Z : (count_meas f1 <? 1)%nat = true); [|apply Nat.ltb_lt in Z; lia]. apply (count_meas_zero f1 F1). intros c. rewrite X.
  destruct (filter _ (ftrack f c)) as [|o l] eqn:E; auto. exfalso. assert (K : In o (o :: l)) by (left; reflexivity). rewrite <- E in K. apply filter_In in K. destruct K as [K L].
  apply (H c (otime o)); [|apply tfind_in; auto]. exists o. unfold track. rewrite A. auto.
Qed.

Lemma batches_consumed E jac : (forall id, en_single E id = false) -> forall fuel ids st d st' d' uses fails, NoDup ids -> db_ok d ->
  (forall id, In id ids -> exists f, alook d id = Some f) -> slam_batches E jac fuel ids st d = Ok (st', d', uses, fails) ->
  same_win st st' /\ s_slam st' = s_slam st /\ exists used, consumed 1 (map fst (s_clones st)) ids d used d' /\ uses = pick d' used.
Proof.
  intros Hs. induction fuel as [|n IH]; intros ids st d st' d' uses fails N O F Q.
  - destruct ids; [|discriminate]. injection Q as <- <- <- <-. split; [apply same_win_refl|]. split; auto. exists []. split; [apply consumed_nil|reflexivity].
  - destruct ids as [|i0 l0] eqn:Ei.
    { injection Q as <- <- <- <-. split; [apply same_win_refl|]. split; auto. exists []. split; [apply consumed_nil|reflexivity]. }
    rewrite <- Ei in *. cbn [slam_batches] in Q. rewrite Ei in Q at 1. cbv zeta in Q. clear Ei i0 l0. set (k := Z.to_nat _) in *.
    apply obind_ok in Q. destruct Q as ((((st1 & d1) & u) & fl) & Q1 & Q). apply obind_ok in Q. destruct Q as ((((st2 & d2) & u2) & f2) & Q2 & Q).
    injection Q as <- <- <- <-. rewrite <- (firstn_skipn k ids) in N. destruct (nodup_app_parts _ _ N) as (Na & Nb & Nab).
    assert (Fo : forall id, In id ids -> exists f, alook d id = Some f /\ feat_ok f).
    { intros id I. destruct (F id I) as (f & Ef). exists f. split; auto. apply (db_ok_look _ _ _ O Ef). }
    assert (Ia : incl (firstn k ids) ids) by (intros x I; rewrite <- (firstn_skipn k ids); apply in_or_app; auto).
    assert (Ib : incl (skipn k ids) ids) by (intros x I; rewrite <- (firstn_skipn k ids); apply in_or_app; auto).
    destruct (slam_consumed _ _ _ _ _ _ _ _ _ _ _ Hs Na (fun id I => Fo id (Ia _ I)) Q1) as (C1 & W1 & S1).
    assert (Fb : forall id, In id (skipn k ids) -> exists f, alook d1 id = Some f).
    { intros id I. destruct (F id (Ib _ I)) as (f & Ef). destruct (consumed_ok _ _ _ _ _ _ id O C1 f Ef) as (f' & Ef' & _). eauto. }
    destruct (IH _ _ _ _ _ _ _ Nb (proj1 (consumed_thin _ _ _ _ _ _ O C1)) Fb Q2) as (W2 & S2 & used & C2 & ->).
    split; [eapply same_win_trans; eauto|]. split; [congruence|]. exists (u ++ used). destruct W1 as (W1 & _). rewrite W1 in C2. split.
    + rewrite <- (firstn_skipn k ids). apply consumed_app with d1; auto.
    + rewrite pick_app. f_equal. apply pick_ext. intros id I. symmetry. apply C2. intros J. apply (Nab id); auto. apply C1. auto.
Qed.

(** one update: everything it used is gone from the database afterwards, and no landmark has a track left *)
Lemma update_frame_spec E g st d m i g' uses cand slam : (forall id, en_single E id = false) -> sorts (en_sort E) ->
  db_ok d -> ticking d -> s_time st = m_t m -> NoDup (map fst (s_slam st)) -> (1 <= o_max_clones (s_opts st))%Z ->
  increasing (map fst (s_clones st)) -> last_le st ->
  (forall id c t, In id (map fst (s_slam st)) -> in_db d (id, c, t) -> t <= m_t m /\ (In t (map fst (s_clones st)) -> t = m_t m)) ->
  select (en_isA E) (en_opt E) st d m = (cand, slam) ->
  update_frame E g st d m i = Ok (g', uses) ->
  thin d (g_db g') /\ NoDup (flat_map meas_of uses) /\ (forall x, In x (flat_map meas_of uses) -> in_db d x /\ ~ in_db (g_db g') x) /\
  g_did g' = g_did g /\ g_moved g' = true /\ s_time (g_st g') = s_time st /\ s_opts (g_st g') = s_opts st /\
  s_clones (g_st g') = (if (o_max_clones (s_opts st) <? Z.of_nat (length (s_clones st)))%Z then tl (s_clones st) else s_clones st) /\
  NoDup (map fst (s_slam (g_st g'))) /\ (forall id c t, In id (map fst (s_slam (g_st g'))) -> ~ in_db (g_db g') (id, c, t)) /\
  forall id, In id (map fst (s_slam (g_st g'))) -> In id (map fst (s_slam st)) \/ In id slam.
Proof.
  intros Hs Hsort Od Td Ht Nl Hm Hi Hl Hland Es Q.
  destruct (select_spec (en_isA E) (en_opt E) st d m Od Td Ht Nl Hm Hi Hl Hland cand slam Es) as (Nc & Ns & Fsel & Lsel & Xsel).
  unfold update_frame in Q. cbv zeta in Q. rewrite Es in Q.
  apply obind_ok in Q. destruct Q as (st1 & Q1 & Q). apply obind_ok in Q. destruct Q as (st2 & Q2 & Q).
  set (upd := filter (fun id => memn id (map fst (s_slam st2))) slam) in *. set (del := filter (fun id => negb (memn id (map fst (s_slam st2)))) slam) in *.
  apply obind_ok in Q. destruct Q as (msckf & Qm & Q). apply obind_ok in Q. destruct Q as (((st3 & d3) & used1) & Q3 & Q).
  apply obind_ok in Q. destruct Q as ((((st4 & d4) & uses2) & fails) & Q4 & Q). apply obind_ok in Q. destruct Q as (((st5 & d5) & kept) & Q5 & Q).
  apply obind_ok in Q. destruct Q as (d6 & Q6 & Q). apply obind_ok in Q. destruct Q as (a & Qa & Q). cbv zeta in Q.
  apply obind_ok in Q. destruct Q as (d7 & Q7 & Q). apply obind_ok in Q. destruct Q as (st7 & Q8 & Q). apply ok_pair in Q. destruct Q as [<- <-].
  cbn [g_db g_st g_did g_moved].
  destruct (flag_keeps _ _ _ _ _ _ _ Q1) as [W1 S1]. destruct (marg_slam_keeps _ _ _ _ Q2) as [W2 S2]. cbn [app] in S2.
  pose proof (same_win_trans _ _ _ W1 W2) as W12.
  assert (I2 : incl (map fst (s_slam st2)) (map fst (s_slam st))).
  { rewrite S2. intros x I. rewrite <- S1. apply in_map_iff in I. destruct I as (e & <- & I). apply filter_In in I. apply in_map. tauto. }
  assert (N2 : NoDup (map fst (s_slam st2))) by (rewrite S2; apply nodup_map_filter'; rewrite S1; auto).
  destruct (truncate_spec _ _ _ _ _ Hsort Qm Nc) as [Nm Im].
  (* the three updates *)
  destruct (msckf_consumed d msckf Nm (fun id I => Fsel id (or_introl (Im _ I))) _ _ _ _ _ _ _ _ _ Q3) as (C1 & W3 & S3).
  destruct W12 as (Wc & Wt & Wo). rewrite Wc in C1.
  pose proof (consumed_thin _ _ _ _ _ _ Od C1) as T3. pose proof (proj1 T3) as O3.
  assert (Nu : NoDup upd) by (apply NoDup_filter; auto). assert (Nd : NoDup del) by (apply NoDup_filter; auto).
  assert (Iu : incl upd slam) by (intros x I; apply filter_In in I; tauto). assert (Id : incl del slam) by (intros x I; apply filter_In in I; tauto).
  assert (Fu : forall id, In id upd -> exists f, alook d3 id = Some f).
  { intros id I. destruct (Fsel id (or_intror (Iu _ I))) as (f & Ef & _). destruct (consumed_ok _ _ _ _ _ _ id Od C1 f Ef) as (f' & Ef' & _). eauto. }
  destruct (batches_consumed E (fi_jac i) Hs _ _ _ _ _ _ _ _ Nu O3 Fu Q4) as (W4 & S4 & used2 & C2 & ->).
  rewrite (proj1 W3), Wc in C2. pose proof (consumed_thin _ _ _ _ _ _ O3 C2) as T4. pose proof (proj1 T4) as O4.
  assert (Fd : forall id, In id del -> exists f, alook d4 id = Some f /\ feat_ok f).
  { intros id I. destruct (Fsel id (or_intror (Id _ I))) as (f & Ef & _). destruct (consumed_ok _ _ _ _ _ _ id Od C1 f Ef) as (f' & Ef' & _).
    destruct (consumed_ok _ _ _ _ _ _ id O3 C2 f' Ef') as (f'' & Ef'' & Of''). eauto. }
  destruct (delayed_consumed d4 del Nd Fd _ _ _ _ _ _ _ _ _ _ Q5) as (C3 & W5 & l5 & S5 & K5).
  pose proof (consumed_thin _ _ _ _ _ _ O4 C3) as T5. pose proof (proj1 T5) as O5.
  (* the ids of what was used *)
  assert (Hud : forall id, In id upd -> ~ In id del).
  { intros id I J. apply filter_In in I, J. destruct I as [_ I], J as [_ J]. rewrite I in J. discriminate. }
  assert (Hsp : forall id, In id slam -> In id upd \/ In id del).
  { intros id I. destruct (memn id (map fst (s_slam st2))) eqn:B; [left|right]; apply filter_In; rewrite B; auto. }
  assert (H1 : forall id, In id used1 -> ~ In id slam).
  { intros id I J. refine (used_clone _ _ _ _ _ _ id _ Od C1 _ I); [lia|]. apply (Xsel id); auto. apply Im, C1. auto. }
  assert (P1 : pick d3 used1 = pick d5 used1).
  { apply pick_ext. intros id I. symmetry. transitivity (alook d4 id); [apply C3; intros J; apply (H1 id); auto|apply C2; intros J; apply (H1 id); auto]. }
  assert (P2 : pick d4 used2 = pick d5 used2).
  { apply pick_ext. intros id I. symmetry. apply C3. apply Hud. apply C2. auto. }
  rewrite P1, P2, <- !pick_app.
  assert (NU : NoDup (used1 ++ used2 ++ kept)).
  { apply NoDup_app_intro; [apply C1|apply NoDup_app_intro; [apply C2|apply C3|]|].
    - intros x I J. apply (Hud x); [apply C2; auto|apply C3; auto].
    - intros x I J. apply (H1 x I). apply in_app_or in J. destruct J as [J|J]; [apply Iu, C2; auto|apply Id, C3; auto]. }
  assert (Del5 : forall id, In id msckf \/ In id slam -> exists f, alook d5 id = Some f /\ f_del f = true).
  { assert (Del4 : forall id, In id msckf \/ In id upd -> exists f, alook d4 id = Some f /\ f_del f = true).
    { intros id I. destruct (in_dec Nat.eq_dec id upd) as [J|J]; [eapply consumed_del; eauto|]. destruct I as [I|I]; [|contradiction].
      destruct C2 as (_ & _ & _ & U & _). rewrite U by auto. eapply consumed_del; eauto. }
    intros id I. destruct (in_dec Nat.eq_dec id del) as [J|J]; [eapply consumed_del; eauto|].
    destruct C3 as (_ & _ & _ & U & _). rewrite U by auto. apply Del4. destruct I as [I|I]; auto. destruct (Hsp _ I); [auto|contradiction]. }
  destruct (mark_thin used1 d5 d6 O5 Q6) as (T6 & _ & X6).
  pose proof (proj1 T6) as O6. assert (Oc : db_ok (cleanup d6)) by (rewrite cleanup_eq; apply filter_db_ok; auto).
  assert (Tc : thin d6 (cleanup d6)) by (rewrite cleanup_eq; apply filter_thin; auto).
  assert (Gone6 : forall id, In id msckf \/ In id slam -> alook (cleanup d6) id = None).
  { intros id I. destruct (Del5 id I) as (f & Ef & Df). destruct (X6 id) as [X _]. destruct (X f Ef Df) as (f' & Ef' & Df'). rewrite cleanup_thm, Ef', Df' by auto. reflexivity. }
  destruct (change_keeps _ _ Qa) as (A1 & A2 & A3 & A4 & _). cbn [sl_st] in A1, A2, A3, A4.
  destruct W3 as (W3c & W3t & W3o), W4 as (W4c & W4t & W4o), W5 as (W5c & W5t & W5o).
  assert (Ec : s_clones (sl_st a) = s_clones st) by congruence. assert (Eo : s_opts (sl_st a) = s_opts st) by congruence. assert (Et : s_time (sl_st a) = s_time st) by congruence.
  rewrite Eo, Ec in Q7.
  assert (T7 : thin (cleanup d6) d7 /\ forall id, alook (cleanup d6) id = None -> alook d7 id = None).
  { destruct (_ <? _)%Z in Q7; [|injection Q7 as <-; split; [apply thin_refl; auto|auto]].
    destruct (margtimestep (sl_st a)) as [t|]; [|discriminate]. destruct (cleanup_measurements_thm (cleanup d6) t Oc) as (d' & X & Y & Z).
    rewrite Q7 in X. injection X as <-. split; [eapply cleaned_thin; eauto|]. intros id B. specialize (Z id). rewrite B in Z. exact Z. }
  destruct T7 as [T7 G7].
  assert (Gone : forall id c t, In id msckf \/ In id slam -> ~ in_db d7 (id, c, t)).
  { intros id c t I (o & J & _). unfold track in J. rewrite (G7 id (Gone6 id I)) in J. destruct J. }
  assert (T05 : thin d d5) by (eapply thin_trans; [exact T3|]; eapply thin_trans; eauto).
  assert (T07 : thin d d7) by (eapply thin_trans; [exact T05|]; eapply thin_trans; [exact T6|]; eapply thin_trans; eauto).
  assert (Hi6 : increasing (map fst (s_clones (sl_st a)))) by (rewrite Ec; auto).
  destruct (old_clone_keeps _ _ Hi6 Q8) as (B1 & B2 & B3 & B4). rewrite Eo, Ec in B4.
  assert (S7 : map fst (s_slam st7) = map fst (s_slam st2) ++ kept).
  { rewrite B1, A1, S5, S4, S3, map_app, K5. reflexivity. }
  split; [exact T07|]. split; [apply pick_nodup; auto; eapply thin_ticking; eauto|]. split.
  { intros x I. apply (pick_meas d5 _ x O5) in I. destruct I as [I J]. split; [exact (thin_in _ _ _ T05 J)|]. destruct x as [[id c] t]. cbn [fst] in I. refine (Gone id c t _).
    apply in_app_or in I. destruct I as [I|I]; [left; apply C1; auto|right]. apply in_app_or in I. destruct I as [I|I]; [apply Iu, C2; auto|apply Id, C3; auto]. }
  split; [reflexivity|]. split; [reflexivity|]. split; [congruence|]. split; [congruence|]. split; [exact B4|].
  assert (Kd : forall id, In id kept -> In id slam /\ ~ In id (map fst (s_slam st2))).
  { intros id I. apply C3 in I. apply filter_In in I. destruct I as [I J]. split; auto. apply negb_true_iff, memn_notin in J. auto. }
  rewrite S7. split; [|split].
  - apply NoDup_app_intro; [auto|apply C3|]. intros x I J. apply Kd in J. tauto.
  - intros id c t I J. apply in_app_or in I. destruct I as [I|I].
    + assert (K : exists f, alook d id = Some f).
      { destruct (thin_in _ _ _ T07 J) as (o & K & _). unfold track in K. destruct (alook d id); [eauto|destruct K]. }
      destruct K as (f & Ef). apply (Gone id c t); auto. right. eapply Lsel; eauto.
    + apply (Gone id c t); auto. right. apply Kd. auto.
  - intros id I. apply in_app_or in I. destruct I as [I|I]; [left; apply I2; auto|right; apply Kd; auto].
Qed.
