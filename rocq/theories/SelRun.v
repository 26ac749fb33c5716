(** C64 and C77 over sequences of messages. *)
From Coq Require Import Reals List Arith Lia Lra ZArith Bool Sorted Permutation.
From Verif Require Import RBool Outcome Lin GeoModel TypesModel GivensModel StateModel StateOps2 ReachModel ReachSpec StateFrame DbModel DbSpec DbProofs DbProofs2 DbThms
  ImuModel PropModel UpdModel InitModel ZuptModel ZuptThms SelUpd SelModel SelSpec SelDb SelState SelSelect SelThms.
Import ListNotations.
Open Scope R_scope.

(** ** counting landmarks *)
Definition plainb (o : opts) (id : nat) : bool := (4 * o_max_aruco o <? Z.of_nat id)%Z.
Lemma plain_eq st : plain_landmarks st = length (filter (plainb (s_opts st)) (map fst (s_slam st))).
Proof. unfold plain_landmarks. induction (s_slam st) as [|e l IH]; cbn [map filter]; auto. unfold plainb at 1. destruct (_ <? _)%Z; cbn [length]; congruence. Qed.
Lemma tag_plain st : Z.of_nat (length (s_slam st)) = (tag_count st + Z.of_nat (plain_landmarks st))%Z.
Proof.
  unfold tag_count, plain_landmarks. induction (s_slam st) as [|e l IH]; cbn [filter length]; auto.
  destruct (Z.leb_spec (Z.of_nat (fst e)) (4 * o_max_aruco (s_opts st))), (Z.ltb_spec (4 * o_max_aruco (s_opts st)) (Z.of_nat (fst e))); cbn [length]; lia.
Qed.
Lemma promoted_bound o st t n k : (k <= promoted o st t n)%nat -> (Z.of_nat (plain_landmarks st + k) <= Z.max (Z.of_nat (plain_landmarks st)) (se_max_slam o))%Z.
Proof.
  unfold promoted. pose proof (tag_plain st). destruct (_ && _)%bool eqn:B; [|lia]. apply andb_true_iff in B. destruct B as [_ B]. apply Z.ltb_lt in B.
  destruct (Z.ltb_spec (Z.of_nat n) (se_max_slam o + tag_count st - Z.of_nat (length (s_slam st)))); lia.
Qed.
Lemma plain_grows E st d m cand slam st' : db_ok d -> ticking d -> s_time st = m_t m -> NoDup (map fst (s_slam st)) -> (1 <= o_max_clones (s_opts st))%Z ->
  increasing (map fst (s_clones st)) -> last_le st ->
  (forall id c t, In id (map fst (s_slam st)) -> in_db d (id, c, t) -> t <= m_t m /\ (In t (map fst (s_clones st)) -> t = m_t m)) ->
  select (en_isA E) (en_opt E) st d m = (cand, slam) -> (forall id, en_isA E id = true -> (Z.of_nat id <= 4 * o_max_aruco (s_opts st))%Z) ->
  s_opts st' = s_opts st -> NoDup (map fst (s_slam st')) -> (forall id, In id (map fst (s_slam st')) -> In id (map fst (s_slam st)) \/ In id slam) ->
  (Z.of_nat (plain_landmarks st') <= Z.max (Z.of_nat (plain_landmarks st)) (se_max_slam (en_opt E)))%Z.
Proof.
  intros Od Td Ht Nl Hm Hi Hl Hland Es HA Eo N' I'.
  destruct (select_shape (en_isA E) (en_opt E) st d m Od Td Ht Hm Hi Hl Hland) as (lost & marg' & keep & promo & Es' & _ & _ & _ & n & Hn & _).
  rewrite Es in Es'. injection Es' as _ ->.
  eapply Z.le_trans; [|apply (promoted_bound _ _ _ _ _ Hn)]. apply Nat2Z.inj_le. rewrite !plain_eq, Eo, <- (map_length f_id promo), <- app_length.
  apply NoDup_incl_length; [apply NoDup_filter; auto|]. intros id I. apply filter_In in I. destruct I as [I P]. apply in_or_app.
  destruct (I' id I) as [J|J]; [left; apply filter_In; auto|]. apply in_app_or in J. destruct J as [J|J].
  - exfalso. apply in_map_iff in J. destruct J as (f & <- & J). apply (tags_spec _ _ _ _ m Od Ht Hm Hi Hl Hland (m_t m)) in J. destruct J as (_ & J & _). apply HA in J.
    unfold plainb in P. apply Z.ltb_lt in P. lia.
  - apply in_app_or in J. destruct J as [J|J]; auto. left. rewrite (landmark_tracks_eq _ st d Od) in J. apply filter_In in J. apply filter_In. tauto.
Qed.

Definition step_ok (E : env) (g : mgr) (m : msg) (future : list msg) (g' : mgr) (uses : list feature) : Prop :=
  ready E g' future /\ NoDup (flat_map meas_of uses) /\
  (forall x, In x (flat_map meas_of uses) -> (in_db (g_db g) x \/ came_with m x) /\ ~ in_db (g_db g') x) /\
  (forall x, in_db (g_db g') x -> in_db (g_db g) x \/ came_with m x) /\
  s_opts (g_st g') = s_opts (g_st g) /\
  ((forall id, en_isA E id = true -> (Z.of_nat id <= 4 * o_max_aruco (s_opts (g_st g)))%Z) ->
    (Z.of_nat (plain_landmarks (g_st g')) <= Z.max (Z.of_nat (plain_landmarks (g_st g))) (se_max_slam (en_opt E)))%Z).

Section Step.
Variables (E : env) (g : mgr) (m : msg) (future : list msg) (i : fin).
Hypothesis Hs : forall id, en_single E id = false.
Hypothesis Hsort : sorts (en_sort E).
Hypothesis HR : ready E g (m :: future).
Hypothesis Hmsg : msg_ok m.
Hypothesis Hord : in_order (m :: future).
Let d := feed (g_db g) m.
Let st := g_st g.
Let t := m_t m.

Lemma fed_facts : db_ok d /\ ticking d /\ forall x, in_db d x <-> in_db (g_db g) x \/ came_with m x.
Proof. apply feed_spec; [apply HR|apply HR|exact Hmsg|]. intros id c s I C. apply (rd_past _ _ _ HR id c s m); simpl; auto. Qed.
Lemma order_facts m' : In m' future -> t <= m_t m' /\ forall c, In c (m_cams m) -> In c (m_cams m') -> t < m_t m'.
Proof. inversion Hord; subst. rewrite Forall_forall in H1. apply H1. Qed.
Lemma fed_past id c s m' : in_db d (id, c, s) -> In m' future -> before s c m'.
Proof.
  intros I J. destruct fed_facts as (_ & _ & F). apply F in I. destruct I as [I|I]; [apply (rd_past _ _ _ HR id c s m'); simpl; auto|].
  destruct I as (-> & u & n & I). destruct (order_facts m' J) as [A B]. split; auto. intros K. apply (B c); auto. apply Hmsg in I. exact I.
Qed.
Lemma time_le : s_time st <= t.
Proof. apply (rd_time _ _ _ HR). simpl; auto. Qed.

Lemma landmarks_fed id c s : In id (map fst (s_slam st)) -> in_db d (id, c, s) -> s <= t /\ (In s (map fst (s_clones st)) -> s = t).
Proof.
  intros I J. destruct fed_facts as (_ & _ & F). apply F in J. pose proof time_le. destruct J as [J|(-> & _)]; [|fold t; split; [lra|auto]].
  destruct (rd_land _ _ _ HR id c s I J) as [A B]. fold st in A, B. split; [lra|]. intros; contradiction.
Qed.

Lemma normal_step gx g' uses : g_st gx = st -> g_moved gx = g_moved g ->
  (se_zupt (en_opt E) = true -> (se_once (en_opt E) = false \/ g_moved g = false) -> g_did gx = false) ->
  feature_frame E gx d m i = Ok (g', uses) -> step_ok E g m future g' uses.
Proof.
  intros Ex Mx Dx Q. unfold feature_frame in Q. cbv zeta in Q. rewrite Ex in Q. fold t in Q. pose proof time_le as Tle. destruct fed_facts as (Od & Td & Fd).
  destruct (Rltb_spec t (s_time st)) as [L|_]; [lra|]. apply obind_ok in Q. destruct Q as (st1 & Q1 & Q).
  assert (X : s_time st1 = t /\ s_slam st1 = s_slam st /\ s_opts st1 = s_opts st /\ (length (s_clones st) <= length (s_clones st1))%nat /\ increasing (map fst (s_clones st1)) /\ last_le st1 /\
    forall s, In s (map fst (s_clones st1)) -> In s (map fst (s_clones st)) \/ s = t).
  { destruct (Reqb_spec (s_time st) t) as [T|T].
    - apply ok_one in Q1. subst st1. split; [exact T|]. split; [auto|]. split; [auto|]. split; [lia|]. split; [apply HR|]. split; [apply HR|auto].
    - destruct (pac_keeps _ _ _ _ Q1) as (L & A & B & C & p & D). split; [auto|]. split; [auto|]. split; [auto|]. rewrite D. split; [rewrite app_length; lia|].
      rewrite map_app. assert (Y : forall x, In x (map fst (s_clones st)) -> x < t) by (intros x I; pose proof (rd_last _ _ _ HR x I); fold st in H; lra).
      split; [apply increasing_snoc; [apply HR|auto]|]. split.
      + intros s. rewrite D, B, map_app. intros I. apply in_app_or in I. destruct I as [I|[<-|[]]]; [apply Y in I; lra|simpl; lra].
      + intros s I. apply in_app_or in I. destruct I as [I|[<-|[]]]; auto. }
  destruct X as (X1 & X2 & X3 & X4 & X5 & X6 & X7). rewrite X3 in Q.
  pose proof (rd_max _ _ _ HR) as Hmax. fold st in Hmax.
  assert (Hland1 : forall id c s, In id (map fst (s_slam st1)) -> in_db d (id, c, s) -> s <= m_t m /\ (In s (map fst (s_clones st1)) -> s = m_t m)).
  { intros id c s I J. rewrite X2 in I. destruct (landmarks_fed id c s I J) as [A B]. split; auto. intros K. apply X7 in K. destruct K; auto. }
  destruct (Z.ltb_spec (Z.of_nat (length (s_clones st1))) (Z.min (o_max_clones (s_opts st)) 5)) as [L|L].
  - apply ok_pair in Q. destruct Q as [<- <-]. cbn [g_db g_st g_did g_moved].
    assert (S0 : s_slam st = []).
    { destruct (s_slam st) as [|e l] eqn:S0; auto. exfalso. pose proof (rd_enough _ _ _ HR) as Y. fold st in Y. rewrite S0 in Y. specialize (Y ltac:(discriminate)). lia. }
    split; [|split; [constructor|split; [intros x []|split; [intros x; apply Fd|split; [exact X3|]]]]].
    + constructor; cbn [g_db g_st g_did g_moved]; auto.
      * intros id c s m' I J. apply (fed_past id c s m'); auto.
      * intros m' I. rewrite X1. apply order_facts; auto.
      * rewrite X3. auto.
      * rewrite X2, S0. constructor.
      * rewrite X2, S0. intros K. contradiction.
      * rewrite X2, S0. intros id c s [].
      * rewrite Mx. intros Z W D. rewrite (Dx Z W) in D. discriminate D.
    + intros _. unfold plain_landmarks. cbn [g_st]. rewrite X2, X3. fold st. lia.
  - destruct (Reqb_spec (s_time st1) t) as [_|N]; [|contradiction]. cbn [negb] in Q.
    destruct (select (en_isA E) (en_opt E) st1 d m) as [cand slam] eqn:Es.
    assert (Nl : NoDup (map fst (s_slam st1))) by (rewrite X2; apply HR).
    assert (Hm1 : (1 <= o_max_clones (s_opts st1))%Z) by (rewrite X3; exact Hmax).
    destruct (update_frame_spec E gx st1 d m i g' uses cand slam Hs Hsort Od Td X1 Nl Hm1 X5 X6 Hland1 Es Q) as (A1 & A2 & A3 & A4 & A5 & A6 & A7 & A8 & A9 & A10 & A11).
    split; [|split; [exact A2|split; [|split; [|split; [rewrite A7, X3; reflexivity|]]]]].
    + constructor.
      * apply A1.
      * eapply thin_ticking; eauto.
      * intros id c s m' I J. apply (fed_past id c s m'); auto. exact (thin_in _ _ _ A1 I).
      * intros m' I. rewrite A6, X1. apply order_facts; auto.
      * rewrite A7. exact Hm1.
      * rewrite A8. destruct (_ <? _)%Z; auto. destruct (s_clones st1); auto. apply increasing_tl in X5. exact X5.
      * intros s. rewrite A8, A6. intros I. apply X6. destruct (_ <? _)%Z; auto. destruct (s_clones st1) as [|e l]; auto. simpl in *. auto.
      * exact A9.
      * intros _. rewrite A7, A8, X3. destruct (Z.ltb_spec (o_max_clones (s_opts st)) (Z.of_nat (length (s_clones st1)))); [|lia].
        destruct (s_clones st1) as [|e l]; cbn [length tl] in *; lia.
      * intros id c s I J. exfalso. apply (A10 id c s I J).
      * rewrite A4, A5. intros Z W D. exfalso. assert (D0 : g_did gx = false) by (apply Dx; [exact Z|]; destruct W as [W|W]; [left; exact W|discriminate W]). rewrite D0 in D. discriminate D.
    + intros x I. destruct (A3 x I) as [B C]. split; auto. apply Fd. exact B.
    + intros x I. apply Fd. exact (thin_in _ _ _ A1 I).
    + intros HA. assert (P : plain_landmarks st1 = plain_landmarks st) by (unfold plain_landmarks; rewrite X2, X3; reflexivity). fold st. rewrite <- P.
      apply (plain_grows E st1 d m cand slam (g_st g') Od Td X1 Nl Hm1 X5 X6 Hland1 Es); auto. rewrite X3. exact HA.
Qed.

Lemma message_step g' uses : message E g m i = Ok (g', uses) -> step_ok E g m future g' uses.
Proof.
  intros Q. unfold message in Q. cbv zeta in Q. fold d st t in Q. pose proof time_le as Tle. destruct fed_facts as (Od & Td & Fd).
  destruct (se_zupt (en_opt E) && (negb (se_once (en_opt E)) || negb (g_moved g)))%bool eqn:Z.
  - apply obind_ok in Q. destruct Q as ((((did & z') & d') & st') & Q1 & Q). destruct did.
    2: { eapply normal_step; [| | |exact Q]; auto. }
    apply guard_ok in Q; [|discriminate]. destruct Q as [Tq Q]. apply ok_pair in Q. destruct Q as [<- <-].
    assert (X : s_time st' = t /\ s_slam st' = s_slam st /\ s_opts st' = s_opts st /\ s_clones st' = s_clones st /\ thin d d' /\ ~ In t (map fst (s_clones st))).
    { destruct (Reqb_spec (s_time st) t) as [T|T].
      - injection Q1 as D _ <- <-. split; [exact T|]. do 3 (split; [auto|]). split; [apply thin_refl; auto|]. rewrite <- T. apply (rd_did _ _ _ HR); auto.
        + apply andb_true_iff in Z. tauto.
        + apply andb_true_iff in Z. destruct Z as [_ Z]. apply orb_true_iff in Z. rewrite !negb_true_iff in Z. exact Z.
      - apply obind_ok in Q1. destruct Q1 as ((((b & z1) & d1) & s1) & Q2 & Q1). injection Q1 as -> _ <- <-.
        destruct (zupt_keeps _ _ _ _ _ _ _ _ _ _ _ Q2) as (_ & A & B & C & D & F). split; [auto|]. split; [auto|]. split; [auto|]. split; [auto|]. split.
        + pose proof (filter_thin (fun e => negb (en_isA E (fst e))) d Od) as Tf. fold (feats (en_isA E) d) in Tf. destruct F as [->|F].
          * apply recombine_thin; auto. { apply thin_refl. apply Tf. } intros id f L. eauto.
          * destruct (cleanup_measurements_exact_thm _ (z_time (mkZ (fi_imu i) (z_off (g_z g)) (z_have (g_z g)) (z_time (g_z g)) (z_count (g_z g)))) (proj1 Tf)) as (d2 & G1 & G2 & G3). rewrite F in G1. injection G1 as <-.
            apply recombine_thin; auto; [eapply cleaned_thin; eauto|]. intros id f L. eapply cleaned_keys; eauto.
        + intros I. apply (rd_last _ _ _ HR) in I. fold st in I. lra. }
    destruct X as (X1 & X2 & X3 & X4 & X5 & X6).
    split; [|split; [constructor|split; [intros x []|split; [|split; [exact X3|]]]]].
    + constructor; cbn [g_db g_st g_did g_moved].
      * apply X5.
      * eapply thin_ticking; eauto.
      * intros id c s m' I J. apply (fed_past id c s m'); auto. exact (thin_in _ _ _ X5 I).
      * intros m' I. rewrite X1. apply order_facts; auto.
      * rewrite X3. apply HR.
      * rewrite X4. apply HR.
      * intros s. rewrite X4, X1. intros I. apply (rd_last _ _ _ HR) in I. fold st in I. lra.
      * rewrite X2. apply HR.
      * rewrite X2, X3, X4. apply HR.
      * rewrite X1, X2, X4. intros id c s I J. apply (thin_in _ _ _ X5) in J. destruct (landmarks_fed id c s I J) as [A B]. split; auto. intros K. specialize (B K). subst s. contradiction.
      * rewrite X1, X4. auto.
    + cbn [g_db]. intros x I. apply Fd. exact (thin_in _ _ _ X5 I).
    + intros _. unfold plain_landmarks. cbn [g_st]. rewrite X2, X3. fold st. lia.
  - eapply normal_step; [| | |exact Q]; auto. cbn [g_did]. intros Z1 W. exfalso. rewrite Z1 in Z. cbn [andb] in Z.
    apply orb_false_iff in Z. rewrite !negb_false_iff in Z. destruct Z, W; congruence.
Qed.
End Step.

Lemma run_spec E l : (forall id, en_single E id = false) -> sorts (en_sort E) -> forall g g' uses (log : list meas), ready E g (map fst l) -> Forall msg_ok (map fst l) -> in_order (map fst l) ->
  NoDup log -> (forall x, In x log -> ~ in_db (g_db g) x) -> (forall id c t m, In (id, c, t) log -> In m (map fst l) -> before t c m) ->
  run_msgs E l g = Ok (g', uses) ->
  ready E g' [] /\ NoDup (log ++ flat_map meas_of uses) /\
  (forall x, In x (flat_map meas_of uses) -> in_db (g_db g) x \/ exists m, In m (map fst l) /\ came_with m x) /\
  s_opts (g_st g') = s_opts (g_st g) /\
  ((forall id, en_isA E id = true -> (Z.of_nat id <= 4 * o_max_aruco (s_opts (g_st g)))%Z) ->
    (Z.of_nat (plain_landmarks (g_st g')) <= Z.max (Z.of_nat (plain_landmarks (g_st g))) (se_max_slam (en_opt E)))%Z).
Proof.
  intros Hs Hsort. induction l as [|[m i] l IH]; intros g g' uses log R M O N D P Q; cbn [run_msgs map fst] in *.
  - injection Q as <- <-. cbn [flat_map]. rewrite app_nil_r. split; auto. split; auto. split; [intros x []|]. split; auto. intros; lia.
  - apply obind_ok in Q. destruct Q as ((g1 & u1) & Q1 & Q). apply obind_ok in Q. destruct Q as ((g2 & u2) & Q2 & Q). cbn [fst snd] in *. injection Q as <- <-.
    inversion M; subst. assert (O' : in_order (map fst l)) by (inversion O; auto).
    destruct (message_step E g m (map fst l) i Hs Hsort R H1 O g1 u1 Q1) as (R1 & N1 & U1 & F1 & Eo & Pl).
    assert (Past : forall id c t m', in_db (g_db g) (id, c, t) \/ came_with m (id, c, t) -> In m' (map fst l) -> before t c m').
    { intros id c t m' I J. apply (fed_past E g m (map fst l) R H1 O id c t m'); auto. apply (fed_facts E g m (map fst l) R H1). exact I. }
    assert (Fresh : forall x, came_with m x -> ~ In x log).
    { intros [[id c] t] (-> & u & n & I) J. destruct (P id c (m_t m) m J (or_introl eq_refl)) as [_ B]. apply H1 in I. specialize (B I). lra. }
    assert (U2 : forall x, In x (flat_map meas_of u1) -> ~ In x log).
    { intros x I J. destruct (U1 x I) as [[A|A] _]; [apply (D x J A)|apply (Fresh x A J)]. }
    destruct (IH g1 g2 u2 (log ++ flat_map meas_of u1) R1 H2 O') as (A1 & A2 & A3 & A4 & A5); auto.
    + apply NoDup_app_intro; auto. intros x I J. apply (U2 x J I).
    + intros x I J. apply in_app_or in I. destruct I as [I|I]; [|apply (U1 x I); auto]. destruct (F1 x J) as [A|A]; [apply (D x I A)|apply (Fresh x A I)].
    + intros id c t m' I J. apply in_app_or in I. destruct I as [I|I]; [apply (P id c t m' I); right; exact J|]. apply (Past id c t m'); [apply (U1 _ I)|exact J].
    + split; auto. rewrite flat_map_app. split; [rewrite app_assoc; exact A2|]. split; [|split; [congruence|]].
      * intros x I. apply in_app_or in I. destruct I as [I|I].
        -- destruct (U1 x I) as [[A|A] _]; auto. right. exists m. split; [left; reflexivity|exact A].
        -- destruct (A3 x I) as [A|(m' & A & B)]; [|right; exists m'; split; [right; exact A|exact B]]. destruct (F1 x A) as [B|B]; auto. right. exists m. split; [left; reflexivity|exact B].
      * intros HA. specialize (Pl HA). rewrite Eo in A5. specialize (A5 HA). lia.
Qed.

Lemma once_thm E l g g' uses : (forall id, en_single E id = false) -> sorts (en_sort E) -> ready E g (map fst l) -> Forall msg_ok (map fst l) -> in_order (map fst l) ->
  run_msgs E l g = Ok (g', uses) ->
  NoDup (flat_map meas_of uses) /\ (forall x, In x (flat_map meas_of uses) -> in_db (g_db g) x \/ exists m, In m (map fst l) /\ came_with m x) /\ ready E g' [].
Proof.
  intros Hs Hsort R M O Q. destruct (run_spec E l Hs Hsort g g' uses [] R M O) as (A & B & C & _); auto; [constructor|].
  intros id c t m [].
Qed.
Lemma budget_thm E l g g' uses : (forall id, en_single E id = false) -> sorts (en_sort E) -> ready E g (map fst l) -> Forall msg_ok (map fst l) -> in_order (map fst l) ->
  run_msgs E l g = Ok (g', uses) -> let A := o_max_aruco (s_opts (g_st g)) in let M := se_max_slam (en_opt E) in
  (forall id, en_isA E id = true -> (Z.of_nat id <= 4 * A)%Z) -> (0 <= A)%Z -> (Z.of_nat (plain_landmarks (g_st g)) <= Z.max 0 M)%Z ->
  (Z.of_nat (plain_landmarks (g_st g')) <= Z.max 0 M)%Z /\ (Z.of_nat (length (s_slam (g_st g'))) <= Z.max 0 M + 4 * A + 1)%Z.
Proof.
  intros Hs Hsort R M O Q A Mx HA A0 H0. destruct (run_spec E l Hs Hsort g g' uses [] R M O) as (R' & _ & _ & Eo & P); auto; [constructor|intros id c t m []|].
  specialize (P HA). fold Mx in P. split; [lia|]. rewrite tag_plain.
  assert (T : (tag_count (g_st g') <= 4 * A + 1)%Z); [|lia]. unfold tag_count. rewrite Eo. fold A.
  rewrite <- (map_length fst). transitivity (Z.of_nat (length (seq 0 (Z.to_nat (4 * A + 1))))); [|rewrite seq_length; lia].
  apply Nat2Z.inj_le. apply NoDup_incl_length; [apply nodup_map_filter'; apply R'|]. intros id I. apply in_map_iff in I. destruct I as (e & <- & I). apply filter_In in I.
  destruct I as [_ I]. apply Z.leb_le in I. apply in_seq. lia.
Qed.
