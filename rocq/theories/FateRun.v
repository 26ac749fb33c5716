(** C79 and C80 for a message. *)
From Coq Require Import Reals List Arith Lia Lra ZArith Bool Sorted Permutation.
From Verif Require Import RBool Outcome Lin GeoModel TypesModel GivensModel StateModel StateSpec StateOps2 ReachModel ReachSpec StateReach StateFrame DbModel DbSpec DbProofs DbProofs2 DbThms
  UpdModel UpdSpec InitModel ImuModel PropModel ZuptModel SelUpd SelModel SelSpec SelDb SelState SelSelect SelThms SelRun FateSpec FateSel FateThms.
Import ListNotations.
Open Scope R_scope.

Lemma frame_both E g st d m i g' uses : (forall id, en_single E id = false) -> sorts (en_sort E) -> frame_ok st d m ->
  update_frame E g st d m i = Ok (g', uses) ->
  tracks_taken (en_isA E) (en_opt E) st d m (g_db g') uses /\ landmarks_after (en_isA E) (en_opt E) g st d m g' uses.
Proof.
  intros Hs Hsort Fo Q. destruct (frame_fate E g st d m i g' uses Hs Hsort Fo Q) as (handed & promo & cut & kept & rej & (A1 & A2 & A3 & A4 & A5 & A6 & A7 & A8 & A9 & A10) & (B1 & B2 & B3 & B4 & B5)).
  split.
  - exists handed, promo, cut. cbv zeta. repeat match goal with |- _ /\ _ => split end; try assumption. intros id c t U N. apply A10; auto; intros X; apply N; auto.
  - exists kept, rej. cbv zeta. split; [exact B1|]. split; [|split; [|split; [exact B4|split]]].
    + intros id I. destruct (B2 id I) as (C1 & C2 & C3). split; [exact C1|]. split; [exact C2|]. destruct C3 as [C3|C3]; [|right; exact C3]. left.
      assert (J : In id (handed ++ promo ++ cut)) by (apply in_or_app; right; apply in_or_app; auto). apply A2 in J. split; [apply J|apply A3; auto].
    + intros id. rewrite B3. unfold landmarks, was_used. tauto.
    + intros id I J. rewrite (B5 id I). destruct (in_dec Nat.eq_dec id rej); [lia|contradiction].
    + intros id I J. rewrite (B5 id I). destruct (in_dec Nat.eq_dec id rej); [contradiction|lia].
Qed.

Section Step.
Variables (E : env) (g : mgr) (m : msg) (future : list msg) (i : fin).
Hypothesis Hs : forall id, en_single E id = false.
Hypothesis Hsort : sorts (en_sort E).
Hypothesis HR : ready E g (m :: future).
Hypothesis Hmsg : msg_ok m.
Let d := feed (g_db g) m.
Let st := g_st g.
Let t := m_t m.

Definition outcome_of (g' : mgr) (uses : list feature) : Prop :=
  no_update E g g' uses \/ exists st, at_update g m st /\
    tracks_taken (en_isA E) (en_opt E) st d m (g_db g') uses /\ landmarks_after (en_isA E) (en_opt E) g st d m g' uses.

Lemma normal_frame gx g' uses : g_st gx = st -> g_fail gx = g_fail g -> g_cam gx = g_cam g ->
  feature_frame E gx d m i = Ok (g', uses) -> outcome_of g' uses.
Proof.
  intros Ex Fx Cx Q. unfold feature_frame in Q. cbv zeta in Q. rewrite Ex in Q. fold t in Q. pose proof (time_le E g m future HR) as Tle. fold st t in Tle.
  destruct (fed_facts E g m future HR Hmsg) as (Od & Td & Fd). fold d in Od, Td, Fd.
  destruct (Rltb_spec t (s_time st)) as [L|_]; [lra|]. apply obind_ok in Q. destruct Q as (st1 & Q1 & Q).
  assert (X : s_time st1 = t /\ s_slam st1 = s_slam st /\ s_opts st1 = s_opts st /\ increasing (map fst (s_clones st1)) /\ last_le st1 /\
    forall s, In s (map fst (s_clones st1)) -> In s (map fst (s_clones st)) \/ s = t).
  { destruct (Reqb_spec (s_time st) t) as [T|T].
    - apply ok_one in Q1. subst st1. split; [exact T|]. split; [auto|]. split; [auto|]. split; [apply HR|]. split; [apply HR|auto].
    - destruct (pac_keeps _ _ _ _ Q1) as (L & A & B & C & p & D). split; [auto|]. split; [auto|]. split; [auto|]. rewrite D.
      rewrite map_app. assert (Y : forall x, In x (map fst (s_clones st)) -> x < t) by (intros x I; pose proof (rd_last _ _ _ HR x I); fold st in H; lra).
      split; [apply increasing_snoc; [apply HR|auto]|]. split.
      + intros s. rewrite D, B, map_app. intros I. apply in_app_or in I. destruct I as [I|[<-|[]]]; [apply Y in I; lra|simpl; lra].
      + intros s I. apply in_app_or in I. destruct I as [I|[<-|[]]]; auto. }
  destruct X as (X1 & X2 & X3 & X5 & X6 & X7). rewrite X3 in Q.
  destruct (Z.ltb_spec (Z.of_nat (length (s_clones st1))) (Z.min (o_max_clones (s_opts st)) 5)) as [L|L].
  - apply ok_pair in Q. destruct Q as [<- <-]. left. split; [reflexivity|]. cbn [g_st g_fail]. split; [exact X2|]. split; [exact Fx|]. right. exact L.
  - destruct (Reqb_spec (s_time st1) t) as [_|N]; [|contradiction]. cbn [negb] in Q. right. exists st1.
    assert (Fo : frame_ok st1 d m).
    { constructor; auto; [rewrite X2; apply HR|rewrite X3; apply HR|].
      intros id c s I J. rewrite X2 in I. destruct (landmarks_fed E g m future HR Hmsg id c s I J) as [A B]. split; auto. intros K. apply X7 in K. destruct K; auto. }
    split; [split; [exact Fo|]; split; [exact X2|]; split; [exact X3|]; split; [rewrite X3; exact L|exact X7]|].
    destruct (frame_both E gx st1 d m i g' uses Hs Hsort Fo Q) as [A B]. split; [exact A|].
    unfold landmarks_after, given_up in *. rewrite Fx, Cx in B. exact B.
Qed.

Lemma message_frame g' uses : message E g m i = Ok (g', uses) -> outcome_of g' uses.
Proof.
  intros Q. unfold message in Q. cbv zeta in Q. fold d st t in Q.
  destruct (se_zupt (en_opt E) && (negb (se_once (en_opt E)) || negb (g_moved g)))%bool eqn:Z.
  - apply obind_ok in Q. destruct Q as ((((did & z') & d') & st') & Q1 & Q). destruct did.
    2: { eapply normal_frame; [| | |exact Q]; auto. }
    apply guard_ok in Q; [|discriminate]. destruct Q as [Tq Q]. apply ok_pair in Q. destruct Q as [<- <-]. left. split; [reflexivity|]. cbn [g_st g_fail g_did]. split; [|split; [reflexivity|]].
    + destruct (Reqb_spec (s_time st) t) as [T|T]; [injection Q1 as D _ _ <-; reflexivity|].
      apply obind_ok in Q1. destruct Q1 as ((((b & z1) & d1) & s1) & Q2 & Q1). injection Q1 as -> _ _ <-.
      destruct (zupt_keeps _ _ _ _ _ _ _ _ _ _ _ Q2) as (_ & A & B & C & D & F). auto.
    + left. apply andb_true_iff in Z. tauto.
  - eapply normal_frame; [| | |exact Q]; auto.
Qed.
End Step.

Lemma tracks_thm E g m l i g' uses : (forall id, en_single E id = false) -> sorts (en_sort E) -> ready E g (m :: l) -> msg_ok m ->
  message E g m i = Ok (g', uses) -> no_update E g g' uses \/
  exists st, at_update g m st /\ tracks_taken (en_isA E) (en_opt E) st (feed (g_db g) m) m (g_db g') uses.
Proof. intros A B C D Q. destruct (message_frame E g m l i A B C D g' uses Q) as [H|(st & H1 & H2 & _)]; [left; exact H|right; exists st; auto]. Qed.
Lemma landmarks_thm E g m l i g' uses : (forall id, en_single E id = false) -> sorts (en_sort E) -> ready E g (m :: l) -> msg_ok m ->
  message E g m i = Ok (g', uses) -> no_update E g g' uses \/
  exists st, at_update g m st /\ landmarks_after (en_isA E) (en_opt E) g st (feed (g_db g) m) m g' uses.
Proof. intros A B C D Q. destruct (message_frame E g m l i A B C D g' uses Q) as [H|(st & H1 & _ & H2)]; [left; exact H|right; exists st; auto]. Qed.

(** the failures of a landmark are not forgiven: a successful update leaves the count as it is *)
Lemma no_forgiveness E g m l i g' uses id : (forall id, en_single E id = false) -> sorts (en_sort E) -> ready E g (m :: l) -> msg_ok m ->
  message E g m i = Ok (g', uses) -> In id (landmarks (g_st g)) -> In id (landmarks (g_st g')) -> was_used uses id ->
  g_fail g' id = g_fail g id \/ (g_fail g' id = 0%nat /\ exists st, at_update g m st /\ given_up (en_isA E) g st (feed (g_db g) m) m id).
Proof.
  intros A B C D Q L L' U. destruct (landmarks_thm E g m l i g' uses A B C D Q) as [(-> & _)|(st & At & new & rej & F1 & F2 & F3 & F4 & F5 & F6)]; [destruct U as (f & [] & _)|].
  destruct (in_dec Nat.eq_dec id new) as [I|I].
  - right. split; [auto|]. exists st. split; auto. destruct (F2 id I) as (_ & N & _).
    assert (Ls : In id (landmarks st)) by (unfold landmarks; destruct At as (_ & -> & _); exact L).
    (* classical: the predicate is decidable *)
    destruct (Classical_Prop.classic (given_up (en_isA E) g st (feed (g_db g) m) m id)) as [G|G]; [exact G|]. exfalso. apply N. split; auto.
  - left. apply F6; auto. intros J. apply F3 in J. tauto.
Qed.

(** an image older than the state is only fed to the database *)
Lemma late_image E g m i : se_zupt (en_opt E) = false -> m_t m < s_time (g_st g) ->
  exists g', message E g m i = Ok (g', []) /\ g_st g' = g_st g /\ g_db g' = feed (g_db g) m /\ g_fail g' = g_fail g /\ g_cam g' = g_cam g.
Proof.
  intros Z T. unfold message. cbv zeta. rewrite Z. cbn [andb]. unfold feature_frame. cbn [g_st]. destruct (Rltb_spec (m_t m) (s_time (g_st g))); [|lra].
  eexists. split; [reflexivity|]. cbn. auto.
Qed.
