(** What is selected for an update. *)
From Coq Require Import Reals List Arith Lia Lra ZArith Bool Sorted Permutation.
From Verif Require Import RBool Outcome Lin GeoModel TypesModel StateModel StateOps2 ReachSpec StateFrame DbModel DbSpec DbProofs DbProofs2 DbThms
  SelUpd SelModel SelSpec SelDb SelState.
Import ListNotations.
Open Scope R_scope.

Lemma memn_in x l : memn x l = true <-> In x l.
Proof. unfold memn. rewrite existsb_exists. split; [intros (y & I & E); apply Nat.eqb_eq in E; subst; auto|intros I; exists x; rewrite Nat.eqb_refl; auto]. Qed.
Lemma memn_notin x l : memn x l = false <-> ~ In x l.
Proof. rewrite <- memn_in. destruct (memn x l); split; congruence. Qed.
Lemma nodup_map_filter' {A B} (g : A -> B) p l : NoDup (map g l) -> NoDup (map g (filter p l)).
Proof.
  induction l as [|a l IH]; cbn [map filter]; auto. intros N. inversion N; subst. destruct (p a); auto. cbn [map]. constructor; auto.
  intros I. apply H1. apply in_map_iff in I. destruct I as (b & E & I). apply filter_In in I. apply in_map_iff. exists b. tauto.
Qed.
Lemma nodup_app_parts {A} (l l' : list A) : NoDup (l ++ l') -> NoDup l /\ NoDup l' /\ forall x, In x l -> ~ In x l'.
Proof.
  induction l as [|a l IH]; cbn [app]; [intros N; split; [constructor|split; [auto|intros x []]]|]. intros N. inversion N; subst.
  destruct (IH H2) as (A1 & A2 & A3). split; [constructor; auto; intros I; apply H1; apply in_or_app; auto|]. split; auto.
  intros x [<-|I]; auto. intros J. apply H1. apply in_or_app. auto.
Qed.

Lemma NoDup_map_eq {A B} (g : A -> B) l x y : NoDup (map g l) -> In x l -> In y l -> g x = g y -> x = y.
Proof.
  induction l as [|a l IH]; cbn [map]; [intros _ []|]. intros N I J E. inversion N; subst. destruct I as [<-|I], J as [<-|J]; auto.
  - exfalso. apply H1. rewrite E. apply in_map. auto.
  - exfalso. apply H1. rewrite <- E. apply in_map. auto.
Qed.

Definition seen_in (d : db) (id : nat) (t : R) : Prop := exists c, in_db d (id, c, t).

Section Sel.
Variables (isA : nat -> bool) (o : sopts) (st : state) (d : db) (m : msg).
Hypothesis Od : db_ok d.
Hypothesis Td : ticking d.
Hypothesis Ht : s_time st = m_t m.
Hypothesis Nl : NoDup (map fst (s_slam st)).
Hypothesis Hm : (1 <= o_max_clones (s_opts st))%Z.
Hypothesis Hi : increasing (map fst (s_clones st)).
Hypothesis Hl : last_le st.
Hypothesis Hland : forall id c t, In id (map fst (s_slam st)) -> in_db d (id, c, t) -> t <= m_t m /\ (In t (map fst (s_clones st)) -> t = m_t m).

Lemma look_seen id f t : alook d id = Some f -> (seen f t <-> seen_in d id t).
Proof. intros E. unfold seen, seen_in, in_db, track. rewrite E. reflexivity. Qed.

Lemma full_marg t : window_full st = true -> margtimestep st = Some t -> t < m_t m.
Proof.
  unfold window_full. rewrite orb_true_iff, !Z.ltb_lt. intros W M. destruct (margtimestep_min _ _ M) as [_ Mi].
  destruct (s_clones st) as [|a [|b l]] eqn:C; cbn [length] in W; try lia. cbn [map] in Hi. apply increasing_cons in Hi. destruct Hi as [A _].
  specialize (A (fst b) (or_introl eq_refl)). specialize (Mi a (or_introl eq_refl)). specialize (Hl (fst b)). rewrite C in Hl. specialize (Hl (or_intror (or_introl eq_refl))). lra.
Qed.

(** features containing the time about to be marginalized *)
Lemma containing_spec p : NoDup (map f_id (containing_marg st (filter p d))) /\
  forall f, In f (containing_marg st (filter p d)) -> alook d (f_id f) = Some f /\ p (f_id f, f) = true /\ exists t, margtimestep st = Some t /\ seen_in d (f_id f) t.
Proof.
  unfold containing_marg. destruct (margtimestep st) as [t|]; [|split; [constructor|intros f []]].
  destruct (containing_thm (filter p d) t false true (filter_db_ok p d Od)) as (N & S & _). split; [exact N|]. intros f I. apply S in I.
  destruct I as ((id & E) & _ & X). rewrite alook_filter_nodup in E by apply Od. destruct (alook d id) as [g|] eqn:G; [|discriminate].
  destruct (p (id, g)) eqn:Pg; [|discriminate]. injection E as ->. destruct (db_ok_look _ _ _ Od G) as [F _]. rewrite F. split; auto. split; auto. exists t. split; auto.
  apply (look_seen id f); auto.
Qed.
Lemma marg_spec : NoDup (map f_id (sel_marg isA st d)) /\
  forall f, In f (sel_marg isA st d) -> alook d (f_id f) = Some f /\ isA (f_id f) = false /\ ~ In (f_id f) (map fst (s_slam st)).
Proof.
  unfold sel_marg, feats. destruct (window_full st) eqn:W; [|split; [constructor|intros f []]].
  destruct (containing_spec (fun e => negb (isA (fst e)))) as [N S]. split; [exact N|]. intros f I. destruct (S f I) as (A & B & t & C & c & D).
  split; auto. cbn [fst] in B. apply negb_true_iff in B. split; auto. intros L. destruct (Hland _ _ _ L D) as [_ H]. apply full_marg in C as T; auto.
  destruct (margtimestep_min _ _ C) as [X _]. specialize (H X). lra.
Qed.
Lemma tags_spec t : NoDup (map f_id (sel_tags isA o st d t)) /\
  forall f, In f (sel_tags isA o st d t) -> alook d (f_id f) = Some f /\ isA (f_id f) = true /\ ~ In (f_id f) (map fst (s_slam st)).
Proof.
  unfold sel_tags, arucos. destruct (window_full st) eqn:W; cbn [andb]; [|split; [constructor|intros f []]].
  destruct (delay_passed o t); [|split; [constructor|intros f []]].
  destruct (containing_spec (fun e => isA (fst e))) as [N S]. split; [exact N|]. intros f I. destruct (S f I) as (A & B & t' & C & c & D).
  split; auto. split; auto. intros L. destruct (Hland _ _ _ L D) as [_ H]. apply full_marg in C as T; auto.
  destruct (margtimestep_min _ _ C) as [X _]. specialize (H X). lra.
Qed.
Lemma ticking_chron d' : ticking d' -> db_chron d'.
Proof. intros T id f E c. specialize (T id c). unfold track in T. rewrite E in T. apply SSlt_le. exact T. Qed.
Lemma lost_spec cams : NoDup (map f_id (sel_lost isA st d cams)) /\
  forall f, In f (sel_lost isA st d cams) -> alook d (f_id f) = Some f /\ isA (f_id f) = false /\ forall t, seen_in d (f_id f) t -> t < m_t m.
Proof.
  unfold sel_lost. pose proof (filter_thin (fun e => negb (isA (fst e))) d Od) as Th. fold (feats isA d) in Th.
  destruct (not_newer_thm (feats isA d) (s_time st) false true (proj1 Th) (ticking_chron _ (thin_ticking _ _ Th Td))) as (N & S & _).
  split; [apply nodup_map_filter'; exact N|]. intros f I. apply filter_In in I. destruct I as [I _]. apply S in I. destruct I as ((id & E) & _ & X).
  rewrite alook_feats in E by apply Od. destruct (isA id) eqn:Ai; [discriminate|]. destruct (db_ok_look _ _ _ Od E) as [F _]. rewrite F. split; auto. split; auto.
  intros t Y. rewrite <- Ht. apply X. apply (look_seen id f); auto.
Qed.
Lemma landmark_tracks_eq : landmark_tracks isA st d = filter (fun id => match alook d id with Some _ => true | None => false end) (map fst (s_slam st)).
Proof.
  unfold landmark_tracks. clear Nl Hland. induction (s_slam st) as [|e l IH]; cbn [flat_map map filter]; auto. rewrite IH, alook_feats, alook_arucos by apply Od.
  destruct (isA (fst e)), (alook d (fst e)); reflexivity.
Qed.

Lemma select_shape : exists lost marg' keep promo, select isA o st d m =
    (map f_id lost ++ map f_id marg' ++ map f_id keep, map f_id (sel_tags isA o st d (m_t m)) ++ map f_id promo ++ landmark_tracks isA st d) /\
  NoDup (map f_id (lost ++ marg' ++ keep ++ promo)) /\
  (forall f, In f lost -> In f (sel_lost isA st d (m_cams m))) /\ (forall f, In f (marg' ++ keep ++ promo) -> In f (sel_marg isA st d)) /\
  exists n, (length promo <= promoted o st (m_t m) n)%nat /\ (promoted o st (m_t m) n <= n)%nat.
Proof.
  destruct marg_spec as [Nm _]. destruct (lost_spec (m_cams m)) as [Nlo _].
  exists (filter (fun f => negb (memn (f_id f) (map f_id (sel_marg isA st d)))) (sel_lost isA st d (m_cams m))), (filter (fun f => negb (reached_max st f)) (sel_marg isA st d)).
  set (mx := filter (reached_max st) (sel_marg isA st d)). set (k := promoted o st (m_t m) (length mx)).
  exists (firstn (length mx - k) mx), (skipn (length mx - k) mx). split; [reflexivity|]. split; [|split; [|split]].
  - rewrite firstn_skipn, !map_app. apply NoDup_app_intro.
    + apply nodup_map_filter'. exact Nlo.
    + apply NoDup_app_intro; [apply nodup_map_filter'; exact Nm|apply nodup_map_filter'; exact Nm|]. intros id I J.
      apply in_map_iff in I. destruct I as (f & <- & I). apply in_map_iff in J. destruct J as (g & E & J). apply filter_In in I, J.
      assert (f = g) by (eapply NoDup_map_eq; [exact Nm| | |]; intuition eauto). subst g. destruct I as [_ I], J as [_ J]. rewrite J in I. discriminate.
    + intros id I J. apply in_map_iff in I. destruct I as (f & <- & I). apply filter_In in I. destruct I as [_ I]. apply negb_true_iff, memn_notin in I. apply I.
      apply in_app_or in J. destruct J as [J|J]; apply in_map_iff in J; destruct J as (g & <- & J); apply filter_In in J; apply in_map; tauto.
  - intros f I. apply filter_In in I. tauto.
  - intros f I. rewrite firstn_skipn in I. apply in_app_or in I. destruct I as [I|I]; apply filter_In in I; tauto.
  - exists (length mx). split.
    + rewrite skipn_length. fold k. lia.
    + unfold promoted. destruct (_ && _)%bool; [|lia]. destruct (Z.ltb_spec (Z.of_nat (length mx)) (se_max_slam o + tag_count st - Z.of_nat (length (s_slam st)))); lia.
Qed.

Lemma select_spec cand slam : select isA o st d m = (cand, slam) ->
  NoDup cand /\ NoDup slam /\ (forall id, In id cand \/ In id slam -> exists f, alook d id = Some f /\ feat_ok f) /\
  (forall id f, In id (map fst (s_slam st)) -> alook d id = Some f -> In id slam) /\
  (forall id, In id cand -> In id slam -> forall c t, in_db d (id, c, t) -> ~ In t (map fst (s_clones st))).
Proof.
  intros E. destruct select_shape as (lost & marg' & keep & promo & E' & N & L & M & _). rewrite E in E'. injection E' as -> ->.
  destruct marg_spec as [_ Sm]. destruct (lost_spec (m_cams m)) as [_ Sl]. destruct (tags_spec (m_t m)) as [Nt St].
  rewrite !map_app in N.
  assert (M1 : forall id, In id (map f_id marg' ++ map f_id keep ++ map f_id promo) -> exists f, In f (sel_marg isA st d) /\ f_id f = id).
  { intros id I. rewrite <- !map_app in I. apply in_map_iff in I. destruct I as (f & <- & I). exists f. split; auto. }
  assert (L1 : forall id, In id (map f_id lost) -> exists f, In f (sel_lost isA st d (m_cams m)) /\ f_id f = id).
  { intros id I. apply in_map_iff in I. destruct I as (f & <- & I). exists f. split; auto. }
  destruct (nodup_app_parts _ _ N) as (N1 & N2 & N3). destruct (nodup_app_parts _ _ N2) as (N4 & N5 & N6). destruct (nodup_app_parts _ _ N5) as (N7 & N8 & N9).
  assert (NL : NoDup (landmark_tracks isA st d)) by (rewrite landmark_tracks_eq; apply NoDup_filter; auto).
  assert (InL : forall id, In id (landmark_tracks isA st d) -> In id (map fst (s_slam st)) /\ exists f, alook d id = Some f).
  { intros id I. rewrite landmark_tracks_eq in I. apply filter_In in I. destruct I as [I J]. split; auto. destruct (alook d id); [eauto|discriminate]. }
  split; [|split; [|split; [|split]]].
  - apply NoDup_app_intro; auto.
    + apply NoDup_app_intro; auto. intros x I J. eapply N6; eauto. apply in_or_app. auto.
    + intros x I J. eapply N3; eauto. apply in_app_or in J. destruct J; apply in_or_app; auto. right. apply in_or_app. auto.
  - apply NoDup_app_intro; auto.
    + apply NoDup_app_intro; auto. intros x I J. destruct (M1 x) as (f & F & <-); [apply in_or_app; right; apply in_or_app; auto|]. apply InL in J. apply Sm in F. tauto.
    + intros x I J. apply in_map_iff in I. destruct I as (f & <- & I). apply St in I. destruct I as (_ & IA & IL). apply in_app_or in J. destruct J as [J|J].
      * destruct (M1 (f_id f)) as (g & G & Eg); [apply in_or_app; right; apply in_or_app; auto|]. apply Sm in G. rewrite Eg in G. destruct G as (_ & G & _). congruence.
      * apply InL in J. tauto.
  - assert (X : forall id f, alook d id = Some f -> exists f, alook d id = Some f /\ feat_ok f) by (intros id f F; exists f; split; [auto|apply (db_ok_look _ _ _ Od F)]).
    intros id [I|I]; apply in_app_or in I; destruct I as [I|I].
    + apply L1 in I. destruct I as (f & I & <-). apply Sl in I. eapply X. apply I.
    + destruct (M1 id) as (f & F & <-); [apply in_app_or in I; destruct I; apply in_or_app; auto; right; apply in_or_app; auto|]. apply Sm in F. eapply X. apply F.
    + apply in_map_iff in I. destruct I as (f & <- & I). apply St in I. eapply X. apply I.
    + apply in_app_or in I. destruct I as [I|I].
      * destruct (M1 id) as (f & F & <-); [apply in_or_app; right; apply in_or_app; auto|]. apply Sm in F. eapply X. apply F.
      * apply InL in I. destruct I as (_ & f & F). eapply X. exact F.
  - intros id f I F. apply in_or_app. right. apply in_or_app. right. rewrite landmark_tracks_eq. apply filter_In. rewrite F. auto.
  - intros id I J c t D T. apply in_app_or in I. destruct I as [I|I].
    + destruct (L1 _ I) as (f & F & Ef). apply Sl in F. rewrite Ef in F. destruct F as (_ & FA & F). assert (t < m_t m) by (apply F; exists c; auto).
      apply in_app_or in J. destruct J as [J|J].
      * apply in_map_iff in J. destruct J as (g & <- & J). apply St in J. destruct J as (_ & J & _). congruence.
      * apply in_app_or in J. destruct J as [J|J].
        -- eapply N3; [exact I|]. apply in_or_app. right. apply in_or_app. auto.
        -- apply InL in J. destruct (Hland id c t) as [_ H']; [tauto|auto|]. specialize (H' T). lra.
    + assert (I' : In id (map f_id marg' ++ map f_id keep ++ map f_id promo)) by (apply in_app_or in I; destruct I; apply in_or_app; auto; right; apply in_or_app; auto).
      destruct (M1 _ I') as (f & F & Ef). apply Sm in F. rewrite Ef in F. destruct F as (_ & FA & FL).
      apply in_app_or in J. destruct J as [J|J].
      * apply in_map_iff in J. destruct J as (g & <- & J). apply St in J. destruct J as (_ & J & _). congruence.
      * apply in_app_or in J. destruct J as [J|J]; [|apply InL in J; tauto].
        apply in_app_or in I. destruct I as [I|I]; [eapply N6; [exact I|]; apply in_or_app; auto|eapply N9; eauto].
Qed.
End Sel.

Lemma truncate_spec sort o d l l' : sorts sort -> truncate sort o d l = Ok l' -> NoDup l -> NoDup l' /\ incl l' l.
Proof.
  intros S E N. destruct (S (track_len d) l) as [P _]. unfold truncate in E. cbv zeta in E.
  assert (N' : NoDup (sort (track_len d) l)) by (eapply Permutation_NoDup; eauto).
  assert (I' : incl (sort (track_len d) l) l) by (intros x I; eapply Permutation_in; [apply Permutation_sym; exact P|auto]).
  destruct (_ <? _)%Z.
  - apply guard_ok in E; [|discriminate]. destruct E as [_ E]. injection E as <-. set (k := (_ - _)%nat). rewrite <- (firstn_skipn k) in N'.
    apply nodup_app_parts in N'. split; [tauto|]. intros x I. apply I'. rewrite <- (firstn_skipn k). apply in_or_app. auto.
  - injection E as <-. auto.
Qed.
