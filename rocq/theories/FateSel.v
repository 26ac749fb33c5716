(** Exactly which tracks are selected. *)
From Coq Require Import Reals List Arith Lia Lra ZArith Bool Sorted Permutation.
From Verif Require Import RBool Outcome Lin GeoModel TypesModel StateModel StateOps2 ReachSpec StateFrame DbModel DbSpec DbProofs DbProofs2 DbThms
  SelUpd SelModel SelSpec SelDb SelState SelSelect SelThms SelRun FateSpec.
Import ListNotations.
Open Scope R_scope.

Lemma window_full_iff st : window_full st = true <-> full st.
Proof. unfold window_full, full. rewrite orb_true_iff, !Z.ltb_lt. lia. Qed.
Lemma marg_oldest st t : margtimestep st = Some t -> oldest st t.
Proof. intros E. destruct (margtimestep_min _ _ E) as [A B]. split; auto. intros t' I. apply in_map_iff in I. destruct I as (e & <- & I). auto. Qed.
Lemma oldest_unique st t t' : oldest st t -> oldest st t' -> t = t'.
Proof. intros [A B] [C D]. specialize (B _ C). specialize (D _ A). lra. Qed.
Lemma oldest_marg st t : oldest st t -> margtimestep st = Some t.
Proof.
  intros O. destruct (margtimestep st) as [u|] eqn:E; [f_equal; eapply oldest_unique; [apply marg_oldest; eauto|auto]|].
  apply margtimestep_none in E. destruct O as [I _]. rewrite E in I. destruct I.
Qed.

Section Sel.
Variables (isA : nat -> bool) (o : sopts) (st : state) (d : db) (m : msg).
Hypothesis F : frame_ok st d m.
Let Od := fo_db _ _ _ F. Let Td := fo_tick _ _ _ F. Let Ht := fo_time _ _ _ F. 

Lemma containing_iff p id : In id (map f_id (containing_marg st (filter p d))) <->
  exists f t, alook d id = Some f /\ p (id, f) = true /\ f_del f = false /\ oldest st t /\ seen_at d id t.
Proof.
  unfold containing_marg. split.
  - intros I. apply in_map_iff in I. destruct I as (f & <- & I). destruct (margtimestep st) as [t|] eqn:M; [|destruct I].
    destruct (containing_thm (filter p d) t false true (filter_db_ok p d Od)) as (N & S & _). apply S in I.
    destruct I as ((id & E) & D & X). rewrite alook_filter_nodup in E by apply Od. destruct (alook d id) as [g|] eqn:G; [|discriminate].
    destruct (p (id, g)) eqn:Pg; [|discriminate]. injection E as ->. destruct (db_ok_look _ _ _ Od G) as [Fi _]. rewrite Fi. exists f, t.
    split; auto. split; auto. split; auto. split; [apply marg_oldest; auto|]. apply (look_seen _ id f); auto.
  - intros (f & t & E & P & D & O & S). rewrite (oldest_marg _ _ O). destruct (containing_thm (filter p d) t false true (filter_db_ok p d Od)) as (N & X & _).
    destruct (db_ok_look _ _ _ Od E) as [Fi _]. apply in_map_iff. exists f. split; auto. apply X. split; [|split; auto; apply (look_seen d id f); auto].
    exists id. rewrite alook_filter_nodup by apply Od. rewrite E, P. reflexivity.
Qed.
Lemma marg_iff id : In id (map f_id (sel_marg isA st d)) <-> isA id = false /\ unused d id /\ leaving st d id.
Proof.
  unfold sel_marg, feats, leaving. rewrite <- window_full_iff. destruct (window_full st); [|split; [intros []|intros (_ & _ & C & _); discriminate]].
  rewrite containing_iff. unfold unused. cbn [fst]. split.
  - intros (f & t & A & B & C & D & G). apply negb_true_iff in B. split; auto. split; [eauto|]. split; eauto.
  - intros (A & (f & B & C) & _ & t & D & G). exists f, t. rewrite A. auto.
Qed.
Lemma tags_iff id : In id (map f_id (sel_tags isA o st d (m_t m))) <-> tag_taken isA o st d m id.
Proof.
  unfold sel_tags, arucos, tag_taken, leaving. rewrite <- window_full_iff. unfold delay_passed.
  destruct (window_full st); cbn [andb]; [|split; [intros []|intros (_ & _ & (C & _) & _); discriminate]].
  destruct (Rleb_spec (se_delay o) (m_t m - se_start o)) as [L|L]; [|split; [intros []|intros (_ & _ & _ & C); lra]].
  rewrite containing_iff. unfold unused. cbn [fst]. split.
  - intros (f & t & A & B & C & D & G). split; auto. split; [eauto|]. split; eauto.
  - intros (A & (f & B & C) & (_ & t & D & G) & _). exists f, t. auto.
Qed.
Lemma lost_iff id : In id (map f_id (sel_lost isA st d (m_cams m))) <-> isA id = false /\ unused d id /\ ended d m id.
Proof.
  unfold sel_lost, ended, unused. pose proof (filter_thin (fun e => negb (isA (fst e))) d Od) as Th. fold (feats isA d) in Th.
  destruct (not_newer_thm (feats isA d) (s_time st) false true (proj1 Th) (ticking_chron _ (thin_ticking _ _ Th Td))) as (N & S & _).
  split.
  - intros I. apply in_map_iff in I. destruct I as (f & <- & I). apply filter_In in I. destruct I as [I C]. apply S in I. destruct I as ((id & E) & D & X).
    rewrite alook_feats in E by apply Od. destruct (isA id) eqn:Ai; [discriminate|]. destruct (db_ok_look _ _ _ Od E) as [Fi _]. rewrite Fi. split; auto. split; [eauto|]. split.
    + intros t Y. rewrite <- Ht. apply X. apply (look_seen d id f); auto.
    + apply existsb_exists in C. destruct C as (c & C1 & C2). apply memn_in in C2. eauto.
  - intros (Ai & (f & E & D) & X & g & c & E' & C1 & C2). assert (g = f) by congruence. subst g. destruct (db_ok_look _ _ _ Od E) as [Fi _].
    apply in_map_iff. exists f. split; auto. apply filter_In. split.
    + apply S. split; [exists id; rewrite alook_feats, Ai by apply Od; auto|]. split; auto. intros t Y. rewrite Ht. apply X. apply (look_seen d id f); auto.
    + apply existsb_exists. exists c. split; auto. apply memn_in. auto.
Qed.
Lemma reached_iff f : alook d (f_id f) = Some f -> (reached_max st f = true <-> long st d (f_id f)).
Proof.
  intros E. unfold reached_max, long. rewrite existsb_exists. split.
  - intros ((c & l) & I & L). apply Z.ltb_lt in L. exists f, c, l. auto.
  - intros (g & c & l & E' & I & L). assert (g = f) by congruence. subst g. exists (c, l). split; auto. apply Z.ltb_lt. auto.
Qed.

Lemma promoted_room k n : room o st (m_t m) k -> Z.of_nat (promoted o st (m_t m) n) = Z.min (Z.of_nat n) k.
Proof.
  intros [R1 R2]. pose proof (tag_plain st) as T. unfold promoted, delay_passed.
  destruct (Rleb_spec (se_delay o) (m_t m - se_start o)) as [L|L]; [rewrite (R1 L)|rewrite (R2 L); rewrite andb_false_r; cbn [andb]; lia].
  destruct (Z.ltb_spec 0 (se_max_slam o)); cbn [andb]; [|lia].
  destruct (Z.ltb_spec (Z.of_nat (length (s_slam st))) (se_max_slam o + tag_count st)); [|lia].
  destruct (Z.ltb_spec (Z.of_nat n) (se_max_slam o + tag_count st - Z.of_nat (length (s_slam st)))); lia.
Qed.

Lemma select_exact cand slam : select isA o st d m = (cand, slam) -> exists promo,
  NoDup (cand ++ promo) /\ (forall id, In id (cand ++ promo) <-> eligible isA st d m id) /\
  (forall id, In id promo -> leaving st d id /\ long st d id) /\
  (forall k, room o st (m_t m) k -> (Z.of_nat (length promo) <= k)%Z /\
     ((Z.of_nat (length promo) < k)%Z -> forall id, isA id = false -> unused d id -> leaving st d id -> long st d id -> In id promo)) /\
  (forall id, In id slam <-> tag_taken isA o st d m id \/ In id promo \/ (In id (map fst (s_slam st)) /\ exists f, alook d id = Some f)).
Proof.
  intros E. unfold select in E. cbv zeta in E.
  set (marg := sel_marg isA st d) in *. set (mx := filter (reached_max st) marg) in *. set (k := promoted o st (m_t m) (length mx)) in *.
  assert (E1 := f_equal fst E). assert (E2 := f_equal snd E). cbn [fst snd] in E1, E2. clear E. subst cand slam.
  exists (map f_id (skipn (length mx - k) mx)).
  destruct (marg_spec isA st d m Od Ht (fo_max _ _ _ F) (fo_inc _ _ _ F) (fo_last _ _ _ F) (fo_land _ _ _ F)) as [Nm Sm]. fold marg in Nm, Sm.
  destruct (lost_spec isA st d m Od Td Ht (m_cams m)) as [Nlo _].
  assert (Hx : forall f, In f marg -> reached_max st f = true \/ reached_max st f = false) by (intros f _; destruct (reached_max st f); auto).
  rewrite <- !app_assoc, <- (map_app f_id (firstn _ mx)), firstn_skipn.
  assert (Spl : forall id, In id (map f_id (filter (fun f => negb (reached_max st f)) marg) ++ map f_id mx) <-> In id (map f_id marg)).
  { intros id. rewrite in_app_iff, !in_map_iff. unfold mx. split.
    - intros [(f & A & B)|(f & A & B)]; apply filter_In in B; exists f; tauto.
    - intros (f & A & B). destruct (reached_max st f) eqn:R; [right|left]; exists f; rewrite filter_In, R; auto. }
  assert (Lng : forall f, In f marg -> (reached_max st f = true <-> long st d (f_id f))) by (intros f I; apply reached_iff; apply Sm; auto).
  split; [|split; [|split; [|split]]].
  - apply NoDup_app_intro; [apply nodup_map_filter'; exact Nlo| |].
    + apply NoDup_app_intro; [apply nodup_map_filter'; exact Nm|apply nodup_map_filter'; exact Nm|]. intros id I J.
      apply in_map_iff in I. destruct I as (f & <- & I). apply in_map_iff in J. destruct J as (g & E & J). unfold mx in J. apply filter_In in I, J.
      assert (f = g) by (eapply NoDup_map_eq; [exact Nm| | |]; intuition eauto). subst g. destruct I as [_ I], J as [_ J]. rewrite J in I. discriminate.
    + intros id I J. apply Spl in J. apply in_map_iff in I. destruct I as (f & <- & I). apply filter_In in I. destruct I as [_ I]. apply negb_true_iff, memn_notin in I. contradiction.
  - intros id. rewrite in_app_iff, Spl. unfold marg at 1. unfold eligible. split.
    + intros [I|I]; [|apply marg_iff in I; tauto]. apply in_map_iff in I. destruct I as (f & <- & I). apply filter_In in I. destruct I as [I _].
      apply (in_map f_id) in I. apply lost_iff in I. tauto.
    + intros (A & B & C). destruct (in_dec Nat.eq_dec id (map f_id marg)) as [I|I]; [right; exact I|left].
      assert (Hl : In id (map f_id (sel_lost isA st d (m_cams m)))).
      { apply lost_iff. split; [exact A|]. split; [exact B|]. destruct C as [C|C]; [|exact C]. exfalso. apply I. apply marg_iff. auto. }
      apply in_map_iff in Hl. destruct Hl as (f & <- & Hl). apply in_map. apply filter_In. split; auto. apply negb_true_iff, memn_notin. exact I.
  - intros id I. apply in_map_iff in I. destruct I as (f & <- & I). assert (J : In f mx) by (rewrite <- (firstn_skipn (length mx - k) mx); apply in_or_app; auto).
    apply filter_In in J. destruct J as [J R]. split; [|apply Lng; auto]. apply (in_map f_id) in J. apply marg_iff in J. tauto.
  - intros K R. pose proof (promoted_room K (length mx) R) as P. fold k in P. rewrite map_length, skipn_length.
    assert (0 <= K)%Z by (destruct R as [R1 R2]; destruct (Rle_lt_dec (se_delay o) (m_t m - se_start o)) as [L|L]; [rewrite (R1 L)|rewrite (R2 L)]; lia).
    split; [lia|]. intros Lt id A B C D. assert (k = length mx) by lia. replace (length mx - k)%nat with 0%nat by lia. cbn [skipn].
    assert (I : In id (map f_id marg)) by (apply marg_iff; auto). apply in_map_iff in I. destruct I as (f & <- & I). apply in_map. apply filter_In. split; auto. apply Lng; auto.
  - intros id. rewrite !in_app_iff, tags_iff, (landmark_tracks_eq _ _ _ Od), filter_In.
    assert (X : match alook d id with Some _ => true | None => false end = true <-> exists f, alook d id = Some f).
    { destruct (alook d id); split; try (intros (? & ?)); try discriminate; eauto. }
    rewrite X. tauto.
Qed.
End Sel.

Lemma SS_app_le {A} (R : A -> A -> Prop) l l' : StronglySorted R (l ++ l') -> forall x y, In x l -> In y l' -> R x y.
Proof.
  induction l as [|a l IH]; cbn [app]; [intros _ x y []|]. intros S. inversion S as [|? ? S' Fa]; subst. intros x y [<-|I] J; [|eapply IH; eauto].
  rewrite Forall_forall in Fa. apply Fa. apply in_or_app. auto.
Qed.
Lemma track_len_eq d id : track_len d id = meas_count d id.
Proof.
  unfold track_len, meas_count, count_meas, meas_of. destruct (alook d id) as [f|]; [|reflexivity].
  assert (G : forall (l : list (nat * list R)) n, fold_left (fun a p => (a + length (snd p))%nat) l n = (n + length (flat_map (fun p => map (fun t => (f_id f, fst p, t)) (snd p)) l))%nat).
  { induction l as [|p l IH]; intros n; cbn [fold_left flat_map]; [cbn; lia|]. rewrite IH, app_length, map_length. lia. }
  exact (G (f_ts f) 0%nat).
Qed.

Lemma truncate_exact sort o d l l' : sorts sort -> truncate sort o d l = Ok l' -> NoDup l -> exists cut,
  NoDup (l' ++ cut) /\ (forall id, In id (l' ++ cut) <-> In id l) /\ (Z.of_nat (length l') <= se_max_msckf o)%Z /\
  (cut <> [] -> Z.of_nat (length l') = se_max_msckf o) /\ forall a b, In a l' -> In b cut -> (meas_count d b <= meas_count d a)%nat.
Proof.
  intros S E N. destruct (S (track_len d) l) as [P Q]. unfold truncate in E. cbv zeta in E. set (s := sort (track_len d) l) in *. clearbody s.
  assert (N' : NoDup s) by (eapply Permutation_NoDup; eauto).
  assert (I' : forall x, In x s <-> In x l) by (intros x; split; intros I; [eapply Permutation_in; [apply Permutation_sym; exact P|auto]|eapply Permutation_in; eauto]).
  destruct (Z.ltb_spec (se_max_msckf o) (Z.of_nat (length s))) as [Lt|Ge].
  - apply guard_ok in E; [|discriminate]. destruct E as [Z0 E]. apply Z.leb_le in Z0. apply ok_one in E. subst l'. set (k := (length s - Z.to_nat (se_max_msckf o))%nat).
    exists (firstn k s). rewrite <- (firstn_skipn k s) in N', Q, I'. split; [eapply Permutation_NoDup; [apply Permutation_app_comm|exact N']|].
    split; [intros id; rewrite <- I'; rewrite !in_app_iff; tauto|]. rewrite skipn_length. split; [lia|]. split; [intros _; lia|].
    intros a b Ia Ib. rewrite <- !track_len_eq. eapply (SS_app_le _ _ _ Q); eauto.
  - apply ok_one in E. subst l'. exists []. rewrite app_nil_r. split; auto. split; [intros id; rewrite <- I'; tauto|]. split; [lia|]. split; [congruence|]. intros a b _ [].
Qed.
