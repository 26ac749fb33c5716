(** Databases along a frame: feeding, thinning, and the features the updates consumed. *)
From Coq Require Import Reals List Arith Lia Lra ZArith Bool Sorted.
From Verif Require Import RBool Outcome Lin GeoModel TypesModel StateModel ReachSpec StateFrame DbModel DbSpec DbProofs DbProofs2 DbThms
  UpdModel UpdProofs2 UpdProofs3 SelUpd SelModel SelSpec.
Import ListNotations.
Open Scope R_scope.

Lemma SSlt_le l : StronglySorted Rlt l -> StronglySorted Rle l.
Proof. induction 1; constructor; auto. eapply Forall_impl; [|eassumption]. simpl. intros. lra. Qed.
Lemma SSlt_nodup l : StronglySorted Rlt l -> NoDup l.
Proof. induction 1 as [|a l H IH F]; constructor; auto. intros I. rewrite Forall_forall in F. specialize (F a I). lra. Qed.
Lemma SSlt_filter {A} (g : A -> R) (p : A -> bool) l : StronglySorted Rlt (map g l) -> StronglySorted Rlt (map g (filter p l)).
Proof.
  induction l as [|o l IH]; cbn [filter map]; auto. intros H. inversion H; subst. destruct (p o); cbn [map]; auto. constructor; auto.
  rewrite Forall_forall in *. intros x I. apply in_map_iff in I. destruct I as (y & <- & I). apply filter_In in I. apply H3. apply in_map. tauto.
Qed.
Lemma SSlt_snoc l t : StronglySorted Rlt l -> (forall x, In x l -> x < t) -> StronglySorted Rlt (l ++ [t]).
Proof.
  induction 1 as [|a l H IH F]; intros L; simpl; [repeat constructor|]. constructor; [apply IH; intros; apply L; simpl; auto|].
  rewrite Forall_forall in *. intros x I. apply in_app_or in I. destruct I as [I|[<-|[]]]; auto. apply L; simpl; auto.
Qed.

(** ** measurements of a track *)
Lemma meas_of_in f : feat_ok f -> forall id c t, In (id, c, t) (meas_of f) <-> id = f_id f /\ In t (map otime (ftrack f c)).
Proof.
  intros [ND P] id c t. rewrite (ftrack_times _ _ P). unfold meas_of. rewrite in_flat_map. split.
  - intros ((c' & l) & I & J). apply in_map_iff in J. destruct J as (t' & E & J). injection E as <- <- <-. split; auto.
    unfold aget. cbn [fst snd] in *. apply alook_in in I; auto. rewrite I. auto.
  - intros [-> I]. unfold aget in I. destruct (alook (f_ts f) c) as [l|] eqn:E; [|destruct I]. exists (c, l). split; [apply alook_some_key; auto|].
    apply in_map_iff. exists t. auto.
Qed.
Lemma meas_of_nodup f : feat_ok f -> (forall c, NoDup (map otime (ftrack f c))) -> NoDup (meas_of f).
Proof.
  intros [ND P] H. assert (H' : forall c l, In (c, l) (f_ts f) -> NoDup l).
  { intros c l I. specialize (H c). rewrite (ftrack_times _ _ P) in H. unfold aget in H. apply alook_in in I; auto. rewrite I in H. auto. }
  unfold meas_of. clear P H. induction (f_ts f) as [|[c l] m IH]; [constructor|]. cbn [flat_map]. cbn [map fst] in ND. inversion ND; subst.
  apply NoDup_app_intro.
  - apply FinFun.Injective_map_NoDup; [intros x y E; injection E; auto|]. eapply H'. left. reflexivity.
  - apply IH; auto. intros c' l' I. eapply H'. right. eauto.
  - intros x I J. cbn [fst snd] in I. apply in_map_iff in I. destruct I as (t & <- & I). apply in_flat_map in J. destruct J as ((c' & l') & J & K).
    apply in_map_iff in K. destruct K as (t' & E & K). cbn in E. injection E as E _. subst c'. apply H1. apply in_map_iff. exists (c, l'). auto.
Qed.
Lemma meas_of_sm f g : same_meas f g -> meas_of f = meas_of g.
Proof. intros (A & _ & _ & B). unfold meas_of. rewrite A, B. reflexivity. Qed.
Lemma ftrack_sm f g c : same_meas f g -> ftrack f c = ftrack g c.
Proof. intros (_ & A & B & C). unfold ftrack. rewrite A, B, C. reflexivity. Qed.
Lemma feat_ok_sm f g : same_meas f g -> feat_ok g -> feat_ok f.
Proof. intros (_ & A & B & C). unfold feat_ok, parallel. rewrite A, B, C. auto. Qed.

(** ** thinning *)
Definition thin (d d' : db) : Prop := db_ok d' /\ forall id c, exists p : DbSpec.obs -> bool, track d' id c = filter p (track d id c).
Lemma thin_ticking d d' : thin d d' -> ticking d -> ticking d'.
Proof. intros [_ T] H id c. destruct (T id c) as (p & ->). apply SSlt_filter. apply H. Qed.
Lemma thin_in d d' x : thin d d' -> in_db d' x -> in_db d x.
Proof. destruct x as [[id c] t]. intros [_ T] (o & I & E). destruct (T id c) as (p & E'). rewrite E' in I. apply filter_In in I. exists o. tauto. Qed.
Lemma filter_filter {A} (p q : A -> bool) l : filter p (filter q l) = filter (fun x => (q x && p x)%bool) l.
Proof. induction l as [|a l IH]; simpl; auto. destruct (q a); simpl; rewrite IH; reflexivity. Qed.
Lemma filter_all {A} (l : list A) : filter (fun _ => true) l = l.
Proof. induction l; simpl; congruence. Qed.
Lemma filter_none {A} (l : list A) : filter (fun _ => false) l = [].
Proof. induction l; simpl; auto. Qed.
Lemma thin_trans a b c : thin a b -> thin b c -> thin a c.
Proof.
  intros [_ T] [O T']. split; auto. intros id k. destruct (T id k) as (p & E). destruct (T' id k) as (q & E'). rewrite E', E, filter_filter. eauto.
Qed.
Lemma thin_refl d : db_ok d -> thin d d.
Proof. intros O. split; auto. intros id c. exists (fun _ => true). rewrite filter_all. reflexivity. Qed.
Lemma thin_look d d' : db_ok d' -> (forall id f', alook d' id = Some f' -> exists f, alook d id = Some f /\ forall c, exists p : DbSpec.obs -> bool, ftrack f' c = filter p (ftrack f c)) -> thin d d'.
Proof.
  intros O H. split; auto. intros id c. unfold track. destruct (alook d' id) as [f'|] eqn:E.
  - destruct (H _ _ E) as (f & -> & X). destruct (X c) as (p & ->). eauto.
  - exists (fun _ => false). rewrite filter_none. reflexivity.
Qed.
Lemma keys_db_ok d d' : db_ok d -> map fst d' = map fst d -> (forall id f', alook d' id = Some f' -> f_id f' = id /\ feat_ok f') -> db_ok d'.
Proof. intros [N _] M H. split; [rewrite M; auto|]. intros id f I. apply H. apply alook_in; auto. rewrite M. auto. Qed.

Lemma filter_thin p d : db_ok d -> thin d (filter p d).
Proof.
  intros O. apply thin_look; [apply filter_db_ok; auto|]. intros id f'. rewrite (alook_filter_nodup p d id) by apply O. intros E.
  destruct (alook d id) as [f|]; [|discriminate]. exists f. split; auto. intros c. exists (fun _ => true). rewrite filter_all.
  destruct (p (id, f)); [injection E as <-; reflexivity|discriminate].
Qed.
Lemma cleaned_thin keep d d' : db_ok d' -> cleaned keep d d' -> thin d d'.
Proof.
  intros O H. apply thin_look; auto. intros id f' E. specialize (H id). destruct (alook d id) as [f|]; [|congruence]. destruct H as [H _].
  destruct (H _ E) as (_ & s & _ & T). exists f. split; auto. intros c. exists s. apply T.
Qed.
Lemma clean_old_track times f f1 : feat_ok f -> clean_old_measurements times f = Ok f1 ->
  feat_ok f1 /\ f_id f1 = f_id f /\ forall c, ftrack f1 c = filter (fun o => tfind times (otime o)) (ftrack f c).
Proof.
  intros O E. destruct (clean_old_ok times f O) as (f' & E' & [L _] & (S1 & _) & T). rewrite E in E'. injection E' as <-. auto.
Qed.
Lemma consumed_thin n times ids d used d' : db_ok d -> consumed n times ids d used d' -> thin d d'.
Proof.
  intros O (_ & _ & M & U & P).
  assert (L : forall id f', alook d' id = Some f' -> exists f, alook d id = Some f /\ f_id f' = id /\ feat_ok f' /\ forall c, exists p : DbSpec.obs -> bool, ftrack f' c = filter p (ftrack f c)).
  { intros id f' E. destruct (in_dec Nat.eq_dec id ids) as [I|I].
    - destruct (P id I) as (f & f1 & f'' & A & B & C & _ & S & _). assert (f'' = f') by congruence. subst f''. exists f. split; auto.
      destruct (db_ok_look _ _ _ O A) as [A1 A2]. destruct (clean_old_track _ _ _ A2 B) as (B1 & B2 & B3).
      split; [destruct S as (S & _); congruence|]. split; [eapply feat_ok_sm; eauto|]. intros c. rewrite (ftrack_sm _ _ c S), B3. eauto.
    - rewrite U in E by auto. exists f'. split; auto. destruct (db_ok_look _ _ _ O E). split; auto. split; auto. intros c. exists (fun _ => true). rewrite filter_all. reflexivity. }
  apply thin_look.
  - apply (keys_db_ok d); auto. intros id f' E. destruct (L _ _ E) as (f & _ & A & B & _). auto.
  - intros id f' E. destruct (L _ _ E) as (f & A & _ & _ & B). eauto.
Qed.
Lemma mark_thin l d d' : db_ok d -> ofold mark l d = Ok d' -> thin d d' /\ map fst d' = map fst d /\
  forall id, (forall f, alook d id = Some f -> f_del f = true -> exists f', alook d' id = Some f' /\ f_del f' = true) /\ (alook d id = None -> alook d' id = None).
Proof.
  revert d. induction l as [|k l IH]; intros d O E; cbn [ofold] in E.
  - injection E as <-. split; [apply thin_refl; auto|]. split; auto. intros id. split; eauto.
  - apply obind_ok in E. destruct E as (d1 & E1 & E). unfold mark in E1. destruct (alook d k) as [f|] eqn:Ek; [|discriminate]. injection E1 as <-.
    destruct (db_ok_look _ _ _ O Ek) as [F1 F2].
    assert (O1 : db_ok (aset d k (set_del f true))) by (apply aset_db_ok; auto).
    destruct (IH _ O1 E) as (T & M & X). split; [|split; [rewrite M; apply aset_keys_same; eauto|]].
    + eapply thin_trans; [|exact T]. apply thin_look; auto. intros id f' L. rewrite alook_aset in L. destruct (Nat.eqb_spec id k) as [->|_].
      * injection L as <-. exists f. split; auto. intros c. exists (fun _ => true). rewrite filter_all. reflexivity.
      * exists f'. split; auto. intros c. exists (fun _ => true). rewrite filter_all. reflexivity.
    + intros id. destruct (X id) as [X1 X2]. split.
      * intros g Eg D. destruct (Nat.eqb_spec id k) as [->|Ne].
        -- apply (X1 (set_del f true)); auto. rewrite alook_aset, Nat.eqb_refl. reflexivity.
        -- apply (X1 g); auto. rewrite alook_aset. destruct (Nat.eqb_spec id k); [contradiction|auto].
      * intros N. apply X2. rewrite alook_aset. destruct (Nat.eqb_spec id k); [congruence|auto].
Qed.

(** ** feeding *)
Lemma in_db_update d id t cam u n x : db_ok d -> (in_db (update_feature d id t cam u n) x <-> in_db d x \/ x = (id, cam, t)).
Proof.
  intros O. destruct (update_feature_spec d id t cam u n O) as (_ & A & B & C & _ & _). destruct x as [[i c] s]. cbn [in_db].
  destruct (Nat.eq_dec i id) as [->|Ni].
  - destruct (Nat.eq_dec c cam) as [->|Nc].
    + rewrite A. split.
      * intros (o & I & <-). apply in_app_or in I. destruct I as [I|[<-|[]]]; [left; eauto|right; reflexivity].
      * intros [(o & I & <-)|E]; [exists o; split; auto; apply in_or_app; auto|]. injection E as ->. exists (t, u, n). split; auto. apply in_or_app. simpl; auto.
    + rewrite (B c Nc). split; [auto|]. intros [?|E]; auto. injection E; intros; congruence.
  - unfold track. rewrite (C i Ni). split; [auto|]. intros [?|E]; auto. injection E; intros; congruence.
Qed.
Lemma ticking_update d id t cam u n : db_ok d -> ticking d -> (forall s, in_db d (id, cam, s) -> s < t) -> ticking (update_feature d id t cam u n).
Proof.
  intros O H L i c. destruct (update_feature_spec d id t cam u n O) as (_ & A & B & C & _ & _).
  destruct (Nat.eq_dec i id) as [->|Ni]; [|unfold track; rewrite (C i Ni); apply H].
  destruct (Nat.eq_dec c cam) as [->|Nc]; [|rewrite (B c Nc); apply H].
  rewrite A, map_app. apply SSlt_snoc; [apply H|]. intros x I. apply in_map_iff in I. destruct I as (o & <- & I). apply L. exists o. auto.
Qed.
Lemma feed_spec m d : db_ok d -> ticking d -> msg_ok m -> (forall id c t, in_db d (id, c, t) -> In c (m_cams m) -> t < m_t m) ->
  db_ok (feed d m) /\ ticking (feed d m) /\ forall x, in_db (feed d m) x <-> in_db d x \/ came_with m x.
Proof.
  intros O T [N Cm] L. unfold feed, came_with.
  assert (L' : forall id c u n t, In (id, c, u, n) (m_obs m) -> in_db d (id, c, t) -> t < m_t m) by (intros; eapply L; eauto).
  clear L Cm. revert d O T N L'. generalize (m_t m). intros tm. induction (m_obs m) as [|[[[id c] u] n] l IH]; intros d O T N L; cbn [fold_left].
  - split; auto. split; auto. intros [[i k] t]. split; [auto|]. intros [?|(_ & u & n & [])]; auto.
  - cbn [map fst] in N. apply NoDup_cons_iff in N. destruct N as [Nx N].
    assert (O1 : db_ok (update_feature d id tm c u n)) by apply (update_feature_spec d id tm c u n O).
    assert (T1 : ticking (update_feature d id tm c u n)) by (apply ticking_update; auto; intros s Is; eapply L; [left; reflexivity|exact Is]).
    destruct (IH _ O1 T1 N) as (A & B & C).
    { intros i k u' n' t I J. apply in_db_update in J; auto. destruct J as [J|J].
      - eapply L; [right; eauto|eauto].
      - injection J as -> -> ->. exfalso. apply Nx. apply in_map_iff. exists (id, c, u', n'). auto. }
    split; auto. split; auto. intros x. rewrite C, in_db_update by auto. destruct x as [[i k] t]. split.
    + intros [[J|J]|(Et & u' & n' & J)]; auto.
      * right. injection J as -> -> ->. split; auto. exists u, n. left. reflexivity.
      * right. split; auto. exists u', n'. right. auto.
    + intros [J|(-> & u' & n' & [J|J])]; auto.
      * injection J as -> -> -> ->. auto.
      * right. split; auto. eauto.
Qed.

(** ** used features *)
Lemma pick_ext d d' ids : (forall id, In id ids -> alook d id = alook d' id) -> pick d ids = pick d' ids.
Proof. induction ids as [|i l IH]; simpl; intros H; auto. rewrite H by auto. rewrite IH; auto. Qed.
Lemma pick_app d a b : pick d (a ++ b) = pick d a ++ pick d b.
Proof. apply flat_map_app. Qed.
Lemma pick_meas d ids x : db_ok d -> (In x (flat_map meas_of (pick d ids)) <-> In (fst (fst x)) ids /\ in_db d x).
Proof.
  intros O. rewrite in_flat_map. destruct x as [[i c] t]. cbn [fst in_db]. unfold pick, track. split.
  - intros (f & I & J). apply in_flat_map in I. destruct I as (id & I & K). destruct (alook d id) as [g|] eqn:E; [|destruct K]. destruct K as [->|[]].
    destruct (db_ok_look _ _ _ O E) as [A B]. apply (meas_of_in f B) in J. destruct J as [-> J]. rewrite A. split; auto. rewrite E. apply in_map_iff in J.
    destruct J as (o & J & K). exists o. auto.
  - intros (I & o & J & <-). destruct (alook d i) as [f|] eqn:E; [|destruct J]. exists f. destruct (db_ok_look _ _ _ O E) as [A B]. split.
    + apply in_flat_map. exists i. rewrite E. simpl. auto.
    + apply (meas_of_in f B). split; auto. apply in_map. auto.
Qed.
Lemma pick_nodup d ids : db_ok d -> ticking d -> NoDup ids -> NoDup (flat_map meas_of (pick d ids)).
Proof.
  intros O T. induction 1 as [|i l Ni N IH]; [constructor|]. change (pick d (i :: l)) with ((match alook d i with Some f => [f] | None => [] end) ++ pick d l).
  rewrite flat_map_app. apply NoDup_app_intro; auto.
  - destruct (alook d i) as [f|] eqn:E; [|constructor]. cbn [flat_map]. rewrite app_nil_r. destruct (db_ok_look _ _ _ O E) as [A B]. apply meas_of_nodup; auto.
    intros c. apply SSlt_nodup. specialize (T i c). unfold track in T. rewrite E in T. exact T.
  - intros x I J. apply (pick_meas d l x O) in J. destruct J as [J _].
    assert (I' : In x (flat_map meas_of (pick d [i]))) by (unfold pick; cbn [flat_map]; rewrite app_nil_r; exact I).
    apply (pick_meas d [i] x O) in I'. destruct I' as [[K|[]] _]. apply Ni. rewrite K. exact J.
Qed.
