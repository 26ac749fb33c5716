(** Proofs about the tracker model: frames, invariants over all runs. *)
From Coq Require Import Reals List Arith ZArith Bool Lia Lra.
From Verif Require Import RBool Outcome DbModel DbSpec DbProofs DbThms TrackModel TrackSpec TrackProofs.
Import ListNotations.
Open Scope R_scope.

Lemma matching_length klt pts : length (matching klt pts) = length pts.
Proof. unfold matching. destruct (length pts <? 10)%nat; rewrite map_length; auto. apply seq_length. Qed.

Lemma keep_mono_spec fr m ids : length ids = length m ->
  exists l, keep_mono fr m ids = Ok (map snd l, map fst l) /\
    subseq (map fst l) ids /\
    (forall i p, In (i, p) l <-> In (i, (p, true)) (combine ids m) /\
       bad_pt false fr p = false /\ fr_mask fr (to_int (fst p)) (to_int (snd p)) = false).
Proof.
  revert ids. induction m as [|[p ok] m IH]; intros [|i ids] L; try discriminate.
  - exists []. cbn. split; [reflexivity|]. split; [constructor|tauto].
  - cbn in L. destruct (IH ids) as (l & E & S1 & S2); [lia|]. cbn [keep_mono]. rewrite E. cbn [obind].
    destruct (bad_pt false fr p || fr_mask fr (to_int (fst p)) (to_int (snd p)) || negb ok)%bool eqn:B.
    + exists l. split; [reflexivity|]. split; [constructor; auto|]. intros j q. rewrite S2. cbn [combine]. cbn [In].
      split; [tauto|]. intros [[X|X] Y]; [|auto]. injection X as -> -> ->. destruct Y as [Y1 Y2]. rewrite Y1, Y2 in B. discriminate.
    + rewrite !orb_false_iff, negb_false_iff in B. destruct B as [[B1 B2] ->].
      exists ((i, p) :: l). split; [reflexivity|]. split; [cbn; constructor; auto|]. intros j q. cbn [combine In]. rewrite S2.
      split.
      * intros [X|X]; [injection X as <- <-; auto|tauto].
      * intros [[X|X] Y]; [injection X as <- <-; auto|auto].
Qed.

Lemma record_all_spec und t cam pts ids d : db_ok d -> length ids = length pts -> NoDup ids ->
  db_ok (record_all und d t cam pts ids) /\
  (forall i p, In (i, p) (combine ids pts) ->
     track (record_all und d t cam pts ids) i cam = track d i cam ++ [(t, p, und cam p)]) /\
  (forall i c, c <> cam \/ ~ In i ids -> track (record_all und d t cam pts ids) i c = track d i c).
Proof.
  revert ids d. induction pts as [|p pts IH]; intros [|i ids] d OK L N; try discriminate.
  - cbn. split; auto. split; [intros ? ? []|auto].
  - cbn in L. inversion N as [|? ? N1 N2]; subst. cbn [record_all].
    destruct (update_feature_spec d i t cam p (und cam p) OK) as (U1 & U2 & U3 & U4 & _).
    destruct (IH ids _ U1) as (A & B & C); [lia|auto|]. split; [auto|]. split.
    + intros j q [X|X].
      * injection X as <- <-. rewrite C by auto. exact U2.
      * rewrite (B j q X). f_equal. unfold track. rewrite U4; auto. intros ->. apply N1. eapply in_combine_l; eauto.
    + intros j c H. destruct (Nat.eq_dec j i) as [->|Nj].
      * destruct H as [H|H]; [|exfalso; apply H; left; auto]. rewrite C by auto. apply U3; auto.
      * rewrite C. { unfold track. rewrite U4; auto. } destruct H as [H|H]; auto. right. intros X; apply H; right; auto.
Qed.

(** ** What one camera's part of a step does *)
Definition wf (s : ktrk) : Prop :=
  db_ok (k_db s) /\
  (forall cam, length (aget (k_ids s) cam) = length (aget (k_pts s) cam) /\ NoDup (aget (k_ids s) cam)) /\
  (forall id cam, sees s id cam -> (id <= k_cur s)%nat) /\
  (forall cam, aget (k_pts s) cam <> [] -> exists f, alook (k_last s) cam = Some f).

Lemma nodup_fresh (l : list nat) a n : NoDup l -> (forall i, In i l -> (i <= a)%nat) -> NoDup (l ++ seq (S a) n).
Proof.
  intros N B. apply NoDup_app_intro; auto; [apply seq_NoDup|]. intros x I J. apply in_seq in J. specialize (B x I). lia.
Qed.

Lemma detect_mono_ids o fr det ids pts cur r : length ids = length pts -> NoDup ids ->
  (forall i, In i ids -> (i <= cur)%nat) -> detect_mono o fr det pts ids cur = Ok r ->
  exists ps is_ cur', r = (ps, is_, cur') /\ length is_ = length ps /\ NoDup is_ /\ (cur <= cur')%nat /\
    (forall i, In i is_ -> In i ids \/ (cur < i <= cur')%nat).
Proof.
  intros L N B E. destruct (dims_ok o fr) eqn:D; [|unfold detect_mono in E; rewrite D in E; discriminate].
  destruct (detect_mono_spec o fr det ids pts cur D L) as (l & new & E' & S1 & _). rewrite E' in E. injection E as <-.
  do 3 eexists. split; [reflexivity|].
  assert (S2 : subseq (map fst l) ids). { apply (subseq_map fst) in S1. rewrite (proj1 (map_combine _ _ L)) in S1. auto. }
  split; [rewrite !app_length, !map_length, seq_length; auto|]. split.
  - apply nodup_fresh; [eapply subseq_nodup; eauto|]. intros i I. apply B. eapply subseq_in; eauto.
  - split; [lia|]. intros i I. apply in_app_iff in I. destruct I as [I|I]; [left; eapply subseq_in; eauto|].
    right. apply in_seq in I. lia.
Qed.

(** the changes feed_monocular may make *)
Record mono_step (und : nat -> pt -> pt) (base : nat) (s s' : ktrk) (t : R) (cam : nat) : Prop := {
  ms_cur : (k_cur s <= k_cur s')%nat;
  ms_pts : forall c, c <> cam -> aget (k_pts s') c = aget (k_pts s) c;
  ms_ids : forall c, c <> cam -> aget (k_ids s') c = aget (k_ids s) c;
  ms_last : forall c, c <> cam -> alook (k_last s') c = alook (k_last s) c;
  ms_lastc : exists f, alook (k_last s') cam = Some f;
  ms_len : length (aget (k_ids s') cam) = length (aget (k_pts s') cam);
  ms_nodup : NoDup (aget (k_ids s') cam);
  ms_src : forall i, In i (aget (k_ids s') cam) -> In i (aget (k_ids s) cam) \/ (base < i <= k_cur s')%nat;
  ms_db : (aget (k_pts s) cam = [] /\ k_db s' = k_db s) \/
          k_db s' = record_all und (k_db s) t cam (aget (k_pts s') cam) (aget (k_ids s') cam) }.

Lemma set_last_step und base s t cam fr ps is_ cur d :
  (k_cur s <= cur)%nat -> length is_ = length ps -> NoDup is_ ->
  (forall i, In i is_ -> In i (aget (k_ids s) cam) \/ (base < i <= cur)%nat) ->
  (aget (k_pts s) cam = [] /\ d = k_db s) \/ d = record_all und (k_db s) t cam ps is_ ->
  mono_step und base s (set_last s cam fr ps is_ cur d) t cam.
Proof.
  intros C L N B D. unfold set_last. constructor; cbn [k_cur k_pts k_ids k_last k_db]; rewrite ?aget_aset, ?Nat.eqb_refl; auto.
  - intros c X. rewrite aget_aset. destruct (Nat.eqb_spec c cam); congruence.
  - intros c X. rewrite aget_aset. destruct (Nat.eqb_spec c cam); congruence.
  - intros c X. rewrite alook_aset. destruct (Nat.eqb_spec c cam); congruence.
  - exists fr. rewrite alook_aset, Nat.eqb_refl. auto.
Qed.

Lemma feed_mono_step o und s t ci s' : wf s -> feed_monocular o und s t ci = Ok s' ->
  mono_step und (k_cur s) s s' t (ci_cam ci).
Proof.
  intros (OK & LN & SB & LF) E. unfold feed_monocular in E.
  apply guard_ok in E; [|discriminate]. destruct E as [_ E].
  destruct (LN (ci_cam ci)) as [L N].
  assert (B : forall i, In i (aget (k_ids s) (ci_cam ci)) -> (i <= k_cur s)%nat) by (intros i I; apply (SB i (ci_cam ci)); left; auto).
  destruct (aget (k_pts s) (ci_cam ci)) as [|p0 ps0] eqn:P0.
  - apply obind_ok in E. destruct E as (r & Er & E).
    apply detect_mono_ids in Er; auto; [|constructor|intros i []]. destruct Er as (ps & is_ & cur & -> & L1 & N1 & C1 & B1).
    injection E as <-. apply set_last_step; auto. intros i I. destruct (B1 i I) as [[]|X]; auto.
  - destruct (alook (k_last s) (ci_cam ci)) as [lf|]; [|discriminate]. rewrite <- P0 in *.
    apply obind_ok in E. destruct E as (r & Er & E).
    apply detect_mono_ids in Er; auto. destruct Er as (ps & is_ & cur & -> & L1 & N1 & C1 & B1).
    destruct (matching (ci_klt ci) ps) as [|m0 m] eqn:M.
    + injection E as <-. apply set_last_step; auto; [constructor|intros i []].
    + rewrite <- M in E. apply obind_ok in E. destruct E as (g & Eg & E).
      destruct (keep_mono_spec (ci_frame ci) (matching (ci_klt ci) ps) is_) as (l & E' & S1 & _); [rewrite matching_length; auto|].
      rewrite E' in Eg. injection Eg as <-. injection E as <-. cbn [fst snd].
      apply set_last_step; auto.
      * rewrite !map_length. auto.
      * eapply subseq_nodup; eauto.
      * intros i I. apply B1. eapply subseq_in; eauto.
Qed.

(** effect on the database, in terms of tracks *)
Lemma mono_step_db und base s s' t cam : wf s -> mono_step und base s s' t cam ->
  db_ok (k_db s') /\
  (forall i c, c <> cam \/ ~ In i (aget (k_ids s') cam) -> track (k_db s') i c = track (k_db s) i c) /\
  ((aget (k_pts s) cam = [] /\ k_db s' = k_db s) \/
   forall i p, In (i, p) (tracked s' cam) -> track (k_db s') i cam = track (k_db s) i cam ++ [(t, p, und cam p)]).
Proof.
  intros (OK & _) M. destruct (ms_db _ _ _ _ _ _ M) as [[A B]|B].
  - rewrite B. split; [auto|]. split; [auto|]. left; auto.
  - destruct (record_all_spec und t cam (aget (k_pts s') cam) (aget (k_ids s') cam) (k_db s) OK (ms_len _ _ _ _ _ _ M) (ms_nodup _ _ _ _ _ _ M)) as (R1 & R2 & R3).
    rewrite <- B in *. split; [auto|]. split; [exact R3|]. right. exact R2.
Qed.

Lemma mono_step_sees und base s s' t cam i c : wf s -> mono_step und base s s' t cam ->
  sees s' i c -> sees s i c \/ (c = cam /\ (base < i <= k_cur s')%nat).
Proof.
  intros W M X. destruct (mono_step_db _ _ _ _ _ _ W M) as (_ & D & _). destruct (Nat.eq_dec c cam) as [->|Nc].
  - assert (Y : In i (aget (k_ids s') cam) -> sees s i cam \/ (cam = cam /\ (base < i <= k_cur s')%nat)).
    { intros I. destruct (ms_src _ _ _ _ _ _ M i I) as [Z|Z]; [left; left; auto|right; auto]. }
    destruct X as [X|X]; [auto|]. destruct (in_dec Nat.eq_dec i (aget (k_ids s') cam)) as [I|I]; [auto|].
    left. right. rewrite <- D; auto.
  - left. destruct X as [X|X]; [left|right]; [rewrite <- (ms_ids _ _ _ _ _ _ M); auto|rewrite <- D; auto].
Qed.

Lemma mono_step_wf und base s s' t cam : wf s -> mono_step und base s s' t cam -> wf s'.
Proof.
  intros W M. pose proof W as (OK & LN & SB & LF). destruct (mono_step_db _ _ _ _ _ _ W M) as (D1 & D2 & _).
  split; [auto|]. split; [|split].
  - intros c. destruct (Nat.eq_dec c cam) as [->|N]; [split; [apply M|apply M]|].
    rewrite (ms_pts _ _ _ _ _ _ M), (ms_ids _ _ _ _ _ _ M) by auto. apply LN.
  - intros i c X. destruct (mono_step_sees _ _ _ _ _ _ _ _ W M X) as [Y|[_ Y]]; [|lia].
    apply SB in Y. pose proof (ms_cur _ _ _ _ _ _ M). lia.
  - intros c X. destruct (Nat.eq_dec c cam) as [->|N]; [apply M|].
    rewrite (ms_last _ _ _ _ _ _ M) by auto. apply LF. rewrite <- (ms_pts _ _ _ _ _ _ M); auto.
Qed.

(** ** stereo *)
Lemma add_stereo_spec fr0 fr1 lr new : forall k p0 p1 i0 i1 cur a b c d e,
  length i0 = length p0 -> length i1 = length p1 -> NoDup i0 -> NoDup i1 ->
  (forall i, In i i0 -> (i <= cur)%nat) -> (forall i, In i i1 -> (i <= cur)%nat) ->
  add_stereo fr0 fr1 lr k new p0 p1 i0 i1 cur = (a, b, c, d, e) ->
  length c = length a /\ length d = length b /\ NoDup c /\ NoDup d /\ (cur <= e)%nat /\
  (forall i, In i c -> In i i0 \/ (cur < i <= e)%nat) /\ (forall i, In i d -> In i i1 \/ (cur < i <= e)%nat).
Proof.
  induction new as [|p new IH]; intros k p0 p1 i0 i1 cur a b c d e L0 L1 N0 N1 B0 B1 E; cbn [add_stereo] in E.
  - injection E as <- <- <- <- <-. repeat (split; [auto|]). auto.
  - destruct (lr k) as [q ok].
    assert (F : forall l : list nat, NoDup l -> (forall i, In i l -> (i <= cur)%nat) -> NoDup (l ++ [S cur]) /\ forall i, In i (l ++ [S cur]) -> (i <= S cur)%nat).
    { intros l N B. split; [apply nodup_snoc; auto; intros I; apply B in I; lia|].
      intros i I. apply in_app_iff in I. destruct I as [I|[<-|[]]]; [apply B in I|]; lia. }
    assert (G : forall l : list nat, (forall i, In i l -> (i <= cur)%nat) -> forall i, In i l -> (i <= S cur)%nat) by (intros l B i I; apply B in I; lia).
    destruct (in_img fr0 p && in_img fr1 q && ok)%bool; [|destruct (in_img fr0 p)].
    + apply IH in E; [|rewrite !app_length; cbn; lia|rewrite !app_length; cbn; lia|apply F; auto|apply F; auto|apply F; auto|apply F; auto].
      destruct E as (E1 & E2 & E3 & E4 & E5 & E6 & E7). do 4 (split; [auto|]). split; [lia|]. split; intros i I.
      * destruct (E6 i I) as [X|X]; [|right; lia]. apply in_app_iff in X. destruct X as [X|[<-|[]]]; [auto|right; lia].
      * destruct (E7 i I) as [X|X]; [|right; lia]. apply in_app_iff in X. destruct X as [X|[<-|[]]]; [auto|right; lia].
    + apply IH in E; [|rewrite !app_length; cbn; lia|auto|apply F; auto|auto|apply F; auto|apply G; auto].
      destruct E as (E1 & E2 & E3 & E4 & E5 & E6 & E7). do 4 (split; [auto|]). split; [lia|]. split; intros i I.
      * destruct (E6 i I) as [X|X]; [|right; lia]. apply in_app_iff in X. destruct X as [X|[<-|[]]]; [auto|right; lia].
      * destruct (E7 i I) as [X|X]; [auto|right; lia].
    + apply IH in E; auto.
Qed.

Lemma thin_ids o fr st ids pts g r : length ids = length pts -> NoDup ids -> thin o fr st pts ids g = Ok r ->
  exists ps is_ g', r = (ps, is_, g') /\ length is_ = length ps /\ NoDup is_ /\ incl is_ ids.
Proof.
  intros L N E. destruct (thin_spec o fr st ids pts g L) as (l & g' & E' & S1 & _). rewrite E' in E. injection E as <-.
  assert (S2 : subseq (map fst l) ids). { apply (subseq_map fst) in S1. rewrite (proj1 (map_combine _ _ L)) in S1. auto. }
  do 3 eexists. split; [reflexivity|]. split; [rewrite !map_length; auto|]. split; [eapply subseq_nodup; eauto|].
  intros i I. eapply subseq_in; eauto.
Qed.

Lemma detect_stereo_ids o fr0 fr1 det0 det1 lr p0 p1 i0 i1 cur r :
  length i0 = length p0 -> length i1 = length p1 -> NoDup i0 -> NoDup i1 ->
  (forall i, In i i0 -> (i <= cur)%nat) -> (forall i, In i i1 -> (i <= cur)%nat) ->
  detect_stereo o fr0 fr1 det0 det1 lr p0 p1 i0 i1 cur = Ok r ->
  exists a b c d e, r = (a, b, c, d, e) /\
  length c = length a /\ length d = length b /\ NoDup c /\ NoDup d /\ (cur <= e)%nat /\
  (forall i, In i c -> In i i0 \/ (cur < i <= e)%nat) /\ (forall i, In i d -> In i i1 \/ (cur < i <= e)%nat).
Proof.
  intros L0 L1 N0 N1 B0 B1 E. unfold detect_stereo in E. apply guard_ok in E; [|discriminate]. destruct E as [_ E].
  apply obind_ok in E. destruct E as (r0 & Er & E). apply thin_ids in Er; auto.
  destruct Er as (q0 & j0 & g0 & -> & L0' & N0' & I0).
  destruct (if (few o <? ko_feats o - Z.of_nat (length q0))%Z then add_stereo fr0 fr1 lr 0 (pick_new o fr0 det0 g0) q0 p1 j0 i1 cur else (q0, p1, j0, i1, cur))
    as [[[[a b] c] d] e] eqn:A.
  assert (A' : length c = length a /\ length d = length b /\ NoDup c /\ NoDup d /\ (cur <= e)%nat /\
    (forall i, In i c -> In i i0 \/ (cur < i <= e)%nat) /\ (forall i, In i d -> In i i1 \/ (cur < i <= e)%nat)).
  { destruct (few o <? ko_feats o - Z.of_nat (length q0))%Z.
    - apply add_stereo_spec in A; auto. destruct A as (A1 & A2 & A3 & A4 & A5 & A6 & A7). do 5 (split; [auto|]).
      split; auto. intros i I. destruct (A6 i I); auto.
    - injection A as <- <- <- <- <-. do 5 (split; [auto|]). split; auto. }
  clear A. destruct A' as (A1 & A2 & A3 & A4 & A5 & A6 & A7).
  apply obind_ok in E. destruct E as (r1 & Er & E). apply thin_ids in Er; auto.
  destruct Er as (q1 & j1 & g1 & -> & L1' & N1' & I1').
  destruct (few o <? ko_feats o - Z.of_nat (length q1))%Z.
  - injection E as <-. do 5 eexists. split; [reflexivity|]. set (new := pick_new o fr1 det1 g1).
    split; [auto|]. split; [rewrite !app_length, seq_length; lia|]. split; [auto|]. split.
    { apply nodup_fresh; auto. intros i I. apply I1' in I. destruct (A7 i I) as [X|X]; [apply B1 in X|]; lia. }
    split; [lia|]. split; intros i I.
    + destruct (A6 i I); [auto|right; lia].
    + apply in_app_iff in I. destruct I as [I|I]; [|apply in_seq in I; right; lia].
      apply I1' in I. destruct (A7 i I); [auto|right; lia].
  - injection E as <-. do 5 eexists. split; [reflexivity|]. repeat (split; [auto|]). intros i I. apply A7. auto.
Qed.

Lemma keep_left_spec fr0 fr1 m0 m1 ids1 : forall ids0 r,
  length ids0 = length m0 -> keep_left fr0 fr1 m0 m1 ids0 ids1 = Ok r ->
  exists a b c d, r = (a, b, c, d) /\ length b = length a /\ length d = length c /\
    subseq b ids0 /\ subseq d b /\ incl d ids1.
Proof.
  induction m0 as [|[p ok] m0 IH]; intros [|i ids0] r L E; try discriminate.
  - cbn in E. injection E as <-. do 4 eexists. split; [reflexivity|]. repeat (split; [constructor|]). intros x [].
  - cbn in L. cbn [keep_left] in E. apply obind_ok in E. destruct E as (r1 & E1 & E).
    apply IH in E1; [|lia]. destruct E1 as (a & b & c & d & -> & L1 & L2 & S1 & S2 & I1).
    assert (Q0 : exists a' b' c' d', (a, b, c, d) = (a', b', c', d') /\ length b' = length a' /\ length d' = length c' /\
      subseq b' (i :: ids0) /\ subseq d' b' /\ incl d' ids1).
    { do 4 eexists. split; [reflexivity|]. do 2 (split; [auto|]). split; [constructor; auto|]. auto. }
    assert (Q1 : exists a' b' c' d', (p :: a, i :: b, c, d) = (a', b', c', d') /\ length b' = length a' /\ length d' = length c' /\
      subseq b' (i :: ids0) /\ subseq d' b' /\ incl d' ids1).
    { do 4 eexists. split; [reflexivity|]. split; [cbn; lia|]. split; [auto|]. split; [constructor; auto|]. split; [constructor; auto|]. auto. }
    destruct (bad_pt true fr0 p); [injection E as <-; exact Q0|].
    destruct (find_ix ids1 i) as [n|] eqn:Fx.
    + destruct (nth_error m1 n) as [[q okq]|]; [|discriminate].
      destruct (ok && okq)%bool; [|destruct ok; injection E as <-; auto].
      destruct (bad_pt false fr1 q); injection E as <-; [exact Q0|].
      do 4 eexists. split; [reflexivity|]. split; [cbn; lia|]. split; [cbn; lia|]. split; [constructor; auto|]. split; [constructor; auto|].
      intros x [<-|X]; [|auto]. clear - Fx. revert n Fx. induction ids1 as [|j l IH]; intros n Fx; [discriminate|].
      cbn in Fx. destruct (Nat.eqb_spec i j); [left; auto|]. destruct (find_ix l i) eqn:F; [|discriminate]. right. eapply IH; eauto.
    + destruct ok; injection E as <-; auto.
Qed.

Lemma mem_in i l : mem i l = true <-> In i l.
Proof.
  unfold mem. rewrite existsb_exists. split; [intros (x & I & E); apply Nat.eqb_eq in E; subst; auto|].
  intros I. exists i. split; auto. apply Nat.eqb_refl.
Qed.

Lemma keep_right_spec fr1 m1 : forall ids1 pts ids r,
  length ids1 = length m1 -> length ids = length pts -> NoDup ids -> keep_right fr1 m1 ids1 pts ids = Ok r ->
  length (snd r) = length (fst r) /\ NoDup (snd r) /\ (forall i, In i (snd r) -> In i ids \/ In i ids1).
Proof.
  induction m1 as [|[q ok] m1 IH]; intros [|i ids1] pts ids r L L' N E; try discriminate.
  - injection E as <-. cbn. auto.
  - cbn in L. cbn [keep_right] in E. destruct (bad_pt false fr1 q || negb ok || mem i ids)%bool eqn:B.
    + apply IH in E; auto. destruct E as (A & B' & C). split; [auto|]. split; [auto|]. intros j J. destruct (C j J); cbn; auto.
    + rewrite !orb_false_iff in B. destruct B as [_ B].
      apply IH in E; auto; [|rewrite !app_length; cbn; lia|apply nodup_snoc; auto; intros I; apply mem_in in I; congruence].
      destruct E as (A & B' & C). split; [auto|]. split; [auto|]. intros j J. destruct (C j J) as [X|X]; [|cbn; auto].
      apply in_app_iff in X. destruct X as [X|[<-|[]]]; cbn; auto.
Qed.

Lemma feed_stereo_steps o und s t l r s' : wf s -> feed_stereo o und s t l r = Ok s' ->
  ci_cam l <> ci_cam r /\
  exists s1, mono_step und (k_cur s) s s1 t (ci_cam l) /\ mono_step und (k_cur s) s1 s' t (ci_cam r).
Proof.
  intros (OK & LN & SB & LF) E. unfold feed_stereo in E. apply guard_ok in E; [|discriminate]. destruct E as [G E].
  rewrite !andb_true_iff, negb_true_iff in G. destruct G as [_ G]. apply Nat.eqb_neq in G. split; [auto|].
  destruct (LN (ci_cam l)) as [L0 N0]. destruct (LN (ci_cam r)) as [L1 N1].
  assert (B : forall cam i, In i (aget (k_ids s) cam) -> (i <= k_cur s)%nat) by (intros cam i I; apply (SB i cam); left; auto).
  set (c0 := ci_cam l) in *. set (c1 := ci_cam r) in *.
  assert (FIN : forall a b c d cur db0 db1,
    (k_cur s <= cur)%nat -> length b = length a -> length d = length c -> NoDup b -> NoDup d ->
    (forall i, In i b -> In i (aget (k_ids s) c0) \/ (k_cur s < i <= cur)%nat) ->
    (forall i, In i d -> In i (aget (k_ids s) c1) \/ (k_cur s < i <= cur)%nat) ->
    (aget (k_pts s) c0 = [] /\ aget (k_pts s) c1 = [] /\ db0 = k_db s /\ db1 = k_db s) \/
    (db0 = record_all und (k_db s) t c0 a b /\ db1 = record_all und db0 t c1 c d) ->
    forall f0 f1, exists s1, mono_step und (k_cur s) s s1 t c0 /\
      mono_step und (k_cur s) s1 (set_last (set_last s c0 f0 a b cur db1) c1 f1 c d cur db1) t c1).
  { intros a b c d cur db0 db1 C La Lc Nb Nd Sb Sd D f0 f1. exists (set_last s c0 f0 a b cur db0). split.
    - apply set_last_step; auto. destruct D as [(D1 & D2 & D3 & D4)|[D1 D2]]; auto.
    - replace (set_last (set_last s c0 f0 a b cur db1) c1 f1 c d cur db1) with
        (set_last (set_last s c0 f0 a b cur db0) c1 f1 c d cur db1) by reflexivity.
      apply set_last_step; auto; cbn [set_last k_ids k_pts k_db].
      + intros i I. rewrite aget_aset. destruct (Nat.eqb_spec c1 c0); [congruence|auto].
      + rewrite aget_aset. destruct (Nat.eqb_spec c1 c0); [congruence|]. destruct D as [(D1 & D2 & D3 & D4)|[D1 D2]]; [left|right]; auto. subst; auto. }
  assert (CASE : (aget (k_pts s) c0 = [] /\ aget (k_pts s) c1 = [] /\
      (do x <- detect_stereo o (ci_frame l) (ci_frame r) (ci_det l) (ci_det r) (ci_lr l) [] [] [] [] (k_cur s);
       (let '(p0, p1, i0, i1, cur) := x in
         Ok (set_last (set_last s c0 (ci_frame l) p0 i0 cur (k_db s)) c1 (ci_frame r) p1 i1 cur (k_db s)))) = Ok s') \/
    (exists f0 f1, (do x <- detect_stereo o f0 f1 (ci_det l) (ci_det r) (ci_lr l) (aget (k_pts s) c0) (aget (k_pts s) c1) (aget (k_ids s) c0) (aget (k_ids s) c1) (k_cur s);
       (let '(p0, p1, i0, i1, cur) := x in
             match matching (ci_klt l) p0, matching (ci_klt r) p1 with
             | [], [] =>
                 Ok (set_last (set_last s c0 (ci_frame l) [] [] cur (k_db s)) c1 (ci_frame r) [] [] cur (k_db s))
             | _, _ =>
                 do kl <- keep_left (ci_frame l) (ci_frame r) (matching (ci_klt l) p0) (matching (ci_klt r) p1) i0 i1;
                 let '(a, b, c, d) := kl in
                 do kr <- keep_right (ci_frame r) (matching (ci_klt r) p1) i1 c d;
                 let db' := record_all und (record_all und (k_db s) t c0 a b) t c1 (fst kr) (snd kr) in
                 Ok (set_last (set_last s c0 (ci_frame l) a b cur db') c1 (ci_frame r) (fst kr) (snd kr) cur db')
             end)) = Ok s')).
  { destruct (aget (k_pts s) c0) as [|p ps] eqn:P0; [destruct (aget (k_pts s) c1) as [|p ps] eqn:P1|].
    - left. auto.
    - right. destruct (alook (k_last s) c0) as [f0|]; [|discriminate]. destruct (alook (k_last s) c1) as [f1|]; [|discriminate]. exists f0, f1. exact E.
    - right. destruct (alook (k_last s) c0) as [f0|]; [|discriminate]. destruct (alook (k_last s) c1) as [f1|]; [|discriminate]. exists f0, f1. exact E. }
  clear E. destruct CASE as [(P0 & P1 & E)|(f0 & f1 & E)].
  - apply obind_ok in E. destruct E as (x & Ex & E). apply detect_stereo_ids in Ex; auto; try (constructor; fail); try (intros ? []; fail).
    destruct Ex as (a & b & c & d & e & -> & La & Lb & Nc & Nd & C & Sc & Sd). injection E as <-.
    apply (FIN a c b d e (k_db s) (k_db s)); auto.
    + intros i I. destruct (Sc i I) as [[]|]; auto.
    + intros i I. destruct (Sd i I) as [[]|]; auto.
  - apply obind_ok in E. destruct E as (x & Ex & E). apply detect_stereo_ids in Ex; eauto.
    destruct Ex as (a & b & c & d & e & -> & La & Lb & Nc & Nd & C & Sc & Sd).
    assert (E' : (e >= k_cur s)%nat /\ ((s' = set_last (set_last s c0 (ci_frame l) [] [] e (k_db s)) c1 (ci_frame r) [] [] e (k_db s)) \/
      (do kl <- keep_left (ci_frame l) (ci_frame r) (matching (ci_klt l) a) (matching (ci_klt r) b) c d;
                 let '(a', b', c', d') := kl in
                 do kr <- keep_right (ci_frame r) (matching (ci_klt r) b) d c' d';
                 let db' := record_all und (record_all und (k_db s) t c0 a' b') t c1 (fst kr) (snd kr) in
                 Ok (set_last (set_last s c0 (ci_frame l) a' b' e db') c1 (ci_frame r) (fst kr) (snd kr) e db')) = Ok s')).
    { split; [lia|]. destruct (matching (ci_klt l) a) as [|m0 m0']; [destruct (matching (ci_klt r) b) as [|m1 m1']|]; auto; injection E as <-; auto. }
    clear E. destruct E' as [_ [->|E]].
    + apply (FIN [] [] [] [] e (k_db s) (k_db s)); auto; try (constructor; fail); intros ? [].
    + apply obind_ok in E. destruct E as (kl & Ek & E). apply keep_left_spec in Ek; [|rewrite matching_length; auto].
      destruct Ek as (a' & b' & c' & d' & -> & La' & Lc' & S1 & S2 & I1).
      apply obind_ok in E. destruct E as (kr & Ek & E). injection E as <-.
      assert (Nb' : NoDup b') by (eapply subseq_nodup; eauto).
      apply keep_right_spec in Ek; auto; [|rewrite matching_length; auto|eapply subseq_nodup; eauto].
      destruct Ek as (Lr & Nr & Ir).
      eapply (FIN a' b' (fst kr) (snd kr) e (record_all und (k_db s) t c0 a' b')); auto.
      * intros i I. apply Sc. eapply subseq_in; eauto.
      * intros i I. apply Sd. destruct (Ir i I); auto.
Qed.

(** ** runs *)
Lemma treach_new_wf o : wf (track_new o).
Proof.
  split; [split; [constructor|intros ? ? []]|]. split; [intros cam; cbn; split; [auto|constructor]|].
  split; [intros id cam [[]|X]; cbn in X; congruence|]. intros cam X. cbn in X. congruence.
Qed.

Definition linked (P : nat -> nat -> Prop) (s : ktrk) : Prop :=
  forall id c c', sees s id c -> sees s id c' -> c <> c' -> P c c'.

(** what a step may do with ids *)
Definition id_step (P : nat -> nat -> Prop) (s s' : ktrk) : Prop :=
  (k_cur s <= k_cur s')%nat /\
  (forall id c, sees s' id c -> sees s id c \/ (k_cur s < id <= k_cur s')%nat) /\
  (forall id c c', (k_cur s < id)%nat -> sees s' id c -> sees s' id c' -> c <> c' -> P c c').

Lemma id_step_linked P s s' : wf s -> id_step P s s' -> linked P s -> linked P s'.
Proof.
  intros (_ & _ & SB & _) (A & B & C) L id c c' X Y N. destruct (le_lt_dec id (k_cur s)) as [H|H]; [|eauto].
  destruct (B _ _ X) as [X'|X']; [|lia]. destruct (B _ _ Y) as [Y'|Y']; [|lia]. eauto.
Qed.

Lemma mono_id_step P und s s' t cam : wf s -> mono_step und (k_cur s) s s' t cam -> id_step P s s'.
Proof.
  intros W M. pose proof W as (_ & _ & SB & _). split; [apply M|]. split.
  - intros id c X. destruct (mono_step_sees _ _ _ _ _ _ _ _ W M X) as [|[]]; auto.
  - intros id c c' H X Y N. exfalso.
    destruct (mono_step_sees _ _ _ _ _ _ _ _ W M X) as [X'|[-> _]]; [apply SB in X'; lia|].
    destruct (mono_step_sees _ _ _ _ _ _ _ _ W M Y) as [Y'|[-> _]]; [apply SB in Y'; lia|]. congruence.
Qed.

Lemma id_step_trans P s1 s2 s3 : wf s1 -> id_step P s1 s2 -> id_step P s2 s3 -> id_step P s1 s3.
Proof.
  intros W (A1 & B1 & C1) (A2 & B2 & C2). split; [lia|]. split.
  - intros id c X. destruct (B2 _ _ X) as [X'|X']; [|right; lia]. destruct (B1 _ _ X') as [|]; [auto|right; lia].
  - intros id c c' H X Y N. destruct (le_lt_dec id (k_cur s2)) as [Q|Q]; [|eauto].
    destruct (B2 _ _ X) as [X'|X']; [|lia]. destruct (B2 _ _ Y) as [Y'|Y']; [|lia]. eauto.
Qed.

Lemma feed_step o P und s t imgs s' : wf s ->
  (ko_stereo o = true -> forall l r, imgs = [l; r] -> P (ci_cam l) (ci_cam r) /\ P (ci_cam r) (ci_cam l)) ->
  feed_new_camera o und s t imgs = Ok s' -> wf s' /\ id_step P s s'.
Proof.
  intros W HP E.
  assert (MONO : forall ci s s', wf s -> feed_monocular o und s t ci = Ok s' -> wf s' /\ id_step P s s').
  { clear. intros ci s s' W E. apply feed_mono_step in E; auto. split; [eapply mono_step_wf; eauto|eapply mono_id_step; eauto]. }
  unfold feed_new_camera in E. destruct imgs as [|l [|r rest]]; [discriminate|eauto|].
  destruct (ko_stereo o && (length (l :: r :: rest) =? 2)%nat)%bool eqn:B.
  - apply andb_true_iff in B. destruct B as [B1 B2]. apply Nat.eqb_eq in B2. destruct rest; [|discriminate].
    destruct (HP B1 l r eq_refl) as [P1 P2]. apply feed_stereo_steps in E; auto. destruct E as (N & s1 & M1 & M2).
    assert (W1 : wf s1) by (eapply mono_step_wf; eauto). split; [eapply mono_step_wf; eauto|].
    pose proof (ms_cur _ _ _ _ _ _ M1) as C1. pose proof (ms_cur _ _ _ _ _ _ M2) as C2. pose proof W as (_ & _ & SB & _).
    assert (X : forall id c, sees s' id c -> sees s id c \/ ((c = ci_cam l \/ c = ci_cam r) /\ (k_cur s < id <= k_cur s')%nat)).
    { intros id c X. destruct (mono_step_sees _ _ _ _ _ _ _ _ W1 M2 X) as [X'|[-> H]]; [|right; auto].
      destruct (mono_step_sees _ _ _ _ _ _ _ _ W M1 X') as [|[-> H]]; [auto|]. right; split; [auto|lia]. }
    split; [lia|]. split; [intros id c Y; destruct (X id c Y) as [|[]]; auto|].
    intros id c c' H Y Z Nc. destruct (X _ _ Y) as [Y'|[Y' _]]; [apply SB in Y'; lia|]. destruct (X _ _ Z) as [Z'|[Z' _]]; [apply SB in Z'; lia|].
    destruct Y' as [-> | ->], Z' as [-> | ->]; auto; congruence.
  - destruct (ko_stereo o); cbn [negb] in E; [discriminate|]. clear B HP.
    assert (G : forall l0 s s', wf s -> ofold (fun s ci => feed_monocular o und s t ci) l0 s = Ok s' -> l0 <> [] -> wf s' /\ id_step P s s').
    { clear - MONO. induction l0 as [|ci l0 IH]; intros s s' W E N; [congruence|].
      cbn [ofold] in E. apply obind_ok in E. destruct E as (s1 & E1 & E). destruct (MONO _ _ _ W E1) as [W1 I1].
      destruct l0 as [|c2 l0]; [injection E as <-; auto|]. destruct (IH _ _ W1 E ltac:(discriminate)) as [W2 I2].
      split; [auto|]. eapply id_step_trans; eauto. }
    eapply G; eauto. discriminate.
Qed.

Lemma tstep_inv o P s s' : wf s -> linked P s -> tstep o P s s' ->
  wf s' /\ linked P s' /\ (k_cur s <= k_cur s')%nat /\
  forall id c, sees s' id c -> sees s id c \/ (k_cur s < id <= k_cur s')%nat.
Proof.
  intros W L T. destruct T as [s und t imgs s' HP E|s s' (d & -> & OK & SH)].
  - destruct (feed_step o P und s t imgs s' W HP E) as [W' I]. split; [auto|]. split; [exact (id_step_linked P s s' W I L)|].
    destruct I as (A & B & _). split; auto.
  - assert (Q : forall id c, sees (mkK (k_cur s) (k_pts s) (k_ids s) (k_last s) d) id c -> sees s id c).
    { intros id c [X|X]; [left; auto|right; auto]. }
    destruct W as (W1 & W2 & W3 & W4). split; [|split; [|split]].
    + split; [auto|]. split; [auto|]. split; [|auto]. intros id cam X. apply Q in X. apply W3 in X. auto.
    + intros id c c' X Y N. eauto.
    + cbn. auto.
    + auto.
Qed.

Lemma tsteps_inv o P s s' : wf s -> linked P s -> tsteps o P s s' ->
  wf s' /\ linked P s' /\ (k_cur s <= k_cur s')%nat /\
  forall id c, sees s' id c -> sees s id c \/ (k_cur s < id <= k_cur s')%nat.
Proof.
  intros W L T. induction T as [s|s1 s2 s3 T IH S3].
  - split; [auto|]. split; [auto|]. split; auto.
  - destruct (IH W L) as (W2 & L2 & C2 & B2). destruct (tstep_inv _ _ _ _ W2 L2 S3) as (W3 & L3 & C3 & B3).
    split; [auto|]. split; [auto|]. split; [lia|]. intros id c X. destruct (B3 _ _ X) as [Y|Y]; [|right; lia].
    destruct (B2 _ _ Y) as [|]; [auto|right; lia].
Qed.

Lemma linked_new P o : linked P (track_new o).
Proof. intros id c c' [[]|X]. cbn in X. congruence. Qed.

Lemma treach_inv o P s : treach o P s ->
  wf s /\ linked P s /\ forall id c, sees s id c -> (4 * ko_aruco o + 1 < id <= k_cur s)%nat.
Proof.
  intros T. destruct (tsteps_inv _ _ _ _ (treach_new_wf o) (linked_new P o) T) as (W & L & C & B).
  split; [auto|]. split; [auto|]. intros id c X. destruct (B _ _ X) as [[[]|Y]|Y]; [cbn in Y; congruence|]. cbn [track_new k_cur] in Y. lia.
Qed.
