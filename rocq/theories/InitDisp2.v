From Coq Require Import Reals List Arith Bool Lia Lra.
From Verif Require Import RBool Outcome GeoModel Lin DbModel DbSpec DbProofs InitModel InitSpec InitProofs InitThms InitDisp DispSpec.
Import ListNotations.
Open Scope R_scope.

(** ** overload 1 *)
Lemma tindex_first ts : forall us ns t u, length us = length ts -> length ns = length ts ->
  ((exists i, tindex ts t = Some i /\ nth_error us i = Some u) <-> first_at (zip3 ts us ns) t u).
Proof.
  induction ts as [|x ts IH]; intros [|v us] [|n ns] t u L1 L2; simpl in L1, L2; try discriminate.
  - simpl. split; [intros (i & E & _); discriminate|]. intros (l1 & n & l2 & E & _). destruct l1; discriminate.
  - cbn [tindex zip3]. destruct (Reqb_spec x t) as [->|Ne].
    + split.
      * intros (i & E & F). injection E as <-. simpl in F. injection F as ->. exists [], n, (zip3 ts us ns). auto.
      * intros (l1 & m & l2 & E & H). destruct l1 as [|o l1]; simpl in E.
        -- injection E as -> -> E. exists O. auto.
        -- exfalso. injection E as <- _. apply (H (t, v, n) (or_introl eq_refl)). reflexivity.
    + specialize (IH us ns t u ltac:(lia) ltac:(lia)). split.
      * intros (i & E & N). destruct (tindex ts t) as [j|] eqn:T; [|discriminate]. injection E as <-. simpl in N.
        destruct (proj1 IH (ex_intro _ j (conj eq_refl N))) as (l1 & m & l2 & E & H).
        exists ((x, v, n) :: l1), m, l2. rewrite E. split; auto. intros o [<-|I]; auto.
      * intros (l1 & m & l2 & E & H). destruct l1 as [|o l1]; simpl in E; injection E.
        -- intros _ _ _ Ex. congruence.
        -- intros E' Eo. destruct (proj2 IH) as (j & T & N); [exists l1, m, l2; split; auto; intros; apply H; right; auto|].
           rewrite T. exists (S j). auto.
Qed.
Lemma pairs1_first t0 t1 f cam u0 u1 : feat_ok f ->
  (In (cam, u0, u1) (pairs1 t0 t1 f) <-> first_at (ftrack f cam) t0 u0 /\ first_at (ftrack f cam) t1 u1).
Proof.
  intros OK. pose proof OK as [N P]. unfold pairs1. rewrite in_flat_map. split.
  - intros ((c & ts) & I & J). pose proof (seen_both_cam _ _ _ _ _ J) as Ec. simpl in Ec. subst c.
    destruct (par_uvs f cam ts OK I) as (A1 & _ & A3 & A4). unfold seen_both in J. cbn [fst snd] in J.
    destruct (tindex ts t0) as [i0|] eqn:E0; [|destruct J]. destruct (tindex ts t1) as [i1|] eqn:E1; [|destruct J].
    destruct (nth_error _ i0) as [v0|] eqn:F0; [|destruct J]. destruct (nth_error _ i1) as [v1|] eqn:F1; [|destruct J].
    destruct J as [[= <- <-]|[]]. unfold ftrack. unfold aget at 1 4. rewrite A1. split; apply tindex_first; eauto.
  - intros (H0 & H1). destruct (alook (f_ts f) cam) as [ts|] eqn:A.
    2:{ exfalso. unfold ftrack, aget in H0. rewrite A in H0. destruct H0 as (l1 & n & l2 & E & _). destruct l1; discriminate. }
    pose proof A as A'. apply alook_in in A'; auto. exists (cam, ts). split; auto.
    destruct (par_uvs f cam ts OK A') as (A1 & _ & A3 & A4).
    assert (T : aget (f_ts f) cam = ts) by (unfold aget; rewrite A; reflexivity).
    unfold ftrack in H0, H1. rewrite T in H0, H1.
    apply tindex_first in H0; auto. apply tindex_first in H1; auto. destruct H0 as (i0 & E0 & F0). destruct H1 as (i1 & E1 & F1).
    unfold seen_both. cbn [fst snd]. rewrite E0, E1, F0, F1. left; reflexivity.
Qed.
Lemma disparity_pairs_any d t0 t1 : db_ok d ->
  exists pairs ds r, compute_disparity d t0 t1 = Ok r /\
    NoDup (map qkey pairs) /\
    (forall id cam u0 u1, In (id, cam, u0, u1) pairs <->
       exists f, alook d id = Some f /\ f_del f = false /\ first_at (ftrack f cam) t0 u0 /\ first_at (ftrack f cam) t1 u1) /\
    Forall2 (fun p x => displacement (snd (fst p)) (snd p) x) pairs ds /\ stats_of ds r.
Proof.
  intros OK. pose proof OK as [ND F]. unfold compute_disparity, features_containing. rewrite query_loop_eq. cbn [fst andb].
  set (sel := filter _ d).
  assert (Fs : forall id f, In (id, f) sel -> feat_ok f /\ In (id, f) d /\ f_del f = false).
  { intros id f I. unfold sel in I. apply filter_In in I. destruct I as [I B]. cbn [snd] in B. apply andb_true_iff in B. destruct B as [B _].
    apply F in I as I'. split; [tauto|]. split; auto. destruct (f_del f); auto. }
  rewrite (collect_pairs _ (pairs1 t0 t1)) by (intros id f I; apply disp_cams_pairs; apply (Fs id f I)). cbn [obind].
  exists (tagged (pairs1 t0 t1) sel), (map qdist (tagged (pairs1 t0 t1) sel)). eexists. split; [reflexivity|].
  split; [apply tagged_nodup; [apply nodup_filter_keys; auto|intros id f I; apply pairs1_nodup; apply (Fs id f I)]|].
  split; [|split; [apply qdist_forall|apply disp_stats_of]].
  intros id cam u0 u1. rewrite tagged_in. split.
  - intros (f & I & J). destruct (Fs id f I) as (Fo & I' & Del). apply alook_in in I'; auto. rewrite pairs1_first in J by auto. eauto.
  - intros (f & A & Del & H0 & H1). exists f. assert (I : In (id, f) d) by (apply alook_in; auto). assert (Fo : feat_ok f) by (apply F in I; tauto).
    split; [|rewrite pairs1_first; auto].
    unfold sel. apply filter_In. split; auto. cbn [snd]. rewrite Del. cbn [negb andb]. unfold has_time. apply existsb_exists.
    destruct H0 as (l1 & n & l2 & E & _). assert (J0 : In (t0, u0, n) (ftrack f cam)) by (rewrite E; apply in_elt).
    destruct (alook (f_ts f) cam) as [ts|] eqn:At; [|exfalso; unfold ftrack, aget in J0; rewrite At in J0; destruct J0].
    destruct Fo as [Nf Pf]. exists (cam, ts). split; [apply alook_in; auto|]. cbn [snd]. unfold tfind. apply existsb_exists. exists t0.
    split; [|apply Reqb_true; auto]. apply (in_map otime) in J0. rewrite ftrack_times in J0 by auto. unfold aget in J0. rewrite At in J0. exact J0.
Qed.

(** ** overload 2 *)
Lemma okl_iff lo t : okl lo t = true <-> lo = -1 \/ lo < t.
Proof. unfold okl. rewrite orb_true_iff, Reqb_true, Rltb_true. tauto. Qed.
Lemma okh_iff hi t : okh hi t = true <-> hi = -1 \/ t < hi.
Proof. unfold okh. rewrite orb_true_iff, Reqb_true, Rltb_true. tauto. Qed.
Lemma okl_not lo t : okl lo t = false <-> lo <> -1 /\ t <= lo.
Proof. unfold okl. rewrite orb_false_iff, Reqb_false, Rltb_false. tauto. Qed.
Lemma okh_not hi t : okh hi t = false <-> hi <> -1 /\ hi <= t.
Proof. unfold okh. rewrite orb_false_iff, Reqb_false, Rltb_false. tauto. Qed.
Lemma filter_last {A} (p : A -> bool) l : match filter p l with
  | [] => forall o, In o l -> p o = false
  | o :: l' => exists l2 l3, l = l2 ++ last l' o :: l3 /\ p (last l' o) = true /\ forall x, In x l3 -> p x = false
  end.
Proof.
  induction l as [|a l IH]; [intros o []|]. cbn [filter]. destruct (p a) eqn:E.
  - destruct (filter p l) as [|o l'] eqn:F.
    + exists [], l. auto.
    + destruct IH as (l2 & l3 & El & Ep & H). assert (La : last (o :: l') a = last l' o).
      { clear. revert o a. induction l' as [|y l' IH]; intros; [reflexivity|]. change (last (y :: l') a = last (y :: l') o). apply last_default. discriminate. }
      rewrite La. exists (a :: l2), l3. rewrite El at 1. auto.
  - destruct (filter p l) as [|o l'].
    + intros o [<-|I]; auto.
    + destruct IH as (l2 & l3 & -> & H). exists (a :: l2), l3. auto.
Qed.
Lemma last_split_unique {A} (p : A -> bool) l2 b l3 m2 c m3 : l2 ++ b :: l3 = m2 ++ c :: m3 -> p b = true -> p c = true ->
  (forall x, In x l3 -> p x = false) -> (forall x, In x m3 -> p x = false) -> b = c.
Proof.
  revert m2. induction l2 as [|x l2 IH]; intros [|y m2] E B C H3 K3; simpl in E; injection E.
  - auto.
  - intros E' _. subst l3. assert (In c (m2 ++ c :: m3)) by apply in_elt. rewrite H3 in C; auto. discriminate.
  - intros E' _. subst m3. assert (In b (l2 ++ b :: l3)) by apply in_elt. rewrite K3 in B; auto. discriminate.
  - intros E' _. eapply IH; eauto.
Qed.
Lemma scanl_ends lo hi l u0 u1 : scanl lo hi l None None = (Some u0, Some u1) <-> outer_ends lo hi l u0 u1.
Proof.
  induction l as [|o l IH].
  { simpl. split; [discriminate|]. intros (l1 & a & l2 & b & l3 & E & _). destruct l1; discriminate. }
  cbn [scanl]. destruct (okl lo (otime o)) eqn:E.
  - rewrite scanl_some. pose proof (filter_last (fun x => okh hi (otime x)) l) as FL. split.
    + destruct (filter _ l) as [|x l']; [discriminate|]. intros [= <- <-]. destruct FL as (l2 & l3 & El & Ep & H).
      exists [], o, l2, (last l' x), l3. cbn [app]. rewrite <- El. split; auto. split; [apply okl_iff; auto|]. split; [intros y []|].
      split; [apply okh_iff; auto|]. split; auto. intros y Iy. apply okh_not. auto.
    + intros (l1 & a & l2 & b & l3 & Eq & Ha & Hl1 & Hb & Hl3 & -> & ->). destruct l1 as [|y l1]; simpl in Eq.
      2:{ exfalso. injection Eq as <- _. apply (okl_not lo (otime o)) in Hl1; [congruence|left; auto]. }
      injection Eq as <- Eq. destruct (filter _ l) as [|x l'] eqn:F.
      * exfalso. apply okh_iff in Hb. rewrite FL in Hb; [discriminate|]. rewrite Eq. apply in_elt.
      * destruct FL as (m2 & m3 & El & Ep & H). f_equal. f_equal. f_equal. rewrite El in Eq.
        eapply (last_split_unique (fun x => okh hi (otime x))); [exact Eq|exact Ep|apply okh_iff; auto|exact H|intros z Hz; apply okh_not; auto].
  - rewrite IH. split.
    + intros (l1 & a & l2 & b & l3 & -> & Ha & Hl1 & R). exists (o :: l1), a, l2, b, l3. split; auto. split; auto. split; auto.
      intros y [<-|Iy]; auto. apply okl_not; auto.
    + intros (l1 & a & l2 & b & l3 & Eq & Ha & Hl1 & R). destruct l1 as [|y l1]; simpl in Eq; injection Eq.
      * intros _ <-. apply okl_iff in Ha. congruence.
      * intros El _. exists l1, a, l2, b, l3. split; auto. split; auto. split; auto. intros; apply Hl1; right; auto.
Qed.
Lemma pairs2_ends lo hi f cam u0 u1 : feat_ok f -> (In (cam, u0, u1) (pairs2 lo hi f) <-> outer_ends lo hi (ftrack f cam) u0 u1).
Proof.
  intros OK. pose proof OK as [N P]. rewrite <- scanl_ends. unfold pairs2. rewrite in_flat_map. split.
  - intros ((c & ts) & I & J). pose proof (range_cam_cam _ _ _ _ _ J) as Ec. simpl in Ec. subst c. unfold range_cam in J. cbn [fst snd] in J.
    destruct (_ <? _)%nat; [destruct J|]. destruct (scanl _ _ _ _ _) as [[v0|] [v1|]]; try contradiction; destruct J as [[= <- <-]|[]]. reflexivity.
  - intros E. destruct (alook (f_ts f) cam) as [ts|] eqn:A.
    2:{ exfalso. unfold ftrack, aget in E. rewrite A in E. discriminate. }
    exists (cam, ts). split; [apply alook_in; auto|]. unfold range_cam. cbn [fst snd]. rewrite E.
    destruct (Nat.ltb_spec (length ts) 2) as [L|L]; [|simpl; auto]. exfalso.
    assert (Ln : length (ftrack f cam) = length ts).
    { rewrite <- (map_length otime), ftrack_times by auto. unfold aget. rewrite A. reflexivity. }
    destruct (ftrack f cam) as [|x [|y l]]; [discriminate| |simpl in Ln; lia]. cbn [scanl] in E. destruct (okl lo (otime x)); discriminate.
Qed.
Lemma disparity_range_pairs_any d hi lo : db_ok d ->
  exists pairs ds r, compute_disparity_range d hi lo = Ok r /\
    NoDup (map qkey pairs) /\
    (forall id cam u0 u1, In (id, cam, u0, u1) pairs <-> exists f, alook d id = Some f /\ outer_ends lo hi (ftrack f cam) u0 u1) /\
    Forall2 (fun p x => displacement (snd (fst p)) (snd p) x) pairs ds /\ stats_of ds r.
Proof.
  intros OK. pose proof OK as [ND F]. unfold compute_disparity_range.
  rewrite (collect_pairs _ (pairs2 lo hi)) by (intros id f I; apply disp_range_pairs; apply F in I; tauto). cbn [obind].
  exists (tagged (pairs2 lo hi) d), (map qdist (tagged (pairs2 lo hi) d)). eexists. split; [reflexivity|].
  split; [apply tagged_nodup; auto; intros id f I; apply pairs2_nodup; apply F in I; tauto|].
  split; [|split; [apply qdist_forall|apply disp_stats_of]].
  intros id cam u0 u1. rewrite tagged_in. split; intros (f & I & J); exists f.
  - assert (A : alook d id = Some f) by (apply alook_in; auto). split; auto. rewrite pairs2_ends in J; auto; apply F in I; tauto.
  - assert (A : In (id, f) d) by (apply alook_in; auto). split; auto. rewrite pairs2_ends; auto; apply F in A; tauto.
Qed.
