(** C84: the poses chosen and the size of the linear system. *)
From Coq Require Import Reals List Arith ZArith Bool Sorted Lia Lra.
From Verif Require Import RBool Outcome GeoModel GeoSpec Lin TypesModel ImuModel DbModel DbSpec DbProofs PropModel PropSpec CpiModel CpiSpec DynModel DynSpec.
Import ListNotations.
Open Scope R_scope.

(** ** distances *)
Definition near_step (t : R) (m : option R) (x : R) : option R := match m with None => Some (Rabs (t - x)) | Some y => Some (if Rltb (Rabs (t - x)) y then Rabs (t - x) else y) end.
Lemma near_fold t l : forall m,
  match fold_left (near_step t) l m with
  | None => l = [] /\ m = None
  | Some a => ((exists x, In x l /\ a = Rabs (t - x)) \/ m = Some a) /\ (forall x, In x l -> a <= Rabs (t - x)) /\ (forall y, m = Some y -> a <= y)
  end.
Proof.
  induction l as [|x l IH]; intros m; cbn [fold_left].
  - destruct m as [a|]; [|auto]. split; [auto|]. split; [intros x []|]. intros y E. injection E as ->. lra.
  - specialize (IH (near_step t m x)). rename IH into H. destruct (fold_left (near_step t) l (near_step t m x)) as [a|]; unfold near_step in H.
    + destruct H as (H1 & H2 & H3). destruct m as [y|].
      * specialize (H3 _ eq_refl). destruct (Rltb_spec (Rabs (t - x)) y).
        -- split; [|split].
           ++ left. destruct H1 as [(z & Z1 & Z2)|E]; [exists z; split; [right; auto|auto]|]. injection E as <-. exists x. split; [left; auto|auto].
           ++ intros z [<-|Z]; auto.
           ++ intros z E. injection E as <-. lra.
        -- split; [|split].
           ++ destruct H1 as [(z & Z1 & Z2)|E]; [left; exists z; split; [right; auto|auto]|]. right; exact E.
           ++ intros z [<-|Z]; [lra|auto].
           ++ intros z E. injection E as <-. lra.
      * specialize (H3 _ eq_refl). split; [|split].
        -- left. destruct H1 as [(z & Z1 & Z2)|E]; [exists z; split; [right; auto|auto]|]. injection E as <-. exists x. split; [left; auto|auto].
        -- intros z [<-|Z]; auto.
        -- intros z E. discriminate.
    + destruct H as [_ H]. destruct m; discriminate.
Qed.
Lemma near_some t l a : near t l = Some a -> (exists x, In x l /\ a = Rabs (t - x)) /\ (forall x, In x l -> a <= Rabs (t - x)).
Proof. intros E. change (near t l) with (fold_left (near_step t) l None) in E. pose proof (near_fold t l None) as H. rewrite E in H. destruct H as ([H|H] & H2 & _); [auto|discriminate]. Qed.
Lemma near_none t l : near t l = None -> l = [].
Proof. intros E. change (near t l) with (fold_left (near_step t) l None) in E. pose proof (near_fold t l None) as H. rewrite E in H. apply H. Qed.
Lemma taken_true dt t l : taken dt t l = true -> In t l \/ forall x, In x l -> dt <= Rabs (t - x).
Proof.
  unfold taken. destruct (near t l) as [a|] eqn:E.
  - intros H. apply near_some in E. destruct E as ((x & X1 & X2) & X3). apply orb_prop in H. destruct H as [H|H].
    + right. intros y Hy. destruct (Rleb_spec dt a); [|discriminate]. specialize (X3 y Hy). lra.
    + left. destruct (Reqb_spec a 0) as [Z|]; [|discriminate]. rewrite X2 in Z. assert (t = x) by (destruct (Req_dec (t - x) 0); [lra|apply Rabs_no_R0 in H0; contradiction]). subst; auto.
  - intros _. right. apply near_none in E. subst l. intros x [].
Qed.
Lemma taken_false dt t l : taken dt t l = false -> exists x, In x l /\ 0 < Rabs (t - x) < dt.
Proof.
  unfold taken. destruct (near t l) as [a|] eqn:E; [|discriminate]. intros H. apply near_some in E. destruct E as ((x & X1 & X2) & _).
  apply orb_false_elim in H. destruct H as [H1 H2]. exists x. split; [auto|]. destruct (Rleb_spec dt a); [discriminate|]. destruct (Reqb_spec a 0); [discriminate|].
  pose proof (Rabs_pos (t - x)). lra.
Qed.
Lemma tfind_in l t : tfind l t = true <-> In t l.
Proof.
  unfold tfind. rewrite existsb_exists. split.
  - intros (x & Hx & E). destruct (Reqb_spec x t); [subst; auto|discriminate].
  - intros H. exists t. split; [auto|]. destruct (Reqb_spec t t); [auto|contradiction].
Qed.

(** ** picking the times of one feature *)
Lemma pick_cam_spec dt P ts : 0 < dt -> forall acc, spaced dt (P ++ acc) ->
  exists new, pick_cam dt P acc ts = acc ++ new /\ spaced dt (P ++ acc ++ new) /\ incl new ts /\
    forall Q, spaced dt Q -> incl (P ++ acc ++ new) Q -> length new = length (filter (tfind Q) ts).
Proof.
  intros Hd. induction ts as [|t ts IH]; intros acc Hs; unfold pick_cam; cbn [fold_left].
  - exists []. rewrite !app_nil_r. split; [reflexivity|]. split; [exact Hs|]. split; [intros x []|reflexivity].
  - fold (pick_cam dt P (if taken dt t (P ++ acc) then acc ++ [t] else acc) ts). destruct (taken dt t (P ++ acc)) eqn:T.
    + assert (Hs' : spaced dt (P ++ acc ++ [t])).
      { rewrite app_assoc. intros x y Hx Hy Hn. apply in_app_or in Hx. apply in_app_or in Hy.
        destruct (taken_true _ _ _ T) as [I|F].
        - assert (X : In x (P ++ acc)) by (destruct Hx as [?|[<-|[]]]; auto). assert (Y : In y (P ++ acc)) by (destruct Hy as [?|[<-|[]]]; auto). apply Hs; auto.
        - destruct Hx as [Hx|[<-|[]]], Hy as [Hy|[<-|[]]]; [apply Hs; auto| |auto|contradiction].
          rewrite Rabs_minus_sym. apply F; auto. }
      destruct (IH _ Hs') as (new & E & S & I & C). exists (t :: new). rewrite <- app_assoc in E. split; [exact E|]. rewrite <- app_assoc in S. split; [exact S|].
      split; [intros x [<-|Hx]; [left; auto|right; auto]|].
      intros Q HQ Hi. cbn [filter length]. rewrite <- app_assoc in C. rewrite (C Q HQ Hi).
      replace (tfind Q t) with true; [reflexivity|]. symmetry. apply tfind_in. apply Hi. rewrite !in_app_iff. simpl. auto.
    + destruct (IH _ Hs) as (new & E & S & I & C). exists new. split; [exact E|]. split; [exact S|]. split; [intros x Hx; right; auto|].
      intros Q HQ Hi. cbn [filter]. rewrite (C Q HQ Hi). destruct (tfind Q t) eqn:F; [exfalso|reflexivity]. apply tfind_in in F.
      destruct (taken_false _ _ _ T) as (x & Hx & D). assert (Hxq : In x Q) by (apply Hi; rewrite !in_app_iff in *; tauto).
      assert (N : t <> x) by (intros ->; rewrite Rminus_diag_eq in D by reflexivity; rewrite Rabs_R0 in D; lra).
      specialize (HQ t x F Hxq N). lra.
Qed.
Lemma pick_spec dt P f : 0 < dt -> spaced dt P ->
  spaced dt (P ++ pick dt P f) /\ (forall t, In t (pick dt P f) -> obs_time f t) /\
  forall Q, spaced dt Q -> incl (P ++ pick dt P f) Q -> length (pick dt P f) = at_poses Q f.
Proof.
  intros Hd Hs. unfold pick, at_poses, obs_time.
  assert (G : forall l acc, spaced dt (P ++ acc) ->
    exists new, fold_left (fun acc (ct : nat * list R) => pick_cam dt P acc (snd ct)) l acc = acc ++ new /\ spaced dt (P ++ acc ++ new) /\
      (forall t, In t new -> exists cam ts, In (cam, ts) l /\ In t ts) /\
      forall Q, spaced dt Q -> incl (P ++ acc ++ new) Q -> length new = fold_right (fun (ct : nat * list R) n => (length (filter (tfind Q) (snd ct)) + n)%nat) O l).
  { induction l as [|[cam ts] l IH]; intros acc H; cbn [fold_left fold_right snd].
    - exists []. rewrite !app_nil_r. split; [reflexivity|]. split; [exact H|]. split; [intros t []|reflexivity].
    - destruct (pick_cam_spec dt P ts Hd acc H) as (n1 & E1 & S1 & I1 & C1). rewrite E1. destruct (IH _ S1) as (n2 & E2 & S2 & I2 & C2).
      exists (n1 ++ n2). rewrite E2, <- app_assoc. split; [reflexivity|]. rewrite <- app_assoc in S2. split; [exact S2|]. split.
      + intros t Ht. apply in_app_or in Ht. destruct Ht as [Ht|Ht]; [exists cam, ts; split; [left; auto|auto]|].
        destruct (I2 t Ht) as (c & u & A & B). exists c, u. split; [right; auto|auto].
      + intros Q HQ Hi. rewrite app_length. rewrite (C1 Q HQ), (C2 Q HQ); [reflexivity| |].
        * rewrite <- app_assoc. exact Hi.
        * intros x Hx. apply Hi. rewrite !in_app_iff in *. tauto. }
  destruct (G (f_ts f) []) as (new & E & S & I & C); [rewrite app_nil_r; exact Hs|]. rewrite E. cbn [app] in *. auto.
Qed.

(** ** the map of poses *)
Lemma tins_in t x l : In x (tins t l) <-> x = t \/ In x l.
Proof.
  induction l as [|y l IH]; cbn [tins]; [simpl; intuition|].
  destruct (Rltb_spec t y); [simpl; intuition|]. destruct (Reqb_spec t y); [subst; simpl; intuition|]. cbn [In]. rewrite IH. intuition.
Qed.
Lemma tins_sorted t l : StronglySorted Rlt l -> StronglySorted Rlt (tins t l).
Proof.
  induction l as [|y l IH]; intros H; cbn [tins]; [repeat constructor|]. inversion H; subst.
  destruct (Rltb_spec t y) as [L|L]. { constructor; [exact H|]. constructor; [exact L|]. eapply Forall_impl; [|exact H3]. intros; simpl in *; lra. }
  destruct (Reqb_spec t y) as [E|E]; [exact H|]. constructor; [auto|]. apply Forall_forall. intros x Hx. apply tins_in in Hx. destruct Hx as [->|Hx]; [lra|].
  rewrite Forall_forall in H3. auto.
Qed.
Lemma tins_all_in x ts : forall l, In x (fold_left (fun l t => tins t l) ts l) <-> In x ts \/ In x l.
Proof. induction ts as [|t ts IH]; intros l; cbn [fold_left]; [simpl; intuition|]. rewrite IH, tins_in. simpl. intuition. Qed.
Lemma tins_all_sorted ts : forall l, StronglySorted Rlt l -> StronglySorted Rlt (fold_left (fun l t => tins t l) ts l).
Proof. induction ts as [|t ts IH]; intros l H; cbn [fold_left]; [exact H|]. apply IH, tins_sorted, H. Qed.
Lemma min_fold ts : forall m, let r := fold_left (fun m t => match m with None => Some t | Some x => Some (if Rltb t x then t else x) end) ts m in
  (forall a, r = Some a -> m = Some a \/ In a ts) /\ (forall t, In t ts -> exists a, r = Some a /\ a <= t) /\ (forall a, m = Some a -> exists b, r = Some b /\ b <= a).
Proof.
  induction ts as [|t ts IH]; intros m; cbn [fold_left]; cbv zeta.
  - split; [auto|]. split; [intros t []|]. intros a E. exists a. split; [auto|lra].
  - match goal with |- context[fold_left _ ts ?m0] => destruct (IH m0) as (A & B & C) end. destruct m as [x|].
    + destruct (Rltb_spec t x).
      * destruct (C t eq_refl) as (b & C1 & C2). split; [|split].
        -- intros a E. destruct (A a E) as [E'|I]; [injection E' as <-; right; left; auto|right; right; auto].
        -- intros u [<-|Hu]; [exists b; auto|auto].
        -- intros a E. injection E as <-. exists b. split; [auto|lra].
      * destruct (C x eq_refl) as (b & C1 & C2). split; [|split].
        -- intros a E. destruct (A a E) as [E'|I]; [left; auto|right; right; auto].
        -- intros u [<-|Hu]; [exists b; split; [auto|lra]|auto].
        -- intros a E. injection E as <-. exists b. split; [auto|lra].
    + destruct (C t eq_refl) as (b & C1 & C2). split; [|split].
      * intros a E. destruct (A a E) as [E'|I]; [injection E' as <-; right; left; auto|right; right; auto].
      * intros u [<-|Hu]; [exists b; auto|auto].
      * intros a E. discriminate.
Qed.

(** ** the scan *)
Lemma total_cons P e l : total P (e :: l) = (at_poses P (snd e) + total P l)%nat. Proof. reflexivity. Qed.
Definition num_of (s : scanned) (id : nat) : nat := match alook (sc_num s) id with Some n => n | None => O end.
Lemma alook_aset {A} (m : amap A) k v k' : alook (aset m k v) k' = if Nat.eqb k' k then Some v else alook m k'.
Proof.
  induction m as [|[a b] m IH]; cbn [aset alook]; [destruct (Nat.eqb k' k); reflexivity|].
  destruct (Nat.eqb_spec k a) as [->|N]; cbn [alook].
  - destruct (Nat.eqb k' a); reflexivity.
  - destruct (Nat.eqb_spec k' a) as [->|N']; [|exact IH]. destruct (Nat.eqb_spec a k); [congruence|reflexivity].
Qed.
Lemma step_num o dt s e id : num_of (scan_step o dt s e) id = if Nat.eqb id (fst e) then length (pick dt (sc_poses s) (snd e)) else num_of s id.
Proof. unfold num_of, scan_step. destruct (usable o _); cbn [sc_num]; rewrite alook_aset; destruct (Nat.eqb id (fst e)); reflexivity. Qed.
Lemma scan_num_other o dt l : forall s id, ~ In id (map fst l) -> num_of (fold_left (scan_step o dt) l s) id = num_of s id.
Proof.
  induction l as [|e l IH]; intros s id H; cbn [fold_left]; [reflexivity|]. cbn [map] in H. rewrite IH by (intros X; apply H; right; exact X).
  rewrite step_num. destruct (Nat.eqb_spec id (fst e)); [exfalso; apply H; left; auto|reflexivity].
Qed.
Lemma scan_inv o dt l : 0 < dt -> NoDup (map fst l) -> forall s, spaced dt (sc_poses s) -> StronglySorted Rlt (sc_poses s) ->
  let s' := fold_left (scan_step o dt) l s in let U := filter (fun e => usable o (num_of s' (fst e))) l in
  spaced dt (sc_poses s') /\ StronglySorted Rlt (sc_poses s') /\ incl (sc_poses s) (sc_poses s') /\
  sc_cnt s' = (sc_cnt s + length U)%nat /\ sc_meas s' = (sc_meas s + 2 * total (sc_poses s') U)%nat /\
  (forall t, In t (sc_poses s') -> In t (sc_poses s) \/ exists e, In e U /\ obs_time (snd e) t) /\
  (forall m, sc_old s' = Some m -> sc_old s = Some m \/ In m (sc_poses s')) /\
  (forall t, In t (sc_poses s') -> In t (sc_poses s) \/ exists m, sc_old s' = Some m /\ m <= t) /\
  (forall a, sc_old s = Some a -> exists m, sc_old s' = Some m /\ m <= a) /\
  (forall e, In e U -> (exists t, obs_time (snd e) t /\ In t (sc_poses s')) -> exists m, sc_old s' = Some m).
Proof.
  intros Hd. induction l as [|e l IH]; intros Nd s Hs Ho; cbn [fold_left]; cbv zeta.
  - cbn [filter length total fold_right]. split; [exact Hs|]. split; [exact Ho|]. split; [apply incl_refl|]. split; [lia|]. split; [lia|]. split; [auto|]. split; [auto|]. split; [auto|]. split; [|intros e []].
    intros a E. exists a. split; [auto|lra].
  - cbn [map] in Nd. inversion Nd as [|? ? Ne Nd']; subst. set (times := pick dt (sc_poses s) (snd e)).
    destruct (pick_spec dt (sc_poses s) (snd e) Hd Hs) as (P1 & P2 & P3). fold times in P1, P2, P3.
    assert (EN : num_of (fold_left (scan_step o dt) l (scan_step o dt s e)) (fst e) = length times).
    { rewrite scan_num_other by exact Ne. rewrite step_num, Nat.eqb_refl. reflexivity. }
    assert (Q : usable o (length times) = true -> spaced dt (sc_poses (scan_step o dt s e)) /\ StronglySorted Rlt (sc_poses (scan_step o dt s e))).
    { intros U. unfold scan_step. fold times. rewrite U. cbn [sc_poses]. split; [|apply tins_all_sorted, Ho].
      intros x y Hx Hy. apply tins_all_in in Hx. apply tins_all_in in Hy. apply P1; apply in_or_app; tauto. }
    cbn [filter]. rewrite EN. destruct (usable o (length times)) eqn:U.
    + destruct (Q eq_refl) as [Q1 Q2]. specialize (IH Nd' (scan_step o dt s e) Q1 Q2). cbv zeta in IH.
      destruct IH as (A1 & A2 & A3 & A4 & A5 & A6 & A7 & A8 & A9 & A10). set (s' := fold_left (scan_step o dt) l (scan_step o dt s e)) in *.
      assert (Es : scan_step o dt s e = mkSc (aset (sc_num s) (fst e) (length times)) (sc_meas s + 2 * length times)
        (fold_left (fun m t => match m with None => Some t | Some x => Some (if Rltb t x then t else x) end) times (sc_old s))
        (fold_left (fun l t => tins t l) times (sc_poses s)) (S (sc_cnt s))) by (unfold scan_step; fold times; rewrite U; reflexivity).
      rewrite Es in A3, A4, A5, A6, A7, A8, A9. cbn [sc_poses sc_cnt sc_meas sc_old] in A3, A4, A5, A6, A7, A8, A9.
      assert (I : incl (sc_poses s ++ times) (sc_poses s')). { intros x Hx. apply A3. apply tins_all_in. apply in_app_or in Hx. tauto. }
      pose proof (min_fold times (sc_old s)) as M. cbv zeta in M. destruct M as (M1 & M2 & M3).
      split; [exact A1|]. split; [exact A2|]. split; [intros x Hx; apply I, in_or_app; auto|].
      split; [rewrite A4; cbn [length]; lia|]. split.
      { rewrite A5, total_cons, <- (P3 _ A1 I). lia. }
      split; [|split; [|split; [|split]]].
      * intros t Ht. destruct (A6 t Ht) as [H|(e' & E1 & E2)]; [|right; exists e'; split; [right; exact E1|exact E2]].
        apply tins_all_in in H. destruct H as [H|H]; [|left; exact H]. right. exists e. split; [left; reflexivity|apply P2, H].
      * intros m Hm. destruct (A7 m Hm) as [H|H]; [|right; exact H]. destruct (M1 m H) as [H'|H']; [left; exact H'|right; apply I, in_or_app; auto].
      * intros t Ht. destruct (A8 t Ht) as [H|H]; [|right; exact H]. apply tins_all_in in H. destruct H as [H|H]; [|left; exact H].
        right. destruct (M2 t H) as (a & E1 & E2). destruct (A9 a E1) as (m & E3 & E4). exists m. split; [exact E3|lra].
      * intros a Ha. destruct (M3 a Ha) as (b & E1 & E2). destruct (A9 b E1) as (m & E3 & E4). exists m. split; [exact E3|lra].
      * intros e' [<-|He'] X; [|apply (A10 e' He' X)]. destruct X as (t & (cam & ts & T1 & T2) & T3).
        assert (L : (1 <= length times)%nat).
        { rewrite (P3 _ A1 I). unfold at_poses. clear -T1 T2 T3. induction (f_ts (snd e)) as [|[c u] r IHr]; [destruct T1|]. cbn [fold_right snd]. destruct T1 as [T1|T1].
          - injection T1 as -> ->. assert (In t (filter (tfind (sc_poses s')) ts)) by (apply filter_In; split; [auto|apply tfind_in; auto]). destruct (filter (tfind (sc_poses s')) ts); [destruct H|simpl; lia].
          - specialize (IHr T1). lia. }
        destruct times as [|u times'] eqn:Et; [simpl in L; lia|]. destruct (M2 u (or_introl eq_refl)) as (a & E1 & _). destruct (A9 a E1) as (m & E3 & _). exists m; exact E3.
    + assert (Es : scan_step o dt s e = mkSc (aset (sc_num s) (fst e) (length times)) (sc_meas s) (sc_old s) (sc_poses s) (sc_cnt s)) by (unfold scan_step; fold times; rewrite U; reflexivity).
      specialize (IH Nd' (scan_step o dt s e)). rewrite Es in IH at 1 2. cbn [sc_poses] in IH. specialize (IH Hs Ho). cbv zeta in IH.
      destruct IH as (A1 & A2 & A3 & A4 & A5 & A6 & A7 & A8 & A9 & A10). set (s' := fold_left (scan_step o dt) l (scan_step o dt s e)) in *.
      rewrite Es in A3, A4, A5, A6, A7, A8, A9. cbn [sc_poses sc_cnt sc_meas sc_old] in A3, A4, A5, A6, A7, A8, A9.
      split; [exact A1|]. split; [exact A2|]. split; [exact A3|]. split; [exact A4|]. split; [exact A5|]. split; [exact A6|]. split; [exact A7|]. split; [exact A8|]. split; [exact A9|exact A10].
Qed.
