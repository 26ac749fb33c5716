(** Proofs about the simulator's measurement generation. *)
From Coq Require Import Reals Lra Lia List Arith Bool Sorting.Sorted.
From Verif Require Import Outcome RBool GeoModel GeoSpec GeoProofs ImuModel PropModel SimModel SimSpec.
Import ListNotations.
Open Scope R_scope.

Lemma ticks_S a d n : ticks a d (S n) = (a + d) :: ticks (a + d) d n.
Proof.
  unfold ticks. change (seq 1 (S n)) with (1%nat :: seq 2 n). cbn [map]. f_equal; [simpl; ring|].
  rewrite <- (seq_shift n 1), map_map. apply map_ext. intros k. rewrite S_INR. ring.
Qed.
Lemma ticks_app a d n m : ticks a d (n + m) = ticks a d n ++ ticks (a + INR n * d) d m.
Proof.
  revert a. induction n as [|n IH]; intros a; [cbn [INR Nat.add app ticks seq map]; replace (a + 0 * d) with a by ring; reflexivity|].
  change (S n + m)%nat with (S (n + m)). rewrite !ticks_S, IH, S_INR. cbn [app]. replace (a + (INR n + 1) * d) with (a + d + INR n * d) by ring. reflexivity.
Qed.

Section Sim.
Variables (p : spar) (w : world).
Hypothesis (Hp : rates_ok p).
Let di := 1 / sp_fi p.
Let dc := 1 / sp_fc p.
Lemma di_pos : 0 < di. Proof. unfold di. destruct Hp. apply Rdiv_lt_0_compat; lra. Qed.
Lemma dc_pos : 0 < dc. Proof. unfold dc. destruct Hp. apply Rdiv_lt_0_compat; lra. Qed.
Definition nx (s : sim) : R := Rmin (sm_imu s + di) (sm_cam s + dc).

Lemma imu_cases a b c d s : let '(s1, e) := get_next_imu p (wo_acc w) a b c d s in
  (s1 = s /\ e = None /\ sm_cam s + dc < sm_imu s + di) \/
  (sm_imu s + di <= sm_cam s + dc /\ sm_imu s1 = sm_imu s + di /\ sm_cam s1 = sm_cam s /\
   ((wo_acc w (sm_imu s + di) = None /\ sm_run s1 = false /\ e = None /\ sm_hist s1 = sm_hist s) \/
    (exists m Q wi ai bg ba, wo_acc w (sm_imu s + di) = Some (Q, wi, ai) /\ sm_run s1 = sm_run s /\ e = Some m /\ i_t m = sm_imu s + di /\
       sm_bg s1 = bg /\ sm_ba s1 = ba /\ sm_skipped s1 = true /\
       (i_w m, i_a m) = sim_reading (sp_Tw p) (sp_Ta p) (sp_Tg p) (sp_qw p) (sp_qa p) wi (sim_force Q ai (sp_grav p)) (v3add bg c) (v3add ba d) /\
       ((sm_skipped s = false /\ sm_hist s1 = sm_hist s /\ bg = sm_bg s /\ ba = sm_ba s) \/
        (sm_skipped s = true /\ sm_hist s1 = sm_hist s ++ [(sm_imu s + di, (bg, ba))] /\ bg = v3add (sm_bg s) a /\ ba = v3add (sm_ba s) b))))).
Proof.
  unfold get_next_imu. fold di dc.
  destruct (Rltb_spec (sm_cam s + dc) (sm_imu s + di)) as [H|H]; cbv beta iota; [left; auto|].
  destruct (wo_acc w (sm_imu s + di)) as [[[Q wi] ai]|] eqn:EA.
  - destruct (sm_skipped s) eqn:ES; unfold sim_reading; cbv beta iota; right; cbn [sm_imu sm_cam sm_run sm_hist sm_bg sm_ba sm_skipped].
    + split; [lra|]. split; [reflexivity|]. split; [reflexivity|]. right.
      do 6 eexists. split; [reflexivity|]. split; [reflexivity|]. split; [reflexivity|]. cbn [i_t i_w i_a].
      split; [reflexivity|]. split; [reflexivity|]. split; [reflexivity|]. split; [reflexivity|]. split; [reflexivity|]. right. auto.
    + split; [lra|]. split; [reflexivity|]. split; [reflexivity|]. right.
      do 6 eexists. split; [reflexivity|]. split; [reflexivity|]. split; [reflexivity|]. cbn [i_t i_w i_a].
      split; [reflexivity|]. split; [reflexivity|]. split; [reflexivity|]. split; [reflexivity|]. split; [reflexivity|]. left. auto.
  - right. cbn. split; [lra|]. split; [reflexivity|]. split; [reflexivity|]. left. auto.
Qed.

Lemma cam_cases nz s : let '(s1, e) := get_next_cam p (wo_pose w) (wo_map w) nz s in
  (s1 = s /\ e = None /\ sm_imu s + di < sm_cam s + dc) \/
  (sm_cam s + dc <= sm_imu s + di /\ sm_imu s1 = sm_imu s /\ sm_cam s1 = sm_cam s + dc /\ sm_t s1 = sm_cam s + dc /\ sm_hist s1 = sm_hist s /\
   sm_bg s1 = sm_bg s /\ sm_ba s1 = sm_ba s /\ sm_skipped s1 = sm_skipped s /\
   ((wo_pose w (sm_cam s + dc) = None /\ sm_run s1 = false /\ e = None) \/
    (exists Q t, wo_pose w (sm_cam s + dc) = Some (Q, t) /\ sm_run s1 = sm_run s /\
       e = Some (sm_cam s + dc - sp_dt p, map (fun i => (i, cam_feats p Q t (wo_map w) (nz i) i)) (seq 0 (sp_ncam p)))))).
Proof.
  unfold get_next_cam. fold di dc.
  destruct (Rltb_spec (sm_imu s + di) (sm_cam s + dc)) as [H|H]; cbv beta iota; [left; auto|].
  destruct (wo_pose w (sm_cam s + dc)) as [[Q t]|] eqn:EA; cbn; right.
  - split; [lra|]. do 7 (split; [reflexivity|]). right. eauto 10.
  - split; [lra|]. do 7 (split; [reflexivity|]). left. auto.
Qed.

Lemma poll_progress d s : sm_run s = true -> let '(s', es) := poll p w d s in es <> [] \/ sm_run s' = false.
Proof.
  intros Hr. unfold poll. pose proof (imu_cases (dr_wb d) (dr_ab d) (dr_w d) (dr_a d) s) as HI.
  destruct (get_next_imu p (wo_acc w) (dr_wb d) (dr_ab d) (dr_w d) (dr_a d) s) as [s1 ei].
  pose proof (cam_cases (dr_px d) s1) as HC. destruct (get_next_cam p (wo_pose w) (wo_map w) (dr_px d) s1) as [s2 ec].
  destruct HI as [(-> & -> & H)|(H & _ & _ & [(_ & HR & -> & _)|(m & Q & wi & ai & bg & ba & _ & _ & -> & _)])].
  - destruct HC as [(_ & _ & H')|(_ & _ & _ & _ & _ & _ & _ & _ & [(_ & HR & ->)|(Q & t & _ & _ & ->)])]; [lra|auto|left; discriminate].
  - right. destruct HC as [(-> & _)|(_ & _ & _ & _ & _ & _ & _ & _ & [(_ & HR' & _)|(Q & t & _ & HR' & _)])]; congruence.
  - left. discriminate.
Qed.

(** order: every event of a pass lies between the earliest next times before and after it *)
Lemma poll_times d s : let '(s', es) := poll p w d s in
  nx s <= nx s' /\ StronglySorted Rle (map ev_time es) /\ Forall (fun t => nx s <= t <= nx s') (map ev_time es).
Proof.
  pose proof di_pos as Di. pose proof dc_pos as Dc.
  unfold poll. pose proof (imu_cases (dr_wb d) (dr_ab d) (dr_w d) (dr_a d) s) as HI.
  destruct (get_next_imu p (wo_acc w) (dr_wb d) (dr_ab d) (dr_w d) (dr_a d) s) as [s1 ei].
  pose proof (cam_cases (dr_px d) s1) as HC. destruct (get_next_cam p (wo_pose w) (wo_map w) (dr_px d) s1) as [s2 ec].
  set (E1 := match ei with Some m => [EImu m] | None => [] end). set (E2 := match ec with Some (tc, fs) => [ECam (sm_t s2) tc fs] | None => [] end).
  assert (A1 : nx s <= nx s1 /\ (map ev_time E1 = [] \/ map ev_time E1 = [nx s])).
  { unfold E1, nx. destruct HI as [(-> & -> & H)|(H & I1 & I2 & [(_ & HR & -> & _)|(m & Q & wi & ai & bg & ba & _ & _ & -> & Em & _)])].
    - split; [lra|auto].
    - rewrite I1, I2. split; [|auto]. unfold Rmin. repeat destruct Rle_dec; lra.
    - rewrite I1, I2. split; [unfold Rmin; repeat destruct Rle_dec; lra|]. right. cbn. rewrite Em. f_equal. rewrite Rmin_left; lra. }
  assert (A2 : nx s1 <= nx s2 /\ (map ev_time E2 = [] \/ map ev_time E2 = [nx s1])).
  { unfold E2, nx. destruct HC as [(-> & -> & H)|(H & I1 & I2 & I3 & _ & _ & _ & _ & [(_ & HR & ->)|(Q & t & _ & HR & ->)])].
    - split; [lra|auto].
    - rewrite I1, I2. split; [|auto]. unfold Rmin. repeat destruct Rle_dec; lra.
    - rewrite I1, I2. split; [unfold Rmin; repeat destruct Rle_dec; lra|]. right. cbn. rewrite I3. f_equal. rewrite Rmin_right; lra. }
  destruct A1 as [A1 B1], A2 as [A2 B2]. split; [lra|]. rewrite map_app.
  destruct B1 as [-> | ->], B2 as [-> | ->]; cbn; split; repeat (apply SSorted_cons || apply SSorted_nil || apply Forall_cons || apply Forall_nil); lra.
Qed.

Lemma SS_app (l1 l2 : list R) x : StronglySorted Rle l1 -> StronglySorted Rle l2 -> Forall (fun t => t <= x) l1 -> Forall (fun t => x <= t) l2 -> StronglySorted Rle (l1 ++ l2).
Proof.
  intros S1 S2 F1 F2. induction l1 as [|a l1 IH]; [exact S2|]. cbn. apply StronglySorted_inv in S1. destruct S1 as [S1 F].
  inversion F1; subst. constructor; [auto|]. apply Forall_app. split; [exact F|]. eapply Forall_impl; [|exact F2]. cbn; intros; lra.
Qed.
Lemma run_sorted d n : forall s, let '(s', es) := run p w d n s in
  nx s <= nx s' /\ StronglySorted Rle (map ev_time es) /\ Forall (fun t => nx s <= t) (map ev_time es).
Proof.
  induction n as [|n IH]; intros s; cbn [run]; [split; [lra|split; constructor]|].
  destruct (sm_run s); [|split; [lra|split; constructor]].
  pose proof (poll_times (d n) s) as P. destruct (poll p w (d n) s) as [s1 e1].
  specialize (IH s1). destruct (run p w d n s1) as [s2 e2].
  destruct P as (P1 & P2 & P3), IH as (I1 & I2 & I3). split; [lra|]. rewrite map_app. split.
  - apply (SS_app _ _ (nx s1)); auto. eapply Forall_impl; [|exact P3]. cbn; intros; lra.
  - apply Forall_app. split; [eapply Forall_impl; [|exact P3]; cbn; intros; lra|]. eapply Forall_impl; [|exact I3]. cbn; intros; lra.
Qed.

(** rates *)
Definition emitted (s s' : sim) (es : list event) (a b : nat) : Prop :=
  imu_times es = ticks (sm_imu s) di a /\ cam_times es = ticks (sm_cam s) dc b /\
  (sm_run s' = true -> sm_imu s' = sm_imu s + INR a * di /\ sm_cam s' = sm_cam s + INR b * dc).
Lemma poll_emitted d s : let '(s', es) := poll p w d s in exists a b, emitted s s' es a b /\ length es = (a + b)%nat.
Proof.
  unfold poll. pose proof (imu_cases (dr_wb d) (dr_ab d) (dr_w d) (dr_a d) s) as HI.
  destruct (get_next_imu p (wo_acc w) (dr_wb d) (dr_ab d) (dr_w d) (dr_a d) s) as [s1 ei].
  pose proof (cam_cases (dr_px d) s1) as HC. destruct (get_next_cam p (wo_pose w) (wo_map w) (dr_px d) s1) as [s2 ec].
  unfold emitted.
  destruct HI as [(-> & -> & H)|(H & I1 & I2 & [(_ & HR & -> & _)|(m & Q & wi & ai & bg & ba & _ & HR & -> & Em & _)])];
  destruct HC as [(-> & -> & H')|(H' & J1 & J2 & J3 & _ & _ & _ & _ & [(_ & HR' & ->)|(Q' & t & _ & HR' & ->)])].
  - exists 0%nat, 0%nat. cbn. repeat split; intros; try ring; auto.
  - exists 0%nat, 0%nat. cbn. repeat split; congruence.
  - exists 0%nat, 1%nat. cbn. rewrite J3, J1, J2. split; [|reflexivity]. split; [reflexivity|]. split; [f_equal; ring|]. intros _. split; ring.
  - exists 0%nat, 0%nat. cbn. repeat split; congruence.
  - exists 0%nat, 0%nat. cbn. repeat split; congruence.
  - exists 0%nat, 1%nat. cbn. rewrite J3, I2. split; [|reflexivity]. split; [reflexivity|]. split; [f_equal; ring|]. intros E; rewrite HR' in E; congruence.
  - exists 1%nat, 0%nat. cbn. rewrite Em. split; [|reflexivity]. split; [unfold ticks; cbn; f_equal; ring|]. split; [reflexivity|]. intros _. rewrite I1, I2. split; ring.
  - exists 1%nat, 0%nat. cbn. rewrite Em. split; [|reflexivity]. split; [unfold ticks; cbn; f_equal; ring|]. split; [reflexivity|]. congruence.
  - exists 1%nat, 1%nat. cbn. rewrite Em, J3. split; [|reflexivity]. split; [unfold ticks; cbn; f_equal; ring|]. split; [unfold ticks; cbn; rewrite I2; f_equal; ring|].
    intros _. rewrite J1, J2, I1, I2. split; ring.
Qed.
Lemma run_emitted d n : forall s, sm_run s = true -> let '(s', es) := run p w d n s in exists a b, emitted s s' es a b /\ length es = (a + b)%nat /\
   (sm_run s' = true -> (n <= a + b)%nat).
Proof.
  induction n as [|n IH]; intros s Hr; cbn [run]. { exists 0%nat, 0%nat. unfold emitted; cbn. repeat split; intros; try ring; auto. }
  rewrite Hr. pose proof (poll_emitted (d n) s) as PE. pose proof (poll_progress (d n) s Hr) as PP. destruct (poll p w (d n) s) as [s1 e1].
  destruct PE as (a & b & (A1 & A2 & A3) & L). destruct (sm_run s1) eqn:E1.
  - specialize (IH s1 E1). destruct (run p w d n s1) as [s2 e2]. destruct IH as (a' & b' & (B1 & B2 & B3) & L' & Ln).
    destruct (A3 eq_refl) as [A4 A5]. exists (a + a')%nat, (b + b')%nat. split; [|split].
    + split; [|split].
      * unfold imu_times in *. rewrite flat_map_app, A1, B1, ticks_app, A4. reflexivity.
      * unfold cam_times in *. rewrite flat_map_app, A2, B2, ticks_app, A5. reflexivity.
      * intros E. destruct (B3 E) as [-> ->]. rewrite A4, A5, !plus_INR. split; ring.
    + rewrite app_length, L, L'. lia.
    + intros E. specialize (Ln E). destruct PP as [PP|PP]; [|congruence]. destruct e1; [congruence|]. cbn in L. lia.
  - assert (E : run p w d n s1 = (s1, [])) by (destruct n; cbn; [reflexivity|rewrite E1; reflexivity]). rewrite E, app_nil_r.
    exists a, b. split; [split; [exact A1|split; [exact A2|intros; congruence]]|]. split; [exact L|congruence].
Qed.

(** termination *)
Lemma poll_bound T d s : (forall t, wo_acc w t <> None -> t <= T) -> (forall t, wo_pose w t <> None -> t <= T) ->
  sm_imu s <= T -> sm_cam s <= T -> let '(s', _) := poll p w d s in sm_run s' = true -> sm_imu s' <= T /\ sm_cam s' <= T.
Proof.
  intros HA HP Bi Bc. unfold poll. pose proof (imu_cases (dr_wb d) (dr_ab d) (dr_w d) (dr_a d) s) as HI.
  destruct (get_next_imu p (wo_acc w) (dr_wb d) (dr_ab d) (dr_w d) (dr_a d) s) as [s1 ei].
  pose proof (cam_cases (dr_px d) s1) as HC. destruct (get_next_cam p (wo_pose w) (wo_map w) (dr_px d) s1) as [s2 ec].
  intros HR2.
  assert (R1 : sm_run s1 = true). { destruct HC as [(-> & _)|(_ & _ & _ & _ & _ & _ & _ & _ & [(_ & HR & _)|(Q & t & _ & HR & _)])]; congruence. }
  assert (B1 : sm_imu s1 <= T /\ sm_cam s1 <= T).
  { destruct HI as [(-> & _)|(_ & I1 & I2 & [(_ & HR & _)|(m & Q & wi & ai & bg & ba & EA & _)])]; [auto|congruence|].
    rewrite I1, I2. split; [apply HA; congruence|auto]. }
  destruct HC as [(-> & _)|(_ & J1 & J2 & _ & _ & _ & _ & _ & [(_ & HR & _)|(Q & t & EP & HR & _)])]; [auto|congruence|].
  rewrite J1, J2. split; [apply B1|apply HP; congruence].
Qed.
Lemma run_bound T d n : (forall t, wo_acc w t <> None -> t <= T) -> (forall t, wo_pose w t <> None -> t <= T) ->
  forall s, sm_imu s <= T -> sm_cam s <= T -> let '(s', _) := run p w d n s in sm_run s' = true -> sm_imu s' <= T /\ sm_cam s' <= T.
Proof.
  intros HA HP. induction n as [|n IH]; intros s Bi Bc; cbn [run]; [auto|].
  destruct (sm_run s) eqn:Er; [|intros; congruence].
  pose proof (poll_bound T (d n) s HA HP Bi Bc) as PB. destruct (poll p w (d n) s) as [s1 e1].
  destruct (sm_run s1) eqn:E1.
  - destruct (PB eq_refl) as [B1 B2]. specialize (IH s1 B1 B2). destruct (run p w d n s1). exact IH.
  - assert (E : run p w d n s1 = (s1, [])) by (destruct n; cbn; [reflexivity|rewrite E1; reflexivity]). rewrite E. congruence.
Qed.
Lemma run_stops T d n s : (forall t, wo_acc w t <> None -> t <= T) -> (forall t, wo_pose w t <> None -> t <= T) ->
  sm_run s = true -> sm_imu s <= T -> sm_cam s <= T ->
  (T - sm_imu s) * sp_fi p + (T - sm_cam s) * sp_fc p < INR n -> sm_run (fst (run p w d n s)) = false.
Proof.
  intros HA HP Hr Bi Bc Hn. pose proof (run_bound T d n HA HP s Bi Bc) as RB. pose proof (run_emitted d n s Hr) as RE.
  destruct (run p w d n s) as [s' es]. cbn. destruct (sm_run s') eqn:E; [|reflexivity]. exfalso.
  destruct (RB eq_refl) as [B1 B2]. destruct RE as (a & b & (_ & _ & A3) & _ & Ln). specialize (Ln eq_refl). destruct (A3 E) as [A4 A5].
  destruct Hp as [F1 F2]. apply le_INR in Ln. rewrite plus_INR in Ln.
  assert (Xa : INR a <= (T - sm_imu s) * sp_fi p).
  { replace (INR a) with ((sm_imu s' - sm_imu s) * sp_fi p) by (rewrite A4; unfold di; field; lra). apply Rmult_le_compat_r; lra. }
  assert (Xb : INR b <= (T - sm_cam s) * sp_fc p).
  { replace (INR b) with ((sm_cam s' - sm_cam s) * sp_fc p) by (rewrite A5; unfold dc; field; lra). apply Rmult_le_compat_r; lra. }
  lra.
Qed.

(** ** the bias history *)
Definition last_time (h : list (R * (v3 * v3))) : R := last (map fst h) 0.
Definition hist_ok (s : sim) : Prop :=
  StronglySorted Rlt (map fst (sm_hist s)) /\ (exists a h, sm_hist s = a :: h /\ fst a < sm_imu s + di) /\
  Forall (fun e => fst e <= if sm_skipped s then sm_imu s else sm_imu s + di) (sm_hist s) /\
  (sm_skipped s = false -> In (sm_imu s + di, (sm_bg s, sm_ba s)) (sm_hist s)).
Lemma SSlt_snoc (l : list R) x : StronglySorted Rlt l -> Forall (fun t => t < x) l -> StronglySorted Rlt (l ++ [x]).
Proof.
  intros S1 F. induction l as [|a l IH]; cbn; [repeat constructor|]. apply StronglySorted_inv in S1. destruct S1 as [S1 S2]. inversion F; subst.
  constructor; [auto|]. apply Forall_app. split; auto.
Qed.
(** the reading [m] was made with bias [b], the draws of pass [k] *)
Definition made (d : nat -> draws) (n : nat) (m : imu) (b : v3 * v3) : Prop :=
  exists k Q wi ai, (k < n)%nat /\ wo_acc w (i_t m) = Some (Q, wi, ai) /\
    (i_w m, i_a m) = sim_reading (sp_Tw p) (sp_Ta p) (sp_Tg p) (sp_qw p) (sp_qa p) wi (sim_force Q ai (sp_grav p))
       (v3add (fst b) (dr_w (d k))) (v3add (snd b) (dr_a (d k))).
Lemma poll_hist d k s : hist_ok s -> let '(s', es) := poll p w (d k) s in
  (sm_run s' = true -> hist_ok s') /\ StronglySorted Rlt (map fst (sm_hist s')) /\ (exists h, sm_hist s' = sm_hist s ++ h) /\
  (forall m, In (EImu m) es -> sm_imu s < i_t m /\ exists b, In (i_t m, b) (sm_hist s') /\ made d (S k) m b) /\ sm_imu s <= sm_imu s'.
Proof.
  pose proof di_pos as Di. intros (S1 & (a0 & h0 & Eh & La) & F & Fr).
  unfold poll. pose proof (imu_cases (dr_wb (d k)) (dr_ab (d k)) (dr_w (d k)) (dr_a (d k)) s) as HI.
  destruct (get_next_imu p (wo_acc w) (dr_wb (d k)) (dr_ab (d k)) (dr_w (d k)) (dr_a (d k)) s) as [s1 ei].
  pose proof (cam_cases (dr_px (d k)) s1) as HC. destruct (get_next_cam p (wo_pose w) (wo_map w) (dr_px (d k)) s1) as [s2 ec].
  assert (K : (sm_run s1 = true -> hist_ok s1) /\ StronglySorted Rlt (map fst (sm_hist s1)) /\ (exists h, sm_hist s1 = sm_hist s ++ h) /\
    (forall m, ei = Some m -> sm_imu s < i_t m /\ exists b, In (i_t m, b) (sm_hist s1) /\ made d (S k) m b) /\ sm_imu s <= sm_imu s1).
  { destruct HI as [(-> & -> & H)|(H & I1 & I2 & [(_ & HR & -> & Hh)|(m & Q & wi & ai & bg & ba & EA & HR & -> & Em & E1 & E2 & E3 & Rd & Hc)])].
    - split; [intros _; repeat split; eauto|]. split; [exact S1|]. split; [exists []; rewrite app_nil_r; reflexivity|]. split; [discriminate|lra].
    - split; [congruence|]. rewrite Hh. split; [exact S1|]. split; [exists []; rewrite app_nil_r; reflexivity|]. split; [discriminate|lra].
    - assert (MD : made d (S k) m (bg, ba)) by (exists k, Q, wi, ai; rewrite Em; split; [lia|auto]).
      assert (Li : sm_imu s < i_t m) by lra.
      destruct Hc as [(Sk & Hh & -> & ->)|(Sk & Hh & -> & ->)].
      + assert (In (sm_imu s + di, (sm_bg s, sm_ba s)) (sm_hist s)) by auto.
        split; [intros _|].
        { unfold hist_ok. rewrite Hh, I1, E3. split; [exact S1|]. split; [exists a0, h0; split; [auto|lra]|]. split; [|discriminate]. rewrite Sk in F. exact F. }
        rewrite Hh. split; [exact S1|]. split; [exists []; rewrite app_nil_r; reflexivity|]. split; [|lra].
        intros m' E'. injection E' as <-. split; [exact Li|]. exists (sm_bg s, sm_ba s). rewrite Em. auto.
      + rewrite Sk in F.
        assert (S1' : StronglySorted Rlt (map fst (sm_hist s1))).
        { rewrite Hh, map_app. apply SSlt_snoc; auto. rewrite Forall_map. eapply Forall_impl; [|exact F]. cbn; intros; lra. }
        split; [intros _|].
        { split; [exact S1'|]. split; [exists a0; eexists; rewrite Hh, Eh; split; [reflexivity|lra]|]. rewrite E3. split; [|discriminate].
          rewrite Hh, I1. apply Forall_app. split; [eapply Forall_impl; [|exact F]; cbn; intros; lra|]. constructor; [cbn; lra|constructor]. }
        split; [exact S1'|]. split; [eexists; exact Hh|]. split; [|lra].
        intros m' E'. injection E' as <-. split; [exact Li|]. exists (v3add (sm_bg s) (dr_wb (d k)), v3add (sm_ba s) (dr_ab (d k))). split; [|exact MD].
        rewrite Hh, Em. apply in_or_app. right. left. reflexivity. }
  destruct K as (K1 & K2 & K3 & K4 & K5).
  destruct HC as [(-> & -> & H')|(H' & J1 & J2 & J3 & J4 & J5 & J6 & J7 & HC)].
  - split; [exact K1|]. split; [exact K2|]. split; [exact K3|]. split; [|exact K5].
    intros m Hm. rewrite app_nil_r in Hm. destruct ei as [m0|]; [|destruct Hm]. destruct Hm as [Hm|[]]. injection Hm as ->. auto.
  - rewrite J4, J1. split.
    { intros HR. assert (sm_run s1 = true) by (destruct HC as [(_ & E & _)|(Q & t & _ & E & _)]; congruence).
      unfold hist_ok. rewrite J4, J1, J5, J6, J7. apply K1; auto. }
    split; [exact K2|]. split; [exact K3|]. split; [|exact K5].
    intros m Hm. apply in_app_or in Hm. destruct Hm as [Hm|Hm].
    + destruct ei as [m0|]; [|destruct Hm]. destruct Hm as [Hm|[]]. injection Hm as ->. auto.
    + destruct ec as [[tc fs]|]; [|destruct Hm]. destruct Hm as [Hm|[]]. discriminate.
Qed.
Lemma made_le d n n' m b : (n <= n')%nat -> made d n m b -> made d n' m b.
Proof. intros L (k & Q & wi & ai & H & H'). exists k, Q, wi, ai. split; [lia|exact H']. Qed.
Lemma run_hist d n : forall s, sm_run s = true -> hist_ok s -> let '(s', es) := run p w d n s in
  StronglySorted Rlt (map fst (sm_hist s')) /\ (exists h, sm_hist s' = sm_hist s ++ h) /\
  (forall m, In (EImu m) es -> sm_imu s < i_t m /\ exists b, In (i_t m, b) (sm_hist s') /\ made d n m b).
Proof.
  induction n as [|n IH]; intros s Hr H; cbn [run].
  { split; [apply H|]. split; [exists []; rewrite app_nil_r; reflexivity|]. intros m []. }
  rewrite Hr. pose proof (poll_hist d n s H) as P. destruct (poll p w (d n) s) as [s1 e1]. destruct P as (P1 & P2 & (h1 & P3) & P4 & P5).
  destruct (sm_run s1) eqn:E1.
  - specialize (IH s1 E1 (P1 eq_refl)). destruct (run p w d n s1) as [s2 e2]. destruct IH as (I1 & (h2 & I2) & I3).
    split; [exact I1|]. split; [exists (h1 ++ h2); rewrite I2, P3, app_assoc; reflexivity|].
    intros m Hm. apply in_app_or in Hm. destruct Hm as [Hm|Hm].
    + destruct (P4 m Hm) as (L & b & B1 & B2). split; [exact L|]. exists b. split; [|exact B2]. rewrite I2. apply in_or_app. auto.
    + destruct (I3 m Hm) as (L & b & B1 & B2). split; [lra|]. exists b. split; [exact B1|]. eapply made_le; [|exact B2]. lia.
  - assert (E : run p w d n s1 = (s1, [])) by (destruct n; cbn; [reflexivity|rewrite E1; reflexivity]). rewrite E, app_nil_r.
    split; [exact P2|]. split; [eauto|]. exact P4.
Qed.

Lemma find_bias_hit h t b : StronglySorted Rlt (map fst h) -> In (t, b) h -> (exists a r, h = a :: r /\ fst a < t) ->
  exists a, find_bias h t = Some (a, (t, b)) /\ fst a < t.
Proof.
  induction h as [|x h IH]; intros S1 Hin (a & r & E & L); [discriminate|]. injection E as -> ->.
  destruct Hin as [->|Hin]; [cbn in L; lra|]. cbn [map] in S1. apply StronglySorted_inv in S1. destruct S1 as [S1 S2].
  destruct r as [|y r]; [destruct Hin|]. cbn [find_bias].
  destruct (Rltb_spec (fst a) t) as [Ha|]; [|lra].
  destruct (Rleb_spec t (fst y)) as [Hy|Hy]; cbn [andb].
  - exists a. split; [|exact L]. destruct Hin as [->|Hin]; [reflexivity|]. exfalso.
    cbn [map] in S1. apply StronglySorted_inv in S1. destruct S1 as [_ S1]. rewrite Forall_forall in S1. specialize (S1 t). 
    assert (fst y < t) by (apply S1; apply (in_map fst) in Hin; exact Hin). lra.
  - apply IH; auto. exists y, r. split; [reflexivity|]. lra.
Qed.
Lemma find_bias_in h t x y r : StronglySorted Rlt (map fst h) -> h = x :: r -> fst x < t -> In y h -> t <= fst y -> exists a b, find_bias h t = Some (a, b) /\ fst a < t <= fst b /\ In a h /\ In b h.
Proof.
  revert x r. induction h as [|z h IH]; intros x r S1 E L Hy Ht; [discriminate|]. injection E as -> ->.
  destruct Hy as [->|Hy]; [lra|]. cbn [map] in S1. apply StronglySorted_inv in S1. destruct S1 as [S1 S2].
  destruct r as [|z r]; [destruct Hy|]. cbn [find_bias]. destruct (Rltb_spec (fst x) t) as [Ha|]; [|lra].
  destruct (Rleb_spec t (fst z)) as [Hz|Hz]; cbn [andb].
  - exists x, z. split; [reflexivity|]. split; [lra|]. split; [left; reflexivity|right; left; reflexivity].
  - destruct (IH z r S1 eq_refl Hz Hy Ht) as (a & b & E & B & I1 & I2). exists a, b. split; [exact E|]. split; [exact B|]. split; right; auto.
Qed.

Lemma init_hist_ok t0 bg ba : hist_ok (sim_init p t0 bg ba).
Proof.
  pose proof di_pos as D. unfold hist_ok, sim_init; cbn [sm_hist sm_imu sm_bg sm_ba sm_skipped map fst]. fold di.
  split; [repeat (apply SSorted_cons || apply SSorted_nil || apply Forall_cons || apply Forall_nil); lra|].
  split; [do 2 eexists; split; [reflexivity|cbn; lra]|].
  split; [repeat (apply Forall_cons || apply Forall_nil); cbn; lra|].
  intros _. right. right. left. reflexivity.
Qed.

(** ground truth lookup at the time of a reading gives the bias that reading was made with *)
Lemma truth_bias d n t0 bg ba vel : let '(s', es) := run p w d n (sim_init p t0 bg ba) in
  forall m, In (EImu m) es -> exists b, made d n m b /\
    forall Q x v, vel (i_t m) = Some (Q, x, v) -> get_state vel s' (i_t m) = Ok (Some (i_t m, rot_2_quat Q, x, v, fst b, snd b)).
Proof.
  pose proof di_pos as D.
  pose proof (run_hist d n (sim_init p t0 bg ba) eq_refl (init_hist_ok t0 bg ba)) as H.
  destruct (run p w d n (sim_init p t0 bg ba)) as [s' es]. destruct H as (H1 & (h & H2) & H3).
  intros m Hm. destruct (H3 m Hm) as (L & b & B1 & B2). exists b. split; [exact B2|]. intros Q x v EV.
  destruct (find_bias_hit (sm_hist s') (i_t m) b H1 B1) as ([ta [bga baa]] & Ef & La).
  { rewrite H2. cbn. do 2 eexists. split; [reflexivity|]. cbn. cbn in L. fold di. lra. }
  unfold get_state. destruct (sm_hist s') as [|e0 h0] eqn:Eh; [destruct B1|]. rewrite EV, Ef. destruct b as [bg1 ba1]. cbn [fst] in La.
  cbv zeta. replace ((i_t m - ta) / (i_t m - ta)) with 1 by (field; lra).
  f_equal. f_equal. f_equal; [f_equal|]; cbn; apply v3_ext; simpl; ring.
Qed.
(** and it is defined for every time up to the last reading *)
Lemma truth_defined d n t0 bg ba vel : let '(s', es) := run p w d n (sim_init p t0 bg ba) in
  forall m t, In (EImu m) es -> t0 - 1 / sp_fi p < t <= i_t m -> vel t <> None -> exists x, get_state vel s' t = Ok (Some x).
Proof.
  pose proof di_pos as D.
  pose proof (run_hist d n (sim_init p t0 bg ba) eq_refl (init_hist_ok t0 bg ba)) as H.
  destruct (run p w d n (sim_init p t0 bg ba)) as [s' es]. destruct H as (H1 & (h & H2) & H3).
  intros m t Hm Ht EV. destruct (H3 m Hm) as (L & b & B1 & B2).
  destruct (find_bias_in (sm_hist s') t (t0 - 1 / sp_fi p, (bg, ba)) (i_t m, b) (tl (sm_hist s')) H1) as ([ta [a1 a2]] & [tb [b1 b2]] & Ef & _); auto.
  { rewrite H2. reflexivity. } { cbn; lra. } { cbn; lra. }
  unfold get_state. destruct (sm_hist s') as [|e0 h0] eqn:Eh; [destruct B1|]. destruct (vel t) as [[[Q x] v]|]; [|congruence]. rewrite Ef. eauto.
Qed.

(** ** what the estimator is fed *)
Definition sees (last : R) (e : event) : Prop := match e with ECam t _ _ => t <= last + di | _ => True end.
Definition last_of (a : R) (l : list event) : R := last (imu_times l) a.
Lemma last_cons (l : list R) x a : last (x :: l) a = last l x.
Proof. revert x a. induction l as [|y l IH]; intros x a; [reflexivity|]. change (last (x :: y :: l) a) with (last (y :: l) a). rewrite !IH. reflexivity. Qed.
Lemma last_app (x y : list R) a : last (x ++ y) a = last y (last x a).
Proof. revert a. induction x as [|x0 x IH]; intros a; [reflexivity|]. change ((x0 :: x) ++ y) with (x0 :: (x ++ y)). rewrite !last_cons. apply IH. Qed.
Lemma last_of_app a l1 l2 : last_of a (l1 ++ l2) = last_of (last_of a l1) l2.
Proof. unfold last_of, imu_times. rewrite flat_map_app. apply last_app. Qed.
Lemma run_sees t0 d n : spline_interval t0 w -> forall s, t0 <= sm_imu s -> sm_run s = true -> let '(s', es) := run p w d n s in
  (sm_run s' = true -> last_of (sm_imu s) es = sm_imu s') /\
  forall pre e post, es = pre ++ e :: post -> sees (last_of (sm_imu s) pre) e.
Proof.
  intros HS. pose proof di_pos as Di. pose proof dc_pos as Dc.
  induction n as [|n IH]; intros s Ht Hr; cbn [run]. { split; [reflexivity|]. intros [|x pre] e post E; discriminate. }
  rewrite Hr.
  assert (P : let '(s', es) := poll p w (d n) s in (sm_run s' = true -> last_of (sm_imu s) es = sm_imu s') /\ sm_imu s <= sm_imu s' /\
     (forall pre e post, es = pre ++ e :: post -> sees (last_of (sm_imu s) pre) e)).
  { unfold poll. pose proof (imu_cases (dr_wb (d n)) (dr_ab (d n)) (dr_w (d n)) (dr_a (d n)) s) as HI.
    destruct (get_next_imu p (wo_acc w) (dr_wb (d n)) (dr_ab (d n)) (dr_w (d n)) (dr_a (d n)) s) as [s1 ei].
    pose proof (cam_cases (dr_px (d n)) s1) as HC. destruct (get_next_cam p (wo_pose w) (wo_map w) (dr_px (d n)) s1) as [s2 ec].
    destruct HI as [(-> & -> & H)|(H & I1 & I2 & [(EN & HR & -> & _)|(m & Q & wi & ai & bg & ba & _ & HR & -> & Em & _)])];
    destruct HC as [(-> & -> & H')|(H' & J1 & J2 & J3 & _ & _ & _ & _ & [(_ & HR' & ->)|(Q' & t & EP & HR' & ->)])].
    - split; [reflexivity|]. split; [lra|]. intros [|x pre] e post E; discriminate.
    - split; [congruence|]. split; [lra|]. intros [|x pre] e post E; discriminate.
    - split; [intros _; rewrite J1; reflexivity|]. split; [lra|]. intros [|x pre] e post E; [injection E as <- <-; cbn; rewrite J3; exact H'|destruct pre; discriminate].
    - split; [congruence|]. split; [lra|]. intros [|x pre] e post E; discriminate.
    - split; [congruence|]. split; [lra|]. intros [|x pre] e post E; discriminate.
    - exfalso. apply (HS (sm_imu s + di) (sm_cam s1 + dc)); [rewrite I2; lra|congruence|exact EN].
    - split; [intros _; cbn; lra|]. split; [lra|]. intros [|x pre] e post E; [injection E as <- <-; cbn; auto|destruct pre; discriminate].
    - split; [congruence|]. split; [lra|]. intros [|x pre] e post E; [injection E as <- <-; cbn; auto|destruct pre; discriminate].
    - split; [intros _; cbn; lra|]. split; [lra|]. intros [|x pre] e post E; [injection E as <- <-; cbn; auto|].
      destruct pre as [|y pre]; [injection E as <- <- <-; cbn; rewrite Em, J3; lra|destruct pre; discriminate]. }
  destruct (poll p w (d n) s) as [s1 e1]. destruct P as (P1 & P2 & P3). destruct (sm_run s1) eqn:E1.
  - specialize (IH s1 ltac:(lra) E1). destruct (run p w d n s1) as [s2 e2]. destruct IH as (I1 & I2). split.
    + intros E. rewrite last_of_app, P1 by auto. auto.
    + intros pre e post E. apply app_eq_app in E. destruct E as (l & [[E2 E3]|[E2 E3]]).
      * destruct l as [|x l]; [cbn in E3|].
        -- rewrite app_nil_r in E2. subst e1. rewrite (P1 eq_refl). apply (I2 [] e post). symmetry. exact E3.
        -- injection E3 as -> ->. apply (P3 pre x l). exact E2.
      * subst pre. rewrite last_of_app, P1 by auto. apply (I2 l e post). exact E3.
  - assert (E : run p w d n s1 = (s1, [])) by (destruct n; cbn; [reflexivity|rewrite E1; reflexivity]). rewrite E, app_nil_r. split; [congruence|exact P3].
Qed.
End Sim.
