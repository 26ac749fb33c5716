(** Proofs for C18: the anchors of all landmarks are clones of the window. *)
From Coq Require Import Reals Lra Lia Psatz List ZArith Bool.
From Verif Require Import RBool Outcome Lin GeoModel GeoSpec GivensModel TypesModel TypesProofs StateModel StateSpec StateOps StateOps2 StateOps3 StateOps4 StateOps5 StateInit ReachModel ReachSpec StateReach StateFrame StateThms FeatModel FeatProofs LandModel LandSpec CamModel HelpModel HelpSpec AnchorModel AnchorSpec AnchorPhi AnchorProofs AnchorTotal AnchorLive.
Import ListNotations.
Open Scope R_scope.

Definition over (a : slam) : Prop :=
  (Z.of_nat (length (s_clones (sl_st a))) <= o_max_clones (s_opts (sl_st a)) + 1)%Z /\
  ((o_max_clones (s_opts (sl_st a)) < Z.of_nat (length (s_clones (sl_st a))))%Z -> In (s_time (sl_st a)) (map fst (s_clones (sl_st a)))).
Definition moved_on (a : slam) : Prop :=
  (o_max_clones (s_opts (sl_st a)) < Z.of_nat (length (s_clones (sl_st a))))%Z ->
  forall i p b t, In (i, (p, b)) (s_slam (sl_st a)) -> is_relative (lm_rep (sl_meta a p)) = true -> margtimestep (sl_st a) = Some t -> lm_atime (sl_meta a p) <> t.
Definition in_phase (ph : phase) (a : slam) : Prop :=
  match ph with
  | Idle => (Z.of_nat (length (s_clones (sl_st a))) <= o_max_clones (s_opts (sl_st a)))%Z
  | Busy => over a
  | Changed => over a /\ moved_on a
  end.
Record winv (chi2q : nat -> R) (ph : phase) (a : slam) : Prop := mkW
  { w_reach : reach chi2q (sl_st a); w_inc : increasing (map fst (s_clones (sl_st a))); w_last : last_le (sl_st a);
    w_max : (1 <= o_max_clones (s_opts (sl_st a)))%Z; w_anch : anchors_live a; w_fit : landmarks_fit a; w_rig : rig_ok a; w_ph : in_phase ph a }.

Lemma clone_live st t : inv st -> In t (map fst (s_clones st)) -> clone_at st t <> None.
Proof.
  intros (Hok & _ & HM) H. unfold clone_at. destruct (find_clone_time (s_clones st) t) as [p|] eqn:F; [|apply find_clone_none in F; contradiction].
  apply find_clone_some in F. destruct (mp_clones _ HM _ _ F) as (_ & q & Hq & Hp). unfold get_pose. rewrite <- Hp. change (TypesModel.po_ptr q) with (ty_ptr (TPose q)).
  rewrite (find_top_in_nodup _ _ (ok_nodup _ Hok) Hq). discriminate.
Qed.
Lemma pose_built_aux o l b i : o_calib_pose o = true -> In i l ->
  exists k, In (set_local_id (TPose (new_pose (ptr_pose i))) k) (fst (fold_left (fun b i =>
     push_if (o_calib_intr o) (TVec (new_vec (ptr_intr i) 8)) (push_if (o_calib_pose o) (TPose (new_pose (ptr_pose i))) b)) l b)).
Proof.
  intros H. revert b. induction l as [|j l IH]; intros b Hin; [destruct Hin|]. cbn [fold_left]. destruct Hin as [->|Hin]; [|apply IH; auto].
  eexists. apply cams_old. apply push_if_old. rewrite H. apply push_if_new.
Qed.
Lemma calib_live a c : inv (sl_st a) -> rig_ok a -> (c < o_ncams (s_opts (sl_st a)))%nat -> calib_at a c <> None.
Proof.
  intros (Hok & _ & HM) RG Hc. unfold calib_at. replace (c <? _)%nat with true by (symmetry; apply Nat.ltb_lt; exact Hc).
  destruct (o_calib_pose (s_opts (sl_st a))) eqn:E; [|apply RG; assumption].
  assert (B : exists k, In (set_local_id (TPose (new_pose (ptr_pose c))) k) (fst (build_vars (s_opts (sl_st a))))) by (unfold build_vars; apply pose_built_aux; [exact E|apply in_seq; lia]).
  destruct B as (k & B). destruct (base_find _ _ Hok HM B) as (t & Ht & (_ & _ & _ & K) & F). rewrite set_id_ptr in F. cbn [ty_ptr new_pose] in F. unfold get_pose.
  change (TypesModel.po_ptr (new_pose (ptr_pose c))) with (ptr_pose c) in F. rewrite F. destruct t; cbn in K; try contradiction. discriminate.
Qed.

(** one respected filter operation inside a frame *)
Lemma keep_anchors a st' : s_clones st' = s_clones (sl_st a) -> s_opts st' = s_opts (sl_st a) -> slam_from (sl_st a) st' -> anchors_live a -> anchors_live (with_st a st').
Proof. intros C O S L i p b H Rl. cbn [with_st sl_st sl_meta] in *. destruct (S _ _ _ H) as (b' & H'). rewrite C, O. exact (L _ _ _ H' Rl). Qed.
Lemma keep_rig a st' : s_opts st' = s_opts (sl_st a) -> rig_ok a -> rig_ok (with_st a st').
Proof. intros O H. unfold rig_ok in *. cbn [with_st sl_st sl_cal]. rewrite O. exact H. Qed.

Lemma op_step chi2q a o st' : winv chi2q Busy a -> allowed (sl_st a) o -> keeps_window o -> (forall i p, o <> OSlamAdd i p) -> exec chi2q (sl_st a) o = Ok st' -> winv chi2q Busy (with_st a st').
Proof.
  intros [W1 W2 W3 W4 W5 W6 W7 [W8 W9]] HA K NA E. pose proof (reach_inv _ _ W1) as I. destruct (exec_window _ _ _ _ I E K) as (C & T & O).
  assert (R' : reach chi2q st') by (eapply reach_step; eauto). pose proof (exec_slam _ _ _ _ I E NA) as S.
  constructor; cbn [with_st sl_st in_phase]; rewrite ?C, ?O; auto.
  - unfold last_le. rewrite C, T. exact W3.
  - apply keep_anchors; auto.
  - apply fit_keep; auto; [eapply reach_inv; exact R'|eapply exec_fits; eauto].
  - apply keep_rig; auto.
  - unfold over. cbn [with_st sl_st]. rewrite C, O, T. auto.
Qed.

(** cloning *)
Lemma clone_step chi2q a t i st : winv chi2q Idle a -> prop_ok (s_opts (sl_st a)) i -> s_time (sl_st a) < t -> propagate_and_clone (sl_st a) t i = Ok st ->
  winv chi2q Busy (with_st a st) /\ s_time st = t /\ s_opts st = s_opts (sl_st a) /\ s_slam st = s_slam (sl_st a).
Proof.
  intros [W1 W2 W3 W4 W5 W6 W7 W8] PK Ht E. cbn [in_phase] in W8.
  destruct (prop_clone_total chi2q (sl_st a) t i W1 W3 Ht PK) as (st0 & p & E0 & R0 & O0 & T0 & C0). rewrite E in E0. injection E0 as <-.
  assert (X : s_slam st = s_slam (sl_st a) /\ landmarks_fit (with_st a st)).
  { revert E. unfold propagate_and_clone. destruct (Reqb_spec (s_time (sl_st a)) t) as [E|_]; [lra|]. destruct (Rltb_spec t (s_time (sl_st a))) as [E|_]; [lra|]. intros E.
    destruct PK as [K1 [K2a K2b] [K3a K3b] K4].
    destruct (reach_progress chi2q _ (OSetImu (pi_x i) (pi_x i)) W1 K1) as (st1 & E1 & HR1). pose proof E1 as E1'. cbn [exec] in E1. rewrite E1 in E. cbn [obind] in E.
    destruct (set_imu_frame _ _ _ _ E1) as (O1 & C1 & T1). destruct (reach_inv _ _ HR1) as (Hok1 & HP1 & HM1).
    rewrite (phi_order st1 Hok1 HM1) in E. destruct (phi_refs_facts (s_opts st1)) as (N & Cg & Ln). rewrite O1 in *.
    assert (HA : allowed st1 (OProp (phi_refs (s_opts (sl_st a))) (phi_refs (s_opts (sl_st a))) (pi_Phi i) (pi_Q i))).
    { unfold allowed. pose proof (phi_in_cov st1 Hok1 HM1) as IC. rewrite O1 in IC. rewrite Ln, K2a, K2b, K3a, K3b. do 9 (split; [auto; fail|]). auto. }
    destruct (reach_progress chi2q st1 _ HR1 HA) as (st2 & E2 & HR2). pose proof E2 as E2'. cbn [exec] in E2. rewrite E2 in E. cbn [obind] in E.
    destruct (propagation_frame _ _ _ _ _ _ E2) as (C & Est2).
    assert (HR3 : reach chi2q (set_time st2 t)) by (eapply (reach_step chi2q st2 (OTime t)); [exact HR2|exact Logic.I|reflexivity]).
    assert (HA4 : allowed (set_time st2 t) (OAugment (pi_w i))).
    { cbn [allowed s_time set_time s_clones]. rewrite Est2. cbn. rewrite C1. intros Hin. apply W3 in Hin. lra. }
    pose proof (reach_inv _ _ W1) as I0. pose proof (reach_inv _ _ HR1) as I1. pose proof (reach_inv _ _ HR2) as I2. pose proof (reach_inv _ _ HR3) as I3. pose proof (reach_inv _ _ R0) as I4.
    pose proof (exec_fits chi2q _ (OSetImu (pi_x i) (pi_x i)) _ I0 K1 E1') as F1. pose proof (exec_fits chi2q _ _ _ I1 HA E2') as F2. pose proof (exec_fits chi2q _ (OAugment (pi_w i)) _ I3 HA4 E) as F4.
    assert (S1 : s_slam st1 = s_slam (sl_st a)) by (unfold with_var in E1; apply obind_ok in E1; destruct E1 as (vv & _ & E1); injection E1 as <-; reflexivity).
    assert (S2 : s_slam st2 = s_slam (sl_st a)) by (rewrite Est2; exact S1).
    destruct (augment_inv _ _ _ (proj1 I3) E) as (_ & imu & loc & pose & st5 & _ & _ & _ & _ & _ & _ & _ & _ & _ & _ & _ & _ & _ & _ & _ & _ & _ & _ & S4 & _).
    assert (S4' : s_slam st = s_slam (sl_st a)) by (rewrite S4; exact S2). split; [exact S4'|].
    pose proof (fit_keep a st1 I0 I1 F1 (slam_from_eq _ _ S1) W6) as L1.
    pose proof (fit_keep (with_st a st1) st2 I1 I2 F2 (slam_from_eq st1 st2 ltac:(congruence)) L1) as L2.
    pose proof (fit_keep (with_st a st2) (set_time st2 t) I2 I3 (fits_refl _ _ eq_refl) (slam_from_eq st2 _ eq_refl) L2) as L3.
    exact (fit_keep (with_st a (set_time st2 t)) st I3 I4 F4 (slam_from_eq _ _ S4) L3). }
  destruct X as [S L]. split; [|split; [exact T0|split; [exact O0|exact S]]]. constructor; cbn [with_st sl_st in_phase]; rewrite ?O0; auto.
  - rewrite C0, map_app. cbn [map fst]. apply increasing_snoc; [exact W2|]. intros x Hx. apply W3 in Hx. lra.
  - intros x. rewrite T0, C0, map_app. intros Hx. apply in_app_or in Hx. destruct Hx as [Hx|[<-|[]]]; cbn [fst]; [apply W3 in Hx|]; lra.
  - intros id q b H Rl. cbn [with_st sl_st sl_meta] in *. rewrite S in H. destruct (W5 _ _ _ H Rl) as (A & B). rewrite C0, O0, map_app. split; [apply in_or_app; left; exact A|exact B].
  - apply keep_rig; auto.
  - unfold over. cbn [with_st sl_st]. rewrite C0, O0, T0, app_length, map_app. cbn [length map fst]. split; [lia|]. intros _. apply in_or_app. right. left. reflexivity.
Qed.

(** delayed initialization *)
Lemma clean_in times f c ts : In (c, ts) (clean_obs times f) -> (exists ts0, In (c, ts0) f) /\ forall t uv, In (t, uv) ts -> In t times.
Proof.
  unfold clean_obs. intros H. apply in_map_iff in H. destruct H as ([c0 ts0] & E & H). cbn [fst snd] in E. injection E as <- <-. split; [eauto|].
  intros t uv Hi. apply filter_In in Hi. destruct Hi as [_ Hi]. cbn [fst] in Hi. apply existsb_exists in Hi. destruct Hi as (x & Hx & E). apply Reqb_true in E. subst. exact Hx.
Qed.
Lemma clean_fst times f : map fst (clean_obs times f) = map fst f.
Proof. unfold clean_obs. rewrite map_map. reflexivity. Qed.
Lemma anchor_total f : NoDup (map fst f) -> (1 <= count_obs f)%nat -> exists c t uv n, anchor_of f = Ok (c, t, uv, n).
Proof.
  intros ND HC. destruct (most_spec f 0 0) as (_ & B & C). fold (most_meas f) in B, C.
  assert (P : exists c ts, In (c, ts) f /\ (1 <= length ts)%nat).
  { clear - HC. induction f as [|[c ts] f IH]; cbn [count_obs fold_right] in HC; [lia|]. cbn [snd] in HC. destruct (Nat.eq_dec (length ts) 0) as [E|E].
    - destruct IH as (c' & ts' & A1 & A2); [unfold count_obs; lia|]. exists c', ts'. split; [right; exact A1|exact A2].
    - exists c, ts. split; [left; reflexivity|lia]. }
  destruct P as (c & ts & P1 & P2). pose proof (B _ _ P1) as P3. destruct C as [C|(ts' & C1 & C2 & C3)]; [rewrite C in P3; cbn in P3; lia|].
  unfold anchor_of, times_of. destruct (find (fun x => Nat.eqb (fst x) (fst (most_meas f))) f) as [x|] eqn:F; cbn [look obind].
  - destruct x as [c0 ts0]. apply find_some in F. cbn [fst snd] in *. destruct F as [F1 F2]. apply Nat.eqb_eq in F2. subst c0.
    assert (ts0 = ts').
    { clear - ND F1 C1. revert F1 C1. generalize (fst (most_meas f)). intros c F C1. induction f as [|[a l] f IH]; [destruct F|]. cbn in ND. inversion ND as [|? ? N ND']; subst.
      destruct F as [F|F], C1 as [C1|C1].
      + congruence.
      + injection F as E1 E2. exfalso. apply N. rewrite E1. apply (in_map fst) in C1. exact C1.
      + injection C1 as E1 E2. exfalso. apply N. rewrite E1. apply (in_map fst) in F. exact F.
      + auto. }
    subst ts0. unfold last_of. destruct (rev ts') as [|l r] eqn:ER.
    + apply (f_equal (@length _)) in ER. rewrite rev_length in ER. cbn in ER. lia.
    + cbn [obind]. eexists. eexists. eexists. eexists. reflexivity.
  - exfalso. apply (find_none _ _ F) in C1. cbn [fst] in C1. rewrite Nat.eqb_refl in C1. discriminate.
Qed.

Lemma land_step chi2q a x : winv chi2q Busy a -> sallowed a (SLand x) -> exists a', delayed_one chi2q a x = Ok a' /\ winv chi2q Busy a' /\
  s_opts (sl_st a') = s_opts (sl_st a) /\ s_time (sl_st a') = s_time (sl_st a).
Proof.
  intros W (ND & HC & HA & NI & KR & KS). pose proof W as W0. destruct W as [W1 W2 W3 W4 W5 W6 W7 [W8 W9]]. pose proof (reach_inv _ _ W1) as I. destruct I as (Hok & HP & HM).
  unfold delayed_one. set (f := clean_obs (map fst (s_clones (sl_st a))) (nl_obs x)).
  destruct (Nat.ltb_spec (count_obs f) 2) as [L|L]; [exists a; auto|].
  destruct (anchor_total f) as (c & t & uv & n & EA); [unfold f; rewrite clean_fst; exact ND|lia|]. rewrite EA. cbn [obind].
  destruct (anchor_spec _ _ _ _ _ EA) as (ts & r & IT & Ets & _). destruct (clean_in _ _ _ _ IT) as ((ts0 & I0) & TT).
  assert (Tin : In t (map fst (s_clones (sl_st a)))) by (apply (TT t uv); rewrite Ets; apply in_or_app; right; left; reflexivity). pose proof (HC _ _ I0) as Cin.
  pose proof HA as HA'. destruct HA as (A1 & A2 & A3 & A4 & A5 & A6 & A7 & A8 & A9 & A10 & A11 & A12 & A13).
  destruct (initialize_total chi2q (sl_st a) (TVec (nl_var x)) (nl_order x) (nl_HR x) (nl_HL x) (nl_Rn x) (nl_res x) (nl_mult x)) as (b & st' & E & Hok' & HP' & D & HT); auto. { apply cams_ready_of; auto. }
  rewrite E. cbn [obind fst snd]. destruct b.
  - destruct (HT eq_refl) as (vars & nv' & V & HF & P1 & P2 & P3 & G1 & G2 & G3 & G4 & G5 & G6 & G7 & G8 & G9).
    assert (EX : exec chi2q (sl_st a) (OInit (TVec (nl_var x)) (nl_order x) (nl_HR x) (nl_HL x) (nl_Rn x) (nl_res x) (nl_mult x)) = Ok st') by (cbn [exec]; rewrite E; reflexivity).
    pose proof (op_step chi2q a _ st' W0 HA' Logic.I ltac:(discriminate) EX) as [Z1 Z2 Z3 Z4 Z5 Z6 Z7 [Z8 Z9]]. cbn [with_st sl_st] in *.
    set (p := vo_ptr (nl_var x)) in *.
    destruct nv' as [v'| | | |]; cbn in P2; try contradiction.
    assert (Vp : vo_ptr v' = p) by (cbn in P1; injection P1 as P1; exact P1).
    assert (Vin : In (TVec v') (s_vars st')) by (rewrite V; apply in_or_app; right; left; reflexivity).
    assert (Vs : vo_size v' = vo_size (nl_var x)).
    { pose proof (ok_layout _ Hok') as LY. rewrite V in LY. apply consecutive_app in LY. destruct LY as (m & _ & LY). cbn [consecutive] in LY. destruct LY as (Q1 & Q2). rewrite P3 in Q1. injection Q1 as <-. rewrite D in Q2. cbn [ty_size] in Q2. lia. }
    assert (NP : ~ In p (map (fun e => fst (snd e)) (s_slam (sl_st a)))).
    { intros H. apply in_map_iff in H. destruct H as ([i0 [q b0]] & Eq & H). cbn [fst snd] in Eq. subst q. destruct (mp_slam _ HM _ _ _ H) as (_ & v0 & Hv0 & Hp0).
      apply (fr_new _ _ A2 p); [left; reflexivity|]. rewrite <- Hp0. change (vo_ptr v0) with (ty_ptr (TVec v0)). apply ptr_in_flat. exact Hv0. }
    assert (NE : forall i q b0, In (i, (q, b0)) (s_slam st') -> q <> p).
    { intros i q b0 H Eq. subst q. apply NP. rewrite G4 in H. apply in_map_iff. exists (i, (p, b0)). auto. }
    assert (HS : allowed st' (OSlamAdd (nl_id x) p)).
    { cbn [allowed]. rewrite G4, G1. split; [exact NI|]. split; [exact NP|]. split; [exact A13|]. exists v'. auto. }
    destruct (reach_progress chi2q st' _ Z1 HS) as (st2 & E2 & R2). cbn [exec] in E2. injection E2 as <-.
    eexists. split; [reflexivity|]. set (m := if is_relative (nl_rep x) then _ else _).
    assert (MM : lm_rep m = nl_rep x /\ (is_relative (nl_rep x) = true -> lm_atime m = t /\ lm_acam m = Z.of_nat c)) by (unfold m; destruct (is_relative (nl_rep x)); cbn; split; auto; discriminate). destruct MM as [M1 M2].
    cbn [sl_st set_slam s_opts s_time]. split; [|split; [exact G1|exact G7]].
    constructor; cbn [sl_st set_slam s_clones s_opts s_time]; auto.
    + intros i q b0 H Rl. cbn [sl_st sl_meta s_slam set_slam s_clones s_opts] in *. unfold set_meta in *. apply in_app_or in H. destruct H as [H|[H|[]]].
      * pose proof (NE _ _ _ H) as Nq. destruct (Nat.eqb_spec q p); [contradiction|]. exact (Z5 _ _ _ H Rl).
      * injection H as <- <- <-. rewrite Nat.eqb_refl in *. rewrite M1 in Rl. destruct (M2 Rl) as [-> ->]. rewrite G3, G1. split; [exact Tin|]. split; [lia|]. rewrite Nat2Z.id. exact Cin.
    + intros i q b0 H. unfold is_landmark. cbn [sl_st sl_meta s_slam set_slam s_vars] in *. unfold set_meta. apply in_app_or in H. destruct H as [H|[H|[]]].
      * pose proof (NE _ _ _ H) as Nq. destruct (Nat.eqb_spec q p); [contradiction|]. exact (Z6 _ _ _ H).
      * injection H as <- <- <-. rewrite Nat.eqb_refl, M1. split; [exact KR|]. exists v'. split; [rewrite <- Vp; change (vo_ptr v') with (ty_ptr (TVec v')); apply find_top_in_nodup; [apply Hok'|exact Vin]|]. rewrite Vs. exact KS.
    + split; [exact Z8|exact Z9].
  - destruct (initialize_inv _ _ _ _ _ _ _ _ _ _ _ E) as (_ & _ & _ & _ & _ & _ & _ & _ & _ & _ & G & _ & _ & L' & X & rr & _ & _ & _ & [(_ & -> & _)|(Hf & _)]); [|discriminate].
    exists a. split; [destruct a; reflexivity|]. auto.
Qed.

Lemma sop_step chi2q a o : winv chi2q Busy a -> sallowed a o -> exists a', sexec chi2q a o = Ok a' /\ winv chi2q Busy a' /\ s_opts (sl_st a') = s_opts (sl_st a) /\ s_time (sl_st a') = s_time (sl_st a).
Proof.
  intros W SA. destruct o as [o|x]; cbn [sexec].
  - destruct SA as (HA & K & NA). destruct (reach_progress chi2q _ _ (w_reach _ _ _ W) HA) as (st' & E & _). rewrite E. cbn [obind]. eexists. split; [reflexivity|]. split; [eapply op_step; eauto|].
    destruct (exec_window _ _ _ _ (reach_inv _ _ (w_reach _ _ _ W)) E K) as (_ & T & O). auto.
  - apply land_step; assumption.
Qed.

(** change_anchors *)
Lemma marg_other chi2q a : winv chi2q Busy a -> (o_max_clones (s_opts (sl_st a)) < Z.of_nat (length (s_clones (sl_st a))))%Z ->
  exists t, margtimestep (sl_st a) = Some t /\ (forall u, In u (map fst (s_clones (sl_st a))) -> t <= u) /\ s_time (sl_st a) <> t /\ In (s_time (sl_st a)) (map fst (s_clones (sl_st a))).
Proof.
  intros [W1 W2 W3 W4 W5 W6 W7 [W8 W9]] L. specialize (W9 L). destruct (margtimestep (sl_st a)) as [t|] eqn:E.
  - destruct (margtimestep_min _ _ E) as [M1 M2]. exists t. split; [reflexivity|].
    assert (M3 : forall u, In u (map fst (s_clones (sl_st a))) -> t <= u) by (intros u Hu; apply in_map_iff in Hu; destruct Hu as (e & <- & He); apply M2; exact He).
    split; [exact M3|]. split; [|exact W9]. intros Eq.
    destruct (s_clones (sl_st a)) as [|e1 [|e2 l]] eqn:EC; cbn [length] in L; [lia|lia|]. cbn [map] in *. apply increasing_cons in W2. destruct W2 as [I1 _]. specialize (I1 (fst e2) (or_introl eq_refl)).
    specialize (M3 (fst e1) (or_introl eq_refl)). pose proof (W3 (fst e2)) as X. rewrite EC in X. cbn [map] in X. specialize (X (or_intror (or_introl eq_refl))). lra.
  - apply margtimestep_none in E. rewrite E in L. cbn in L. lia.
Qed.

Lemma change_keeps a a' : change_anchors a = Ok a' -> s_slam (sl_st a') = s_slam (sl_st a) /\ s_clones (sl_st a') = s_clones (sl_st a) /\ s_time (sl_st a') = s_time (sl_st a) /\ s_opts (sl_st a') = s_opts (sl_st a) /\
  forall q, lm_rep (sl_meta a' q) = lm_rep (sl_meta a q).
Proof.
  unfold change_anchors. destruct (_ <=? _)%Z; [intros E; injection E as <-; auto|]. generalize (margtimestep (sl_st a)). intros mt. generalize (s_slam (sl_st a)) at 1. intros l. revert a. induction l as [|[i [p b]] l IH]; intros a E; cbn [ofold] in E; [injection E as <-; auto|].
  apply obind_ok in E. destruct E as (a1 & E1 & E). destruct (IH _ E) as (S & C & T & O & M).
  assert (X : a1 = a \/ exists t' c', perform_anchor_change a p t' c' = Ok a1).
  { unfold change_one in E1. cbn [fst snd] in E1. destruct (lm_rep (sl_meta a p)); try (injection E1 as <-; left; reflexivity); (destruct mt as [t|]; [|discriminate]);
    (apply guard_ok in E1; [|discriminate]; destruct E1 as [_ E1]; destruct (Reqb _ t); [right; eauto|injection E1 as <-; left; reflexivity]). }
  destruct X as [->|(t' & c' & P)]; [auto|]. destruct (perform_frame _ _ _ _ _ P) as (_ & _ & _ & _ & _ & _ & _ & F1 & F2 & F3 & F4 & _ & _ & _ & FM & FR & _).
  rewrite S, C, T, O, F1, F2, F3, F4. do 4 (split; [reflexivity|]). intros q. rewrite M. destruct (Nat.eq_dec q p) as [->|Nq]; [exact FR|rewrite (FM q Nq); reflexivity].
Qed.
Lemma change_step chi2q a : winv chi2q Busy a -> exists a', change_anchors a = Ok a' /\ winv chi2q Changed a' /\ s_opts (sl_st a') = s_opts (sl_st a) /\ s_time (sl_st a') = s_time (sl_st a).
Proof.
  intros W. unfold change_anchors. destruct (Z.leb_spec (Z.of_nat (length (s_clones (sl_st a)))) (o_max_clones (s_opts (sl_st a)))) as [L|L].
  - exists a. split; [reflexivity|]. split; [|auto]. destruct W as [W1 W2 W3 W4 W5 W6 W7 W8]. constructor; auto. split; [exact W8|]. intros G. lia.
  - destruct (marg_other _ _ W L) as (t & ET & Min & Ne & Tin). rewrite ET.
    assert (G : forall todo done b, (forall e, In e todo -> In e (s_slam (sl_st a))) -> winv chi2q Busy b -> s_clones (sl_st b) = s_clones (sl_st a) -> s_opts (sl_st b) = s_opts (sl_st a) ->
      s_time (sl_st b) = s_time (sl_st a) -> s_slam (sl_st b) = s_slam (sl_st a) ->
      (forall i p bb, In (i, (p, bb)) done -> is_relative (lm_rep (sl_meta b p)) = true -> lm_atime (sl_meta b p) <> t) ->
      exists b', ofold (change_one (Some t)) todo b = Ok b' /\ winv chi2q Busy b' /\ s_clones (sl_st b') = s_clones (sl_st a) /\ s_opts (sl_st b') = s_opts (sl_st a) /\
      s_time (sl_st b') = s_time (sl_st a) /\ s_slam (sl_st b') = s_slam (sl_st a) /\ forall i p bb, In (i, (p, bb)) (done ++ todo) -> is_relative (lm_rep (sl_meta b' p)) = true -> lm_atime (sl_meta b' p) <> t).
    { induction todo as [|[i0 [p0 b0]] todo IH]; intros done b Sub WB C O T S Dn.
      - exists b. rewrite app_nil_r. cbn [ofold]. auto 10.
      - cbn [ofold]. assert (IN : In (i0, (p0, b0)) (s_slam (sl_st b))) by (rewrite S; apply Sub; left; reflexivity).
        assert (Step : exists b1, change_one (Some t) b (i0, (p0, b0)) = Ok b1 /\ winv chi2q Busy b1 /\ s_clones (sl_st b1) = s_clones (sl_st a) /\ s_opts (sl_st b1) = s_opts (sl_st a) /\
          s_time (sl_st b1) = s_time (sl_st a) /\ s_slam (sl_st b1) = s_slam (sl_st a) /\ (forall i p bb, In (i, (p, bb)) (done ++ [(i0, (p0, b0))]) -> is_relative (lm_rep (sl_meta b1 p)) = true -> lm_atime (sl_meta b1 p) <> t)).
        { unfold change_one. cbn [fst snd]. pose proof WB as [W1 W2 W3 W4 W5 W6 W7 [W8 W9]]. destruct (W6 _ _ _ IN) as (KR & v & LM & SZ).
          assert (Same : forall b1, b1 = b -> (is_relative (lm_rep (sl_meta b p0)) = true -> lm_atime (sl_meta b p0) <> t) -> winv chi2q Busy b1 /\ s_clones (sl_st b1) = s_clones (sl_st a) /\ s_opts (sl_st b1) = s_opts (sl_st a) /\
            s_time (sl_st b1) = s_time (sl_st a) /\ s_slam (sl_st b1) = s_slam (sl_st a) /\ (forall i p bb, In (i, (p, bb)) (done ++ [(i0, (p0, b0))]) -> is_relative (lm_rep (sl_meta b1 p)) = true -> lm_atime (sl_meta b1 p) <> t)).
          { intros b1 -> HN. split; [exact WB|]. split; [exact C|]. split; [exact O|]. split; [exact T|]. split; [exact S|]. intros i p bb H Rl. apply in_app_or in H. destruct H as [H|[H|[]]]; [eapply Dn; eauto|injection H as <- <- <-; auto]. }
          assert (Rel : is_relative (lm_rep (sl_meta b p0)) = true -> exists b1, guard (Rleb t (lm_atime (sl_meta b p0))) UB
             (if Reqb (lm_atime (sl_meta b p0)) t then perform_anchor_change b p0 (s_time (sl_st b)) (Z.to_nat (lm_acam (sl_meta b p0))) else Ok b) = Ok b1 /\ winv chi2q Busy b1 /\ s_clones (sl_st b1) = s_clones (sl_st a) /\ s_opts (sl_st b1) = s_opts (sl_st a) /\
             s_time (sl_st b1) = s_time (sl_st a) /\ s_slam (sl_st b1) = s_slam (sl_st a) /\ (forall i p bb, In (i, (p, bb)) (done ++ [(i0, (p0, b0))]) -> is_relative (lm_rep (sl_meta b1 p)) = true -> lm_atime (sl_meta b1 p) <> t)).
          { intros Rl. destruct (W5 _ _ _ IN Rl) as (A1 & A2 & A3). pose proof (reach_inv _ _ W1) as IB.
            destruct (Rleb_spec t (lm_atime (sl_meta b p0))) as [_|Hlt]; [|rewrite C in A1; apply Min in A1; lra]. cbn [guard].
            destruct (Reqb_spec (lm_atime (sl_meta b p0)) t) as [Eq|Nq]; [|exists b; split; [reflexivity|]; apply Same; auto].
            destruct (perform_total chi2q b p0 v (s_time (sl_st b)) (Z.to_nat (lm_acam (sl_meta b p0))) W1 LM Rl SZ A2) as (b1 & EP & RP).
            { apply clone_live; [exact IB|exact A1]. } { apply calib_live; assumption. } { apply clone_live; [exact IB|]. rewrite T, C. exact Tin. } { apply calib_live; assumption. }
            exists b1. split; [exact EP|]. destruct (perform_frame _ _ _ _ _ EP) as (v1 & v2 & L1 & L2 & _ & SZ2 & FV & F1 & F2 & F3 & F4 & _ & _ & _ & FM & FR & FA & FT & _ & FC).
            assert (MQ : forall q, q = p0 \/ q <> p0) by (intros q; lia).
            split; [|split; [congruence|split; [congruence|split; [congruence|split; [congruence|]]]]].
            - constructor; auto; rewrite ?F1, ?F4; auto.
              + unfold last_le. rewrite F1, F3. exact W3.
              + intros i q bb H Rq. rewrite F2 in H. rewrite F1, F4. destruct (MQ q) as [->|Nq].
                * rewrite FA, FT. rewrite T, C. split; [exact Tin|]. rewrite Z2Nat.id by exact A2. split; [exact A2|exact A3].
                * rewrite (FM q Nq) in *. exact (W5 _ _ _ H Rq).
              + intros i q bb H. rewrite F2 in H. destruct (MQ q) as [->|Nq].
                * rewrite FR. split; [exact KR|]. exists v2. split; [exact L2|]. rewrite SZ2. unfold is_landmark in L1, LM. rewrite LM in L1. injection L1 as <-. exact SZ.
                * rewrite (FM q Nq). destruct (W6 _ _ _ H) as (Kq & vq & Lq & Sq). split; [exact Kq|]. exists vq. split; [|exact Sq]. unfold is_landmark in *. rewrite (FV q Nq). exact Lq.
              + unfold rig_ok in *. rewrite F4, FC. exact W7.
              + unfold in_phase, over. rewrite F1, F3, F4. split; [exact W8|exact W9].
            - intros i q bb H Rq. destruct (MQ q) as [->|Nq]; [rewrite FT, T; exact Ne|]. rewrite (FM q Nq) in *. apply in_app_or in H. destruct H as [H|[H|[]]]; [eapply Dn; eauto|]. injection H as _ <- _. contradiction. }
          destruct (lm_rep (sl_meta b p0)) eqn:ER; try (apply Rel; reflexivity).
          - exists b. split; [reflexivity|]. apply Same; [reflexivity|discriminate].
          - exists b. split; [reflexivity|]. apply Same; [reflexivity|discriminate].
          - congruence. }
        destruct Step as (b1 & E1 & W1 & C1 & O1 & T1 & S1 & D1). rewrite E1. cbn [obind].
        destruct (IH (done ++ [(i0, (p0, b0))]) b1) as (b' & E' & X); auto. { intros e He. apply Sub. right. exact He. } exists b'. split; [exact E'|]. rewrite <- app_assoc in X. exact X. }
    destruct (G (s_slam (sl_st a)) [] a) as (a' & E' & W' & C' & O' & T' & S' & D'); auto.
    exists a'. split; [exact E'|]. split; [|auto]. destruct W' as [Z1 Z2 Z3 Z4 Z5 Z6 Z7 Z8]. constructor; auto. split; [exact Z8|].
    intros _ i p b u H Rl EU. rewrite S' in H. assert (u = t). { unfold margtimestep in *. rewrite C' in EU. congruence. } subst u. apply (D' i p b); [exact H|exact Rl].
Qed.

(** dropping the oldest clone *)
Lemma drop_step chi2q a : winv chi2q Changed a -> exists st, marginalize_old_clone (sl_st a) = Ok st /\ winv chi2q Idle (with_st a st) /\ s_opts st = s_opts (sl_st a) /\ s_time st = s_time (sl_st a).
Proof.
  intros [W1 W2 W3 W4 W5 W6 W7 [[W8 W9] W10]]. destruct (old_clone_window chi2q (sl_st a) W1 W2 ltac:(lia)) as (st & E & R' & O & T & C).
  exists st. split; [exact E|]. split; [|auto]. pose proof (reach_inv _ _ W1) as I. assert (HA : allowed (sl_st a) OMargOld) by (cbn [allowed]; lia).
  assert (S : slam_from (sl_st a) st) by (apply (exec_slam chi2q (sl_st a) OMargOld); [exact I|exact E|discriminate]).
  assert (Sub : forall u, In u (map fst (s_clones st)) -> In u (map fst (s_clones (sl_st a)))).
  { rewrite C. destruct (_ <? _)%Z; [|auto]. destruct (s_clones (sl_st a)); cbn; auto. }
  constructor; cbn [with_st sl_st]; rewrite ?O; auto.
  - rewrite C. destruct (_ <? _)%Z; [|exact W2]. replace (map fst (tl (s_clones (sl_st a)))) with (tl (map fst (s_clones (sl_st a)))) by (destruct (s_clones (sl_st a)); auto). apply increasing_tl. exact W2.
  - intros u Hu. rewrite T. apply W3, Sub. exact Hu.
  - intros i p b H Rl. cbn [with_st sl_st sl_meta] in *. destruct (S _ _ _ H) as (b' & H'). destruct (W5 _ _ _ H' Rl) as (A1 & A2). rewrite O. split; [|exact A2].
    rewrite C. destruct (Z.ltb_spec (o_max_clones (s_opts (sl_st a))) (Z.of_nat (length (s_clones (sl_st a))))) as [L|L]; [|exact A1].
    destruct (margtimestep (sl_st a)) as [t|] eqn:ET.
    + specialize (W10 L _ _ _ _ H' Rl ET). destruct (margtimestep_min _ _ ET) as [M1 M2]. destruct (s_clones (sl_st a)) as [|e l]; [destruct A1|]. cbn [tl map] in *. destruct A1 as [A1|A1]; [|exact A1]. exfalso.
      apply W10. rewrite <- A1. apply increasing_cons in W2. destruct W2 as [I1 _]. specialize (M2 e (or_introl eq_refl)). destruct M1 as [M1|M1]; [exact M1|]. specialize (I1 _ M1). lra.
    + apply margtimestep_none in ET. rewrite ET in A1. destruct A1.
  - apply fit_keep; auto; [eapply reach_inv; exact R'|]. apply (exec_fits chi2q (sl_st a) OMargOld); auto.
  - apply keep_rig; auto.
  - cbn [in_phase with_st sl_st]. rewrite O, C. destruct (Z.ltb_spec (o_max_clones (s_opts (sl_st a))) (Z.of_nat (length (s_clones (sl_st a))))) as [L|L]; [|exact L]. destruct (s_clones (sl_st a)) as [|e l]; cbn [tl length] in *; lia.
Qed.

Lemma passes_inv chi2q ph a : passes chi2q ph a -> winv chi2q ph a.
Proof.
  induction 1 as [a HR HC HS HM RG|a t i st _ IH PK Ht E|a _ IH|a o a' _ IH SA E|a a' _ IH E|a st _ IH E|a _ IH HL].
  - constructor; auto; unfold last_le, anchors_live, landmarks_fit, in_phase; try rewrite HC; try rewrite HS; cbn; try tauto; try lia.
  - apply (clone_step chi2q a t i st IH PK Ht E).
  - destruct IH as [W1 W2 W3 W4 W5 W6 W7 W8]. cbn in W8. constructor; auto. split; [lia|]. intros. lia.
  - destruct (sop_step chi2q a o IH SA) as (a2 & E2 & W & _). rewrite E in E2. injection E2 as <-. exact W.
  - destruct (change_step chi2q a IH) as (a2 & E2 & W & _). rewrite E in E2. injection E2 as <-. exact W.
  - destruct (drop_step chi2q a IH) as (a2 & E2 & W & _). rewrite E in E2. injection E2 as <-. exact W.
  - destruct IH as [W1 W2 W3 W4 W5 W6 W7 W8]. constructor; auto.
Qed.

(** ** C18 *)
Theorem anchors_live_thm chi2q ph a : passes chi2q ph a -> anchors_live a.
Proof. intros H. apply (w_anch _ _ _ (passes_inv _ _ _ H)). Qed.

(** the three possible anchored landmarks never meet a missing clone: every step of a frame is defined *)
Lemma sops_total chi2q l : forall a, passes chi2q Busy a -> srespects chi2q l a -> exists a', ofold (fun a f => sexec chi2q a (f a)) l a = Ok a' /\ passes chi2q Busy a' /\
  s_opts (sl_st a') = s_opts (sl_st a) /\ s_time (sl_st a') = s_time (sl_st a).
Proof.
  induction l as [|f l IH]; intros a P SR; cbn [ofold]; [exists a; auto|]. destruct SR as [SA SR]. destruct (sop_step chi2q a (f a) (passes_inv _ _ _ P) SA) as (a1 & E & _ & O & T). rewrite E. cbn [obind].
  destruct (IH a1) as (a' & E' & P' & O' & T'); [eapply ps_op; eauto|apply SR; exact E|]. exists a'. split; [exact E'|]. split; [exact P'|]. split; congruence.
Qed.
Theorem frame_thm chi2q a t i mid : passes chi2q Idle a -> prop_ok (s_opts (sl_st a)) i ->
  (forall st, s_time (sl_st a) = t /\ st = sl_st a \/ propagate_and_clone (sl_st a) t i = Ok st -> srespects chi2q mid (with_st a st)) ->
  exists a', slam_frame chi2q a t i mid = Ok a' /\ passes chi2q Idle a' /\ s_opts (sl_st a') = s_opts (sl_st a) /\ s_time (sl_st a') = Rmax (s_time (sl_st a)) t.
Proof.
  intros P PK SR. pose proof (passes_inv _ _ _ P) as W. unfold slam_frame.
  destruct (Rltb_spec t (s_time (sl_st a))) as [L|L]; [exists a; rewrite Rmax_left by lra; auto|]. rewrite Rmax_right by lra.
  assert (S1 : exists st, (if Reqb (s_time (sl_st a)) t then Ok (sl_st a) else propagate_and_clone (sl_st a) t i) = Ok st /\ passes chi2q Busy (with_st a st) /\ s_opts st = s_opts (sl_st a) /\ s_time st = t /\ srespects chi2q mid (with_st a st) /\
     (s_opts st = s_opts (sl_st a))).
  { destruct (Reqb_spec (s_time (sl_st a)) t) as [Eq|Nq].
    - exists (sl_st a). split; [reflexivity|]. split; [replace (with_st a (sl_st a)) with a by (destruct a; reflexivity); apply ps_again; exact P|]. auto 10.
    - assert (Ht : s_time (sl_st a) < t) by lra. destruct (prop_clone_total chi2q (sl_st a) t i (w_reach _ _ _ W) (w_last _ _ _ W) Ht PK) as (st & p & E & _ & O & T & _). exists st. split; [exact E|]. split; [eapply ps_clone; eauto|]. auto 10. }
  destruct S1 as (st & E & P1 & O & T & SR1 & _). rewrite E. cbn [obind]. pose proof (w_max _ _ _ W) as MX.
  destruct (Z.ltb_spec (Z.of_nat (length (s_clones st))) (Z.min (o_max_clones (s_opts st)) 5)) as [LC|LC].
  { exists (with_st a st). split; [reflexivity|]. split; [apply ps_wait; [exact P1|cbn [with_st sl_st]; lia]|]. auto. }
  destruct (Reqb_spec (s_time st) t) as [_|Nt]; [|contradiction]. cbn [negb].
  destruct (sops_total chi2q mid (with_st a st) P1 SR1) as (a2 & E2 & P2 & O2 & T2). rewrite E2. cbn [obind].
  destruct (change_step chi2q a2 (passes_inv _ _ _ P2)) as (a3 & E3 & W3 & O3 & T3). rewrite E3. cbn [obind]. pose proof (ps_change _ _ _ P2 E3) as P3.
  destruct (drop_step chi2q a3 W3) as (st4 & E4 & _ & O4 & T4). rewrite E4. cbn [obind]. eexists. split; [reflexivity|]. split; [eapply ps_drop; eauto|]. cbn [with_st sl_st] in *. split; congruence.
Qed.
