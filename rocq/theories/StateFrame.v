(** Reachable states and camera frames. *)
From Coq Require Import Reals List Arith Lia Lra Bool ZArith.
From Verif Require Import RBool Outcome Lin GeoModel GeoSpec GivensModel GivensSpec TypesModel StateModel StateSpec PdInv
  StateLin StateEkf TypesProofs GeoProofs GeoMore StateOps StateOps2 StateOps3 StateOps4 StateOps5 StateInit
  ReachModel ReachSpec StateReach.
Import ListNotations.
Open Scope R_scope.

Lemma reach_inv chi2q st : reach chi2q st -> inv st.
Proof.
  induction 1 as [o cams st HC E|st op st' _ IH HA E].
  - destruct (new_state_ok o cams) as (st0 & E0 & _ & _ & _ & Hok & _).
    assert (st0 = st) by congruence. subst st0. split; auto. split.
    + eapply new_state_spsd; eauto.
    + eapply new_maps; eauto.
  - destruct (step_inv chi2q st op IH HA) as (st1 & E1 & I1). congruence.
Qed.

Lemma reach_progress chi2q st op : reach chi2q st -> allowed st op ->
  exists st', exec chi2q st op = Ok st' /\ reach chi2q st'.
Proof.
  intros HR HA. destruct (step_inv chi2q st op (reach_inv _ _ HR) HA) as (st' & E & _).
  exists st'. split; auto. eapply reach_step; eauto.
Qed.

(** ** the propagated block *)
Definition phi_refs (o : opts) : list vref :=
  (Some 0%nat, 15%nat) :: (if o_calib_imu o then (Some 15%nat, 6%nat) :: (Some 21%nat, 6%nat) ::
    (if o_calib_gsens o then [(Some 27%nat, 9%nat); (Some 36%nat, 3%nat)] else [(Some 27%nat, 3%nat)]) else []).

Lemma ref_base st t0 : state_ok st -> maps_ok st -> In t0 (fst (build_vars (s_opts st))) ->
  ref_ptr st (ty_ptr t0) = (ty_id t0, ty_size t0).
Proof.
  intros Hok HM H. destruct (base_find st t0 Hok HM H) as (t & _ & (_ & K2 & K3 & _) & F).
  unfold ref_ptr. rewrite F. unfold ref_of. rewrite K2, K3. reflexivity.
Qed.

Lemma phi_order st : state_ok st -> maps_ok st ->
  map (ref_ptr st) (phi_ptrs (s_opts st)) = phi_refs (s_opts st).
Proof.
  intros Hok HM.
  assert (X : forall p i s, (exists t0, In t0 (fst (build_vars (s_opts st))) /\ ty_ptr t0 = p /\ ty_id t0 = i /\ ty_size t0 = s) ->
     ref_ptr st p = (i, s)).
  { intros p i s (t0 & H & <- & <- & <-). apply ref_base; auto. }
  assert (H0 : ref_ptr st ptr_imu = (Some 0%nat, 15%nat)).
  { apply X. eexists. split; [apply imu_built|]. auto. }
  unfold phi_ptrs, phi_refs. destruct (o_calib_imu (s_opts st)) eqn:Ei; cbn [app map]; rewrite H0; auto.
  set (o := s_opts st) in *.
  assert (H1 : ref_ptr st ptr_dw = (Some 15%nat, 6%nat)).
  { apply X. unfold build_vars. rewrite Ei. eexists. split.
    - apply cams_old. do 4 apply push_if_old. apply push_if_old. apply push_if_new.
    - auto. }
  assert (H2 : ref_ptr st ptr_da = (Some 21%nat, 6%nat)).
  { apply X. unfold build_vars. rewrite Ei. eexists. split.
    - apply cams_old. do 4 apply push_if_old. apply push_if_new.
    - auto. }
  rewrite H1, H2. f_equal. f_equal. f_equal.
  destruct (o_calib_gsens o) eqn:Eg, (o_kalibr o) eqn:Ek; cbn [app map].
  - f_equal; [|f_equal].
    + apply X. unfold build_vars. rewrite Ei, Eg. eexists. split.
      * apply cams_old. do 3 apply push_if_old. apply push_if_new.
      * auto.
    + apply X. unfold build_vars. rewrite Ei, Eg, Ek. eexists. split.
      * apply cams_old. do 2 apply push_if_old. apply push_if_new.
      * auto.
  - f_equal; [|f_equal].
    + apply X. unfold build_vars. rewrite Ei, Eg. eexists. split.
      * apply cams_old. do 3 apply push_if_old. apply push_if_new.
      * auto.
    + apply X. unfold build_vars. rewrite Ei, Eg, Ek. eexists. split.
      * apply cams_old. do 1 apply push_if_old. apply push_if_new.
      * auto.
  - f_equal. apply X. unfold build_vars. rewrite Ei, Eg, Ek. eexists. split.
      * apply cams_old. do 2 apply push_if_old. apply push_if_new.
      * auto.
  - f_equal. apply X. unfold build_vars. rewrite Ei, Eg, Ek. eexists. split.
      * apply cams_old. do 1 apply push_if_old. apply push_if_new.
      * auto.
Qed.

Lemma phi_refs_facts o : phi_refs o <> [] /\ contiguous (phi_refs o) = true /\
  length (indices (phi_refs o)) = prop_dim o.
Proof.
  unfold phi_refs, prop_dim. destruct (o_calib_imu o), (o_calib_gsens o); repeat split; discriminate.
Qed.

Lemma phi_in_cov st : state_ok st -> maps_ok st -> in_cov (s_dim st) (phi_refs (s_opts st)).
Proof.
  intros Hok HM. rewrite <- (phi_order st Hok HM). apply Forall_forall. intros r Hr.
  apply in_map_iff in Hr. destruct Hr as (p & <- & Hp).
  assert (Y : exists i s, ref_ptr st p = (Some i, s)).
  { assert (In (ref_ptr st p) (phi_refs (s_opts st))) by (rewrite <- (phi_order st Hok HM); apply in_map; auto).
    revert H. unfold phi_refs. destruct (ref_ptr st p) as [i s].
    destruct (o_calib_imu (s_opts st)), (o_calib_gsens (s_opts st)); simpl; intros H;
      repeat destruct H as [H|H]; try (injection H as <- <-; eauto); destruct H. }
  destruct Y as (i & s & Y). unfold ref_ptr in *. destruct (find_top (s_vars st) p) as [t|] eqn:F; [|discriminate].
  apply find_top_some in F. destruct F as [F _].
  destruct (consecutive_in _ _ _ _ (ok_layout _ Hok) F) as (id & A & _ & B). exists id. simpl. rewrite A. auto.
Qed.

(** ** propagate_and_clone as a sequence of respected calls *)
Definition prop_ops (t : R) (i : prop_in) (o : opts) : list op :=
  [OSetImu (pi_x i) (pi_x i); OProp (phi_refs o) (phi_refs o) (pi_Phi i) (pi_Q i); OTime t; OAugment (pi_w i)].

Definition last_le (st : state) : Prop := forall t, In t (map fst (s_clones st)) -> t <= s_time st.

Lemma set_imu_frame st x y st' : with_var st (s_imu st) (set_imu_both x y) = Ok st' ->
  s_opts st' = s_opts st /\ s_clones st' = s_clones st /\ s_time st' = s_time st.
Proof.
  unfold with_var. intros H. apply obind_ok in H. destruct H as (v & _ & H). injection H as <-. auto.
Qed.

Lemma prop_clone_total chi2q st t i : reach chi2q st -> last_le st -> s_time st < t -> prop_ok (s_opts st) i ->
  exists st' p, propagate_and_clone st t i = Ok st' /\ reach chi2q st' /\ s_opts st' = s_opts st /\
    s_time st' = t /\ s_clones st' = s_clones st ++ [(t, p)].
Proof.
  intros HR HL Ht [K1 [K2a K2b] [K3a K3b] K4]. unfold propagate_and_clone.
  destruct (Reqb_spec (s_time st) t) as [E|_]; [lra|].
  destruct (Rltb_spec t (s_time st)) as [E|_]; [lra|].
  destruct (reach_progress chi2q st (OSetImu (pi_x i) (pi_x i)) HR K1) as (st1 & E1 & HR1). simpl in E1.
  rewrite E1. cbn [obind].
  destruct (set_imu_frame _ _ _ _ E1) as (O1 & C1 & T1).
  destruct (reach_inv _ _ HR1) as (Hok1 & HP1 & HM1).
  rewrite (phi_order st1 Hok1 HM1).
  destruct (phi_refs_facts (s_opts st1)) as (N & Cg & Ln). rewrite O1 in *.
  assert (HA : allowed st1 (OProp (phi_refs (s_opts st)) (phi_refs (s_opts st)) (pi_Phi i) (pi_Q i))).
  { unfold allowed. pose proof (phi_in_cov st1 Hok1 HM1) as IC. rewrite O1 in IC.
    rewrite Ln, K2a, K2b, K3a, K3b. do 9 (split; [auto; fail|]). auto. }
  destruct (reach_progress chi2q st1 _ HR1 HA) as (st2 & E2 & HR2). cbn [exec] in E2.
  rewrite E2. cbn [obind].
  destruct (propagation_inv _ _ _ _ _ _ E2 (proj1 HP1)) as (_ & _ & _ & _ & _ & _ & _ & _ & s0 & C & _ & _ & Est2 & _).
  assert (HR3 : reach chi2q (set_time st2 t)).
  { eapply (reach_step chi2q st2 (OTime t)); simpl; auto. }
  assert (HA4 : allowed (set_time st2 t) (OAugment (pi_w i))).
  { simpl. rewrite Est2. simpl. rewrite C1. intros Hin. apply HL in Hin. lra. }
  destruct (reach_progress chi2q _ _ HR3 HA4) as (st4 & E4 & HR4). simpl in E4. rewrite E4.
  destruct (reach_inv _ _ HR3) as (Hok3 & _ & _).
  destruct (augment_inv _ _ _ Hok3 E4) as (_ & imu & loc & pose & st5 & _ & _ & _ & _ & _ & _ & _ & _ & _ & _ & _ &
     _ & _ & _ & G1 & G2 & _ & _ & _ & _ & _ & G8 & _).
  exists st4, (po_ptr pose). split; auto. split; auto. split; [rewrite G1, Est2; simpl; auto|].
  split; [rewrite G2; auto|]. rewrite G8, Est2. simpl. rewrite C1. reflexivity.
Qed.

Lemma update_window st order H res Rn st' : EKFUpdate st order H res Rn = Ok st' ->
  s_clones st' = s_clones st /\ s_time st' = s_time st /\ s_opts st' = s_opts st.
Proof.
  unfold EKFUpdate. intros E. apply obind_ok in E. destruct E as (l & _ & E).
  apply guard_ok in E; [|discriminate]. destruct E as [_ E]. cbv zeta in E.
  apply obind_ok in E. destruct E as (Ma & _ & E). apply obind_ok in E. destruct E as (Ps & _ & E).
  apply guard_ok in E; [|discriminate]. destruct E as [_ E].
  apply obind_ok in E. destruct E as (vars & _ & E). apply obind_ok in E. destruct E as (cams & _ & E).
  injection E as <-. auto.
Qed.
Lemma init_inv_window st nv order HR HL Rn res st' : initialize_invertible st nv order HR HL Rn res = Ok st' ->
  s_clones st' = s_clones st /\ s_time st' = s_time st /\ s_opts st' = s_opts st.
Proof.
  unfold initialize_invertible. destruct (find_top _ _); [discriminate|]. intros E.
  do 3 (apply guard_ok in E; [|discriminate]; destruct E as [_ E]).
  apply obind_ok in E. destruct E as (l & _ & E). apply guard_ok in E; [|discriminate]. destruct E as [_ E]. cbv zeta in E.
  apply obind_ok in E. destruct E as (Ma & _ & E). apply obind_ok in E. destruct E as (Ps & _ & E).
  apply guard_ok in E; [|discriminate]. destruct E as [_ E].
  apply obind_ok in E. destruct E as (nv' & _ & E). injection E as <-. auto.
Qed.

Lemma exec_window chi2q st o st' : inv st -> exec chi2q st o = Ok st' -> keeps_window o ->
  s_clones st' = s_clones st /\ s_time st' = s_time st /\ s_opts st' = s_opts st.
Proof.
  intros (Hok & HP & HM) E K. destruct o; simpl in K, E; try tauto.
  - apply obind_ok in E. destruct E as ([st1 c] & E & H). injection H as <-. simpl.
    destruct (clone_frame _ _ _ _ Hok E) as (F1 & F2 & F3 & F4 & F5 & F6 & F7 & F8). auto.
  - apply obind_ok in E. destruct E as ([st1 c] & E & H). injection H as <-. simpl.
    destruct (marginalize_frame _ _ _ _ Hok E) as (F1 & F2 & F3 & F4 & F5 & F6 & F7 & F8 & F9). auto.
  - destruct (slam_loop_inv _ _ _ _ Hok (proj1 HP) E) as (_ & A).
    decompose [and] A. auto.
  - destruct (propagation_inv _ _ _ _ _ _ E (proj1 HP)) as (_ & _ & _ & _ & _ & _ & _ & _ & s0 & C & _ & _ & -> & _). auto.
  - eapply update_window; eauto.
  - apply obind_ok in E. destruct E as ([b st1] & E & H). injection H as <-. simpl.
    destruct (initialize_inv _ _ _ _ _ _ _ _ _ _ _ E) as (_ & _ & _ & _ & _ & _ & _ & _ & _ & _ & G & _ & _ & L & X & rr & _ & _ & _ &
      [(_ & -> & _)|(_ & _ & st2 & Ei & Hc)]); auto.
    apply init_inv_window in Ei. destruct Ei as (I1 & I2 & I3).
    destruct Hc as [(_ & ->)|(_ & Eu)]; auto.
    apply update_window in Eu. destruct Eu as (U1 & U2 & U3). rewrite U1, U2, U3. auto.
  - unfold set_initial_covariance in E. apply obind_ok in E. destruct E as (l & _ & E).
    apply guard_ok in E; [|discriminate]. destruct E as [_ E]. injection E as <-. auto.
  - injection E as <-. auto.
  - injection E as <-. auto.
  - injection E as <-. auto.
  - unfold with_var in E. apply obind_ok in E. destruct E as (v & _ & E). injection E as <-. auto.
  - unfold with_var in E. apply obind_ok in E. destruct E as (v & _ & E). injection E as <-. auto.
  - unfold with_var in E. apply obind_ok in E. destruct E as (v & _ & E). injection E as <-. auto.
  - unfold with_var in E. apply obind_ok in E. destruct E as (v & _ & E). injection E as <-. auto.
Qed.

(** ** clone times *)
Lemma increasing_cons a l : increasing (a :: l) <-> (forall b, In b l -> a < b) /\ increasing l.
Proof.
  revert a. induction l as [|b l IH]; intros a.
  - simpl. split; [intros _; split; [tauto|auto]|auto].
  - change (increasing (a :: b :: l)) with (a < b /\ increasing (b :: l)). split.
    + intros [H1 H2]. split; auto. intros c [<-|Hc]; auto. apply IH in H2. destruct H2 as [H2 _]. specialize (H2 c Hc). lra.
    + intros [H1 H2]. split; auto. apply H1. simpl; auto.
Qed.
Lemma increasing_snoc l t : increasing l -> (forall x, In x l -> x < t) -> increasing (l ++ [t]).
Proof.
  induction l as [|a l IH]; intros H1 H2; [simpl; auto|]. apply increasing_cons in H1. destruct H1 as [A B].
  change ((a :: l) ++ [t]) with (a :: (l ++ [t])). apply increasing_cons. split.
  - intros b Hb. apply in_app_or in Hb. destruct Hb as [Hb|[<-|[]]]; auto. apply H2; simpl; auto.
  - apply IH; auto. intros x Hx. apply H2; simpl; auto.
Qed.
Lemma drop_first (l : list (R * nat)) t : increasing (map fst l) -> In t (map fst l) ->
  (forall e, In e l -> t <= fst e) -> filter (fun e => negb (Reqb (fst e) t)) l = tl l.
Proof.
  destruct l as [|e l]; simpl map; intros HI Hin Hm; [destruct Hin|].
  apply increasing_cons in HI. destruct HI as [A B]. simpl.
  assert (E : fst e = t).
  { destruct Hin as [<-|Hin]; auto. specialize (A _ Hin). specialize (Hm e (or_introl eq_refl)). lra. }
  destruct (Reqb_spec (fst e) t) as [_|N]; [|tauto]. simpl.
  rewrite <- E in *. clear -A. induction l as [|b l IH]; simpl; auto.
  destruct (Reqb_spec (fst b) (fst e)) as [X|X]; simpl.
  - specialize (A (fst b) (or_introl eq_refl)). lra.
  - f_equal. apply IH. intros c Hc. apply A. simpl; auto.
Qed.
Lemma increasing_tl l : increasing l -> increasing (tl l).
Proof. destruct l as [|a l]; auto. intros H. apply increasing_cons in H. tauto. Qed.

Lemma policy_run chi2q mid : forall st, reach chi2q st -> respects chi2q mid st ->
  exists st', run_policy chi2q mid st = Ok st' /\ reach chi2q st' /\
    s_clones st' = s_clones st /\ s_time st' = s_time st /\ s_opts st' = s_opts st.
Proof.
  unfold run_policy. induction mid as [|f l IH]; intros st HR HC; simpl.
  - exists st. auto 6.
  - destruct HC as (A & K & N). destruct (reach_progress chi2q st _ HR A) as (st1 & E & HR1).
    destruct (exec_window _ _ _ _ (reach_inv _ _ HR) E K) as (W1 & W2 & W3).
    destruct (IH st1 HR1 (N _ E)) as (st2 & E2 & HR2 & X1 & X2 & X3). rewrite E. simpl.
    exists st2. rewrite X1, X2, X3. auto 6.
Qed.

Definition window_ok (st : state) : Prop :=
  increasing (map fst (s_clones st)) /\ last_le st /\ (Z.of_nat (length (s_clones st)) <= o_max_clones (s_opts st))%Z.

Lemma old_clone_window chi2q st : reach chi2q st -> increasing (map fst (s_clones st)) -> (0 <= o_max_clones (s_opts st))%Z ->
  exists st', marginalize_old_clone st = Ok st' /\ reach chi2q st' /\ s_opts st' = s_opts st /\ s_time st' = s_time st /\
    s_clones st' = (if (o_max_clones (s_opts st) <? Z.of_nat (length (s_clones st)))%Z then tl (s_clones st) else s_clones st).
Proof.
  intros HR HI Hz. destruct (reach_progress chi2q st OMargOld HR Hz) as (st' & E & HR'). simpl in E.
  exists st'. split; auto. split; auto. destruct (reach_inv _ _ HR) as (Hok & _ & _).
  destruct (old_clone_inv _ _ Hok E) as [[-> Hle]|(t & p & st1 & m & Hlt & Hin & Hmin & Em & _ & Hc & ->)].
  - split; auto. split; auto. destruct (Z.ltb_spec (o_max_clones (s_opts st)) (Z.of_nat (length (s_clones st)))); auto; lia.
  - destruct (marginalize_frame _ _ _ _ Hok Em) as (F1 & F2 & _). simpl. split; auto. split; auto.
    rewrite (proj2 (Z.ltb_lt _ _) Hlt). apply drop_first; auto. apply (in_map fst) in Hin. auto.
Qed.

Lemma frame_step chi2q st t i mid : reach chi2q st -> window_ok st -> (1 <= o_max_clones (s_opts st))%Z ->
  frame_ok chi2q st t i mid ->
  exists st', do_feature_propagate_update chi2q st t i mid = Ok st' /\ reach chi2q st' /\ window_ok st' /\
    s_opts st' = s_opts st /\
    s_time st' = Rmax (s_time st) t /\
    (t <= s_time st -> s_clones st' = s_clones st) /\
    (s_time st < t -> exists p, s_clones st' =
        if (o_max_clones (s_opts st) <? Z.of_nat (S (length (s_clones st))))%Z
        then tl (s_clones st ++ [(t, p)]) else s_clones st ++ [(t, p)]).
Proof.
  intros HR (W1 & W2 & W3) Hz [PK HC]. unfold do_feature_propagate_update.
  destruct (Rltb_spec t (s_time st)) as [Hlt|Hge].
  { exists st. do 4 (split; [unfold window_ok; auto|]). split; [rewrite Rmax_left; lra|]. split; auto. intros; lra. }
  destruct (Reqb_spec (s_time st) t) as [Heq|Hne]; cbn [obind].
  - (* same time: no propagation *)
    destruct (Z.ltb_spec (Z.of_nat (length (s_clones st))) (Z.min (o_max_clones (s_opts st)) 5)) as [L|L].
    { exists st. do 4 (split; [unfold window_ok; auto|]). split; [rewrite Rmax_left; lra|]. split; auto. intros; lra. }
    destruct (Reqb_spec (s_time st) t) as [_|N]; [|tauto]. cbn [negb].
    destruct (policy_run chi2q mid st HR (HC st HR eq_refl Heq)) as (st2 & E2 & HR2 & X1 & X2 & X3).
    rewrite E2. cbn [obind].
    destruct (old_clone_window chi2q st2 HR2) as (st3 & E3 & HR3 & O3 & T3 & C3); [rewrite X1; auto|rewrite X3; lia|].
    rewrite X1, X3 in C3.
    destruct (Z.ltb_spec (o_max_clones (s_opts st)) (Z.of_nat (length (s_clones st)))) as [L'|L']; [lia|].
    exists st3. split; auto. split; auto. unfold window_ok, last_le. rewrite C3, O3, T3, X3, X2.
    split; [auto|]. split; auto. split; [rewrite Rmax_left; lra|]. split; auto. intros; lra.
  - assert (Ht : s_time st < t) by lra.
    destruct (prop_clone_total chi2q st t i HR W2 Ht PK) as (st1 & p & E1 & HR1 & O1 & T1 & C1).
    rewrite E1. cbn [obind].
    assert (I1 : increasing (map fst (s_clones st1))).
    { rewrite C1, map_app. simpl. apply increasing_snoc; auto. intros x Hx. apply W2 in Hx. lra. }
    assert (L1 : last_le st1).
    { intros x. rewrite T1, C1, map_app. intros Hx. apply in_app_or in Hx. destruct Hx as [Hx|[<-|[]]]; simpl; [apply W2 in Hx|]; lra. }
    assert (N1 : length (s_clones st1) = S (length (s_clones st))) by (rewrite C1, app_length; simpl; lia).
    rewrite N1, O1.
    destruct (Z.ltb_spec (Z.of_nat (S (length (s_clones st)))) (Z.min (o_max_clones (s_opts st)) 5)) as [L|L].
    { exists st1. split; auto. split; auto. split; [unfold window_ok; rewrite N1, O1; split; auto; split; auto; lia|].
      split; auto. split; [rewrite Rmax_right; lra|]. split; [intros; lra|]. intros _. exists p.
      destruct (Z.ltb_spec (o_max_clones (s_opts st)) (Z.of_nat (S (length (s_clones st))))); [lia|auto]. }
    rewrite T1. destruct (Reqb_spec t t) as [_|N]; [|tauto]. cbn [negb].
    destruct (policy_run chi2q mid st1 HR1 (HC st1 HR1 O1 T1)) as (st2 & E2 & HR2 & X1 & X2 & X3).
    rewrite E2. cbn [obind].
    destruct (old_clone_window chi2q st2 HR2) as (st3 & E3 & HR3 & O3 & T3 & C3); [rewrite X1; auto|rewrite X3, O1; lia|].
    rewrite X1, X3, O1, N1 in C3.
    exists st3. split; auto. split; auto. unfold window_ok, last_le. rewrite O3, T3, X3, X2, O1, T1.
    split; [|split; [auto|split; [rewrite Rmax_right; lra|split; [intros; lra|intros _; exists p; rewrite C3, C1; reflexivity]]]].
    rewrite C3. destruct (Z.ltb_spec (o_max_clones (s_opts st)) (Z.of_nat (S (length (s_clones st))))) as [L'|L'].
    + split; [|split].
      * replace (map fst (tl (s_clones st1))) with (tl (map fst (s_clones st1))) by (destruct (s_clones st1); auto). apply increasing_tl; auto.
      * intros x Hx. rewrite <- T1. apply L1. rewrite C1 in *. destruct (s_clones st); simpl in *; auto.
      * rewrite C1. destruct (s_clones st) eqn:Ec; simpl tl; [simpl in *; lia|]. rewrite app_length in *. simpl in *. lia.
    + split; auto. split; [intros x Hx; rewrite <- T1; auto|lia].
Qed.

Lemma filter_ok chi2q st : filter_state chi2q st ->
  reach chi2q st /\ window_ok st /\ (1 <= o_max_clones (s_opts st))%Z.
Proof.
  induction 1 as [st HR HC Hz|st t i mid st' _ (A & B & Hz) HF E].
  - split; auto. split; auto. unfold window_ok, last_le. rewrite HC. simpl. split; auto. split; [tauto|lia].
  - destruct (frame_step chi2q st t i mid A B Hz HF) as (st1 & E1 & HR1 & W1 & O & _).
    assert (st1 = st') by congruence. subst. rewrite O. auto.
Qed.

Lemma frame_total chi2q st t i mid : filter_state chi2q st -> frame_ok chi2q st t i mid ->
  exists st', do_feature_propagate_update chi2q st t i mid = Ok st' /\ filter_state chi2q st' /\ s_opts st' = s_opts st /\
    s_time st' = Rmax (s_time st) t /\
    (t <= s_time st -> s_clones st' = s_clones st) /\
    (s_time st < t -> exists p, s_clones st' =
        if (o_max_clones (s_opts st) <? Z.of_nat (S (length (s_clones st))))%Z
        then tl (s_clones st ++ [(t, p)]) else s_clones st ++ [(t, p)]).
Proof.
  intros HF HK. destruct (filter_ok _ _ HF) as (A & B & Hz).
  destruct (frame_step chi2q st t i mid A B Hz HK) as (st1 & E1 & HR1 & W1 & O & T & C1 & C2).
  exists st1. split; auto. split; [eapply fs_frame; eauto|]. auto.
Qed.
