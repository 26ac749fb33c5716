(** Concrete landmarks: a window of two clones with an anchored landmark, and what goes wrong with first estimates and on the optical axis. *)
From Coq Require Import Reals Lra Lia Psatz List ZArith Bool.
From Verif Require Import RBool Outcome Lin GeoModel GeoSpec GeoProofs GivensModel GivensSpec TypesModel TypesProofs StateModel StateSpec StateOps StateOps2 StateOps3 StateOps4 StateOps5 StateInit StateLin StateEkf ReachModel ReachSpec StateReach StateFrame StateThms StateEx FeatModel FeatProofs LandModel LandSpec CamModel HelpModel HelpSpec AnchorModel AnchorSpec AnchorPhi AnchorProofs AnchorTotal AnchorLive AnchorThms.
Import ListNotations.
Open Scope R_scope.

(** setting one variable: the others stay *)
Lemma set_pose_run st p x y : reach ex_chi2 st -> unit_q (pv_q x) -> (exists q, find_top (s_vars st) p = Some (TPose q)) ->
  exists st' q', reach ex_chi2 st' /\ s_clones st' = s_clones st /\ s_slam st' = s_slam st /\ s_opts st' = s_opts st /\ s_time st' = s_time st /\
    find_top (s_vars st') p = Some (TPose q') /\ pose_of q' = mkPose (quat_2_Rot (pv_q x)) (pv_p x) (quat_2_Rot (pv_q y)) (pv_p y) /\
    forall o, o <> p -> find_top (s_vars st') o = find_top (s_vars st) o.
Proof.
  intros HR U (q & F). pose proof (find_top_some _ _ _ F) as [Hin Hp]. destruct (reach_progress ex_chi2 st (OSetPose p x y) HR) as (st' & E & R').
  { split; [exists q; auto|exact U]. }
  cbn [exec] in E. unfold with_var in E. apply obind_ok in E. destruct E as (vars & EV & E). injection E as <-.
  destruct (set_var_find _ _ _ _ EV) as (t & t' & F1 & F2 & F3). rewrite F in F1. injection F1 as <-. cbn [set_pose_both] in F2. injection F2 as <-.
  exists (set_vars_cov st vars (s_dim st) (s_cov st)). eexists. split; [exact R'|]. do 4 (split; [reflexivity|]). specialize (F3 eq_refl). cbn [s_vars set_vars_cov].
  split; [rewrite F3, Nat.eqb_refl; reflexivity|]. split; [reflexivity|]. intros o Ho. rewrite F3. destruct (Nat.eqb_spec o p); [contradiction|reflexivity].
Qed.
Lemma set_vec_run st p x y v : reach ex_chi2 st -> find_top (s_vars st) p = Some (TVec v) -> length x = vo_size v -> length y = vo_size v ->
  exists st' v', reach ex_chi2 st' /\ s_clones st' = s_clones st /\ s_slam st' = s_slam st /\ s_opts st' = s_opts st /\ s_time st' = s_time st /\
    find_top (s_vars st') p = Some (TVec v') /\ vo_val v' = x /\ vo_fej v' = y /\ vo_size v' = vo_size v /\
    forall o, o <> p -> find_top (s_vars st') o = find_top (s_vars st) o.
Proof.
  intros HR F Lx Ly. pose proof (find_top_some _ _ _ F) as [Hin Hp]. destruct (reach_progress ex_chi2 st (OSetVec p x y) HR) as (st' & E & R').
  { exists v. auto. }
  cbn [exec] in E. unfold with_var in E. apply obind_ok in E. destruct E as (vars & EV & E). injection E as <-.
  destruct (set_var_find _ _ _ _ EV) as (t & t' & F1 & F2 & F3). rewrite F in F1. injection F1 as <-. destruct (set_vec_inv _ _ _ _ F2) as (v' & -> & V1 & V2 & V3 & V4 & V5).
  exists (set_vars_cov st vars (s_dim st) (s_cov st)), v'. split; [exact R'|]. do 4 (split; [reflexivity|]). specialize (F3 V1). cbn [s_vars set_vars_cov].
  split; [rewrite F3, Nat.eqb_refl; reflexivity|]. do 3 (split; [auto|]). intros o Ho. rewrite F3. destruct (Nat.eqb_spec o p); [contradiction|reflexivity].
Qed.

Definition q_id : q4 := Q4 0 0 0 1.
Lemma rot_qid : quat_2_Rot q_id = m3id.
Proof. apply m3_ext; unfold quat_2_Rot, q_id; cbn; try ring; field. Qed.
Lemma unit_qid : unit_q q_id. Proof. unfold unit_q, q_id; cbn; ring. Qed.
Lemma id_rot : is_rot m3id.
Proof. split; [|split]; [apply m3_ext; cbn; ring|apply m3_ext; cbn; ring|unfold m3det; cbn; ring]. Qed.

(** one clone at the origin, the newer one at [d], camera 0 on the IMU, and a landmark with the given parameters
    anchored at the first clone *)
Definition ex_cl (d : v3) : cpose := mkPose m3id d m3id d.
Lemma ex_anchor (r : rep) (d : v3) (x y : list R) b bf : length x = 3%nat -> length y = 3%nat ->
  exists a t p v, reach ex_chi2 (sl_st a) /\ is_landmark a p v /\ vo_val v = x /\ vo_fej v = y /\ vo_size v = 3%nat /\
    sl_meta a p = mkLm r 0 t b bf /\ clone_at (sl_st a) t = Some (ex_cl v3zero) /\ clone_at (sl_st a) (t + 1) = Some (ex_cl d) /\ calib_at a 0 = Some (mkCal m3id v3zero) /\
    (exists p1 p2, s_clones (sl_st a) = [(t, p1); (t + 1, p2)]) /\ s_slam (sl_st a) = [(7%nat, (p, false))] /\ s_opts (sl_st a) = ex_opts /\ s_time (sl_st a) = t + 1 /\ rotations a.
Proof.
  intros Lx Ly. destruct ex_rich as (st0 & p1 & t & p & R0 & C0 & S0 & _ & (v0 & Hv0 & Hp0 & Hs0) & _ & O0).
  destruct (reach_progress ex_chi2 st0 (OTime (t + 1)) R0 I) as (st1 & E1 & R1). cbn [exec] in E1. injection E1 as E1.
  destruct (reach_progress ex_chi2 st1 (OAugment v3zero) R1) as (st2 & E2 & R2). { rewrite <- E1. cbn. rewrite C0. cbn. intros [H|[]]. lra. }
  cbn [exec] in E2. destruct (reach_inv _ _ R1) as (Hok1 & _).
  destruct (augment_inv _ _ _ Hok1 E2) as (_ & imu & loc & pose & st2' & X1 & X2 & X3 & X4 & X5 & X6 & X7 & X8 & X9 & X10 & X11 & X12 & X13 & X14 & X15 & X16 & X17 & X18 & X19 & X20 & X21 & X22 & _).
  assert (C2 : s_clones st2 = [(t, p1); (t + 1, TypesModel.po_ptr pose)]) by (rewrite X22, <- E1; cbn; rewrite C0; reflexivity). set (p2 := TypesModel.po_ptr pose) in *.
  assert (S2 : s_slam st2 = [(7%nat, (p, false))]) by (rewrite X19, <- E1; exact S0). assert (O2 : s_opts st2 = ex_opts) by (rewrite X15, <- E1; exact O0).
  assert (T2 : s_time st2 = t + 1) by (rewrite X16, <- E1; reflexivity).
  destruct (reach_inv _ _ R2) as (Hok2 & HP2 & HM2).
  destruct (mp_slam _ HM2 7%nat p false) as (B0 & v2 & Hv2 & Hq2); [rewrite S2; left; reflexivity|].
  destruct (mp_clones _ HM2 t p1) as (B1 & q1 & Hq1 & Hp1); [rewrite C2; left; reflexivity|]. destruct (mp_clones _ HM2 (t + 1) p2) as (B2 & q2 & Hq2' & Hp2); [rewrite C2; right; left; reflexivity|].
  pose proof (ok_nodup _ Hok2) as ND.
  assert (F1 : find_top (s_vars st2) p1 = Some (TPose q1)) by (rewrite <- Hp1; change (TypesModel.po_ptr q1) with (ty_ptr (TPose q1)); apply find_top_in_nodup; assumption).
  assert (F2 : find_top (s_vars st2) p2 = Some (TPose q2)) by (rewrite <- Hp2; change (TypesModel.po_ptr q2) with (ty_ptr (TPose q2)); apply find_top_in_nodup; assumption).
  assert (FV : find_top (s_vars st2) p = Some (TVec v2)) by (rewrite <- Hq2; change (vo_ptr v2) with (ty_ptr (TVec v2)); apply find_top_in_nodup; assumption).
  assert (N12 : p1 <> p2) by (pose proof (mp_cptrs _ HM2) as N; rewrite C2 in N; cbn in N; apply NoDup_cons_iff in N; destruct N as [N1 _]; intros E12; apply N1; left; symmetry; exact E12).
  assert (N1p : p1 <> p) by (intros ->; congruence). assert (N2p : p2 <> p) by (intros ->; congruence).
  assert (Hsz : vo_size v2 = 3%nat).
  { assert (I2 : In (TVec v0) (s_vars st2)) by (rewrite X12, X6, <- E1; apply in_or_app; left; exact Hv0).
    assert (TVec v0 = TVec v2); [|congruence]. pose proof (find_top_in_nodup (s_vars st2) (TVec v0) ND I2) as Q. cbn [ty_ptr] in Q. rewrite Hp0, FV in Q. congruence. }
  assert (FC : forall c, (c < 2)%nat -> exists qc, find_top (s_vars st2) (ptr_pose c) = Some (TPose qc)).
  { intros c Hc. assert (B : exists k, In (set_local_id (TPose (new_pose (ptr_pose c))) k) (fst (build_vars (s_opts st2)))) by (unfold build_vars; apply pose_built_aux; rewrite O2; [reflexivity|apply in_seq; cbn; lia]).
    destruct B as (k & B). destruct (base_find _ _ Hok2 HM2 B) as (tt & _ & (_ & _ & _ & K) & F). rewrite set_id_ptr in F. destruct tt; cbn in K; try contradiction. eexists. exact F. }
  assert (NC : forall c z, (c < 2)%nat -> (base_top (s_opts st2) <= z)%nat -> ptr_pose c <> z) by (intros c z Hc Hz; rewrite O2 in Hz; cbn in Hz; unfold ptr_pose; lia).
  pose proof (NC 0%nat _ ltac:(lia) B0) as A0. pose proof (NC 0%nat _ ltac:(lia) B1) as A1. pose proof (NC 0%nat _ ltac:(lia) B2) as A2. pose proof (NC 1%nat _ ltac:(lia) B0) as A3. pose proof (NC 1%nat _ ltac:(lia) B1) as A4. pose proof (NC 1%nat _ ltac:(lia) B2) as A5.
  assert (A6 : ptr_pose 0 <> ptr_pose 1) by (unfold ptr_pose; lia).
  destruct (set_pose_run st2 p1 (PVal q_id v3zero) (PVal q_id v3zero) R2 unit_qid (ex_intro _ _ F1)) as (st3 & c1 & R3 & C3 & S3 & O3 & T3 & G3 & P3 & K3).
  destruct (set_pose_run st3 p2 (PVal q_id d) (PVal q_id d) R3 unit_qid) as (st4 & c2 & R4 & C4 & S4 & O4 & T4 & G4 & P4 & K4). { rewrite K3 by auto. eauto. }
  destruct (set_pose_run st4 (ptr_pose 0) (PVal q_id v3zero) (PVal q_id v3zero) R4 unit_qid) as (st5 & cc & R5 & C5 & S5 & O5 & T5 & G5 & P5 & K5). { rewrite K4, K3 by auto. apply FC. lia. }
  destruct (set_pose_run st5 (ptr_pose 1) (PVal q_id v3zero) (PVal q_id v3zero) R5 unit_qid) as (st7 & cd & R7 & C7 & S7 & O7 & T7 & G7 & P7 & K7). { rewrite K5, K4, K3 by auto. apply FC. lia. }
  destruct (set_vec_run st7 p x y v2 R7) as (st6 & v6 & R6 & C6 & S6 & O6 & T6 & G6 & V1 & V2 & V3 & K6); [|congruence|congruence|]. { rewrite K7, K5, K4, K3 by auto. exact FV. }
  assert (H1 : find_top (s_vars st6) p1 = Some (TPose c1)) by (rewrite K6, K7, K5, K4 by auto; exact G3).
  assert (H2 : find_top (s_vars st6) p2 = Some (TPose c2)) by (rewrite K6, K7, K5 by auto; exact G4).
  assert (H3 : find_top (s_vars st6) (ptr_pose 0) = Some (TPose cc)) by (rewrite K6, K7 by auto; exact G5).
  assert (H4 : find_top (s_vars st6) (ptr_pose 1) = Some (TPose cd)) by (rewrite K6 by auto; exact G7).
  assert (C : s_clones st6 = [(t, p1); (t + 1, p2)]) by congruence.
  exists (mkSlam st6 true (fun _ => None) (fun _ => mkLm r 0 t b bf)), t, p, v6. cbn [sl_st sl_meta]. split; [exact R6|]. split; [exact G6|]. do 2 (split; [assumption|]). split; [congruence|]. split; [reflexivity|].
  split; [|split; [|split; [|split; [eauto|split; [congruence|split; [congruence|split; [congruence|split]]]]]]].
  - unfold clone_at. rewrite C. unfold find_clone_time. cbn [find fst]. destruct (Reqb_spec t t) as [_|X]; [|lra]. unfold get_pose. cbn [option_map snd]. rewrite H1. cbn [option_map]. rewrite P3. cbn. rewrite rot_qid. reflexivity.
  - unfold clone_at. rewrite C. unfold find_clone_time. cbn [find fst]. destruct (Reqb_spec t (t + 1)) as [X|_]; [lra|]. destruct (Reqb_spec (t + 1) (t + 1)) as [_|X]; [|lra]. unfold get_pose. cbn [option_map snd]. rewrite H2. cbn [option_map]. rewrite P4. cbn. rewrite rot_qid. reflexivity.
  - unfold calib_at. cbn [sl_st]. replace (s_opts st6) with ex_opts by congruence. cbn [o_ncams o_calib_pose ex_opts]. cbn [Nat.ltb Nat.leb]. unfold get_pose. rewrite H3. cbn [option_map]. unfold pose_of in P5. injection P5 as P5 P5' _ _. rewrite P5, P5'. rewrite rot_qid. reflexivity.
  - intros u cl. cbn [sl_st]. unfold clone_at. rewrite C. unfold find_clone_time. cbn [find fst]. unfold get_pose. destruct (Reqb t u); cbn [option_map snd].
    + rewrite H1. intros E. injection E as <-. rewrite P3. cbn. rewrite rot_qid. split; apply id_rot.
    + destruct (Reqb (t + 1) u); cbn [option_map snd]; [|discriminate]. rewrite H2. intros E. injection E as <-. rewrite P4. cbn. rewrite rot_qid. split; apply id_rot.
  - intros c ca. unfold calib_at. cbn [sl_st]. replace (s_opts st6) with ex_opts by congruence. cbn [o_ncams o_calib_pose ex_opts]. destruct (Nat.ltb_spec c 2); [|discriminate]. unfold get_pose.
    unfold pose_of in P5, P7. injection P5 as P5 P5' _ _. injection P7 as P7 P7' _ _.
    assert (c = 0 \/ c = 1)%nat as [-> | ->] by lia; [rewrite H3|rewrite H4]; cbn [option_map]; intros E; injection E as <-; cbn [ca_R]; [rewrite P5|rewrite P7]; rewrite rot_qid; apply id_rot.
Qed.

Lemma some_not_none {A} (x : option A) y : x = Some y -> x <> None. Proof. intros ->. discriminate. Qed.
Lemma id_moved pA pn : moved m3id v3zero (mkCal m3id v3zero) m3id pn (mkCal m3id v3zero) pA = v3sub pA pn.
Proof. unfold moved. apply v3_ext; cbn; ring. Qed.
Lemma id_global po x : to_global m3id po m3id v3zero x = v3add x po.
Proof. unfold to_global. apply v3_ext; cbn; ring. Qed.
Lemma id_seen pn g : seen_from m3id pn (mkCal m3id v3zero) g = v3sub g pn.
Proof. unfold seen_from. apply v3_ext; cbn; ring. Qed.

(** an MSCKF inverse depth landmark at (2, 4, 2), re-anchored at a clone at (1, 0, -1) *)
Lemma ex_change : exists a t p a', reach ex_chi2 (sl_st a) /\ rotations a /\ lm_rep (sl_meta a p) = AnchMsckf /\ lm_atime (sl_meta a p) = t /\ perform_anchor_change a p (t + 1) 0 = Ok a' /\
  global_of a p (V3 2 4 2) /\ global_of a' p (V3 2 4 2) /\ (forall g, global_of a p g -> can_express a AnchMsckf (t + 1) 0 g) /\
  (exists v v', is_landmark a p v /\ is_landmark a' p v' /\ vo_val v = [1; 2; 1 / 2] /\ vo_val v' = [1 / 3; 4 / 3; 1 / 3]).
Proof.
  destruct (ex_anchor AnchMsckf (V3 1 0 (-1)) [1; 2; 1 / 2] [1; 2; 1 / 2] v3zero v3zero eq_refl eq_refl) as (a & t & p & v & HR & LM & V1 & V2 & V3' & EM & C1 & C2 & K1 & _ & _ & _ & _ & RT).
  destruct (perform_total ex_chi2 a p v (t + 1) 0 HR LM) as (a' & E & _); rewrite ?EM; cbn [lm_rep lm_acam lm_atime Z.to_nat]; try reflexivity; try lia; try (eapply some_not_none; eassumption); [exact V3'|].
  assert (G : global_of a p (V3 2 4 2)).
  { exists v, (ex_cl v3zero), (mkCal m3id v3zero). rewrite EM. cbn [lm_atime lm_acam Z.to_nat lm_rep lm_uv0]. do 3 (split; [assumption|]). cbn [po_R po_p ex_cl ca_R ca_p]. rewrite id_global, V1. apply v3_ext; unfold params; cbn; lra. }
  assert (X : forall g, global_of a p g -> can_express a AnchMsckf (t + 1) 0 g).
  { intros g (v0 & cl & ca & L0 & E1 & E2 & ->) cl' ca' E3 E4. rewrite EM in *. cbn [lm_atime lm_acam Z.to_nat lm_rep lm_uv0] in *. rewrite C1 in E1. rewrite K1 in E2, E4. rewrite C2 in E3.
    injection E1 as <-. injection E2 as <-. injection E3 as <-. injection E4 as <-. unfold is_landmark in *. rewrite LM in L0. injection L0 as <-.
    cbn [po_R po_p ex_cl ca_R ca_p]. rewrite id_global, id_seen, V1. unfold params; cbn. lra. }
  exists a, t, p, a'. split; [exact HR|]. split; [exact RT|]. rewrite EM at 1 2. do 2 (split; [reflexivity|]). split; [exact E|]. split; [exact G|].
  split; [eapply anchor_value; [exact E|exact RT|exact G|rewrite EM; apply X; exact G]|]. split; [exact X|].
  destruct (perform_inv _ _ _ _ _ E) as (v0 & v' & pA & pAf & co & ko & cn & kn & Hfo & no & exo & Hfn & nn & exn & l & P & refs & st1 & l1 & l2 & H). cbv zeta in H.
  destruct H as (LM0 & _ & _ & GA & GF & J1 & J2 & J3 & J4 & _ & _ & _ & _ & _ & SA & SF & _ & LM' & _ & _ & _ & V4 & V5 & _ & _ & _ & _ & M3).
  exists v, v'. split; [exact LM|]. split; [exact LM'|]. split; [exact V1|]. unfold is_landmark in *. rewrite LM in LM0. injection LM0 as <-. rewrite EM in *. cbn [lm_rep lm_acam lm_atime Z.to_nat] in *.
  rewrite C1 in J1. rewrite K1 in J2, J4. rewrite C2 in J3. injection J1 as <-. injection J2 as <-. injection J3 as <-. injection J4 as <-. unfold land_of in *. cbn in GA, SA. rewrite V1 in GA. cbn in GA. injection GA as <-.
  injection SA as <-. cbn in SF. injection SF as <-. rewrite V4. cbn [l_val]. unfold v3list. cbn [po_R po_p ex_cl]. rewrite id_moved. unfold msckf_of, msckf_xyz. cbn. repeat (f_equal; try lra).
Qed.

(** finding (jj): the first estimate is not carried over for the forms whose get_xyz ignores it *)
Lemma fej_moves : exists a t p a', reach ex_chi2 (sl_st a) /\ rotations a /\ lm_rep (sl_meta a p) = AnchMsckf /\ perform_anchor_change a p (t + 1) 0 = Ok a' /\
  global_fej a p (V3 0 0 1) /\ can_express_fej a AnchMsckf (t + 1) 0 (V3 0 0 1) /\ ~ global_fej a' p (V3 0 0 1) /\ global_fej a' p (V3 0 0 2).
Proof.
  destruct (ex_anchor AnchMsckf (V3 0 0 (-1)) [0; 0; 1 / 2] [0; 0; 1] v3zero v3zero eq_refl eq_refl) as (a & t & p & v & HR & LM & V1 & V2 & V3' & EM & C1 & C2 & K1 & _ & _ & _ & _ & RT).
  destruct (perform_total ex_chi2 a p v (t + 1) 0 HR LM) as (a' & E & _); rewrite ?EM; cbn [lm_rep lm_acam lm_atime Z.to_nat]; try reflexivity; try lia; try (eapply some_not_none; eassumption); [exact V3'|].
  exists a, t, p, a'. split; [exact HR|]. split; [exact RT|]. rewrite EM at 1. split; [reflexivity|]. split; [exact E|].
  split. { exists v, (ex_cl v3zero), (mkCal m3id v3zero). rewrite EM. cbn [lm_atime lm_acam Z.to_nat lm_rep lm_uv0f]. do 3 (split; [assumption|]). cbn [po_Rf po_pf ex_cl ca_R ca_p]. rewrite id_global, V2. apply v3_ext; unfold params; cbn; lra. }
  split. { intros cl' ca' E3 E4. rewrite K1 in E4. rewrite C2 in E3. injection E3 as <-. injection E4 as <-. cbn [po_Rf po_pf ex_cl]. rewrite id_seen. cbn. lra. }
  destruct (perform_frame _ _ _ _ _ E) as (_ & _ & _ & _ & _ & _ & _ & _ & _ & _ & _ & _ & FC & FK & _).
  destruct (perform_inv _ _ _ _ _ E) as (v0 & v' & pA & pAf & co & ko & cn & kn & Hfo & no & exo & Hfn & nn & exn & l & P & refs & st1 & l1 & l2 & H). cbv zeta in H.
  destruct H as (LM0 & _ & _ & GA & GF & J1 & J2 & J3 & J4 & _ & _ & _ & _ & _ & SA & SF & _ & LM' & _ & _ & _ & V4 & V5 & _ & _ & _ & _ & M3).
  unfold is_landmark in LM, LM0. rewrite LM in LM0. injection LM0 as <-. rewrite EM in *. cbn [lm_rep lm_acam lm_atime Z.to_nat] in *.
  rewrite C1 in J1. rewrite K1 in J2, J4. rewrite C2 in J3. injection J1 as <-. injection J2 as <-. injection J3 as <-. injection J4 as <-. unfold land_of in *. cbn in GA, GF, SA. rewrite V1 in GA, GF. cbn in GA, GF. injection GA as <-. injection GF as <-.
  injection SA as <-. cbn in SF. injection SF as <-. cbn [l_uv0 l_uv0f] in M3. cbn [l_fej] in V5.
  assert (V6 : vo_fej v' = [0; 0; 1 / 3]). { rewrite V5. unfold v3list. cbn [po_Rf po_pf ex_cl]. rewrite id_moved. unfold msckf_of, msckf_xyz. cbn. repeat (f_equal; try lra). }
  assert (EM' : sl_meta a' p = mkLm AnchMsckf 0 (t + 1) v3zero v3zero) by (rewrite M3; unfold set_meta; rewrite Nat.eqb_refl; reflexivity).
  assert (G : forall g, global_fej a' p g <-> g = V3 0 0 2).
  { intros g. split.
    - intros (w & cl & ca & L0 & E1 & E2 & ->). rewrite EM' in *. cbn [lm_atime lm_acam Z.to_nat lm_rep lm_uv0f] in *. rewrite FC, C2 in E1. rewrite FK, K1 in E2. injection E1 as <-. injection E2 as <-.
      unfold is_landmark in *. rewrite LM' in L0. injection L0 as <-. cbn [po_Rf po_pf ex_cl ca_R ca_p]. rewrite id_global, V6. apply v3_ext; unfold params; cbn; lra.
    - intros ->. exists v', (ex_cl (V3 0 0 (-1))), (mkCal m3id v3zero). rewrite EM'. cbn [lm_atime lm_acam Z.to_nat lm_rep lm_uv0f]. rewrite FC, FK. do 3 (split; [assumption|]). cbn [po_Rf po_pf ex_cl ca_R ca_p]. rewrite id_global, V6. apply v3_ext; unfold params; cbn; lra. }
  split; [|apply G; reflexivity]. intros H. apply G in H. injection H as H. lra.
Qed.

(** finding (kk): full inverse depth on the optical axis of the new anchor camera cannot follow a sideways motion,
    whatever the rate of its parameters: no linear map re-expresses the error *)
From Coquelicot Require Import Coquelicot.
From Verif Require Import CamSpec.
Lemma axis_stuck (x : R -> vec) D w b z : x 0 0%nat = 0 -> x 0 1%nat = 0 -> x 0 2%nat = z -> z <> 0 -> vec_derive 3 x 0 D ->
  vec_derive 3 (fun s => v3vec (feat_xyz AnchFullInv b (x s))) 0 w -> w 1%nat = 0.
Proof.
  intros X0 X1 X2 NZ HD HW. pose proof (HW 1%nat ltac:(lia)) as H1. cbn [v3vec feat_xyz vy] in H1. pose proof (HD 0%nat ltac:(lia)) as D0. pose proof (HD 1%nat ltac:(lia)) as D1. pose proof (HD 2%nat ltac:(lia)) as D2.
  assert (H2 : forall f0 f1 f2 : R -> R, f0 0 = 0 -> f1 0 = 0 -> f2 0 = z -> ex_derive f0 0 -> ex_derive f1 0 -> ex_derive f2 0 -> is_derive (fun s => / f2 s * (sin (f0 s) * sin (f1 s))) 0 0).
  { intros f0 f1 f2 Y0 Y1 Y2 E0 E1 E2. auto_derive.
    - repeat split; auto. rewrite Y2. exact NZ.
    - rewrite Y0, Y1. rewrite sin_0. ring. }
  specialize (H2 (fun s => x s 0%nat) (fun s => x s 1%nat) (fun s => x s 2%nat) X0 X1 X2 (ex_intro _ _ D0) (ex_intro _ _ D1) (ex_intro _ _ D2)). cbv beta in H2.
  pose proof (is_derive_unique _ _ _ H1) as U1. pose proof (is_derive_unique _ _ _ H2) as U2. rewrite <- U1. exact U2.
Qed.
Lemma axis_change : exists a t p a' v', reach ex_chi2 (sl_st a) /\ rotations a /\ lm_rep (sl_meta a p) = AnchFullInv /\ perform_anchor_change a p (t + 1) 0 = Ok a' /\
  global_of a p (V3 2 0 0) /\ global_of a' p (V3 2 0 0) /\ is_landmark a' p v' /\ lm_rep (sl_meta a' p) = AnchFullInv /\
  forall x D b w, (forall i, x 0 i = params (vo_val v') i) -> vec_derive 3 x 0 D ->
    vec_derive 3 (fun s => v3vec (feat_xyz AnchFullInv b (x s))) 0 w -> w 1%nat = 0.
Proof.
  destruct (ex_anchor AnchFullInv (V3 2 0 (-3)) [0; PI / 2; 1 / 2] [0; PI / 2; 1 / 2] v3zero v3zero eq_refl eq_refl) as (a & t & p & v & HR & LM & V1 & V2 & V3' & EM & C1 & C2 & K1 & _ & _ & _ & _ & RT).
  destruct (perform_total ex_chi2 a p v (t + 1) 0 HR LM) as (a' & E & _); rewrite ?EM; cbn [lm_rep lm_acam lm_atime Z.to_nat]; try reflexivity; try lia; try (eapply some_not_none; eassumption); [exact V3'|].
  assert (G : global_of a p (V3 2 0 0)).
  { exists v, (ex_cl v3zero), (mkCal m3id v3zero). rewrite EM. cbn [lm_atime lm_acam Z.to_nat lm_rep lm_uv0]. do 3 (split; [assumption|]). cbn [po_R po_p ex_cl ca_R ca_p]. rewrite id_global, V1.
    unfold params; cbn. rewrite cos_0, sin_0, sin_PI2, cos_PI2. apply v3_ext; cbn; lra. }
  assert (X : can_express a AnchFullInv (t + 1) 0 (V3 2 0 0)).
  { intros cl' ca' E3 E4. rewrite K1 in E4. rewrite C2 in E3. injection E3 as <-. injection E4 as <-. cbn [po_R po_p ex_cl]. rewrite id_seen. cbn. intros Q. injection Q as _ _ Q. lra. }
  destruct (perform_inv _ _ _ _ _ E) as (v0 & v' & pA & pAf & co & ko & cn & kn & Hfo & no & exo & Hfn & nn & exn & l & P & refs & st1 & l1 & l2 & H). cbv zeta in H.
  destruct H as (LM0 & _ & _ & GA & GF & J1 & J2 & J3 & J4 & _ & _ & _ & _ & _ & SA & SF & _ & LM' & _ & _ & _ & V4 & V5 & _ & _ & _ & _ & M3).
  exists a, t, p, a', v'. split; [exact HR|]. split; [exact RT|]. split; [rewrite EM; reflexivity|]. split; [exact E|]. split; [exact G|].
  split; [eapply anchor_value; [exact E|exact RT|exact G|rewrite EM; exact X]|]. split; [exact LM'|]. split; [rewrite M3; unfold set_meta; rewrite Nat.eqb_refl, EM; reflexivity|].
  unfold is_landmark in LM, LM0. rewrite LM in LM0. injection LM0 as <-. rewrite EM in *. cbn [lm_rep lm_acam lm_atime Z.to_nat] in *.
  rewrite C1 in J1. rewrite K1 in J2, J4. rewrite C2 in J3. injection J1 as <-. injection J2 as <-. injection J3 as <-. injection J4 as <-. unfold land_of in *. cbn in GA, SA. rewrite V1 in GA. cbn in GA. injection GA as <-.
  injection SA as <-. cbn in SF. injection SF as <-. cbn [l_val] in V4.
  assert (V6 : vo_val v' = [0; 0; 1 / 3]).
  { rewrite V4. unfold v3list. cbn [po_R po_p ex_cl]. rewrite id_moved. replace (v3sub (full_inv_xyz (V3 0 (PI / 2) (1 / 2))) (V3 2 0 (-3))) with (V3 0 0 3).
    2:{ unfold full_inv_xyz. cbn [vx vy vz]. rewrite cos_0, sin_0, sin_PI2, cos_PI2. apply v3_ext; cbn; lra. }
    unfold full_inv_of. assert (N : v3norm (V3 0 0 3) = 3). { unfold v3norm, v3dot. cbn. replace (0 * 0 + 0 * 0 + 3 * 3) with (3 * 3) by ring. apply sqrt_square. lra. }
    rewrite N. cbn [vx vy vz]. replace (1 / 3 * 3) with 1 by lra. rewrite acos_1. f_equal. unfold atan2. destruct (Rltb_spec 0 0); [lra|]. reflexivity. }
  intros x D b w Hx HD HW. rewrite V6 in Hx. eapply (axis_stuck x D w b (1 / 3)); [exact (Hx 0%nat)|exact (Hx 1%nat)|exact (Hx 2%nat)|lra|exact HD|exact HW].
Qed.
