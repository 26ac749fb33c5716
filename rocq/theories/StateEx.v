(** A concrete reachable filter state (all calibrations on, two cameras, a clone and a SLAM
    landmark) and a concrete run of two camera frames: the non-trivial cases quoted next to the
    filter-state theorems. *)
From Coq Require Import Reals List Arith Lia Lra Bool ZArith.
From Verif Require Import RBool Outcome Lin GeoModel GeoSpec GivensModel GivensSpec TypesModel StateModel StateSpec PdInv
  StateLin StateEkf TypesProofs GeoProofs GeoMore GivensProofs EquivProofs StateOps StateOps2 StateOps3 StateOps4 StateOps5 StateInit
  ReachModel ReachSpec StateReach StateFrame ManifoldSpec ManifoldProofs StateThms.
Import ListNotations.
Open Scope R_scope.

(** every listed block lies inside the covariance *)
Ltac incov := unfold in_cov; repeat (apply Forall_cons; [eexists; split; [reflexivity|simpl; lia]|]); apply Forall_nil.

Definition ex_opts : opts := mkOpts true true true true true true 2 1 0.
Definition ex_cams : list (nat * list R) := [(0%nat, repeat 0 8); (1%nat, repeat 0 8)].
Definition ex_chi2 (n : nat) : R := INR n + 1.
Definition ex_land (p : nat) : ty := TVec (mkVec p None 3 [1; 2; 3] [1; 2; 3]).
(** four rows, three landmark coordinates: one row is left for the innovation test *)
Definition ex_HL : dmat := DMat 4 3 (fun i j => if Nat.eqb i j then 2 else 0).
Definition ex_HR : dmat := DMat 4 6 (fun i j => if Nat.eqb i j then 1 else 1 / 2).
Definition ex_Rn : dmat := DMat 4 4 mid.

Lemma ex_new : exists st, new_state ex_opts ex_cams = Ok st /\ reach ex_chi2 st /\ s_clones st = [] /\
  s_slam st = [] /\ s_opts st = ex_opts /\ (15 <= s_dim st)%nat.
Proof.
  destruct (new_state_ok ex_opts ex_cams) as (st & E & _ & D & _ & _ & O & C & Sl & _).
  exists st. split; auto. split.
  { eapply reach_new; [|exact E]. simpl. intros i Hi. assert (i = 0 \/ i = 1)%nat as [-> | ->] by lia; auto. }
  do 3 (split; [auto|]). rewrite D. unfold expected. simpl. lia.
Qed.

Lemma iso_mid n : isotropic (DMat n n mid) = true.
Proof.
  apply isotropic_spec. simpl. intros r c _ _. unfold mid. simpl. destruct (Nat.eqb r c); auto.
Qed.
Lemma ex_rank : full_col_rank 4 3 (dm ex_HL).
Proof.
  intros x H. intros i Hi. assert (E := H i). specialize (E ltac:(lia)).
  assert (i = 0 \/ i = 1 \/ i = 2)%nat as [-> | [-> | ->]] by lia; unfold mvec, ex_HL in E; simpl in E; lra.
Qed.

Lemma ex_init_allowed st p : inv st -> (15 <= s_dim st)%nat -> s_next st = S p -> (base_top (s_opts st) <= p)%nat ->
  ~ In p (flat_map ty_ptrs (s_vars st)) ->
  allowed st (OInit (ex_land p) [(Some 0%nat, 6%nat)] ex_HR ex_HL ex_Rn (DVec 4 (fun _ => 0)) 1).
Proof.
  intros (Hok & HP & HM) D N B Hp. simpl. repeat match goal with |- _ /\ _ => split end; auto.
  - constructor; [|constructor]. exists 0%nat. simpl. split; auto. lia.
  - constructor; simpl; auto.
    + repeat split; auto; lia.
    + constructor; [simpl; tauto|constructor].
    + intros q [<-|[]]. auto.
    + intros q [<-|[]]. lia.
  - apply iso_mid.
  - unfold mid. simpl. lra.
  - apply ex_rank.
Qed.

Lemma dot_zero n x y : (forall i, (i < n)%nat -> x i = 0) -> dot n x y = 0.
Proof.
  intros H. unfold dot. apply sumn_zero. intros i Hi. rewrite H by auto. ring.
Qed.
Lemma ex_rich : exists st p t q, reach ex_chi2 st /\ s_clones st = [(t, p)] /\ s_slam st = [(7%nat, (q, false))] /\
  (24 <= s_dim st)%nat /\ (exists v, In (TVec v) (s_vars st) /\ vo_ptr v = q /\ vo_size v = 3%nat) /\
  (exists po, In (TPose po) (s_vars st) /\ po_ptr po = p) /\ s_opts st = ex_opts.
Proof.
  destruct ex_new as (st0 & _ & R0 & C0 & S0 & O0 & D0).
  destruct (reach_progress _ _ (OAugment (V3 1 2 3)) R0) as (st1 & E1 & R1).
  { simpl. rewrite C0. simpl. tauto. }
  cbn [exec] in E1. destruct (reach_inv _ _ R0) as (Hok0 & _).
  destruct (augment_thm _ _ _ Hok0 E1) as (_ & imu & loc & pose & _ & _ & _ & V1 & D1 & _ & Cl1 & _).
  destruct (augment_inv _ _ _ Hok0 E1) as (_ & imu' & loc' & pose' & st1' & X). decompose [and] X. clear X.
  assert (S1 : s_slam st1 = []) by congruence.
  rewrite C0 in Cl1. simpl in Cl1.
  destruct (reach_inv _ _ R1) as (Hok1 & HP1 & HM1).
  destruct (reach_progress _ _ (OAlloc 1) R1 I) as (st2 & E2 & R2). cbn [exec] in E2. injection E2 as E2.
  set (p := s_next st1) in *. destruct (reach_inv _ _ R2) as (Hok2 & HP2 & HM2).
  assert (Al : allowed st2 (OInit (ex_land p) [(Some 0%nat, 6%nat)] ex_HR ex_HL ex_Rn (DVec 4 (fun _ => 0)) 1)).
  { apply ex_init_allowed.
    - exact (conj Hok2 (conj HP2 HM2)).
    - rewrite <- E2. simpl. lia.
    - rewrite <- E2. simpl. lia.
    - rewrite <- E2. simpl. apply (mp_next _ HM1).
    - rewrite <- E2. simpl. intros Hin. apply (ok_alloc _ Hok1) in Hin. unfold p in Hin. lia. }
  destruct (reach_progress _ _ _ R2 Al) as (st3 & E3 & R3).
  cbn [exec] in E3. apply obind_ok in E3. destruct E3 as ([b s3] & E3 & E3'). simpl in E3'. injection E3' as <-.
  destruct Al as (A1 & A2 & A3 & A4 & A5 & A6 & A7 & A8 & A9 & A10 & A11 & A12 & A13).
  destruct (initialize_total ex_chi2 st2 (ex_land p) [(Some 0%nat, 6%nat)] ex_HR ex_HL ex_Rn (DVec 4 (fun _ => 0)) 1)
    as (b' & s' & E3' & _ & _ & D3 & T3); auto.
  { apply cams_ready_of; auto. }
  rewrite E3 in E3'. injection E3' as <- <-.
  destruct b.
  2:{ exfalso. destruct (initialize_reject _ _ _ _ _ _ _ _ _ _ HP2 A11 E3) as (_ & G & _ & _ & y & _ & Hlt).
      rewrite dot_zero in Hlt.
      - unfold ex_chi2 in Hlt. pose proof (pos_INR (dr ex_HL)). lra.
      - intros i Hi. unfold mvec. apply sumn_zero. intros k Hk. simpl. ring. }
  destruct (T3 eq_refl) as (vars & nv' & V3' & HF & P1 & P2 & P3 & G1 & G2 & G3 & G4 & _).
  assert (Hnv : exists v, nv' = TVec v /\ vo_ptr v = p /\ vo_size v = 3%nat).
  { destruct nv' as [v| | | |]; try contradiction. exists v. split; auto. simpl in P1. injection P1 as P1. split; auto.
    destruct (reach_inv _ _ R3) as (Hok3 & _). 
    pose proof (ok_layout _ Hok3) as L3. rewrite V3' in L3. apply consecutive_app in L3. destruct L3 as (m & L3 & L4).
    simpl in L4. simpl in P3. rewrite P3 in L4. destruct L4 as [L4 L5]. injection L4 as L4. simpl in D3. lia. }
  destruct Hnv as (v & -> & Hvp & Hvs).
  assert (S3 : s_slam s3 = []) by (rewrite G4, <- E2; simpl; auto).
  destruct (reach_progress _ _ (OSlamAdd 7 p) R3) as (st4 & E4 & R4).
  { simpl. rewrite S3. simpl. do 2 (split; [tauto|]). split.
    - rewrite G1. auto.
    - exists v. split; auto. rewrite V3'. apply in_or_app. simpl. auto. }
  cbn [exec] in E4. injection E4 as E4.
  exists st4, (po_ptr pose), (s_time st0), p. split; auto.
  rewrite <- E4. simpl. rewrite S3. simpl. split; [rewrite G3, <- E2; simpl; auto|]. split; auto.
  split. { rewrite D3, <- E2. simpl. lia. }
  split. { exists v. split; [rewrite V3'; apply in_or_app; simpl; auto|auto]. }
  destruct (reach_inv _ _ R4) as (_ & _ & HM4). destruct (mp_clones _ HM4 (s_time st0) (po_ptr pose)) as (_ & q & Q1 & Q2).
  { rewrite <- E4. simpl. rewrite G3, <- E2. simpl. rewrite Cl1. simpl. auto. }
  split; [exists q; split; auto; rewrite <- E4 in Q1; exact Q1|]. rewrite G1, <- E2. simpl. congruence.
Qed.

(** two frames with a window of one clone: the second frame drops the first clone *)
Definition ex_prop (o : opts) : prop_in :=
  mkProp (IVal (Q4 0 0 0 1) (V3 1 2 3) (V3 0 1 0) (V3 0 0 0) (V3 0 0 0))
    (DMat (prop_dim o) (prop_dim o) mid) (DMat (prop_dim o) (prop_dim o) (mscal (1 / 100) mid)) (V3 0 0 1).
Lemma ex_prop_ok o : prop_ok o (ex_prop o).
Proof.
  constructor; simpl; auto; [unfold unit_q; simpl; lra|].
  eapply psd_ext; [apply meq_sym, upper_sym_id, sym_scal_id|]. apply pd_psd, pd_scal_id. lra.
Qed.
Definition ex_mid : list (state -> op) := [fun _ => OMargSlam; fun _ => OSlamMark 3].
Lemma ex_frame_ok st t : frame_ok ex_chi2 st t (ex_prop (s_opts st)) ex_mid.
Proof. split; [apply ex_prop_ok|]. intros st1 _ _ _. simpl. auto 10. Qed.
Lemma ex_frames : exists st0 st1 st2 p1 p2, filter_state ex_chi2 st0 /\
  do_feature_propagate_update ex_chi2 st0 (s_time st0 + 1) (ex_prop (s_opts st0)) ex_mid = Ok st1 /\
  do_feature_propagate_update ex_chi2 st1 (s_time st1 + 1) (ex_prop (s_opts st1)) ex_mid = Ok st2 /\
  s_clones st1 = [(s_time st0 + 1, p1)] /\ s_clones st2 = [(s_time st1 + 1, p2)] /\ filter_state ex_chi2 st2.
Proof.
  destruct ex_new as (st0 & _ & R0 & C0 & S0 & O0 & D0).
  assert (F0 : filter_state ex_chi2 st0) by (apply fs_start; auto; rewrite O0; simpl; lia).
  destruct (frame_total _ _ (s_time st0 + 1) _ _ F0 (ex_frame_ok st0 _)) as (st1 & E1 & F1 & P1 & T1 & _ & W1).
  destruct W1 as (p1 & W1); [lra|]. rewrite O0, C0 in W1. simpl in W1.
  destruct (frame_total _ _ (s_time st1 + 1) _ _ F1 (ex_frame_ok st1 _)) as (st2 & E2 & F2 & P2 & T2 & _ & W2).
  destruct W2 as (p2 & W2); [lra|].
  rewrite P1, O0, W1 in W2. simpl in W2.
  exists st0, st1, st2, p1, p2. auto 10.
Qed.
