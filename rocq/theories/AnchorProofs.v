(** Proofs for C60: one anchor change. *)
From Coq Require Import Reals Lra Lia Psatz List ZArith Bool.
From Coquelicot Require Import Coquelicot.
From Verif Require Import RBool Outcome Lin GeoModel GeoSpec GeoProofs JacSo3 Calc3 PdInv GivensModel TypesModel StateModel StateSpec StateOps StateOps2 StateOps3 ReachModel ReachSpec StateReach StateFrame StateThms FeatModel LandModel LandSpec LandProofs CamModel CamSpec CamProofs HelpModel HelpSpec HelpGeo HelpRep HelpAsm HelpThms AnchorModel AnchorSpec AnchorPhi.
Import ListNotations.
Open Scope R_scope.

Lemma set_var_find f p : forall vars vars', set_var f p vars = Ok vars' -> exists t t', find_top vars p = Some t /\ f t = Ok t' /\
  (ty_ptr t' = ty_ptr t -> forall q, find_top vars' q = if Nat.eqb q p then Some t' else find_top vars q).
Proof.
  induction vars as [|x vars IH]; intros vars' E; cbn [set_var] in E; [discriminate|]. unfold find_top. cbn [find].
  destruct (Nat.eqb_spec (ty_ptr x) p) as [Hp|Hp].
  - apply obind_ok in E. destruct E as (x' & E1 & E2). injection E2 as <-. exists x, x'. split; [reflexivity|]. split; [exact E1|]. intros Q q. cbn [find].
    rewrite Q, Hp. rewrite (Nat.eqb_sym q p). destruct (Nat.eqb p q); reflexivity.
  - apply obind_ok in E. destruct E as (r & E1 & E2). injection E2 as <-. destruct (IH _ E1) as (t & t' & F1 & F2 & F3). exists t, t'. split; [exact F1|]. split; [exact F2|].
    intros Q q. specialize (F3 Q q). cbn [find]. destruct (Nat.eqb_spec (ty_ptr x) q) as [Hq|Hq]; [|exact F3]. subst q. destruct (Nat.eqb_spec (ty_ptr x) p); [contradiction|reflexivity].
Qed.

Lemma moved_seen Ro po ko Rn pn kn x : is_rot Rn -> is_rot (ca_R kn) ->
  moved Ro po ko Rn pn kn x = seen_from Rn pn kn (to_global Ro po (ca_R ko) (ca_p ko) x).
Proof.
  intros H1 H2. unfold moved, seen_from, to_global. cbv zeta.
  set (RO := m3mul (ca_R ko) Ro). set (RN := m3mul (ca_R kn) Rn).
  assert (HR : is_rot RN) by (apply is_rot_mul; assumption).
  rewrite <- m3v_mul. change (m3mul (ca_R kn) Rn) with RN. rewrite <- m3v_mul. rewrite <- (m3tr_mul (ca_R ko) Ro). change (m3mul (ca_R ko) Ro) with RO.
  rewrite (m3v_mul RN (m3tr RO)).
  pose proof (rot_back RN (ca_p kn) HR) as B. revert B. generalize (ca_p kn) (ca_p ko). intros cn co B.
  assert (L : forall A u w, m3v A (v3add u w) = v3add (m3v A u) (m3v A w)) by (intros [] [] []; apply v3_ext; cbn; ring).
  assert (S : forall A u w, m3v A (v3sub u w) = v3sub (m3v A u) (m3v A w)) by (intros [] [] []; apply v3_ext; cbn; ring).
  rewrite !S, !L, !S, B. generalize (m3v RN (m3v (m3tr RO) x)) (m3v RN (m3v (m3tr RO) co)) (m3v RN po) (m3v RN pn). intros [] [] [] []. destruct cn; apply v3_ext; cbn; ring.
Qed.

Lemma seen_back Ri pi ca g : is_rot Ri -> is_rot (ca_R ca) -> to_global Ri pi (ca_R ca) (ca_p ca) (seen_from Ri pi ca g) = g.
Proof. intros H1 H2. rewrite <- (to_global_back Ri pi (ca_R ca) (ca_p ca) g H1 H2) at 2. rewrite m3tr_mul, !m3tr_tr, m3v_mul. reflexivity. Qed.
Lemma xyz_feat l x : get_xyz l false = Ok x -> x = feat_xyz (l_rep l) (l_uv0 l) (params (l_val l)).
Proof.
  unfold get_xyz, params. destruct l as [r lv lf u uf]; cbn [l_rep l_val l_uv0].
  destruct r; try discriminate;
  destruct lv as [|a [|b [|c [|d lv]]]]; cbn [v3of obind]; try discriminate; intros E; injection E as <-; cbn [feat_xyz nth]; try reflexivity; unfold full_inv_xyz, msckf_xyz; try (apply v3_ext; cbn; unfold Rdiv; ring).
Qed.
Lemma xyz_feat_fej l x : get_xyz l true = Ok x -> l_rep l <> AnchMsckf -> l_rep l <> AnchSingle -> x = feat_xyz (l_rep l) (l_uv0f l) (params (l_fej l)).
Proof.
  unfold get_xyz, params. destruct l as [r lv lf u uf]; cbn [l_rep l_val l_uv0 l_fej l_uv0f].
  destruct r; try discriminate; try congruence;
  destruct lf as [|a [|b [|c [|d lf]]]]; cbn [v3of obind]; try discriminate; intros E _ _; injection E as <-; cbn [feat_xyz nth]; try reflexivity; unfold full_inv_xyz; try (apply v3_ext; cbn; unfold Rdiv; ring).
Qed.
Lemma set_val_keep l p b l' : set_from_xyz l p b = Ok l' -> l_rep l' = l_rep l /\
  (if b then l_val l' = l_val l /\ l_uv0 l' = l_uv0 l else l_fej l' = l_fej l /\ l_uv0f l' = l_uv0f l).
Proof. unfold set_from_xyz. destruct l as [r lv lf u uf]; cbn [l_rep]. destruct r, b; try discriminate; intros E; injection E as <-; cbn; auto. Qed.
Lemma set_feat l p l' : set_from_xyz l p false = Ok l' -> expressible (l_rep l) p -> feat_xyz (l_rep l) (l_uv0 l') (params (l_val l')) = p.
Proof.
  intros E X. destruct (land_round l p X) as (l2 & E2 & G & _). rewrite E in E2. injection E2 as <-. pose proof (set_val_keep _ _ _ _ E) as [Er _]. rewrite <- Er. symmetry. apply xyz_feat. exact G.
Qed.
Lemma set_feat_fej l p l' : set_from_xyz l p true = Ok l' -> expressible (l_rep l) p -> feat_xyz (l_rep l) (l_uv0f l') (params (l_fej l')) = p.
Proof.
  unfold set_from_xyz. destruct l as [r lv lf u uf]; cbn [l_rep]. destruct r; try discriminate; intros E X; injection E as <-; cbn -[full_inv_of msckf_of]; cbn [expressible] in X; unfold params; cbn [nth v3list].
  - destruct p; reflexivity.
  - transitivity (full_inv_xyz (full_inv_of p)); [unfold full_inv_xyz; apply v3_ext; cbn -[full_inv_of]; unfold Rdiv; ring|apply full_inv_round; exact X].
  - destruct p; reflexivity.
  - transitivity (full_inv_xyz (full_inv_of p)); [unfold full_inv_xyz; apply v3_ext; cbn -[full_inv_of]; unfold Rdiv; ring|apply full_inv_round; exact X].
  - transitivity (msckf_xyz (msckf_of p)); [unfold msckf_xyz; apply v3_ext; cbn -[msckf_of]; unfold Rdiv; ring|apply msckf_round; exact X].
  - apply v3_ext; cbn; field; exact X.
Qed.


Lemma set_vec_inv x y v t' : set_vec_both x y (TVec v) = Ok t' -> exists v', t' = TVec v' /\ vo_ptr v' = vo_ptr v /\ vo_id v' = vo_id v /\ vo_size v' = vo_size v /\ vo_val v' = x /\ vo_fej v' = y.
Proof.
  unfold set_vec_both, vec_set_value, vec_set_fej. intros E. apply obind_ok in E. destruct E as (a & E1 & E). apply obind_ok in E. destruct E as (b & E2 & E). injection E as <-.
  apply guard_ok in E1; [|discriminate]. destruct E1 as [_ E1]. injection E1 as <-. apply guard_ok in E2; [|discriminate]. destruct E2 as [_ E2]. injection E2 as <-. eexists. split; [reflexivity|]. cbn. auto.
Qed.


Lemma propagation_frame st NEW OLD Phi Q st' : EKFPropagation st NEW OLD Phi Q = Ok st' -> exists C, st' = set_vars_cov st (s_vars st) (s_dim st) C.
Proof.
  unfold EKFPropagation. destruct NEW as [|[start sz] NEW]; [discriminate|]. destruct OLD as [|o OLD]; [discriminate|]. intros H.
  apply guard_ok in H; [|discriminate]. destruct H as [_ H]. apply obind_ok in H. destruct H as (l1 & _ & H). apply obind_ok in H. destruct H as (l2 & _ & H).
  apply guard_ok in H; [|discriminate]. destruct H as [_ H]. destruct start as [s0|]; [|discriminate]. cbv zeta in H. apply guard_ok in H; [|discriminate]. destruct H as [_ H].
  apply guard_ok in H; [|discriminate]. destruct H as [_ H]. injection H as <-. eexists. reflexivity.
Qed.
(** everything one anchor change computes *)
Lemma perform_inv a p t' c' a' : perform_anchor_change a p t' c' = Ok a' ->
  exists v v' pA pAf co ko cn kn Hfo no exo Hfn nn exn l P refs st1 l1 l2,
    let m := sl_meta a p in
    let pA' := moved (po_R co) (po_p co) ko (po_R cn) (po_p cn) kn pA in
    let pAf' := moved (po_Rf co) (po_pf co) ko (po_Rf cn) (po_pf cn) kn pAf in
    is_landmark a p v /\ is_relative (lm_rep m) = true /\ lm_acam m <> (-1)%Z /\
    get_xyz (land_of m v) false = Ok pA /\ get_xyz (land_of m v) true = Ok pAf /\
    clone_at (sl_st a) (lm_atime m) = Some co /\ calib_at a (Z.to_nat (lm_acam m)) = Some ko /\
    clone_at (sl_st a) t' = Some cn /\ calib_at a c' = Some kn /\
    rep_jac (env_of a) (mkHf (lm_rep m) (lm_acam m) (lm_atime m) pA v3zero v3zero []) = Ok (Hfo, no, exo) /\
    rep_jac (env_of a) (mkHf (lm_rep m) (Z.of_nat c') t' pA' v3zero v3zero []) = Ok (Hfn, nn, exn) /\
    anchor_phi (lm_rep m) (Hfo, no, exo) (Hfn, nn, exn) = Ok (l, P) /\
    key_refs a (ly_order l) = Ok refs /\
    EKFPropagation (sl_st a) [ref_of (TVec v)] (refs ++ [ref_of (TVec v)]) (DMat (phisize (lm_rep m)) (ly_total l + vo_size v) P) (DMat (phisize (lm_rep m)) (phisize (lm_rep m)) mzero) = Ok st1 /\
    set_from_xyz (land_of m v) pA' false = Ok l1 /\ set_from_xyz l1 pAf' true = Ok l2 /\
    with_var st1 p (set_vec_both (l_val l2) (l_fej l2)) = Ok (sl_st a') /\
    is_landmark a' p v' /\ vo_ptr v' = vo_ptr v /\ vo_id v' = vo_id v /\ vo_size v' = vo_size v /\ vo_val v' = l_val l2 /\ vo_fej v' = l_fej l2 /\
    (exists C vars, st1 = set_vars_cov (sl_st a) (s_vars (sl_st a)) (s_dim (sl_st a)) C /\ sl_st a' = set_vars_cov st1 vars (s_dim (sl_st a)) C) /\
    (forall q, find_top (s_vars (sl_st a')) q = if Nat.eqb q p then Some (TVec v') else find_top (s_vars (sl_st a)) q) /\
    sl_fej a' = sl_fej a /\ sl_cal a' = sl_cal a /\ sl_meta a' = set_meta (sl_meta a) p (mkLm (lm_rep m) (Z.of_nat c') t' (l_uv0 l2) (l_uv0f l2)).
Proof.
  unfold perform_anchor_change. intros E. destruct (find_top (s_vars (sl_st a)) p) as [[v| | | |]|] eqn:Ev; try discriminate.
  apply guard_ok in E; [|discriminate]. destruct E as [G E]. apply andb_true_iff in G. destruct G as [Rl Ac]. apply negb_true_iff, Z.eqb_neq in Ac.
  apply obind_ok in E. destruct E as (pA & EA & E). apply obind_ok in E. destruct E as (pAf & EF & E).
  apply obind_ok in E. destruct E as ([[Hfo no] exo] & EJ & E).
  apply obind_ok in E. destruct E as (co & E1 & E). apply obind_ok in E. destruct E as (ko & E2 & E). apply obind_ok in E. destruct E as (cn & E3 & E). apply obind_ok in E. destruct E as (kn & E4 & E).
  cbv zeta in E. apply obind_ok in E. destruct E as ([[Hfn nn] exn] & EN & E). apply obind_ok in E. destruct E as ([l P] & EP & E). cbn [fst snd] in E.
  apply obind_ok in E. destruct E as (refs & EK & E). apply obind_ok in E. destruct E as (st1 & ES & E). apply obind_ok in E. destruct E as (l1 & L1 & E). apply obind_ok in E. destruct E as (l2 & L2 & E).
  apply obind_ok in E. destruct E as (st2 & EW & E). injection E as <-. cbn [sl_st sl_fej sl_cal sl_meta].
  pose proof EW as EW'. unfold with_var in EW. apply obind_ok in EW. destruct EW as (vars & EV & EW). injection EW as <-.
  destruct (propagation_frame _ _ _ _ _ _ ES) as (C & Est). subst st1. cbn [s_vars set_vars_cov] in EV.
  destruct (set_var_find _ _ _ _ EV) as (t & t2 & F1 & F2 & F3). rewrite Ev in F1. injection F1 as <-. destruct (set_vec_inv _ _ _ _ F2) as (v' & -> & V1 & V2 & V3 & V4 & V5).
  specialize (F3 V1).
  exists v, v', pA, pAf, co, ko, cn, kn, Hfo, no, exo, Hfn, nn, exn, l, P, refs. eexists. exists l1, l2. cbv zeta.
  split; [exact Ev|]. split; [exact Rl|]. split; [exact Ac|]. split; [exact EA|]. split; [exact EF|].
  split; [exact (at_ok _ _ E1)|]. split; [exact (cam_at_ok _ _ _ E2)|]. split; [exact (at_ok _ _ E3)|]. split; [exact (at_ok _ _ E4)|].
  split; [exact EJ|]. split; [exact EN|]. split; [exact EP|]. split; [exact EK|]. split; [exact ES|]. split; [exact L1|]. split; [exact L2|]. split; [exact EW'|].
  split; [unfold is_landmark; cbn [sl_st s_vars set_vars_cov]; rewrite F3, Nat.eqb_refl; reflexivity|].
  split; [exact V1|]. split; [exact V2|]. split; [exact V3|]. split; [exact V4|]. split; [exact V5|].
  split; [exists C, vars; split; reflexivity|]. split; [exact F3|]. auto.
Qed.

Lemma pose_same st st' p v v' : find_top (s_vars st) p = Some (TVec v) -> (forall q, find_top (s_vars st') q = if Nat.eqb q p then Some (TVec v') else find_top (s_vars st) q) ->
  forall q, get_pose st' q = get_pose st q.
Proof. intros E F q. unfold get_pose. rewrite F. destruct (Nat.eqb_spec q p) as [->|_]; [rewrite E; reflexivity|reflexivity]. Qed.

Lemma perform_frame a p t' c' a' : perform_anchor_change a p t' c' = Ok a' ->
  exists v v', is_landmark a p v /\ is_landmark a' p v' /\ vo_id v' = vo_id v /\ vo_size v' = vo_size v /\
    (forall q, q <> p -> find_top (s_vars (sl_st a')) q = find_top (s_vars (sl_st a)) q) /\
    s_clones (sl_st a') = s_clones (sl_st a) /\ s_slam (sl_st a') = s_slam (sl_st a) /\ s_time (sl_st a') = s_time (sl_st a) /\ s_opts (sl_st a') = s_opts (sl_st a) /\
    s_dim (sl_st a') = s_dim (sl_st a) /\ (forall t, clone_at (sl_st a') t = clone_at (sl_st a) t) /\ (forall c, calib_at a' c = calib_at a c) /\
    (forall q, q <> p -> sl_meta a' q = sl_meta a q) /\ lm_rep (sl_meta a' p) = lm_rep (sl_meta a p) /\ lm_acam (sl_meta a' p) = Z.of_nat c' /\ lm_atime (sl_meta a' p) = t' /\
    sl_fej a' = sl_fej a /\ sl_cal a' = sl_cal a.
Proof.
  intros E. destruct (perform_inv _ _ _ _ _ E) as (v & v' & pA & pAf & co & ko & cn & kn & Hfo & no & exo & Hfn & nn & exn & l & P & refs & st1 & l1 & l2 & H). cbv zeta in H.
  destruct H as (LM & _ & _ & _ & _ & _ & _ & _ & _ & _ & _ & _ & _ & _ & _ & _ & _ & LM' & _ & V2 & V3 & _ & _ & (C & vars & S1 & S2) & F & M1 & M2 & M3).
  pose proof (pose_same _ _ _ _ _ LM F) as PS.
  assert (CL : s_clones (sl_st a') = s_clones (sl_st a)) by (rewrite S2, S1; reflexivity). assert (OP : s_opts (sl_st a') = s_opts (sl_st a)) by (rewrite S2, S1; reflexivity).
  exists v, v'. split; [exact LM|]. split; [exact LM'|]. split; [exact V2|]. split; [exact V3|].
  split; [intros q Hq; rewrite F; destruct (Nat.eqb_spec q p); [contradiction|reflexivity]|].
  split; [exact CL|]. split; [rewrite S2, S1; reflexivity|]. split; [rewrite S2, S1; reflexivity|]. split; [exact OP|]. split; [rewrite S2; reflexivity|].
  split; [intros t; unfold clone_at; rewrite CL; destruct (find_clone_time _ _); [rewrite PS|]; reflexivity|].
  split; [intros c; unfold calib_at; rewrite OP, PS, M2; reflexivity|].
  rewrite M3. unfold set_meta. split; [intros q Hq; destruct (Nat.eqb_spec q p); [contradiction|reflexivity]|]. rewrite Nat.eqb_refl. cbn. auto.
Qed.

Lemma anchor_value a p t' c' a' g : perform_anchor_change a p t' c' = Ok a' -> rotations a -> global_of a p g ->
  can_express a (lm_rep (sl_meta a p)) t' c' g -> global_of a' p g.
Proof.
  intros E [RC RK] (v0 & cl & ca & LM0 & ECL & ECA & EG) X.
  destruct (perform_inv _ _ _ _ _ E) as (v & v' & pA & pAf & co & ko & cn & kn & Hfo & no & exo & Hfn & nn & exn & l & P & refs & st1 & l1 & l2 & H). cbv zeta in H.
  destruct H as (LM & Rl & _ & GA & _ & K1 & K2 & K3 & K4 & _ & _ & _ & _ & _ & SA & SF & _ & LM' & _ & _ & _ & V4 & _ & _ & _ & _ & _ & M3).
  destruct (perform_frame _ _ _ _ _ E) as (_ & _ & _ & _ & _ & _ & _ & _ & _ & _ & _ & _ & FC & FK & _).
  unfold is_landmark in LM0, LM. rewrite LM in LM0. injection LM0 as <-. rewrite K1 in ECL. injection ECL as <-. rewrite K2 in ECA. injection ECA as <-.
  apply xyz_feat in GA. unfold land_of in GA. cbn [l_rep l_uv0 l_val] in GA. rewrite <- GA in EG.
  destruct (RC _ _ K3) as [Rn _]. pose proof (RK _ _ K4) as Rkn. specialize (X _ _ K3 K4). rewrite EG in X.
  rewrite <- (moved_seen (po_R co) (po_p co) ko (po_R cn) (po_p cn) kn pA Rn Rkn) in X.
  pose proof (set_feat _ _ _ SA X) as Q. destruct (set_val_keep _ _ _ _ SF) as (_ & W1 & W2). unfold land_of in Q. cbn [l_rep] in Q.
  exists v', cn, kn. rewrite M3. unfold set_meta. rewrite Nat.eqb_refl. cbn [lm_rep lm_acam lm_atime lm_uv0]. rewrite Nat2Z.id, FC, FK.
  split; [exact LM'|]. split; [exact K3|]. split; [exact K4|]. rewrite V4, W1, W2, Q, EG. rewrite (moved_seen _ _ _ _ _ _ _ Rn Rkn).
  symmetry. apply seen_back; assumption.
Qed.

Lemma anchor_value_fej a p t' c' a' g : perform_anchor_change a p t' c' = Ok a' -> rotations a -> global_fej a p g ->
  lm_rep (sl_meta a p) <> AnchMsckf -> lm_rep (sl_meta a p) <> AnchSingle ->
  can_express_fej a (lm_rep (sl_meta a p)) t' c' g -> global_fej a' p g.
Proof.
  intros E [RC RK] (v0 & cl & ca & LM0 & ECL & ECA & EG) NM NS X.
  destruct (perform_inv _ _ _ _ _ E) as (v & v' & pA & pAf & co & ko & cn & kn & Hfo & no & exo & Hfn & nn & exn & l & P & refs & st1 & l1 & l2 & H). cbv zeta in H.
  destruct H as (LM & Rl & _ & _ & GA & K1 & K2 & K3 & K4 & _ & _ & _ & _ & _ & SA & SF & _ & LM' & _ & _ & _ & _ & V5 & _ & _ & _ & _ & M3).
  destruct (perform_frame _ _ _ _ _ E) as (_ & _ & _ & _ & _ & _ & _ & _ & _ & _ & _ & _ & FC & FK & _).
  unfold is_landmark in LM0, LM. rewrite LM in LM0. injection LM0 as <-. rewrite K1 in ECL. injection ECL as <-. rewrite K2 in ECA. injection ECA as <-.
  apply xyz_feat_fej in GA; [|exact NM|exact NS]. unfold land_of in GA. cbn [l_rep l_uv0f l_fej] in GA. rewrite <- GA in EG.
  destruct (RC _ _ K3) as [_ Rn]. pose proof (RK _ _ K4) as Rkn. specialize (X _ _ K3 K4). rewrite EG in X.
  rewrite <- (moved_seen (po_Rf co) (po_pf co) ko (po_Rf cn) (po_pf cn) kn pAf Rn Rkn) in X.
  destruct (set_val_keep _ _ _ _ SA) as (RR & _). unfold land_of in RR. cbn [l_rep] in RR.
  pose proof (set_feat_fej _ _ _ SF) as Q. rewrite RR in Q. specialize (Q X).
  exists v', cn, kn. rewrite M3. unfold set_meta. rewrite Nat.eqb_refl. cbn [lm_rep lm_acam lm_atime lm_uv0f]. rewrite Nat2Z.id, FC, FK.
  split; [exact LM'|]. split; [exact K3|]. split; [exact K4|]. rewrite V5, Q, EG. rewrite (moved_seen _ _ _ _ _ _ _ Rn Rkn).
  symmetry. apply seen_back; assumption.
Qed.

(** the covariance *)
Lemma key_refs_ok a l refs : key_refs a l = Ok refs -> Forall2 (fun k r => exists x, key_var a k x /\ r = ref_of x) l refs.
Proof.
  revert refs. induction l as [|k l IH]; intros refs E; cbn [key_refs] in E; [injection E as <-; constructor|].
  apply obind_ok in E. destruct E as (x & E1 & E). apply obind_ok in E. destruct E as (y & E2 & E). injection E as <-. constructor; [|apply IH; exact E2].
  unfold key_ref in E1. destruct k as [t|c|c]; cbn [key_var].
  - destruct (find_clone_time (s_clones (sl_st a)) t) as [p|] eqn:F; [|discriminate]. apply find_clone_some in F. destruct (find_top (s_vars (sl_st a)) p) as [z|] eqn:Z; [|discriminate]. injection E1 as <-. exists z. split; [exists p; auto|reflexivity].
  - destruct (find_top (s_vars (sl_st a)) (ptr_pose c)) as [z|] eqn:Z; [|discriminate]. injection E1 as <-. exists z. auto.
  - destruct (find_top (s_vars (sl_st a)) (ptr_intr c)) as [z|] eqn:Z; [|discriminate]. injection E1 as <-. exists z. auto.
Qed.

Lemma now_rep e f cl ca : is_relative (hf_rep f) = true -> (0 <= hf_acam f)%Z -> he_clone e (hf_atime f) = Some cl -> he_calib e (Z.to_nat (hf_acam f)) = Some ca ->
  now_global e f = Some (to_global (po_R cl) (po_p cl) (ca_R ca) (ca_p ca) (hf_pA f)).
Proof. intros R1 R2 E1 E2. unfold now_global. rewrite R1, E1, E2. reflexivity. Qed.

Lemma anchor_cov a p t' c' a' : perform_anchor_change a p t' c' = Ok a' -> sym (s_dim (sl_st a)) (s_cov (sl_st a)) -> rotations a ->
  (forall g, global_of a p g -> can_express a (lm_rep (sl_meta a p)) t' c' g) ->
  exists v v' order refs Phi s0, is_landmark a p v /\ is_landmark a' p v' /\
    Forall2 (fun k r => exists x, key_var a k x /\ r = ref_of x) order refs /\
    indices [ref_of (TVec v)] = seq s0 (phisize (lm_rep (sl_meta a p))) /\
    length (indices (refs ++ [ref_of (TVec v)])) = (sizes order + phisize (lm_rep (sl_meta a p)))%nat /\
    meq (s_dim (sl_st a)) (s_dim (sl_st a)) (s_cov (sl_st a'))
      (congr (s_dim (sl_st a)) (full_F s0 (phisize (lm_rep (sl_meta a p))) (indices (refs ++ [ref_of (TVec v)])) Phi) (s_cov (sl_st a))) /\
    re_expresses (env_of a) (lm_rep (sl_meta a p)) (feat_of a p v) (feat_of a' p v') order Phi.
Proof.
  intros E HS HR X.
  destruct (perform_inv _ _ _ _ _ E) as (v & v' & pA & pAf & co & ko & cn & kn & Hfo & no & exo & Hfn & nn & exn & l & P & refs & st1 & l1 & l2 & H). cbv zeta in H.
  destruct H as (LM & Rl & _ & GA & _ & K1 & K2 & K3 & K4 & JO & JN & EP & EK & ES & SA & SF & _ & LM' & _ & _ & _ & V4 & _ & (C & vars & S1 & S2) & _ & _ & _ & M3).
  exists v, v', (ly_order l), refs, P.
  destruct (propagation_thm _ _ _ _ _ _ HS ES) as (s0 & I1 & _ & D1 & D2 & _ & _ & _ & _ & _ & _ & HC & _). cbn [dr dc dm] in *.
  exists s0. split; [exact LM|]. split; [exact LM'|]. split; [apply key_refs_ok; exact EK|]. split; [exact I1|].
  destruct (anchor_row _ _ _ _ _ _ _ _ _ EP) as [(L1 & L2 & _) _].
  assert (SZ : vo_size v = phisize (lm_rep (sl_meta a p))).
  { destruct (propagation_inv _ _ _ _ _ _ ES HS) as (_ & _ & IC & _). inversion IC as [|x y (id & A1 & A2) A3]; subst. rewrite D1. unfold indices. cbn [flat_map]. rewrite app_nil_r.
    unfold ref_of in *. cbn [fst snd ty_id ty_size] in *. rewrite A1. rewrite seq_length. reflexivity. }
  split; [rewrite <- D2, SZ, L2; reflexivity|].
  split.
  - intros i j Hi Hj. assert (CC : s_cov (sl_st a') = s_cov st1) by (rewrite S2, S1; reflexivity). rewrite CC, (HC i j Hi Hj). unfold madd.
    replace (full_Q s0 (phisize (lm_rep (sl_meta a p))) (upper_sym mzero) i j) with 0; [ring|]. unfold full_Q, upper_sym, mzero. destruct (_ && _)%bool; [destruct (_ <=? _)%nat; reflexivity|reflexivity].
  - apply xyz_feat in GA. unfold land_of in GA. cbn [l_rep l_uv0 l_val] in GA.
    destruct HR as [RC RK]. destruct (RC _ _ K3) as [Rn _]. pose proof (RK _ _ K4) as Rkn.
    assert (GO : global_of a p (to_global (po_R co) (po_p co) (ca_R ko) (ca_p ko) pA)) by (exists v, co, ko; rewrite GA; auto).
    specialize (X _ GO _ _ K3 K4). rewrite <- (moved_seen (po_R co) (po_p co) ko (po_R cn) (po_p cn) kn pA Rn Rkn) in X.
    pose proof (set_feat _ _ _ SA X) as Q. destruct (set_val_keep _ _ _ _ SF) as (_ & W1 & W2). unfold land_of in Q. cbn [l_rep] in Q.
    set (pA' := moved (po_R co) (po_p co) ko (po_R cn) (po_p cn) kn pA) in *.
    assert (FO : feat_of a p v = mkHf (lm_rep (sl_meta a p)) (lm_acam (sl_meta a p)) (lm_atime (sl_meta a p)) pA v3zero v3zero []) by (unfold feat_of; rewrite GA; reflexivity).
    assert (FN : feat_of a' p v' = mkHf (lm_rep (sl_meta a p)) (Z.of_nat c') t' pA' v3zero v3zero []).
    { unfold feat_of. rewrite M3. unfold set_meta. rewrite Nat.eqb_refl. cbn [lm_rep lm_acam lm_atime lm_uv0]. rewrite V4, W1, W2, Q. reflexivity. }
    rewrite FO, FN. apply (phi_re_expresses _ _ _ _ _ _ _ _ _ _ _ _ JO JN); try reflexivity; [exact Rl| |exact EP].
    destruct (now_feat _ _ _ _ _ JN Rl) as (ca1 & cl1 & g1 & A1 & A2 & _ & A3 & ->). destruct (now_feat _ _ _ _ _ JO Rl) as (ca2 & cl2 & g2 & B1 & B2 & _ & B3 & ->).
    cbn [hf_acam hf_atime hf_pA he_calib he_clone env_of] in *. rewrite Nat2Z.id in A1. rewrite K4 in A1. injection A1 as <-. rewrite K3 in A2. injection A2 as <-. rewrite K2 in B1. injection B1 as <-. rewrite K1 in B2. injection B2 as <-.
    rewrite A3, B3. unfold pA'. rewrite (moved_seen _ _ _ _ _ _ _ Rn Rkn), seen_back by assumption. reflexivity.
Qed.
