(** C61: what the two listings mean, and the proofs. *)
From Coq Require Import Reals Lra Lia List ZArith Bool Permutation.
From Verif Require Import RBool Outcome Lin GeoModel GeoProofs TypesModel StateModel StateSpec StateReach StateFrame ReachModel ReachSpec LandModel LandProofs CamModel HelpModel HelpSpec HelpRep AnchorModel AnchorSpec AnchorProofs AnchorTotal AnchorThms ShowModel.
Import ListNotations.
Open Scope R_scope.

(** where landmark p is in the global frame *)
Definition located (a : slam) (p : nat) (g : v3) : Prop :=
  if is_relative (lm_rep (sl_meta a p)) then global_of a p g
  else exists v, is_landmark a p v /\ g = feat_xyz (lm_rep (sl_meta a p)) (lm_uv0 (sl_meta a p)) (params (vo_val v)).
(** landmarks of tag corners, by their id *)
Definition is_tag (a : slam) (e : nat * (nat * bool)) : bool := (Z.of_nat (fst e) <=? 4 * o_max_aruco (s_opts (sl_st a)))%Z.

Lemma show_located a p g : show_one a p = Ok g -> located a p g.
Proof.
  unfold show_one, located. intros E. destruct (find_top (s_vars (sl_st a)) p) as [[v| | | |]|] eqn:Ev; try discriminate.
  destruct (is_relative (lm_rep (sl_meta a p))).
  - apply guard_ok in E; [|discriminate]. destruct E as [_ E]. apply obind_ok in E. destruct E as (ca & E1 & E). apply obind_ok in E. destruct E as (cl & E2 & E). apply obind_ok in E. destruct E as (x & E3 & E). injection E as <-.
    apply xyz_feat in E3. cbn [land_of l_rep l_uv0 l_val] in E3. exists v, cl, ca. split; [exact Ev|]. split; [exact (at_ok _ _ E2)|]. split; [exact (cam_at_ok _ _ _ E1)|].
    rewrite <- E3. unfold to_global. rewrite m3v_mul. reflexivity.
  - apply xyz_feat in E. cbn [land_of l_rep l_uv0 l_val] in E. exists v. split; [exact Ev|exact E].
Qed.

Lemma show_total chi2q ph a i p b : passes chi2q ph a -> In (i, (p, b)) (s_slam (sl_st a)) -> exists g, show_one a p = Ok g.
Proof.
  intros P H. destruct (passes_inv _ _ _ P) as [W1 W2 W3 W4 W5 W6 W7 _]. pose proof (reach_inv _ _ W1) as I. destruct (W6 _ _ _ H) as (NU & v & LM & SZ).
  pose proof (proj1 I) as Hok. pose proof LM as LM0. apply StateOps.find_top_some in LM0. destruct LM0 as [Lin _]. pose proof (proj1 (Forall_forall _ _) (ok_vals _ Hok) _ Lin) as (VL1 & VL2 & _). rewrite SZ in VL1, VL2.
  unfold show_one. unfold is_landmark in LM. rewrite LM. destruct (xyz_total (land_of (sl_meta a p) v) false NU VL1 VL2) as (x & EX). rewrite EX. destruct (is_relative (lm_rep (sl_meta a p))) eqn:Rl; [|eauto].
  destruct (W5 _ _ _ H Rl) as (A1 & A2 & A3). replace (lm_acam (sl_meta a p) =? -1)%Z with false by (symmetry; apply Z.eqb_neq; lia). cbn [negb guard].
  pose proof (calib_live a _ I W7 A3) as K. pose proof (clone_live _ _ I A1) as C. destruct (calib_at a _) as [ca|] eqn:EC; [|contradiction]. destruct (clone_at _ _) as [cl|] eqn:EL; [|contradiction].
  unfold cam_at. rewrite (proj2 (Z.ltb_ge _ _) A2). rewrite EC. cbn. eauto.
Qed.

Lemma show_all_spec a skip : forall l, (forall e, In e l -> exists g, show_one a (fst (snd e)) = Ok g) ->
  exists gs, show_all a skip l = Ok gs /\ Forall2 (fun e g => located a (fst (snd e)) g) (filter (fun e => negb (skip (fst e))) l) gs.
Proof.
  induction l as [|e l IH]; intros H; cbn [show_all filter]; [exists []; split; [reflexivity|constructor]|].
  destruct IH as (gs & E & F). { intros x Hx. apply H. right. exact Hx. }
  destruct (skip (fst e)); cbn [negb]; [eauto|]. destruct (H e (or_introl eq_refl)) as (g & Eg). rewrite Eg, E. cbn. exists (g :: gs). split; [reflexivity|]. constructor; [apply show_located; exact Eg|exact F].
Qed.

(** one position per landmark, split by id into the two lists *)
Lemma listing_thm chi2q ph a : passes chi2q ph a -> exists tags others,
  get_features_SLAM a = Ok others /\ get_features_ARUCO a = Ok tags /\
  Forall2 (fun e g => located a (fst (snd e)) g) (filter (fun e => negb (is_tag a e)) (s_slam (sl_st a))) others /\
  Forall2 (fun e g => located a (fst (snd e)) g) (filter (is_tag a) (s_slam (sl_st a))) tags.
Proof.
  intros P. assert (T : forall e, In e (s_slam (sl_st a)) -> exists g, show_one a (fst (snd e)) = Ok g) by (intros [i [p b]] H; eapply show_total; eauto).
  destruct (show_all_spec a (fun id => Z.of_nat id <=? 4 * o_max_aruco (s_opts (sl_st a)))%Z _ T) as (gs & E & F).
  destruct (show_all_spec a (fun id => 4 * o_max_aruco (s_opts (sl_st a)) <? Z.of_nat id)%Z _ T) as (gs' & E' & F'). exists gs', gs. split; [exact E|]. split; [exact E'|]. split; [exact F|].
  erewrite filter_ext; [exact F'|]. intros e. unfold is_tag. cbv beta. destruct (Z.leb_spec (Z.of_nat (fst e)) (4 * o_max_aruco (s_opts (sl_st a)))), (Z.ltb_spec (4 * o_max_aruco (s_opts (sl_st a))) (Z.of_nat (fst e))); auto; lia.
Qed.
Lemma filter_split {A} (f : A -> bool) l : Permutation (filter (fun x => negb (f x)) l ++ filter f l) l.
Proof.
  induction l as [|x l IH]; cbn [filter app]; [constructor|]. destruct (f x); cbn [negb app]; [|constructor; exact IH].
  eapply perm_trans; [apply Permutation_sym, Permutation_middle|]. constructor. exact IH.
Qed.
Lemma forall2_perm {A B} (P : A -> B -> Prop) l l' : Permutation l l' -> forall r, Forall2 P l r -> exists r', Permutation r r' /\ Forall2 P l' r'.
Proof.
  induction 1 as [|x l l' H IH|x y l|l l1 l2 H1 IH1 H2 IH2]; intros r F.
  - exists r. split; [reflexivity|exact F].
  - inversion F as [|? b ? r0 Hb F0]; subst. destruct (IH _ F0) as (r' & P1 & P2). exists (b :: r'). split; [constructor; exact P1|constructor; auto].
  - inversion F as [|? b ? r0 Hb F0]; subst. inversion F0 as [|? c ? r1 Hc F1]; subst. exists (c :: b :: r1). split; [constructor|constructor; [auto|constructor; auto]].
  - destruct (IH1 _ F) as (r1 & P1 & F1). destruct (IH2 _ F1) as (r2 & P2 & F2). exists r2. split; [eapply perm_trans; eauto|exact F2].
Qed.
Lemma listing_once chi2q ph a : passes chi2q ph a -> exists tags others gs,
  get_features_SLAM a = Ok others /\ get_features_ARUCO a = Ok tags /\ Permutation (others ++ tags) gs /\
  Forall2 (fun e g => located a (fst (snd e)) g) (s_slam (sl_st a)) gs /\ NoDup (map fst (s_slam (sl_st a))).
Proof.
  intros P. destruct (listing_thm _ _ _ P) as (tags & others & E1 & E2 & F1 & F2). destruct (forall2_perm _ _ _ (filter_split (is_tag a) (s_slam (sl_st a))) _ (Forall2_app F1 F2)) as (gs & P1 & F). exists tags, others, gs.
  do 4 (split; [assumption|]). destruct (reach_inv _ _ (w_reach _ _ _ (passes_inv _ _ _ P))) as (_ & _ & HM). apply (mp_sids _ HM).
Qed.
(** a landmark has one place *)
Lemma located_unique a p g g' : located a p g -> located a p g' -> g = g'.
Proof.
  unfold located. destruct (is_relative _).
  - intros (v & cl & ca & L & C & K & ->) (v' & cl' & ca' & L' & C' & K' & ->). unfold is_landmark in *. congruence.
  - intros (v & L & ->) (v' & L' & ->). unfold is_landmark in *. congruence.
Qed.
