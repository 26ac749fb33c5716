(** An anchor change of a reachable state never fails and gives a reachable state. *)
From Coq Require Import Reals Lra Lia Psatz List ZArith Bool.
From Verif Require Import RBool Outcome Lin GeoModel GeoSpec GivensModel TypesModel StateModel StateSpec StateOps StateOps2 StateOps3 ReachModel ReachSpec StateReach StateFrame StateThms FeatModel LandModel LandSpec LandProofs CamModel CamSpec HelpModel HelpSpec HelpRep HelpAsm HelpThms AnchorModel AnchorSpec AnchorPhi AnchorProofs.
Import ListNotations.
Open Scope R_scope.

Lemma rel_known r : is_relative r = true -> r <> RepUnknown. Proof. destruct r; discriminate. Qed.
Lemma xyz_total l b : l_rep l <> RepUnknown -> length (l_val l) = phisize (l_rep l) -> length (l_fej l) = phisize (l_rep l) -> exists x, get_xyz l b = Ok x.
Proof.
  unfold get_xyz. destruct l as [r lv lf u uf]. cbn [l_rep l_val l_fej l_uv0 l_uv0f].
  destruct r; cbn [phisize]; try congruence; intros _ H1 H2; destruct lv as [|x [|y [|z [|w lv]]]]; try discriminate; destruct lf as [|x' [|y' [|z' [|w' lf]]]]; try discriminate; destruct b; cbn; eauto.
Qed.
Lemma set_total l p b : l_rep l <> RepUnknown -> length (l_val l) = phisize (l_rep l) -> length (l_fej l) = phisize (l_rep l) ->
  exists l', set_from_xyz l p b = Ok l' /\ l_rep l' = l_rep l /\ length (l_val l') = phisize (l_rep l) /\ length (l_fej l') = phisize (l_rep l).
Proof.
  unfold set_from_xyz. destruct l as [r lv lf u uf]. cbn [l_rep l_val l_fej l_uv0 l_uv0f].
  destruct r; cbn [phisize]; try congruence; intros _ H1 H2; eexists; (split; [reflexivity|]); destruct b; cbn; auto.
Qed.
Lemma rep_total e f : is_relative (hf_rep f) = true -> (0 <= hf_acam f)%Z -> he_calib e (Z.to_nat (hf_acam f)) <> None -> he_clone e (hf_atime f) <> None ->
  exists Hf n ex, rep_jac e f = Ok (Hf, n, ex) /\ forall k B, In (k, B) ex -> k = KClone (hf_atime f) \/ (he_cal e = true /\ k = KCalib (Z.to_nat (hf_acam f))).
Proof.
  intros Rl HZ HC HT. destruct (he_calib e (Z.to_nat (hf_acam f))) as [ca|] eqn:E1; [|congruence]. destruct (he_clone e (hf_atime f)) as [cl|] eqn:E2; [|congruence].
  assert (A : exists y, anchor_point e f = Ok y).
  { unfold anchor_point, cam_at. replace (hf_acam f =? -1)%Z with false by (symmetry; apply Z.eqb_neq; lia). replace (hf_acam f <? 0)%Z with false by (symmetry; apply Z.ltb_ge; lia).
    rewrite E1, E2. cbn [at_ obind]. destruct (he_fej e); eexists; reflexivity. }
  destruct A as ([[[[Ri pi] Rc] pc] pA] & A). unfold rep_jac. destruct (hf_rep f); try discriminate Rl; rewrite A; cbn [obind];
  (eexists; eexists; eexists; split; [reflexivity|]; intros k B [H|H]; [injection H as <- <-; auto|]; destruct (he_cal e); [|destruct H]; destruct H as [H|[]]; injection H as <- <-; auto).
Qed.
Lemma fold_has (ex : list (key * mat)) : forall l k, (has l k \/ exists B, In (k, B) ex) -> has (fold_left (fun l x => ly_add (fst x) l) ex l) k.
Proof.
  induction ex as [|[k0 B0] ex IH]; intros l k H; cbn [fold_left].
  - destruct H as [H|(B & [])]. exact H.
  - apply IH. cbn [fst]. destruct H as [H|(B & [H|H])]; [left; apply add_has; auto| |right; eauto]. injection H as -> ->. left. apply add_has. auto.
Qed.
Lemma fold_only (ex : list (key * mat)) : forall l k, In k (ly_order (fold_left (fun l x => ly_add (fst x) l) ex l)) -> In k (ly_order l) \/ exists B, In (k, B) ex.
Proof.
  induction ex as [|[k0 B0] ex IH]; intros l k H; cbn [fold_left] in H; [auto|]. apply IH in H. destruct H as [H|(B & H)]; [|right; exists B; right; exact H].
  cbn [fst] in H. unfold ly_add in H. destruct (ly_find (ly_map l) k0); [auto|]. cbn [ly_push ly_order] in H. apply in_app_or in H. destruct H as [H|[<-|[]]]; [auto|]. right. exists B0. left. reflexivity.
Qed.
Lemma place_total l k s Hi ex : (forall v B, In (v, B) ex -> has l v) -> forall P, exists P', place l k s Hi ex P = Ok P'.
Proof.
  induction ex as [|[v B] ex IH]; intros H P; cbn [place]; [eauto|]. pose proof (H v B (or_introl eq_refl)) as Hv. unfold has in Hv. unfold ly_at. destruct (ly_find (ly_map l) v); [|congruence].
  cbn [at_ obind]. apply IH. intros v' B' H'. apply (H v' B'). right. exact H'.
Qed.
Lemma phi_total r Hfo no exo Hfn nn exn : exists l P, anchor_phi r (Hfo, no, exo) (Hfn, nn, exn) = Ok (l, P) /\
  forall k, In k (ly_order l) -> exists B, In (k, B) exo \/ In (k, B) exn.
Proof.
  unfold anchor_phi. set (l := fold_left _ exn _).
  assert (H1 : forall v B, In (v, B) exo -> has l v) by (intros v B H; apply fold_has; left; apply fold_has; right; eauto).
  assert (H2 : forall v B, In (v, B) exn -> has l v) by (intros v B H; apply fold_has; right; eauto).
  destruct (place_total l (phisize r) 1 (new_inv r Hfn) exo H1 mzero) as (P1 & ->). cbn [obind].
  destruct (place_total l (phisize r) (-1) (new_inv r Hfn) exn H2 (put P1 0 (ly_total l) (phisize r) (phisize r) (mmul 3 (new_inv r Hfn) Hfo))) as (P3 & ->). cbn [obind].
  exists l, P3. split; [reflexivity|]. intros k Hk. apply fold_only in Hk. destruct Hk as [Hk|(B & Hk)]; [|eauto]. apply fold_only in Hk. destruct Hk as [[]|(B & Hk)]. eauto.
Qed.

Lemma clone_at_some st t : clone_at st t <> None -> exists p q, find_clone_time (s_clones st) t = Some p /\ find_top (s_vars st) p = Some (TPose q).
Proof.
  unfold clone_at, get_pose. destruct (find_clone_time (s_clones st) t) as [p|]; [|congruence]. destruct (find_top (s_vars st) p) as [[| | |q|]|] eqn:E; cbn; try congruence. intros _. eauto.
Qed.
Lemma calib_at_some a c : calib_at a c <> None -> o_calib_pose (s_opts (sl_st a)) = true -> exists q, find_top (s_vars (sl_st a)) (ptr_pose c) = Some (TPose q).
Proof.
  unfold calib_at, get_pose. intros H E. rewrite E in H. destruct (c <? o_ncams (s_opts (sl_st a)))%nat; [|congruence]. destruct (find_top (s_vars (sl_st a)) (ptr_pose c)) as [[| | |q|]|]; cbn in H; try congruence. eauto.
Qed.
Lemma key_refs_total a l : state_ok (sl_st a) ->
  (forall k, In k l -> match k with KClone t => clone_at (sl_st a) t <> None | KCalib c => o_calib_pose (s_opts (sl_st a)) = true /\ calib_at a c <> None | KIntr _ => False end) ->
  exists refs, key_refs a l = Ok refs /\ in_cov (s_dim (sl_st a)) refs /\ length (indices refs) = sizes l.
Proof.
  intros Hok. induction l as [|k l IH]; intros H; cbn [key_refs].
  - exists []. split; [reflexivity|]. split; [constructor|reflexivity].
  - assert (X : exists p q, key_ref a k = Ok (ref_of (TPose q)) /\ find_top (s_vars (sl_st a)) p = Some (TPose q) /\ ksize k = 6%nat).
    { specialize (H k (or_introl eq_refl)). destruct k as [t|c|c]; cbn [key_ref ksize]; [| |destruct H].
      - destruct (clone_at_some _ _ H) as (p & q & -> & E2). rewrite E2. exists p, q. auto.
      - destruct H as [H1 H2]. destruct (calib_at_some _ _ H2 H1) as (q & E2). rewrite E2. exists (ptr_pose c), q. auto. }
    destruct X as (p & q & -> & F & K6). destruct IH as (refs & -> & IC & IL); [intros k' Hk'; apply H; right; exact Hk'|]. cbn [obind].
    apply find_top_some in F. destruct F as [F _]. destruct (consecutive_in _ _ _ _ (ok_layout _ Hok) F) as (id & A & _ & B).
    exists (ref_of (TPose q) :: refs). split; [reflexivity|]. split.
    + constructor; [|exact IC]. exists id. unfold ref_of. cbn [fst snd]. auto.
    + unfold indices. cbn [flat_map]. rewrite app_length. fold (indices refs). rewrite IL, sizes_cons. f_equal. unfold ref_of. cbn [fst snd]. rewrite A, seq_length, K6. reflexivity.
Qed.

Lemma indices_snoc l x : length (indices (l ++ x)) = (length (indices l) + length (indices x))%nat.
Proof. unfold indices. rewrite flat_map_app, app_length. reflexivity. Qed.
Lemma perform_total chi2q a p v t' c' : reach chi2q (sl_st a) -> is_landmark a p v -> is_relative (lm_rep (sl_meta a p)) = true -> vo_size v = phisize (lm_rep (sl_meta a p)) ->
  (0 <= lm_acam (sl_meta a p))%Z -> clone_at (sl_st a) (lm_atime (sl_meta a p)) <> None -> calib_at a (Z.to_nat (lm_acam (sl_meta a p))) <> None ->
  clone_at (sl_st a) t' <> None -> calib_at a c' <> None -> exists a', perform_anchor_change a p t' c' = Ok a' /\ reach chi2q (sl_st a').
Proof.
  intros HR LM Rl SZ HZ C1 K1 C2 K2. destruct (reach_inv _ _ HR) as (Hok & HP & HM).
  unfold is_landmark in LM. pose proof LM as LM0. apply find_top_some in LM0. destruct LM0 as [Lin Lp]. cbn [ty_ptr] in Lp.
  pose proof (proj1 (Forall_forall _ _) (ok_vals _ Hok) _ Lin) as (VL1 & VL2 & _). rewrite SZ in VL1, VL2.
  unfold perform_anchor_change. rewrite LM. set (m := sl_meta a p) in *. set (l := land_of m v).
  assert (LK : l_rep l <> RepUnknown) by (apply rel_known; exact Rl).
  rewrite Rl. replace (lm_acam m =? -1)%Z with false by (symmetry; apply Z.eqb_neq; lia). cbn [andb negb guard].
  destruct (xyz_total l false LK VL1 VL2) as (pA & ->). cbn [obind]. destruct (xyz_total l true LK VL1 VL2) as (pAf & ->). cbn [obind].
  destruct (rep_total (env_of a) (mkHf (lm_rep m) (lm_acam m) (lm_atime m) pA v3zero v3zero []) Rl HZ K1 C1) as (Hfo & no & exo & -> & XO). cbn [obind]. cbn [hf_atime hf_acam he_cal env_of] in XO.
  cbn [he_clone he_calib env_of]. unfold cam_at. replace (lm_acam m <? 0)%Z with false by (symmetry; apply Z.ltb_ge; lia).
  destruct (clone_at (sl_st a) (lm_atime m)) as [co|] eqn:EC1; [|congruence]. destruct (calib_at a (Z.to_nat (lm_acam m))) as [ko|] eqn:EK1; [|congruence].
  destruct (clone_at (sl_st a) t') as [cn|] eqn:EC2; [|congruence]. destruct (calib_at a c') as [kn|] eqn:EK2; [|congruence]. cbn [at_ obind]. cbv zeta.
  set (pA' := moved _ _ _ _ _ _ pA). set (pAf' := moved _ _ _ _ _ _ pAf).
  destruct (rep_total (env_of a) (mkHf (lm_rep m) (Z.of_nat c') t' pA' v3zero v3zero []) Rl (Nat2Z.is_nonneg c')) as (Hfn & nn & exn & EJ & XN).
  { cbn [he_calib env_of hf_acam]. rewrite Nat2Z.id, EK2. discriminate. } { cbn [he_clone env_of hf_atime]. rewrite EC2. discriminate. }
  change (env_of a) with (mkEnv (sl_fej a) (o_calib_pose (s_opts (sl_st a))) (o_calib_intr (s_opts (sl_st a))) (clone_at (sl_st a)) (calib_at a) (fun _ => None) (fun _ => None)) in EJ. unfold env_of at 1. rewrite EJ. cbn [obind].
  cbn [hf_atime hf_acam he_cal env_of] in XN. rewrite Nat2Z.id in XN.
  destruct (phi_total (lm_rep m) Hfo no exo Hfn nn exn) as (ly & P & EP & OK). rewrite EP. cbn [obind fst snd].
  destruct (anchor_row _ _ _ _ _ _ _ _ _ EP) as [(_ & LT & _) _].
  destruct (key_refs_total a (ly_order ly) Hok) as (refs & -> & IC & IL).
  { intros k Hk. apply OK in Hk. destruct Hk as (B & [Hk|Hk]); [apply XO in Hk|apply XN in Hk]; destruct Hk as [->|[Hc ->]].
    - rewrite EC1. discriminate. - split; [exact Hc|]. rewrite EK1. discriminate. - rewrite EC2. discriminate. - split; [exact Hc|]. rewrite EK2. discriminate. }
  cbn [obind].
  destruct (consecutive_in _ _ _ _ (ok_layout _ Hok) Lin) as (id & IA & _ & IB). cbn [ty_id ty_size] in IA, IB.
  assert (ICv : in_cov (s_dim (sl_st a)) [ref_of (TVec v)]) by (constructor; [exists id; unfold ref_of; cbn [fst snd ty_id ty_size]; auto|constructor]).
  assert (ILv : length (indices [ref_of (TVec v)]) = phisize (lm_rep m)) by (unfold indices, ref_of; cbn [flat_map fst snd ty_id ty_size]; rewrite IA, app_nil_r, seq_length; exact SZ).
  assert (HA : allowed (sl_st a) (OProp [ref_of (TVec v)] (refs ++ [ref_of (TVec v)]) (DMat (phisize (lm_rep m)) (ly_total ly + vo_size v) P) (DMat (phisize (lm_rep m)) (phisize (lm_rep m)) mzero))).
  { cbn [allowed dr dc dm]. split; [discriminate|]. split; [destruct refs; discriminate|]. split; [reflexivity|]. split; [exact ICv|]. split; [apply Forall_app; split; assumption|].
    split; [symmetry; exact ILv|]. split; [rewrite indices_snoc, IL, ILv, LT, SZ; reflexivity|]. split; [reflexivity|]. split; [reflexivity|].
    intros x. unfold quad. apply Req_le. symmetry. apply sumn_zero; intros i _. apply sumn_zero; intros j _. unfold upper_sym, mzero. destruct (_ <=? _)%nat; ring. }
  destruct (reach_progress chi2q _ _ HR HA) as (st1 & E1 & HR1). cbn [exec] in E1. rewrite E1. cbn [obind].
  destruct (set_total l pA' false LK VL1 VL2) as (l1 & -> & R1 & L1 & L1'). cbn [obind].
  destruct (set_total l1 pAf' true ltac:(rewrite R1; exact LK) ltac:(rewrite R1; exact L1) ltac:(rewrite R1; exact L1')) as (l2 & -> & R2 & L2 & L2'). cbn [obind].
  destruct (propagation_frame _ _ _ _ _ _ E1) as (C & Est).
  assert (HA2 : allowed st1 (OSetVec p (l_val l2) (l_fej l2))).
  { cbn [allowed]. exists v. rewrite Est. cbn [s_vars set_vars_cov]. split; [exact Lin|]. split; [exact Lp|]. rewrite L2, L2', R1, SZ. split; reflexivity. }
  destruct (reach_progress chi2q _ _ HR1 HA2) as (st2 & E2 & HR2). cbn [exec] in E2. rewrite E2. cbn [obind]. eexists. split; [reflexivity|]. exact HR2.
Qed.
