(** The SLAM update as a whole, and the marking of features by all three updaters. *)
From Coq Require Import Reals List Arith Lia Lra ZArith Bool Permutation.
From Verif Require Import RBool Outcome Lin PdInv GeoModel TypesModel TypesProofs GivensModel GivensSpec GivensProofs StateModel StateSpec StateLin
  StateEkf StateOps StateOps2 StateOps3 ReachModel ReachSpec StateReach StateFrame StateThms EquivProofs DbModel DbSpec DbProofs DbThms UpdModel UpdSpec UpdProofs
  UpdProofs2 UpdProofs3.
Import ListNotations.
Open Scope R_scope.

Definition sclean_by (single : nat -> bool) (times : list R) (id : nat) (f f' : feature) (b : bool) : Prop :=
  exists f1, clean_old_measurements times f = Ok f1 /\ feat_live times f1 /\
    (if b then (required (single id) <= count_meas f1)%nat /\ f' = f1
     else (count_meas f1 = 0%nat /\ f' = set_del f1 true) \/ ((0 < count_meas f1 < required (single id))%nat /\ f' = f1)).
Definition stepsI (K : nat -> feature -> feature -> bool -> Prop) (ids : list nat) (d : db) (ids' : list nat) (d' : db) : Prop :=
  NoDup ids' /\ incl ids' ids /\ map fst d' = map fst d /\
  (forall id, ~ In id ids -> alook d' id = alook d id) /\
  (forall id, In id ids -> exists f f' b, alook d id = Some f /\ alook d' id = Some f' /\ K id f f' b /\ (b = true <-> In id ids')).
Lemma stepsI_cons (K : nat -> feature -> feature -> bool -> Prop) id ids d f f' b ids' d' : ~ In id ids -> alook d id = Some f -> K id f f' b ->
  stepsI K ids (aset d id f') ids' d' -> stepsI K (id :: ids) d (if b then id :: ids' else ids') d'.
Proof.
  intros Ni E Kf (N & I & M & U & P).
  assert (Ei : alook d' id = Some f') by (rewrite U by auto; rewrite alook_aset, Nat.eqb_refl; reflexivity).
  assert (Ni' : ~ In id ids') by (intros C; apply Ni, I, C).
  split; [destruct b; [constructor|]; auto|]. split.
  { destruct b; intros z Hz; simpl in *; [destruct Hz; auto|right; auto]. }
  split; [rewrite M; apply aset_keys_same; eauto|]. split.
  - intros k Hk. simpl in Hk. rewrite U by tauto. rewrite alook_aset. destruct (Nat.eqb_spec k id); [subst; tauto|reflexivity].
  - intros k [<-|Hk].
    + exists f, f', b. split; auto. split; auto. split; auto. destruct b; simpl; split; intros; auto; try discriminate; contradiction.
    + destruct (P k Hk) as (g & g' & b' & A & B & C & D). assert (k <> id) by (intros ->; contradiction).
      rewrite alook_aset in A. destruct (Nat.eqb_spec k id); [contradiction|].
      exists g, g', b'. split; auto. split; auto. split; auto. rewrite D. destruct b; simpl; split; auto. intros [?|?]; auto. congruence.
Qed.
Lemma stepsI_nil K d : stepsI K [] d [] d.
Proof. repeat split; auto. constructor. intros z []. intros id []. Qed.

Lemma slam_clean_ok st single times ids : forall d, NoDup ids ->
  (forall id, In id ids -> exists f, alook d id = Some f /\ feat_ok f) -> (forall id, In id ids -> exists p, slam_ptr st id = Some p) ->
  exists ids' d', slam_clean_step st single times ids d = Ok (ids', d') /\ stepsI (sclean_by single times) ids d ids' d'.
Proof.
  induction ids as [|id ids IH]; intros d N F G.
  - exists [], d. split; auto. apply stepsI_nil.
  - inversion N; subst. cbn [slam_clean_step]. destruct (F id) as (f & E & O); [simpl; auto|]. rewrite E.
    destruct (clean_old_ok times f O) as (f1 & E1 & L1 & S1 & _). rewrite E1. cbn [obind].
    destruct (G id) as (p & Ep); [simpl; auto|]. rewrite Ep.
    assert (F' : forall g, forall k, In k ids -> exists f, alook (aset d id g) k = Some f /\ feat_ok f).
    { intros g k Hk. rewrite alook_aset. destruct (Nat.eqb_spec k id); [subst; contradiction|]. apply F; simpl; auto. }
    assert (G' : forall k, In k ids -> exists p, slam_ptr st k = Some p) by (intros k Hk; apply G; simpl; auto).
    change (if single id then 2%nat else 1%nat) with (required (single id)).
    destruct (Nat.ltb_spec (count_meas f1) 1) as [C|C].
    + destruct (IH (aset d id (set_del f1 true)) H2 (F' _) G') as (ids' & d' & E' & St).
      exists ids', d'. split; auto. apply (stepsI_cons _ id ids d f (set_del f1 true) false); auto.
      exists f1. split; auto. split; auto. left. split; auto. lia.
    + destruct (Nat.ltb_spec (count_meas f1) (required (single id))) as [C2|C2].
      * destruct (IH (aset d id f1) H2 (F' _) G') as (ids' & d' & E' & St).
        exists ids', d'. split; auto. apply (stepsI_cons _ id ids d f f1 false); auto.
        exists f1. split; [exact E1|]. split; [exact L1|]. right. split; [lia|reflexivity].
      * destruct (IH (aset d id f1) H2 (F' _) G') as (ids' & d' & E' & St). rewrite E'. cbn [obind fst snd].
        exists (id :: ids'), d'. split; auto. apply (stepsI_cons _ id ids d f f1 true); auto.
        exists f1. auto.
Qed.

Lemma slam_ptr_at st (single : nat -> bool) id p : maps_ok st -> slam_ptr st id = Some p ->
  snd (ref_ptr st p) = (if single id then 1%nat else 3%nat) -> landmark_at st single id p.
Proof.
  intros HM E Es. split; auto. unfold slam_ptr in E. destruct (alook (s_slam st) id) as [[q b]|] eqn:A; [|discriminate].
  simpl in E. injection E as ->. exists b. apply alook_some_key; auto.
Qed.
Lemma slam_live st (single : nat -> bool) id p : state_ok st -> maps_ok st -> landmark_at st single id p -> live_ref st (p, ref_ptr st p).
Proof.
  intros Hok HM [[b I] _]. destruct (mp_slam _ HM _ _ _ I) as (_ & v & Iv & Ev). exists (TVec v). split; auto. split; auto.
  simpl. unfold ref_ptr. rewrite <- Ev. change (vo_ptr v) with (ty_ptr (TVec v)). rewrite (find_top_in_nodup _ _ (ok_nodup _ Hok) Iv). reflexivity.
Qed.

Lemma with_landmark_total st (single : nat -> bool) id p l f sig : state_ok st -> maps_ok st -> landmark_at st single id p -> lin_ok st 3 f l ->
  (required (single id) <= count_meas f)%nat ->
  exists Hxf res, slam_system (single id) l = Ok (Hxf, res) /\
    let y := mkSys Hxf res (ls_order l ++ [(p, ref_ptr st p)]) sig in
    with_landmark st (single id) p l y /\ sys_good (live_ref st) y /\
    (1 <= dn res <= 2 * count_meas f)%nat.
Proof.
  intros Hok HM Hl [L1 L2 L3 L4 L5 L6 L7 L8 L9] Hc. unfold slam_system.
  assert (Eq : (dr (ls_Hf l) =? dr (ls_Hx l))%nat = true) by (apply Nat.eqb_eq; lia). rewrite Eq. cbn [guard].
  assert (Lv := slam_live st single id p Hok HM Hl).
  assert (Tl : tot (ls_order l) = dc (ls_Hx l)).
  { rewrite L5. symmetry. apply indices_len. eapply Forall_impl; [|exact L8]. intros e. apply live_has_id; auto. }
  assert (Nd : NoDup (map fst (ls_order l ++ [(p, ref_ptr st p)]))).
  { rewrite map_app. simpl. apply NoDup_snoc; auto. intros C. apply in_map_iff in C. destruct C as (e & Ee & Ie).
    apply (L9 e Ie). rewrite Ee. destruct Hl as [[b Ib] _]. unfold slam_ptrs. apply in_map_iff. exists (id, (p, b)). auto. }
  assert (Fl : Forall (live_ref st) (ls_order l ++ [(p, ref_ptr st p)])) by (apply Forall_app; auto).
  assert (Ps : psz (p, ref_ptr st p) = if single id then 1%nat else 3%nat) by apply Hl.
  destruct (single id) eqn:Sg.
  - assert (Eq2 : (1 <=? dc (ls_Hf l))%nat = true) by (apply Nat.leb_le; lia). rewrite Eq2. cbn [guard]. simpl in Hc.
    destruct (nullspace_total (but_last (ls_Hf l)) (append_cols (ls_Hx l) (last_col (ls_Hf l))) (ls_res l)) as (F & X & r & E & D1 & D2 & D3);
      try (simpl; lia).
    rewrite E. cbn [obind]. exists X, r. split; auto. simpl in D1, D2, D3. split; [|split].
    + split; auto. exists F. auto.
    + unfold sys_good. simpl. split; auto. split; auto. split; [|lia]. rewrite tot_app. simpl. rewrite Ps. lia.
    + lia.
  - eexists _, _. split; [reflexivity|]. split; [|split].
    + split; auto.
    + unfold sys_good. simpl. split; auto. split; auto. split; [|lia]. rewrite tot_app. simpl. rewrite Ps. lia.
    + simpl in Hc. lia.
Qed.

Section Slam.
Variables (chi2q : nat -> R) (so : slam_opts) (single : nat -> bool) (jac : state -> feature -> outcome linsys) (maxm : nat) (st : state).
Hypothesis Hok : state_ok st.
Hypothesis HP : spsd (s_dim st) (s_cov st).
Hypothesis HM : maps_ok st.
Hypothesis Hs1 : 0 < so_sig_slam so.
Hypothesis Hs2 : 0 < so_sig_aruco so.
Hypothesis Hj : jac_ok st jac.

Lemma so_noise id : slam_noise so st id (so_sig so st id) (so_mult so st id).
Proof. unfold slam_noise, so_sig, so_mult, is_tag. destruct (Z.ltb_spec (Z.of_nat id) (o_max_aruco (s_opts st))); [left|right]; auto. Qed.

Lemma so_sig_pos id : 0 < so_sig so st id.
Proof. unfold so_sig. destruct (is_tag st id); auto. Qed.

Lemma slam_loop_ok ids : forall d s done, NoDup ids ->
  (forall id, In id ids -> exists f, alook d id = Some f /\ feat_live (map fst (s_clones st)) f /\ (required (single id) <= count_meas f)%nat) ->
  (forall id, In id ids -> exists p, slam_ptr st id = Some p /\ landmark_at st single id p) ->
  holds (live_ref st) s done -> holds_res s done -> (sk_meas s + meas_size d ids <= maxm)%nat ->
  exists used d' s' fl ys, slam_loop chi2q so single jac maxm (s_dim st) st ids d s = Ok (used, d', s', fl) /\
    holds (live_ref st) s' (done ++ ys) /\ holds_res s' (done ++ ys) /\ Forall (sys_good (live_ref st)) ys /\
    Forall (fun y => (1 <= dn (y_res y))%nat /\ 0 < y_sig y) ys /\
    Forall2 (fun id y => exists f l p, alook d id = Some f /\ landmark_at st single id p /\ jac st f = Ok l /\ with_landmark st (single id) p l y /\
       y_sig y = so_sig so st id /\ passes chi2q (so_mult so st id) st y) used ys /\
    steps gate_by ids d used d' /\
    (forall id, In id ids -> ~ In id used -> exists f l p y, alook d id = Some f /\ landmark_at st single id p /\ jac st f = Ok l /\ with_landmark st (single id) p l y /\
       y_sig y = so_sig so st id /\ fails chi2q (so_mult so st id) st y) /\
    (forall id, In id fl <-> In id ids /\ ~ In id used /\ is_tag st id = false) /\
    (sk_meas s' <= sk_meas s + meas_size d ids)%nat.
Proof.
  induction ids as [|id ids IH]; intros d s done N F G Hs Hr Hm.
  - exists [], d, s, [], []. rewrite app_nil_r. simpl. split; auto. split; auto. split; auto. split; auto. split; auto. split; auto.
    split; [apply steps_nil|]. split; [intros ? []|]. split; [intros; tauto|]. lia.
  - apply NoDup_cons_iff in N. destruct N as [H1 H2]. destruct (F id) as (f & E & [Fk Ft] & Fc); [simpl; auto|].
    destruct (G id) as (p & Ep & Lp); [simpl; auto|].
    destruct (Hj f Fk Ft) as (l & El & Lo); [unfold required in Fc; destruct (single id); lia|].
    destruct (with_landmark_total st single id p l f (so_sig so st id) Hok HM Lp Lo Fc) as (Hxf & res & Es & Wl & Gy & Db).
    set (y := mkSys Hxf res (ls_order l ++ [(p, ref_ptr st p)]) (so_sig so st id)) in *.
    assert (Em : meas_size d (id :: ids) = (2 * count_meas f + meas_size d ids)%nat) by (simpl; rewrite E; reflexivity).
    cbn [slam_loop]. rewrite E, Ep, El. cbn [obind]. rewrite Es. cbn [obind].
    destruct (chi2_ok st Hxf res (ls_order l ++ [(p, ref_ptr st p)]) (so_sig so st id) Hok HP) as (d2 & Ed & Gd);
      [apply Gy|apply so_sig_pos|apply Gy|apply Gy|].
    rewrite Ed. cbn [obind].
    destruct (Rltb_spec (so_mult so st id * chi2q (dn res)) d2) as [Hf|Hf].
    + assert (Mx : meas_size (aset d id (set_del f true)) ids = meas_size d ids).
      { apply meas_size_ext. intros k Hk. rewrite alook_aset. destruct (Nat.eqb_spec k id); [subst; contradiction|reflexivity]. }
      destruct (IH (aset d id (set_del f true)) s done H2) as (used & d' & s' & fl & ys & E' & B1 & B2 & B3 & B4 & B5 & B6 & B7 & B8 & B9); auto.
      { intros k Hk. rewrite alook_aset. destruct (Nat.eqb_spec k id); [subst; contradiction|]. apply F; simpl; auto. }
      { intros k Hk. apply G; simpl; auto. }
      { lia. }
      rewrite E'. cbn [obind].
      exists used, d', s', (if is_tag st id then fl else id :: fl), ys. split; auto. split; auto. split; auto. split; auto. split; auto.
      assert (Iu : incl used ids) by apply B6.
      split.
      { clear -B5 H1 Iu. induction B5 as [|k y0 u ys0 (g & l0 & p0 & A) B5 IH]; constructor.
        - exists g, l0, p0. rewrite alook_aset in A. destruct (Nat.eqb_spec k id); auto. subst. exfalso. apply H1, Iu. simpl; auto.
        - apply IH. intros z Hz. apply Iu. simpl; auto. }
      split; [apply (steps_cons _ id ids d f (set_del f true) false); auto; reflexivity|].
      split.
      { intros k [<-|Hk] Nk.
        - exists f, l, p, y. split; auto. split; auto. split; auto. split; auto. split; auto. exists d2. auto.
        - destruct (B7 k Hk Nk) as (g & l0 & p0 & y0 & A). exists g, l0, p0, y0. rewrite alook_aset in A.
          destruct (Nat.eqb_spec k id); [subst; contradiction|auto]. }
      split; [|lia].
      intros k. simpl. destruct (is_tag st id) eqn:Tg.
      * rewrite B8. split; [tauto|]. intros ([<-|Hk] & Nk & Tk); [congruence|tauto].
      * simpl. rewrite B8. split.
        -- intros [<-|(Hk & Nk & Tk)]; [|tauto]. split; [left; reflexivity|]. split; [intros C; apply H1, Iu, C|exact Tg].
        -- intros ([<-|Hk] & Nk & Tk); auto.
    + destruct (stack_feature_ok maxm (s_dim st) (live_ref st) (fun a b => live_loc st a b Hok) (fun o => cap_all st o Hok) y done s) as (s1 & E1 & A1 & A2); auto; [simpl in *; lia|].
      simpl in E1. rewrite E1. cbn [obind].
      assert (M1 : sk_meas s1 = (sk_meas s + dn (y_res y))%nat).
      { destruct A1 as (_ & _ & Ea & _). destruct Hs as (_ & _ & Eb & _). rewrite Ea, rows_of_app, Eb. reflexivity. }
      assert (M2 : dn (y_res y) = dn res) by reflexivity.
      destruct (IH d s1 (done ++ [y]) H2) as (used & d' & s' & fl & ys & E' & B1 & B2 & B3 & B4 & B5 & B6 & B7 & B8 & B9); auto.
      { intros k Hk. apply F; simpl; auto. }
      { intros k Hk. apply G; simpl; auto. }
      { lia. }
      rewrite E'. cbn [obind]. rewrite <- app_assoc in *. simpl in B1, B2.
      exists (id :: used), d', s', fl, (y :: ys). split; auto. split; auto. split; auto. split; [constructor; auto|].
      split.
      { constructor; auto. split; [simpl in *; lia|]. apply so_sig_pos. }
      split.
      { constructor; auto. exists f, l, p. split; auto. split; auto. split; auto. split; auto. split; auto. exists d2. auto. }
      split; [apply (steps_keep _ id ids d f); auto; reflexivity|].
      split.
      { intros k [<-|Hk] Nk; [exfalso; apply Nk; simpl; auto|]. apply B7; auto. intros C. apply Nk. simpl; auto. }
      split; [|lia].
      intros k. rewrite B8. simpl. split.
      * intros (Hk & Nk & Tk). split; [tauto|]. split; [|tauto]. intros [<-|C]; tauto.
      * intros ([<-|Hk] & Nk & Tk); tauto.
Qed.
End Slam.

Lemma stacked_pos : forall l r0 order H res N, Forall (fun y => 0 < y_sig y) l -> stacked r0 l order H res N ->
  forall i, (r0 <= i < r0 + rows_of l)%nat -> 0 < N i i.
Proof.
  induction l as [|y l IH]; simpl; [intros; lia|]. intros r0 order H res N F [A B] i Hi. inversion F; subst.
  destruct (Nat.lt_ge_cases i (r0 + dn (y_res y))) as [L|L].
  - destruct (A (i - r0)%nat) as (_ & _ & E); [lia|]. replace (r0 + (i - r0))%nat with i in E by lia. rewrite E. auto.
  - apply (IH _ _ _ _ _ H3 B). lia.
Qed.
Lemma diag_quad n N x : diagonal N -> quad n N x = sumn n (fun i => N i i * (x i * x i)).
Proof.
  intros D. unfold quad, dot, mvec. apply sumn_ext. intros i Hi.
  rewrite (sumn_delta n i); auto. ring. intros j Hj Hne. rewrite D by auto. ring.
Qed.
Lemma diag_pd n N : diagonal N -> (forall i, (i < n)%nat -> 0 < N i i) -> sym n N /\ pd n N.
Proof.
  intros D P. split.
  - intros i j Hi Hj. unfold mtr. destruct (Nat.eq_dec i j) as [->|Ne]; auto. rewrite !D; auto.
  - intros x (i & Hi & Hx). rewrite diag_quad by auto.
    assert (Hp : 0 < N i i * (x i * x i)) by (apply Rmult_lt_0_compat; auto; nra).
    apply Rlt_le_trans with (1 := Hp).
    assert (Eq : sumn n (fun j => if Nat.eqb j i then N i i * (x i * x i) else 0) = N i i * (x i * x i)).
    { rewrite (sumn_delta n i); auto; [rewrite Nat.eqb_refl; reflexivity|].
      intros j Hj Hne. destruct (Nat.eqb_spec j i); [congruence|reflexivity]. }
    rewrite <- Eq. apply sumn_le. intros j Hj. destruct (Nat.eqb_spec j i); [subst; lra|]. specialize (P j Hj). nra.
Qed.

Lemma slam_thm chi2q so single jac st d ids : reach chi2q st -> db_ok d -> handed d ids -> 0 < so_sig_slam so -> 0 < so_sig_aruco so ->
  jac_ok st jac -> (forall id, In id ids -> exists p, landmark_at st single id p) ->
  exists st' d' used fl ys, slam_update chi2q so single jac st d ids = Ok (st', d', used, fl) /\
    reach chi2q st' /\ incl used ids /\ NoDup used /\
    Forall2 (slam_contributes chi2q so single jac st d d') used ys /\
    (forall id, In id ids -> ~ In id used -> slam_unused chi2q so single jac st d d' fl id) /\
    (ys = [] -> st' = st) /\
    (ys <> [] -> exists order H res N, stacked 0 ys order H res N /\ diagonal N /\
       EKFUpdate st order (DMat (rows_of ys) (length (indices order)) H) (DVec (rows_of ys) res) (DMat (rows_of ys) (rows_of ys) N) = Ok st') /\
    (forall id, ~ In id ids -> alook d' id = alook d id) /\ map fst d' = map fst d.
Proof.
  intros Rc Dk [Nd Hd] Hs1 Hs2 Hj Hl. destruct (reach_inv _ _ Rc) as (Hok & HP & HM).
  destruct ids as [|id0 ids0] eqn:Eids.
  { exists st, d, [], [], []. simpl. repeat match goal with |- _ /\ _ => split end; auto. intros z []. intros ? []. congruence. }
  rewrite <- Eids in *. unfold slam_update. rewrite Eids. rewrite <- Eids. clear Eids.
  set (times := map fst (s_clones st)) in *.
  assert (Hp : forall id, In id ids -> exists p, slam_ptr st id = Some p /\ landmark_at st single id p).
  { intros id Hid. destruct (Hl id Hid) as (p & Lp). exists p. split; auto. destruct Lp as [[b Ib] _].
    unfold slam_ptr. rewrite (proj1 (alook_in _ _ _ (mp_sids _ HM)) Ib). reflexivity. }
  destruct (slam_clean_ok st single times ids d Nd) as (i1 & d1 & E1 & S1).
  { intros id Hid. destruct (Hd id Hid) as (f & E). exists f. split; auto. apply alook_some_key in E. apply Dk in E. apply E. }
  { intros id Hid. destruct (Hp id Hid) as (p & E & _). eauto. }
  rewrite E1. cbn [obind fst snd]. destruct S1 as (N1 & I1 & M1 & U1 & P1).
  destruct (slam_loop_ok chi2q so single jac (meas_size d1 i1) st Hok HP HM Hs1 Hs2 Hj i1 d1 stack0 [] N1)
    as (used & d2 & s & fl & ys & E3 & B1 & B2 & B3 & B4 & B5 & B6 & B7 & B8 & B9).
  { intros id Hid. destruct (P1 id (I1 _ Hid)) as (f & f' & b & A & B & (f1 & K1 & K2 & K3) & D).
    assert (Hb : b = true) by (apply D; auto). rewrite Hb in K3. destruct K3 as [K3 ->]. exists f1. auto. }
  { intros id Hid. apply Hp; auto. }
  { apply (holds0 (live_ref st)). } { apply (holds0 (live_ref st)). } { simpl. lia. }
  rewrite E3. cbn [obind]. simpl in B1, B2. destruct B6 as (N3 & I3 & M3 & U3 & P3).
  destruct (mark_all used d2) as (d4 & E4 & M4 & U4 & P4).
  { intros id Hid. destruct (P3 id (I3 _ Hid)) as (f & f' & b & _ & A & _). eauto. }
  rewrite E4. cbn [obind].
  assert (Fct : Forall2 (slam_contributes chi2q so single jac st d d4) used ys).
  { assert (G : forall u ys, incl u used -> Forall2 (fun id y => exists f l p, alook d1 id = Some f /\ landmark_at st single id p /\ jac st f = Ok l /\ with_landmark st (single id) p l y /\
       y_sig y = so_sig so st id /\ passes chi2q (so_mult so st id) st y) u ys ->
        Forall2 (slam_contributes chi2q so single jac st d d4) u ys).
    { intros u ys0 Iu. induction 1 as [|id y u ys0 (g & l & p & A & B & C) _ IH]; constructor.
      - assert (Hu : In id used) by (apply Iu; simpl; auto).
        destruct (P1 id (I1 _ (I3 _ Hu))) as (f & f' & b & Q1 & Q2 & (f1 & K1 & K2 & K3) & Q4).
        assert (Hb : b = true) by (apply Q4; auto). rewrite Hb in K3. destruct K3 as [K3 ->]. assert (f1 = g) by congruence. subst f1.
        exists f, g, l, p. split; auto. split; auto. split; auto. split; [|split; [tauto|]; split; [tauto|]; split; [tauto|]; exists (so_mult so st id); destruct C as (_ & _ & -> & C); split; [apply so_noise|exact C]]. apply P4; auto.
        destruct (P3 id (I3 _ Hu)) as (h & h' & b' & X1 & X2 & X3 & X4). assert (Hb' : b' = true) by (apply X4; auto). rewrite Hb' in X3.
        red in X3. subst h'. congruence.
      - apply IH. intros z Hz. apply Iu. simpl; auto. }
    apply G; auto using incl_refl. }
  assert (Fn : forall id, In id ids -> ~ In id used -> slam_unused chi2q so single jac st d d4 fl id).
  { intros id Hid Nu. destruct (P1 id Hid) as (f & f1' & b1 & A1 & X1 & (f1 & K1 & K2 & K3) & D1).
    exists f, f1. split; auto. split; auto. destruct b1.
    - destruct K3 as [K3 ->]. assert (Hi1 : In id i1) by (apply D1; auto).
      destruct (B7 id Hi1 Nu) as (g & l & p & y & Y1 & Y2 & Y3 & Y4 & Y5 & Y6).
      assert (g = f1) by congruence. subst g. right. right. exists l, p, y. do 3 (split; auto). split; [exists (so_mult so st id); rewrite Y5; split; [apply so_noise|exact Y6]|]. split.
      + rewrite U4 by auto. destruct (P3 id Hi1) as (h & h' & b' & X1' & X2 & X3 & X4).
        destruct b'; [exfalso; apply Nu, X4; auto|]. red in X3. subst h'. congruence.
      + rewrite B8. unfold is_tag. rewrite Z.ltb_ge. tauto.
    - assert (Hi1 : ~ In id i1) by (intros C; apply D1 in C; discriminate).
      assert (Ed : alook d4 id = Some f1').
      { rewrite U4 by auto. rewrite U3 by auto. auto. }
      assert (Nf : ~ In id fl) by (rewrite B8; tauto).
      destruct K3 as [[C ->]|[C ->]]; [left|right; left]; auto. }
  assert (Fu : forall id, ~ In id ids -> alook d4 id = alook d id).
  { intros id Hid. rewrite U4 by (intros C; apply Hid; auto). rewrite U3 by (intros C; apply Hid; auto). apply U1; auto. }
  assert (Fi : incl used ids) by (intros z Hz; auto).
  assert (Fk : map fst d4 = map fst d) by congruence.
  pose proof B1 as ((Sn & Sm & Sj) & Sg & Se & Sr & Sz & Sp).
  destruct (Nat.ltb_spec (sk_meas s) 1) as [Lt|Ge].
  - assert (ys = []).
    { destruct ys as [|y ys]; auto. exfalso. simpl in Se. inversion B4 as [|? ? X1 X2]. destruct X1. lia. }
    exists st, d4, used, fl, ys. do 4 (split; auto). split; auto. split; auto. split; auto. split; [congruence|]. auto.
  - assert (Ny : ys <> []) by (intros ->; simpl in Se; lia).
    assert (Lo : (sk_jac s <= s_dim st)%nat) by (rewrite Sj; apply cap_all; auto).
    assert (Eg : ((sk_meas s <=? meas_size d1 i1) && (sk_jac s <=? s_dim st))%nat%bool = true)
      by (rewrite andb_true_iff, !Nat.leb_le; simpl in B9; lia).
    rewrite Eg. cbn [guard].
    assert (Sc : in_cov (s_dim st) (map snd (sk_order s))) by (apply live_in_cov; auto).
    assert (Sx : length (indices (map snd (sk_order s))) = sk_jac s).
    { rewrite Sj. apply indices_len. eapply Forall_impl; [|exact Sg]. intros e. apply live_has_id; auto. }
    assert (Stk : stacked 0 ys (map snd (sk_order s)) (sk_H s) (sk_res s) (sk_R s)).
    { apply (holds_stacked (live_ref st)); auto. intros e He. apply (live_has_id st); auto. apply B2. }
    assert (Dg : diagonal (sk_R s)) by apply B2.
    destruct (diag_pd (sk_meas s) (sk_R s) Dg) as [Ds Dp].
    { intros i Hi. eapply (stacked_pos ys 0); eauto. eapply Forall_impl; [|exact B4]. simpl; tauto. lia. }
    assert (Al : allowed st (OUpd (map snd (sk_order s)) (DMat (sk_meas s) (sk_jac s) (sk_H s)) (DVec (sk_meas s) (sk_res s)) (DMat (sk_meas s) (sk_meas s) (sk_R s)))).
    { cbn [allowed dr dc dm dn]. do 5 (split; auto). }
    destruct (reach_progress chi2q st _ Rc Al) as (st' & Ex & Rst). cbn [exec] in Ex. rewrite Ex. cbn [obind].
    exists st', d4, used, fl, ys. split; auto. split; auto. split; auto. split; auto. split; auto. split; auto. split; [congruence|].
    split; [|auto]. intros _. exists (map snd (sk_order s)), (sk_H s), (sk_res s), (sk_R s). split; auto. split; auto.
    rewrite Sx, <- Se. exact Ex.
Qed.
