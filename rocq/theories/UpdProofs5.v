(** Delayed initialization as a whole. *)
From Coq Require Import Reals List Arith Lia Lra ZArith Bool Permutation.
From Verif Require Import RBool Outcome Lin PdInv GeoModel TypesModel TypesProofs GivensModel GivensSpec GivensProofs StateModel StateSpec StateLin
  StateEkf StateOps StateOps2 StateOps3 StateOps4 ReachModel ReachSpec StateReach StateFrame StateThms EquivProofs DbModel DbSpec DbProofs DbThms UpdModel UpdSpec UpdProofs
  UpdProofs2 UpdProofs3 UpdProofs4.
Import ListNotations.
Open Scope R_scope.

Lemma init_system_total (single : nat -> bool) (id : nat) st l f : lin_ok st 3 f l -> (2 <= count_meas f)%nat ->
  exists Hx Hf res, init_system (single id) l = Ok (Hx, Hf, res) /\
    dc Hf = (if single id then 1 else 3)%nat /\ (dc Hf <= dr Hf)%nat /\ dr Hx = dr Hf /\ dn res = dr Hf /\
    dc Hx = length (indices (map snd (ls_order l))).
Proof.
  intros [L1 L2 L3 L4 L5 L6 L7 L8 L9] Hc. unfold init_system. destruct (single id).
  - assert (Eq : ((dr (ls_Hf l) =? dr (ls_Hx l)) && (1 <=? dc (ls_Hf l)))%nat%bool = true)
      by (rewrite andb_true_iff, Nat.eqb_eq, Nat.leb_le; lia).
    rewrite Eq. cbn [guard].
    destruct (nullspace_total (but_last (ls_Hf l)) (append_cols (ls_Hx l) (last_col (ls_Hf l))) (ls_res l)) as (F & X & r & E & D1 & D2 & D3);
      try (simpl; lia).
    rewrite E. cbn [obind]. eexists _, _, _. split; [reflexivity|]. simpl in *. lia.
  - eexists _, _, _. split; [reflexivity|]. lia.
Qed.

Lemma iso_scal n c : isotropic (DMat n n (mscal c mid)) = true.
Proof.
  apply isotropic_spec. simpl. intros i j Hi Hj. unfold mscal, mid. simpl.
  destruct (Nat.eqb_spec i j); rewrite ?Nat.eqb_refl; ring.
Qed.

Lemma ty_ptr_in t : In (ty_ptr t) (ty_ptrs t).
Proof. destruct t; simpl; auto. Qed.

Section Delayed.
Variables (chi2q : nat -> R) (so : slam_opts) (single : nat -> bool) (lm_val : feature -> list R)
  (jac : state -> feature -> outcome linsys) (clones : list (R * nat)).
Hypothesis Hs1 : 0 < so_sig_slam so.
Hypothesis Hs2 : 0 < so_sig_aruco so.
Hypothesis Hv : forall f, length (lm_val f) = if single (f_id f) then 1%nat else 3%nat.
Hypothesis Hj : forall s, reach chi2q s -> s_clones s = clones -> init_jac_ok single s jac.

Definition dgate (f f' : feature) (b : bool) : Prop := f' = set_del f true.

Lemma delayed_loop_ok ids : forall st d, NoDup ids -> reach chi2q st -> s_clones st = clones ->
  (forall id, In id ids -> exists f, alook d id = Some f /\ f_id f = id /\ feat_live (map fst clones) f /\ (2 <= count_meas f)%nat) ->
  (forall id, In id ids -> ~ In id (map fst (s_slam st))) ->
  exists st' d' kept, delayed_loop chi2q so single lm_val jac st ids d = Ok (st', d', kept) /\ reach chi2q st' /\
    s_clones st' = clones /\ s_time st' = s_time st /\ (exists l, s_slam st' = s_slam st ++ l /\ map fst l = kept) /\
    Forall (new_landmark st st' single) kept /\
    (forall t, In t (s_vars st) -> exists t', In t' (s_vars st') /\ ty_ptr t' = ty_ptr t /\ ty_size t' = ty_size t /\ same_kind t t') /\
    steps dgate ids d kept d'.
Proof.
  induction ids as [|id ids IH]; intros st d N Rc Ec F Nl.
  - exists st, d, []. split; auto. split; auto. split; auto. split; auto. split; [exists []; rewrite app_nil_r; auto|].
    split; auto. split; [|apply steps_nil]. intros t Ht. exists t. split; auto. split; auto. split; auto. destruct t; simpl; auto.
  - apply NoDup_cons_iff in N. destruct N as [Ni N]. destruct (F id) as (f & E & Ef & [Fk Ft] & Fc); [simpl; auto|].
    destruct (Hj st Rc Ec) as [Hj1 Hj2]. rewrite <- Ec in Ft.
    destruct (Hj1 f Fk Ft) as (l & El & Lo); [lia|].
    destruct (init_system_total single id st l f Lo Fc) as (Hx & Hf & res & Es & D1 & D2 & D3 & D4 & D5).
    pose proof (Hj2 id f l Hx Hf res Fk Ft Fc El Es) as Rk.
    cbn [delayed_loop]. rewrite E, El. cbn [obind]. rewrite Es. cbn [obind].
    set (p := s_next st). set (lm := TVec (mkVec p None (if single id then 1%nat else 3%nat) (lm_val f) (lm_val f))).
    set (st1 := set_next st (S p)).
    assert (R1 : reach chi2q st1).
    { apply (reach_step _ st (OAlloc 1)); simpl; auto. unfold st1, p. rewrite Nat.add_1_r. reflexivity. }
    destruct (reach_inv _ _ Rc) as (Hok & HP & HM). destruct (reach_inv _ _ R1) as (Hok1 & HP1 & HM1).
    assert (Np : forall t, In t (s_vars st) -> ~ In p (ty_ptrs t)).
    { intros t Ht Hp. pose proof (ok_alloc _ Hok) as A. assert (A' : (p < s_next st)%nat).
      { apply A. apply in_flat_map. exists t. auto. } unfold p in A'. lia. }
    assert (Fr : fresh_var st1 lm).
    { constructor; simpl; auto.
      - rewrite Hv, Ef. destruct (single id); lia.
      - constructor; simpl; auto. constructor.
      - intros q [<-|[]] C. apply in_flat_map in C. destruct C as (t & It & Hp). apply (Np t It Hp).
      - intros q [<-|[]]. lia. }
    assert (In1 : in_cov (s_dim st1) (map snd (ls_order l))) by (apply (live_in_cov st); auto; apply Lo).
    assert (Sz : ty_size lm = dc Hf) by (simpl; auto).
    assert (Hpos : 0 < so_sig so st id) by (unfold so_sig; destruct (is_tag st id); auto).
    destruct (initialize_total chi2q st1 lm (map snd (ls_order l)) Hx Hf (DMat (dn res) (dn res) (mscal (so_sig so st id) mid)) res (so_mult so st id)
       Hok1 HP1 In1 Fr (cams_ready_of _ Hok1 HM1)) as (b & st2 & Ei & Sok & _ & Sdm & Ib); auto; try lia.
    { apply iso_scal. } { simpl. unfold mscal, mid. simpl. lra. } { rewrite Sz. exact Rk. }
    rewrite Ei. cbn [obind].
    assert (Bt : (base_top (s_opts st1) <= ty_ptr lm)%nat) by (simpl; apply (mp_next _ HM)).
    assert (R2 : reach chi2q st2).
    { apply (reach_step _ st1 (OInit lm (map snd (ls_order l)) Hx Hf (DMat (dn res) (dn res) (mscal (so_sig so st id) mid)) res (so_mult so st id))); auto.
      - cbn [allowed]. repeat match goal with |- _ /\ _ => split end; simpl; auto; try lia.
        + apply iso_scal. + unfold mscal, mid. simpl. lra. + rewrite <- D1. exact Rk.
      - cbn [exec]. rewrite Ei. reflexivity. }
    assert (F' : forall g k, In k ids -> exists f, alook (aset d id g) k = Some f /\ f_id f = k /\ feat_live (map fst clones) f /\ (2 <= count_meas f)%nat).
    { intros g k Hk. rewrite alook_aset. destruct (Nat.eqb_spec k id); [subst; contradiction|]. apply F; simpl; auto. }
    destruct b.
    + destruct (Ib eq_refl) as (vars & nv' & V1 & V2 & V3 & V4 & V5 & O1 & O2 & O3 & O4 & O5 & O6 & O7 & _).
      set (st3 := set_slam st2 (s_slam st2 ++ [(id, (p, false))])).
      assert (Hnv : exists v, nv' = TVec v /\ vo_ptr v = p /\ vo_size v = if single id then 1%nat else 3%nat).
      { destruct nv' as [v| | | |]; simpl in V4; try contradiction. exists v. split; auto. simpl in V3. injection V3 as V3. split; auto.
        pose proof (ok_layout _ Sok) as Ly. rewrite V1 in Ly. apply consecutive_app in Ly. destruct Ly as (m & _ & Ly). cbn [consecutive] in Ly.
        destruct Ly as [Ly1 Ly2]. rewrite V5 in Ly1. injection Ly1 as Ly1. rewrite Sdm, Sz, D1 in Ly2. simpl in Ly1, Ly2. lia. }
      destruct Hnv as (v & -> & Pv & Svz).
      assert (Iv : In (TVec v) (s_vars st2)) by (rewrite V1; apply in_or_app; simpl; auto).
      assert (R3 : reach chi2q st3).
      { apply (reach_step _ st2 (OSlamAdd id p)); auto. cbn [allowed]. rewrite O4. split; [apply Nl; simpl; auto|]. split.
        - intros C. apply in_map_iff in C. destruct C as ((k & (q & bb)) & Eq & Iq). simpl in Eq. subst q.
          destruct (mp_slam _ HM _ _ _ Iq) as (_ & w & Iw & Ew). apply (Np _ Iw). simpl. auto.
        - split; [rewrite O1; exact Bt|]. exists v. auto. }
      destruct (IH st3 (aset d id (set_del f true)) N R3) as (st' & d' & kept & E' & Rs & Cs & Ts & (ll & Sl & Kl) & Nw & Vs & St).
      { simpl. rewrite O3. exact Ec. } { intros k Hk. apply F'; auto. }
      { intros k Hk. simpl. rewrite map_app, in_app_iff, O4. simpl. intros [C|[C|[]]]; [apply (Nl k); simpl; auto|subst; contradiction]. }
      rewrite E'. cbn [obind]. exists st', d', (id :: kept). split; auto. split; auto. split; auto. split; [rewrite Ts; simpl; exact O7|].
      assert (Sl' : s_slam st' = s_slam st ++ ((id, (p, false)) :: ll)).
      { rewrite Sl. simpl. rewrite O4, <- app_assoc. reflexivity. }
      split; [exists ((id, (p, false)) :: ll); split; auto; simpl; rewrite Kl; reflexivity|].
      assert (Back : forall t, In t (s_vars st) -> exists t', In t' (s_vars st2) /\ ty_ptr t' = ty_ptr t /\ ty_size t' = ty_size t /\ same_kind t t').
      { intros t Ht. rewrite V1. clear -V2 Ht. simpl in V2. induction V2 as [|a b0 la lb (Q1 & Q2 & Q3 & Q4) V2 IH2]; [destruct Ht|].
        destruct Ht as [->|Ht].
        - exists b0. split; [simpl; auto|]. split; [|split; auto]. rewrite !ty_ptr_hd, Q1. reflexivity.
        - destruct (IH2 Ht) as (t' & A & B). exists t'. split; auto. simpl. auto. }
      split; [constructor|].
      * destruct (Vs (TVec v) Iv) as (t' & It & Pt & Zt & Kt). destruct t' as [v'| | | |]; simpl in Kt; try contradiction.
        exists p, v'. split; [rewrite Sl'; apply in_or_app; simpl; auto|]. split; auto. simpl in Pt, Zt. split; [congruence|]. split; [congruence|].
        intros C. apply in_map_iff in C. destruct C as (t & Et & It2). apply (Np t It2). rewrite <- Et. apply ty_ptr_in.
      * eapply Forall_impl; [|exact Nw]. intros k (q & w & A1 & A2 & A3 & A4 & A5). exists q, w. do 4 (split; auto).
        intros C. apply A5. apply in_map_iff in C. destruct C as (t & Et & It2). destruct (Back t It2) as (t' & B1 & B2 & _).
        apply in_map_iff. exists t'. split; auto. congruence.
      * split.
        -- intros t Ht. destruct (Back t Ht) as (t1 & B1 & B2 & B3 & B4). destruct (Vs t1 B1) as (t2 & C1 & C2 & C3 & C4).
           exists t2. split; auto. split; [congruence|]. split; [congruence|]. eapply same_kind_trans; eauto.
        -- apply (steps_cons _ id ids d f (set_del f true) true); auto. reflexivity.
    + apply initialize_reject in Ei; [|exact HP1|simpl; unfold mscal, mid; simpl; lra]. destruct Ei as [-> _].
      destruct (IH st1 (aset d id (set_del f true)) N R1) as (st' & d' & kept & E' & Rs & Cs & Ts & Sl & Nw & Vs & St); auto.
      { intros k Hk. apply Nl. simpl; auto. }
      exists st', d', kept. do 7 (split; auto). apply (steps_cons _ id ids d f (set_del f true) false); auto. reflexivity.
Qed.
End Delayed.

Lemma delayed_thm chi2q so (single : nat -> bool) lm_val tri jac st d ids : reach chi2q st -> db_ok d -> handed d ids ->
  0 < so_sig_slam so -> 0 < so_sig_aruco so -> (forall f, length (lm_val f) = if single (f_id f) then 1%nat else 3%nat) ->
  (forall s, reach chi2q s -> s_clones s = s_clones st -> init_jac_ok single s jac) ->
  (forall id, In id ids -> ~ In id (map fst (s_slam st))) ->
  exists st' d' kept, delayed_init chi2q so single lm_val tri jac st d ids = Ok (st', d', kept) /\ reach chi2q st' /\
    s_clones st' = s_clones st /\ s_time st' = s_time st /\ incl kept ids /\ NoDup kept /\
    (exists l, s_slam st' = s_slam st ++ l /\ map fst l = kept) /\
    Forall (new_landmark st st' single) kept /\
    (forall id, In id kept -> exists f g, alook d id = Some f /\ prepared st tri f g) /\
    (forall id, In id ids -> exists f', alook d' id = Some f' /\ f_del f' = true) /\
    (forall id, ~ In id ids -> alook d' id = alook d id) /\ map fst d' = map fst d.
Proof.
  intros Rc Dk [Nd Hd] Hs1 Hs2 Hv Hj Hn.
  destruct ids as [|id0 ids0] eqn:Eids.
  { exists st, d, []. simpl. split; auto. split; auto. split; auto. split; auto. split; [intros z []|]. split; [constructor|].
    split; [exists []; rewrite app_nil_r; auto|]. split; auto. split; [intros ? []|]. split; [intros ? []|]. auto. }
  rewrite <- Eids in *. unfold delayed_init. rewrite Eids. rewrite <- Eids. clear Eids.
  set (times := map fst (s_clones st)) in *.
  destruct (clean_step_ok times ids d Nd) as (i1 & d1 & E1 & S1).
  { intros id Hid. destruct (Hd id Hid) as (f & E). exists f. split; auto. apply alook_some_key in E. apply Dk in E. apply E. }
  rewrite E1. cbn [obind fst snd]. destruct S1 as (N1 & I1 & M1 & U1 & P1).
  destruct (tri_step_ok (tri st) i1 d1 N1) as (i2 & d2 & E2 & S2).
  { intros id Hid. destruct (P1 id (I1 _ Hid)) as (f & f' & b & A & B & _). eauto. }
  rewrite E2. cbn [obind fst snd]. destruct S2 as (N2 & I2 & M2 & U2 & P2).
  assert (Pr : forall id, In id i2 -> exists f g, alook d id = Some f /\ prepared st tri f g /\ alook d2 id = Some g /\ feat_live times g /\ (2 <= count_meas g)%nat /\ f_id g = id).
  { intros id Hid. destruct (P2 id (I2 _ Hid)) as (f1 & g & b2 & A2 & B2 & (C2 & C2') & D2).
    assert (H : b2 = true) by (apply D2; auto). rewrite H in C2, C2'.
    destruct (P1 id (I1 _ (I2 _ Hid))) as (f & f1' & b1 & A1 & B1 & (f1'' & K1 & K2 & K3 & K4 & K5) & D1).
    assert (H0 : b1 = true) by (apply D1; auto). rewrite H0 in K4, K5. subst f1'.
    assert (f1'' = f1) by congruence. subst f1''.
    symmetry in K4. apply negb_true_iff, Nat.ltb_ge in K4.
    exists f, g. split; auto. split; [exists f1; auto|]. split; auto. subst g. split; auto. split; auto. simpl.
    destruct K3 as [K3 _]. rewrite K3. apply alook_some_key in A1. apply Dk in A1. apply A1. }
  destruct (delayed_loop_ok chi2q so single lm_val jac (s_clones st) Hs1 Hs2 Hv Hj i2 st d2 N2 Rc eq_refl) as (st' & d' & kept & E3 & R' & Cs & Ts & Sl & Nw & Vs & St).
  { intros id Hid. destruct (Pr id Hid) as (f & g & _ & _ & A & B & C & D). exists g. auto. }
  { intros id Hid. apply Hn. auto. }
  destruct St as (N3 & I3 & M3 & U3 & P3).
  exists st', d', kept. split; auto. split; auto. split; auto. split; auto. split; [intros z Hz; auto|]. split; auto. split; auto. split; auto.
  split; [intros id Hid; destruct (Pr id (I3 _ Hid)) as (f & g & A & B & _); eauto|]. split.
  - intros id Hid. destruct (P1 id Hid) as (f & f1' & b1 & A1 & X1 & (f1 & K1 & K2 & K3 & K4 & K5) & D1). destruct b1.
    + assert (Hi1 : In id i1) by (apply D1; auto). destruct (P2 id Hi1) as (f1'' & g & b2 & A2 & X2 & (C2 & C2') & D2). destruct b2.
      * assert (Hi2 : In id i2) by (apply D2; auto). destruct (P3 id Hi2) as (h & h' & b & Y1 & Y2 & Y3 & _). exists h'. split; auto.
        red in Y3. subst h'. reflexivity.
      * assert (Hi2 : ~ In id i2) by (intros C; apply D2 in C; discriminate). exists g. rewrite U3 by auto. split; auto. subst g. reflexivity.
    + assert (Hi1 : ~ In id i1) by (intros C; apply D1 in C; discriminate). exists f1'. rewrite U3 by (intros C; apply Hi1; auto).
      rewrite U2 by auto. split; auto. subst f1'. reflexivity.
  - split; [|congruence]. intros id Hid. rewrite U3 by auto. rewrite U2 by auto. apply U1; auto.
Qed.

(** once the database has been cleaned up nothing of a marked feature is left *)
Lemma gone_after_cleanup d id f : NoDup (map fst d) -> alook d id = Some f -> f_del f = true -> alook (cleanup d) id = None.
Proof. intros N E Df. rewrite cleanup_eq, alook_filter_nodup by auto. rewrite E. cbn [snd]. rewrite Df. reflexivity. Qed.

(** ** the statements quoted in P_Update.v *)
Lemma c16_msckf chi2q sig mult tri jac st d ids : reach chi2q st -> db_ok d -> handed d ids -> 0 < sig -> jac_ok st jac ->
  exists st' d' used ys, msckf_update chi2q sig mult tri jac st d ids = Ok (st', d', used) /\ reach chi2q st' /\
    Forall2 (contributes chi2q sig mult tri jac st d d') used ys /\
    (ys = [] -> st' = st) /\
    (ys <> [] -> exists order H res st2,
       stacked 0 ys order H res (mscal sig mid) /\
       EKFUpdate st order (DMat (rows_of ys) (length (indices order)) H) (DVec (rows_of ys) res)
         (DMat (rows_of ys) (rows_of ys) (mscal sig mid)) = Ok st2 /\ same_estimate st' st2).
Proof.
  intros A B C D E. destruct (msckf_thm chi2q sig mult tri jac st d ids A B C D E) as (st' & d' & used & ys & X). decompose [and] X.
  exists st', d', used, ys. auto.
Qed.
Lemma c17_msckf chi2q sig mult tri jac st d ids : reach chi2q st -> db_ok d -> handed d ids -> 0 < sig -> jac_ok st jac ->
  exists st' d' used, msckf_update chi2q sig mult tri jac st d ids = Ok (st', d', used) /\ incl used ids /\ NoDup used /\
    (forall id, In id ids -> ~ In id used -> exists f, alook d id = Some f /\ not_usable chi2q sig mult tri jac st f) /\
    (forall id, In id ids -> alook (cleanup d') id = None) /\
    (forall id, ~ In id ids -> alook d' id = alook d id).
Proof.
  intros A B C D E. destruct (msckf_thm chi2q sig mult tri jac st d ids A B C D E) as (st' & d' & used & ys & X). decompose [and] X.
  exists st', d', used. do 4 (split; auto). split; auto. intros id Hid.
  match goal with H : forall id, In id ids -> exists f', alook d' id = Some f' /\ _ |- _ => destruct (H id Hid) as (f & F1 & F2) end.
  apply (gone_after_cleanup _ _ f); auto. match goal with H : map fst d' = _ |- _ => rewrite H end. apply B.
Qed.
Lemma c17_delayed chi2q so (single : nat -> bool) lm_val tri jac st d ids : reach chi2q st -> db_ok d -> handed d ids ->
  0 < so_sig_slam so -> 0 < so_sig_aruco so -> (forall f, length (lm_val f) = if single (f_id f) then 1%nat else 3%nat) ->
  (forall s, reach chi2q s -> s_clones s = s_clones st -> init_jac_ok single s jac) ->
  (forall id, In id ids -> ~ In id (map fst (s_slam st))) ->
  exists st' d' kept, delayed_init chi2q so single lm_val tri jac st d ids = Ok (st', d', kept) /\ reach chi2q st' /\
    s_clones st' = s_clones st /\ s_time st' = s_time st /\ incl kept ids /\ NoDup kept /\
    (exists l, s_slam st' = s_slam st ++ l /\ map fst l = kept) /\
    Forall (new_landmark st st' single) kept /\
    (forall id, In id kept -> exists f g, alook d id = Some f /\ prepared st tri f g) /\
    (forall id, In id ids -> alook (cleanup d') id = None) /\
    (forall id, ~ In id ids -> alook d' id = alook d id).
Proof.
  intros A B C D E F G H. destruct (delayed_thm chi2q so single lm_val tri jac st d ids A B C D E F G H) as (st' & d' & kept & X). decompose [and] X.
  exists st', d', kept. do 9 (split; auto). split; auto. intros id Hid.
  match goal with H : forall id, In id ids -> exists f', alook d' id = Some f' /\ _ |- _ => destruct (H id Hid) as (f & F1 & F2) end.
  apply (gone_after_cleanup _ _ f); auto. match goal with H : map fst d' = _ |- _ => rewrite H end. apply B.
Qed.
Lemma c17_slam chi2q so single jac st d ids : reach chi2q st -> db_ok d -> handed d ids -> 0 < so_sig_slam so -> 0 < so_sig_aruco so ->
  jac_ok st jac -> (forall id, In id ids -> exists p, landmark_at st single id p) ->
  exists st' d' used fl, slam_update chi2q so single jac st d ids = Ok (st', d', used, fl) /\ incl used ids /\ NoDup used /\
    (forall id, In id used -> alook (cleanup d') id = None) /\
    (forall id, In id ids -> ~ In id used -> slam_unused chi2q so single jac st d d' fl id) /\
    (forall id, ~ In id ids -> alook d' id = alook d id).
Proof.
  intros A B C D E F G. destruct (slam_thm chi2q so single jac st d ids A B C D E F G) as (st' & d' & used & fl & ys & X). decompose [and] X.
  exists st', d', used, fl. do 3 (split; auto). split; auto. intros id Hid.
  match goal with H : Forall2 _ used ys |- _ => destruct (Forall2_in_l _ _ _ _ H Hid) as (y & _ & (f & g & l & p & _ & _ & _ & Y & _)) end.
  apply (gone_after_cleanup _ _ (set_del g true)); auto. match goal with H : map fst d' = _ |- _ => rewrite H end. apply B.
Qed.
Lemma c16_slam chi2q so single jac st d ids : reach chi2q st -> db_ok d -> handed d ids -> 0 < so_sig_slam so -> 0 < so_sig_aruco so ->
  jac_ok st jac -> (forall id, In id ids -> exists p, landmark_at st single id p) ->
  exists st' d' used fl ys, slam_update chi2q so single jac st d ids = Ok (st', d', used, fl) /\ reach chi2q st' /\
    Forall2 (slam_contributes chi2q so single jac st d d') used ys /\
    (ys = [] -> st' = st) /\
    (ys <> [] -> exists order H res N, stacked 0 ys order H res N /\ diagonal N /\
       EKFUpdate st order (DMat (rows_of ys) (length (indices order)) H) (DVec (rows_of ys) res) (DMat (rows_of ys) (rows_of ys) N) = Ok st').
Proof.
  intros A B C D E F G. destruct (slam_thm chi2q so single jac st d ids A B C D E F G) as (st' & d' & used & fl & ys & X). decompose [and] X.
  exists st', d', used, fl, ys. auto.
Qed.
