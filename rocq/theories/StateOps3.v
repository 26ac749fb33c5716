(** EKF propagation, update and delayed initialization on the state. *)
From Coq Require Import Reals List Arith Lia Lra Bool ZArith.
From Verif Require Import RBool Outcome Lin GeoModel GeoSpec GivensModel TypesModel StateModel StateSpec PdInv StateLin
  StateEkf TypesProofs StateOps StateOps2.
Import ListNotations.
Open Scope R_scope.

(** ** propagation *)
Lemma contiguous_indices n l : contiguous l = true -> in_cov n l ->
  match l with
  | [] => True
  | (k, _) :: _ => exists s0, k = Some s0 /\ indices l = seq s0 (length (indices l)) /\
                    (s0 + length (indices l) <= n)%nat
  end.
Proof.
  induction l as [|[k sz] l IH]; intros Hc Hin; [exact I|].
  inversion Hin as [|? ? (s0 & E & Hle) Hin']; subst. simpl in E, Hle. subst k. exists s0. split; auto.
  destruct l as [|[k' sz'] l].
  - simpl. rewrite app_nil_r, seq_length. auto.
  - simpl in Hc. apply andb_prop in Hc. destruct Hc as [Hc1 Hc2]. apply Z.eqb_eq in Hc1.
    specialize (IH Hc2 Hin'). destruct IH as (s1 & -> & IH1 & IH2). simpl in Hc1.
    assert (E1 : s1 = (s0 + sz)%nat) by lia. subst s1.
    set (l' := indices ((Some (s0 + sz)%nat, sz') :: l)) in *.
    assert (IH1' : l' = seq (s0 + sz) (length l')) by exact IH1.
    assert (IH2' : (s0 + sz + length l' <= n)%nat) by exact IH2. clear IH1 IH2.
    change (indices ((Some s0, sz) :: (Some (s0 + sz)%nat, sz') :: l)) with (seq s0 sz ++ l').
    rewrite app_length, seq_length. rewrite seq_app, <- IH1'. split; auto. lia.
Qed.

Lemma pairs_resolve n order l : resolve n order = Ok l -> order = pairs l /\ in_cov n order.
Proof. apply resolve_ok. Qed.

Lemma propagation_inv st NEW OLD Phi Q st' : EKFPropagation st NEW OLD Phi Q = Ok st' ->
  sym (s_dim st) (s_cov st) ->
  NEW <> [] /\ OLD <> [] /\ in_cov (s_dim st) NEW /\ in_cov (s_dim st) OLD /\
  dr Phi = length (indices NEW) /\ dc Phi = length (indices OLD) /\ dr Q = dr Phi /\ dc Q = dr Phi /\
  exists s0 C, indices NEW = seq s0 (dr Phi) /\ (s0 + dr Phi <= s_dim st)%nat /\
    st' = set_vars_cov st (s_vars st) (s_dim st) C /\
    meq (s_dim st) (s_dim st) C
      (madd (congr (s_dim st) (full_F s0 (dr Phi) (indices OLD) (dm Phi)) (s_cov st))
            (full_Q s0 (dr Phi) (upper_sym (dm Q)))).
Proof.
  intros H HS. unfold EKFPropagation in H.
  destruct NEW as [|[start sz] NEW]; [discriminate|]. destruct OLD as [|o OLD]; [discriminate|].
  apply guard_ok in H; [destruct H as [Ec H]|discriminate].
  apply obind_ok in H. destruct H as (lnew & Hnew & H).
  apply obind_ok in H. destruct H as (lold & Hold & H).
  apply guard_ok in H; [destruct H as [Eg H]|discriminate].
  apply andb_prop in Eg. destruct Eg as [Eg E4]. apply andb_prop in Eg. destruct Eg as [Eg E3].
  apply andb_prop in Eg. destruct Eg as [E1 E2].
  apply Nat.eqb_eq in E1, E2, E3, E4.
  apply resolve_ok in Hnew. destruct Hnew as [En Hin]. apply resolve_ok in Hold. destruct Hold as [Eo Hio].
  pose proof (contiguous_indices _ _ Ec Hin) as Hci. simpl in Hci. destruct Hci as (s0 & -> & Hci & Hcl).
  assert (L1 : osize lnew = length (indices ((Some s0 : oid, sz) :: NEW))) by (rewrite osize_indices, <- En; reflexivity).
  assert (L2 : osize lold = length (indices (o :: OLD))) by (rewrite osize_indices, <- Eo; reflexivity).
  apply guard_ok in H; [destruct H as [Eg H]|discriminate].
  apply Nat.leb_le in Eg.
  apply guard_ok in H; [destruct H as [Egn H]|discriminate].
  injection H as <-.
  split; [discriminate|]. split; [discriminate|]. split; auto. split; auto.
  split; [rewrite <- E1; exact L1|]. split; [rewrite <- E2; exact L2|].
  split; [congruence|]. split; [congruence|].
  eexists s0, _. split; [|split; [exact Eg|split; [reflexivity|]]].
  - rewrite <- E1, L1. apply Hci.
  - rewrite Eo. apply prop_cov_eq; auto. rewrite <- Eo; auto.
Qed.

Lemma propagation_total st NEW OLD Phi Q :
  NEW <> [] -> OLD <> [] -> contiguous NEW = true -> in_cov (s_dim st) NEW -> in_cov (s_dim st) OLD ->
  dr Phi = length (indices NEW) -> dc Phi = length (indices OLD) -> dr Q = dr Phi -> dc Q = dr Phi ->
  spsd (s_dim st) (s_cov st) -> psd (dr Q) (upper_sym (dm Q)) ->
  exists st', EKFPropagation st NEW OLD Phi Q = Ok st'.
Proof.
  intros Hn Ho Hc Hin Hio D1 D2 D3 D4 HP HQ. unfold EKFPropagation.
  destruct NEW as [|[start sz] NEW]; [congruence|]. destruct OLD as [|o OLD]; [congruence|].
  rewrite Hc. unfold guard at 1.
  destruct (resolve_total _ _ Hin) as (ln & En). destruct (resolve_total _ _ Hio) as (lo & Eo).
  rewrite En, Eo. simpl obind.
  pose proof (resolve_ok _ _ _ En) as [Pn _]. pose proof (resolve_ok _ _ _ Eo) as [Po _].
  rewrite (osize_indices ln), (osize_indices lo), <- Pn, <- Po.
  rewrite <- D1, <- D2, D3, D4, !Nat.eqb_refl. unfold guard at 1. simpl andb. cbv match.
  pose proof (contiguous_indices _ _ Hc Hin) as Hci. simpl in Hci. destruct Hci as (s0 & -> & Hci & Hcl).
  assert (Hle : (s0 + dr Phi <= s_dim st)%nat) by (rewrite D1; exact Hcl).
  unfold guard at 1. destruct (Nat.leb_spec (s0 + dr Phi) (s_dim st)); [|lia].
  unfold guard. rewrite has_neg_diag_psd; [eexists; reflexivity|].
  eapply psd_ext; [apply meq_sym; apply prop_cov_eq; auto|].
  - apply HP.
  - rewrite <- Po; auto.
  - apply spsd_propagated; auto. rewrite <- D3; auto.
Qed.

Lemma propagation_exit st NEW OLD Phi Q :
  NEW = [] \/ OLD = [] \/ contiguous NEW = false -> EKFPropagation st NEW OLD Phi Q = Exit.
Proof.
  unfold EKFPropagation. destruct NEW as [|[start sz] NEW], OLD as [|o OLD]; auto.
  intros [H|[H|H]]; try discriminate. rewrite H. reflexivity.
Qed.

Lemma propagation_ok st NEW OLD Phi Q st' : EKFPropagation st NEW OLD Phi Q = Ok st' ->
  sym (s_dim st) (s_cov st) -> state_ok st -> state_ok st'.
Proof.
  intros H HS Hok. destruct (propagation_inv _ _ _ _ _ _ H HS) as (_ & _ & _ & _ & _ & _ & _ & _ & s0 & C & _ & _ & -> & _).
  apply (state_ok_ext st); auto.
Qed.
Lemma spsd_propagation st NEW OLD Phi Q st' : EKFPropagation st NEW OLD Phi Q = Ok st' ->
  spsd (s_dim st) (s_cov st) -> psd (dr Q) (upper_sym (dm Q)) -> spsd (s_dim st') (s_cov st').
Proof.
  intros H HP HQ. destruct (propagation_inv _ _ _ _ _ _ H (proj1 HP))
    as (_ & _ & _ & _ & _ & _ & D3 & _ & s0 & C & _ & Hle & -> & E). simpl.
  eapply spsd_ext; [apply meq_sym, E|]. apply spsd_propagated; auto. rewrite <- D3; auto.
Qed.

(** ** update *)
Definition upd_rel (dx : vec) (t t' : ty) : Prop :=
  exists id, ty_id t = Some id /\ ty_update t (map dx (seq id (ty_size t))) = Ok t'.

Lemma update_vars_inv dx vars vars' : update_vars dx vars = Ok vars' -> Forall2 (upd_rel dx) vars vars'.
Proof.
  revert vars'. induction vars as [|t vars IH]; simpl; intros vars' H.
  - injection H as <-. constructor.
  - destruct (ty_id t) as [id|] eqn:Eid; [|discriminate].
    apply obind_ok in H. destruct H as (t' & Ht & H). apply obind_ok in H. destruct H as (r & Hr & H).
    injection H as <-. constructor; auto. exists id; auto.
Qed.
Lemma update_vars_total dx off vars n : consecutive off vars n -> Forall vals_ok vars ->
  exists vars', update_vars dx vars = Ok vars'.
Proof.
  revert off. induction vars as [|t vars IH]; simpl; intros off Hc HV; [eexists; reflexivity|].
  destruct Hc as [Hid Hc]. inversion HV; subst. rewrite Hid.
  destruct (ty_update_total t (map dx (seq off (ty_size t)))) as (t' & E); auto.
  { rewrite map_length, seq_length. reflexivity. }
  rewrite E. simpl. destruct (IH _ Hc) as (r & Er); auto. rewrite Er. eexists; reflexivity.
Qed.

Lemma upd_rel_frame dx vars vars' : Forall2 (upd_rel dx) vars vars' ->
  Forall2 (fun t t' => ty_id t' = ty_id t /\ ty_size t' = ty_size t) vars vars' /\
  flat_map ty_ptrs vars' = flat_map ty_ptrs vars.
Proof.
  induction 1 as [|t t' l l' (id & Hid & Hu) _ (IH1 & IH2)]; [split; [constructor|reflexivity]|].
  destruct (ty_update_inv _ _ _ Hu) as (_ & E1 & E2 & E3 & E4 & _). split.
  - constructor; auto.
  - simpl. rewrite E4, IH2. reflexivity.
Qed.

Lemma update_kind t dx t' : ty_update t dx = Ok t' -> same_kind t t'.
Proof.
  unfold ty_update, guard. destruct (Nat.eqb (length dx) (ty_size t)); [|discriminate].
  destruct t; intros H; try (injection H as <-; exact I).
  apply obind_ok in H. destruct H as (v' & _ & H). injection H as <-. exact I.
Qed.

Lemma updated_ok st dx vars' n C cams : state_ok st -> Forall2 (upd_rel dx) (s_vars st) vars' ->
  n = s_dim st -> state_ok (set_cams (set_vars_cov st vars' n C) cams).
Proof.
  intros [HL HS HV HU HN HA HD] H ->. destruct (upd_rel_frame _ _ _ H) as (F1 & F2).
  constructor; simpl.
  - eapply consecutive_ext; eauto.
  - clear -H HS. induction H as [|t t' l l' (id & _ & Hu) _ IH]; constructor; inversion HS; subst; auto.
    apply (ty_update_inv _ _ _ Hu); auto.
  - clear -H HV. induction H as [|t t' l l' (id & _ & Hu) _ IH]; constructor; inversion HV; subst; auto.
    apply (ty_update_inv _ _ _ Hu); auto.
  - clear -H HV HU. induction H as [|t t' l l' (id & _ & Hu) _ IH]; constructor; inversion HV; inversion HU; subst; auto.
    eapply ty_update_unit; eauto.
  - rewrite F2; auto.
  - rewrite F2; auto.
  - auto.
Qed.

(** every estimated camera has an object whose intrinsics are a state variable *)
Definition cams_ok (st : state) : Prop :=
  forall c p, In (c, p) (s_cintr st) ->
    (exists v, In (TVec v) (s_vars st) /\ vo_ptr v = p) /\ In c (map fst (s_cams st)).

Lemma assoc_set_some {A} (l : list (nat * A)) k v : In k (map fst l) ->
  exists l', assoc_set l k v = Some l' /\ map fst l' = map fst l /\
    In (k, v) l' /\ (forall k' v', k' <> k -> In (k', v') l' <-> In (k', v') l).
Proof.
  induction l as [|[k0 v0] l IH]; simpl; [tauto|]. intros Hin.
  destruct (Nat.eqb_spec k k0) as [->|Hne].
  - eexists; split; [reflexivity|]. simpl. split; auto. split; auto.
    intros k' v' Hk. split; intros [E|E]; auto; injection E as E1 E2; congruence.
  - destruct Hin as [E|Hin]; [congruence|]. destruct (IH Hin) as (l' & E & A1 & A2 & A3). rewrite E. simpl.
    eexists; split; [reflexivity|]. simpl. split; [congruence|]. split; auto.
    intros k' v' Hk. rewrite (A3 k' v' Hk). tauto.
Qed.

Lemma refresh_total vars cintr : forall cams,
  NoDup (flat_map ty_ptrs vars) ->
  (forall c p, In (c, p) cintr -> (exists v, In (TVec v) vars /\ vo_ptr v = p) /\ In c (map fst cams)) ->
  NoDup (map fst cintr) ->
  exists cams', refresh_cams vars cintr cams = Ok cams' /\ map fst cams' = map fst cams /\
    (forall c p v, In (c, p) cintr -> In (TVec v) vars -> vo_ptr v = p -> In (c, vo_val v) cams') /\
    (forall c x, ~ In c (map fst cintr) -> In (c, x) cams' <-> In (c, x) cams).
Proof.
  induction cintr as [|[c p] cintr IH]; simpl; intros cams ND H NC.
  - exists cams. split; auto. split; auto. split; [tauto|tauto].
  - destruct (H c p (or_introl eq_refl)) as ((v & Hv & Ep) & Hc).
    assert (Ef : find_top vars p = Some (TVec v)).
    { rewrite <- Ep. apply (find_top_in_nodup vars (TVec v)); auto. }
    rewrite Ef. destruct (assoc_set_some cams c (vo_val v) Hc) as (l' & E & A1 & A2 & A3). rewrite E.
    inversion NC as [|? ? N1 N2]; subst.
    destruct (IH l') as (cams' & E' & B1 & B2 & B3); auto.
    { intros c' p' Hin. rewrite A1. apply H; auto. }
    exists cams'. split; auto. split; [congruence|]. split.
    + intros c' p' v' [X|X] Hv' Ep'.
      * injection X as X1 X2. subst.
        assert (Y : TVec v' = TVec v).
        { apply (nodup_ptr_inj vars); auto. }
        injection Y as ->. apply B3; auto.
      * eapply B2; eauto.
    + intros c' x Hn. rewrite B3 by tauto. apply A3. intros ->. tauto.
Qed.

(** the update, full statement *)
Lemma update_full st order H res Rn :
  state_ok st -> spsd (s_dim st) (s_cov st) -> in_cov (s_dim st) order ->
  dc H = length (indices order) -> dr H = dn res -> dr Rn = dn res -> dc Rn = dn res ->
  sym (dn res) (dm Rn) -> pd (dn res) (dm Rn) ->
  (o_calib_intr (s_opts st) = true -> cams_ok st /\ NoDup (map fst (s_cintr st))) ->
  let n := s_dim st in
  let m := dn res in
  let Hf := widen (indices order) (dm H) in
  let S := madd (congr n Hf (s_cov st)) (dm Rn) in
  exists st' K,
    EKFUpdate st order H res Rn = Ok st' /\
    meq n m (mmul m K S) (mmul n (s_cov st) (mtr Hf)) /\
    s_dim st' = n /\
    meq n n (s_cov st') (msub (s_cov st) (congr m K S)) /\
    spsd n (s_cov st') /\
    Forall2 (upd_rel (mvec m K (dv res))) (s_vars st) (s_vars st') /\
    state_ok st' /\
    (exists cams, st' = set_cams (set_vars_cov st (s_vars st') n (s_cov st')) cams /\
       (o_calib_intr (s_opts st) = false -> cams = s_cams st) /\
       (o_calib_intr (s_opts st) = true -> map fst cams = map fst (s_cams st) /\
         (forall c p v, In (c, p) (s_cintr st) -> In (TVec v) (s_vars st') -> vo_ptr v = p ->
            In (c, vo_val v) cams) /\
         (forall c x, ~ In c (map fst (s_cintr st)) -> In (c, x) cams <-> In (c, x) (s_cams st)))).
Proof.
  intros Hok HP Hin D1 D2 D3 D4 RS RP HC n m Hf S.
  destruct (resolve_total _ _ Hin) as (l & El). pose proof (resolve_ok _ _ _ El) as [Pl _].
  assert (Lo : osize l = dc H) by (rewrite osize_indices, <- Pl; auto).
  destruct (gain_M_eq (s_cov st) (dm H) l m (s_vars st) 0 n mzero (ok_layout _ Hok)) as (Ma & EM & HM & _).
  assert (HMa : meq n m Ma (mmul n (s_cov st) (mtr Hf))).
  { intros i r Hi Hr. rewrite HM by lia. rewrite (cov_HT_full n) by (rewrite <- Pl; auto).
    rewrite <- Pl. reflexivity. }
  destruct (gmc_total st order Hin) as (Ps & EP).
  assert (HPs : Ps = DMat (osize l) (osize l) (marginal_block (s_cov st) l)).
  { unfold get_marginal_covariance in EP. rewrite El in EP. simpl in EP. injection EP as <-. reflexivity. }
  destruct (innov_spd n m Hf (s_cov st) (dm Rn) HP RS RP) as [SS SP]. fold S in SS, SP.
  set (Si := upper_sym (innov m (dc H) (dm H) (dm Ps) (dm Rn))).
  assert (HSi : meq m m Si S).
  { intros i j Hi Hj. transitivity (upper_sym S i j).
    - unfold Si, upper_sym, innov, madd, S. rewrite HPs; simpl.
      rewrite <- Lo. destruct (i <=? j)%nat; unfold madd; f_equal;
        rewrite (small_innov n) by (rewrite <- Pl; auto); rewrite <- Pl; reflexivity.
    - apply (upper_sym_id m S SS); auto. }
  set (W := upper_sym (pdinv m Si)).
  assert (SiS : sym m Si) by (apply upper_sym_sym).
  assert (SiP : pd m Si).
  { intros x Hx. rewrite (quad_ext m Si S x HSi). apply SP; auto. }
  assert (HW : meq m m W (pdinv m Si)) by (apply upper_sym_id, pdinv_sym; auto).
  assert (WS : sym m W) by apply upper_sym_sym.
  assert (SW : meq m m (mmul m S W) mid).
  { intros i j Hi Hj. rewrite <- (pdinv_r m Si SiS SiP i j) by auto.
    apply mmul_ext; [intros k Hk; symmetry; apply HSi; auto|intros k Hk; apply HW; auto]. }
  assert (WSl : meq m m (mmul m W S) mid).
  { intros i j Hi Hj. rewrite <- (pdinv_l m Si SiS SiP i j) by auto.
    apply mmul_ext; [intros k Hk; apply HW; auto|intros k Hk; symmetry; apply HSi; auto]. }
  set (K := mmul m Ma W).
  assert (HKS : meq n m (mmul m K S) Ma).
  { intros i j Hi Hj. unfold K. rewrite mmul_assoc.
    rewrite (mmul_ext m Ma Ma (mmul m W S) mid); [apply mmul_id_r; auto|auto|intros; apply WSl; auto]. }
  set (C0 := msub (s_cov st) (mmul m K (mtr Ma))).
  assert (HC0 : meq n n C0 (msub (s_cov st) (congr m K S))).
  { intros i j Hi Hj. unfold C0, msub, congr. f_equal. unfold mmul at 1. unfold mmul at 1.
    unfold K at 1.
    transitivity (mmul m (mmul m Ma W) (mtr Ma) i j); [reflexivity|].
    transitivity (mmul m (mmul m K S) (mtr K) i j); [|reflexivity].
    transitivity (mmul m Ma (mtr K) i j).
    2:{ apply mmul_ext; [intros k Hk; symmetry; apply HKS; auto|auto]. }
    rewrite mmul_assoc. apply mmul_ext; [auto|]. intros k Hk.
    unfold mtr at 2. unfold K. unfold mmul. apply sumn_ext. intros a Ha. unfold mtr.
    rewrite (WS k a Hk Ha). unfold mtr. ring. }
  assert (PC0 : psd n C0).
  { apply (joseph_psd n m Hf (s_cov st) (dm Rn) Ma W); auto. apply pd_psd; auto. }
  assert (SC0 : sym n C0).
  { eapply sym_ext; [apply meq_sym, HC0|]. intros i j Hi Hj. unfold msub, mtr. f_equal.
    - apply (proj1 HP); auto.
    - apply (sym_congr n m K S SS); auto. }
  assert (HC1 : meq n n (upper_sym C0) C0) by (apply upper_sym_id; auto).
  assert (SP1 : spsd n (upper_sym C0)) by (eapply spsd_ext; [apply meq_sym, HC1|split; auto]).
  destruct (update_vars_total (mvec m K (dv res)) 0 (s_vars st) n (ok_layout _ Hok) (ok_vals _ Hok)) as (vars' & EV).
  pose proof (update_vars_inv _ _ _ EV) as HV.
  pose proof (upd_rel_frame _ _ _ HV) as (F1 & F2).
  assert (Ecam : exists cams, (if o_calib_intr (s_opts st) then refresh_cams vars' (s_cintr st) (s_cams st)
                    else Ok (s_cams st)) = Ok cams /\
       (o_calib_intr (s_opts st) = false -> cams = s_cams st) /\
       (o_calib_intr (s_opts st) = true -> map fst cams = map fst (s_cams st) /\
         (forall c p v, In (c, p) (s_cintr st) -> In (TVec v) vars' -> vo_ptr v = p ->
            In (c, vo_val v) cams) /\
         (forall c x, ~ In c (map fst (s_cintr st)) -> In (c, x) cams <-> In (c, x) (s_cams st)))).
  { destruct (o_calib_intr (s_opts st)).
    - destruct (HC eq_refl) as (HC1' & HC2).
      destruct (refresh_total vars' (s_cintr st) (s_cams st)) as (cams & E & G1 & G2 & G3); auto.
      + rewrite F2. apply Hok.
      + intros c p Hcp. destruct (HC1' c p Hcp) as ((v & Hv & Ep) & Hc'). split; auto.
        clear -HV Hv Ep. induction HV as [|t t' a b (id & _ & Hu) _ IH]; [destruct Hv|].
        destruct Hv as [->|Hv].
        * pose proof (update_kind _ _ _ Hu) as Hk. destruct t'; try destruct Hk.
          destruct (ty_update_inv _ _ _ Hu) as (_ & _ & _ & E & _). simpl in E.
          eexists; split; [left; reflexivity|congruence].
        * destruct (IH Hv) as (v' & X & Y). exists v'. split; [right|]; auto.
      + exists cams. split; auto. split; [discriminate|]. auto.
    - eexists; split; [reflexivity|]. split; [auto|discriminate]. }
  destruct Ecam as (cams & Ecam & HcamF & HcamT).
  exists (set_cams (set_vars_cov st vars' n (upper_sym C0)) cams), K.
  split.
  { unfold EKFUpdate. rewrite El. simpl obind. rewrite D3, D4, D2, Lo, !Nat.eqb_refl. unfold guard at 1. simpl andb.
    cbv match. fold m n. rewrite EM. simpl obind. rewrite EP. simpl obind. fold Si W K C0.
    unfold guard. rewrite has_neg_diag_psd by apply SP1. simpl negb. cbv match.
    rewrite EV. simpl obind. rewrite Ecam. reflexivity. }
  simpl. split; [eapply meq_trans; eauto|]. split; auto.
  split; [eapply meq_trans; eauto|]. split; auto. split; auto.
  split; [eapply updated_ok; eauto|].
  exists cams. split; [reflexivity|]. auto.
Qed.
