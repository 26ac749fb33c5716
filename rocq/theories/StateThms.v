(** The filter-state results in the form stated by the property theorems. *)
From Coq Require Import Reals List Arith Lia Lra Bool ZArith.
From Verif Require Import RBool Outcome Lin GeoModel GeoSpec GivensModel GivensSpec TypesModel StateModel StateSpec PdInv
  StateLin StateEkf TypesProofs GeoProofs GeoMore GivensProofs EquivProofs StateOps StateOps2 StateOps3 StateOps4 StateOps5 StateInit
  ReachModel ReachSpec StateReach StateFrame ManifoldSpec ManifoldProofs.
Import ListNotations.
Open Scope R_scope.

(** ** C02 *)
Lemma marginalize_thm st p st' m : state_ok st -> sym (s_dim st) (s_cov st) -> marginalize st p = Ok (st', m) ->
  (s_dim st = s_dim st' + ty_size m)%nat /\ ty_id m = None /\
  (exists t, In t (s_vars st) /\ ty_ptr t = p /\ same_obj t m) /\
  (forall t, In t (s_vars st) -> ty_ptr t <> p -> exists t', In t' (s_vars st') /\ same_obj t t') /\
  (forall t', In t' (s_vars st') -> ty_ptr t' <> p /\ exists t, In t (s_vars st) /\ same_obj t t') /\
  (forall ts ts', Forall2 (fun t t' => In t (s_vars st) /\ In t' (s_vars st') /\ ty_ptr t = ty_ptr t') ts ts' ->
     exists A B, get_marginal_covariance st (map ref_of ts) = Ok A /\
       get_marginal_covariance st' (map ref_of ts') = Ok B /\ dr A = dr B /\ meq (dr A) (dr A) (dm A) (dm B)).
Proof.
  intros Hok HS E. destruct (marginalize_inv _ _ _ _ Hok E) as (l1 & marg & l2 & md & Ev & Ep & Ei & C1 & C2 & Est & Em).
  destruct (marginalize_vars _ _ _ _ Hok E) as [V1 V2].
  split. { subst st'. simpl. subst m. rewrite set_id_size. apply consecutive_le in C2. lia. }
  split; [subst m; apply set_id_id|]. split.
  { exists marg. split; [rewrite Ev; apply in_or_app; simpl; auto|]. split; auto. subst m. unfold same_obj.
    rewrite set_id_ptrs, set_id_size, set_id_value, set_id_fej. auto. }
  split. { intros t Ht Hp. destruct (V1 t Ht Hp) as (t' & A & B & _). eauto. }
  split. { intros t' Ht'. destruct (V2 t' Ht') as (A & t & B & C & _). eauto. }
  intros ts ts' HF. destruct (marginalize_projects _ _ _ _ Hok HS E) as (f & Hf).
  eapply projects_joint; eauto. eapply marginalize_ok; eauto.
Qed.

(** ** C03 *)
Lemma clone_thm st p st' c : state_ok st -> clone st p = Ok (st', c) ->
  exists t loc, in_state st t /\ ty_ptr t = p /\ ty_id t = Some loc /\
    value_of c = value_of t /\ fej_of c = fej_of t /\ ty_size c = ty_size t /\ ty_id c = Some (s_dim st) /\
    s_vars st' = s_vars st ++ [c] /\ s_dim st' = (s_dim st + ty_size t)%nat /\
    meq (s_dim st') (s_dim st') (s_cov st')
      (congr (s_dim st) (selm (seq 0 (s_dim st) ++ seq loc (ty_size t))) (s_cov st)).
Proof.
  intros Hok E. destruct (clone_inv _ _ _ _ Hok E) as (t & loc & c0 & F & Hid & Hle & Hc & -> & ->).
  destruct (find_var_ok _ _ _ Hok F) as (I1 & I2 & _).
  destruct (ty_clone_inv _ _ _ Hc) as (K1 & K2 & K3 & K4 & K5 & _).
  exists t, loc. do 3 (split; [auto|]). rewrite set_id_value, set_id_fej, set_id_size, set_id_id.
  do 4 (split; [auto|]). split; [reflexivity|]. split; [reflexivity|]. simpl. apply clone_cov_selm. auto.
Qed.

(** ** C04 *)
Lemma augment_thm st w st' : state_ok st -> augment_clone st w = Ok st' ->
  ~ In (s_time st) (map fst (s_clones st)) /\
  exists imu loc pose, In (TImu imu) (s_vars st) /\ io_ptr imu = s_imu st /\ io_id imu = Some loc /\
    s_vars st' = s_vars st ++ [TPose pose] /\ s_dim st' = (s_dim st + 6)%nat /\ po_id pose = Some (s_dim st) /\
    s_clones st' = s_clones st ++ [(s_time st, po_ptr pose)] /\
    po_val pose = PVal (iv_q (io_val imu)) (iv_p (io_val imu)) /\
    po_fej pose = PVal (iv_q (io_fej imu)) (iv_p (io_fej imu)) /\
    (if o_calib_dt (s_opts st) then
      exists dtv did, In dtv (s_vars st) /\ ty_ptr dtv = s_dt st /\ ty_id dtv = Some did /\
        meq (s_dim st') (s_dim st') (s_cov st')
          (congr (s_dim st) (aug_J (s_dim st) loc did (pose_rate w (iv_v (io_val imu)))) (s_cov st))
    else meq (s_dim st') (s_dim st') (s_cov st')
           (congr (s_dim st) (aug_J (s_dim st) loc 0 (fun _ => 0)) (s_cov st))).
Proof.
  intros Hok E. destruct (augment_inv st w st' Hok E) as (Hn & imu & loc & pose & st1 & I1 & I2 & I3 & I4 & Ec & V1 & D1 & P1 & P2 & P3 & Cv &
     V2 & D2 & N2 & G1 & G2 & G3 & G4 & G5 & G6 & G7 & G8 & _).
  destruct (augment_cov st w st' Hok E) as (imu' & loc' & J1 & J2 & J3 & J4 & J5).
  assert (X : TImu imu' = TImu imu) by (eapply nodup_ptr_inj; [apply Hok|eauto..|simpl; congruence]).
  injection X as ->. assert (loc' = loc) by congruence. subst loc'.
  split; [apply find_clone_none; auto|]. exists imu, loc, pose. do 3 (split; [auto|]). split; [congruence|]. auto 10.
Qed.
Lemma augment_twice st w : In (s_time st) (map fst (s_clones st)) -> augment_clone st w = Exit.
Proof.
  intros H. destruct (find_clone_time (s_clones st) (s_time st)) as [p|] eqn:E; [eapply augment_exit; eauto|].
  apply find_clone_none in E. tauto.
Qed.

(** ** C05 *)
Lemma gap_contiguous l : gap l -> contiguous l = false.
Proof.
  intros (l1 & [i si] & [j sj] & l2 & -> & H). simpl in H. induction l1 as [|[k sk] l1 IH].
  - change (((oz i + Z.of_nat si =? oz j)%Z && contiguous ((j, sj) :: l2))%bool = false).
    unfold oz. destruct (Z.eqb_spec (match i with Some i => Z.of_nat i | None => -1 end + Z.of_nat si) (match j with Some i => Z.of_nat i | None => -1 end)); auto.
    exfalso. apply H. destruct i, j; auto.
  - destruct (l1 ++ (i, si) :: (j, sj) :: l2) as [|[m sm] r] eqn:E; [destruct l1; discriminate|].
    change (((k, sk) :: l1) ++ (i, si) :: (j, sj) :: l2) with ((k, sk) :: (l1 ++ (i, si) :: (j, sj) :: l2)). rewrite E.
    change (((oz k + Z.of_nat sk =? oz m)%Z && contiguous ((m, sm) :: r))%bool = false).
    unfold vref in *. rewrite E in IH. rewrite IH. apply andb_false_r.
Qed.
Lemma propagation_thm st NEW OLD Phi Q st' : sym (s_dim st) (s_cov st) -> EKFPropagation st NEW OLD Phi Q = Ok st' ->
  exists s0, indices NEW = seq s0 (dr Phi) /\ (s0 + dr Phi <= s_dim st)%nat /\
    dr Phi = length (indices NEW) /\ dc Phi = length (indices OLD) /\ dr Q = dr Phi /\ dc Q = dr Phi /\
    s_vars st' = s_vars st /\ s_dim st' = s_dim st /\ s_clones st' = s_clones st /\ s_slam st' = s_slam st /\
    meq (s_dim st) (s_dim st) (s_cov st')
      (madd (congr (s_dim st) (full_F s0 (dr Phi) (indices OLD) (dm Phi)) (s_cov st))
            (full_Q s0 (dr Phi) (upper_sym (dm Q)))) /\
    sym (s_dim st) (s_cov st').
Proof.
  intros HS E. destruct (propagation_inv _ _ _ _ _ _ E HS) as (_ & _ & _ & _ & D1 & D2 & D3 & D4 & s0 & C & E1 & E2 & -> & HC).
  exists s0. simpl. do 11 (split; [auto|]).
  eapply sym_ext; [apply meq_sym; exact HC|]. intros i j Hi Hj. unfold madd, mtr. f_equal.
  - exact (sym_congr (s_dim st) (s_dim st) (full_F s0 (dr Phi) (indices OLD) (dm Phi)) (s_cov st) HS i j Hi Hj).
  - exact (sym_full_Q (s_dim st) s0 (dr Phi) _ (upper_sym_sym _ _) i j Hi Hj).
Qed.
Lemma propagation_exits st NEW OLD Phi Q : NEW = [] \/ OLD = [] \/ gap NEW -> EKFPropagation st NEW OLD Phi Q = Exit.
Proof. intros H. apply propagation_exit. destruct H as [H|[H|H]]; auto. right. right. apply gap_contiguous; auto. Qed.

(** ** C06 *)
Lemma update_thm chi2q st order H res Rn : reach chi2q st -> allowed st (OUpd order H res Rn) ->
  let n := s_dim st in let m := dn res in
  let Hf := widen (indices order) (dm H) in
  let S := madd (congr n Hf (s_cov st)) (dm Rn) in
  pd m S /\
  exists st' K, EKFUpdate st order H res Rn = Ok st' /\
    meq n m (mmul m K S) (mmul n (s_cov st) (mtr Hf)) /\
    s_dim st' = n /\
    meq n n (s_cov st') (msub (s_cov st) (congr m K S)) /\
    Forall2 (applied (mvec m K (dv res))) (s_vars st) (s_vars st') /\
    (o_calib_intr (s_opts st) = true -> forall i v, (i < o_ncams (s_opts st))%nat ->
       In (TVec v) (s_vars st') -> vo_ptr v = ptr_intr i -> In (i, vo_val v) (s_cams st')) /\
    s_clones st' = s_clones st /\ s_slam st' = s_slam st /\ s_time st' = s_time st.
Proof.
  intros HR (A1 & A2 & A3 & A4 & A5 & A6 & A7) n m Hf S. destruct (reach_inv _ _ HR) as (Hok & HP & HM).
  split; [apply (innov_spd n m Hf (s_cov st) (dm Rn)); auto|].
  destruct (update_full st order H res Rn) as (st' & K & E & EK & D & EC & HP' & HV & Hok' & cams & Est & Cf & Ct); auto.
  { apply cams_ready_of; auto. }
  exists st', K. do 4 (split; [auto|]). split.
  { pose proof (ok_vals _ Hok) as V. pose proof (ok_unit _ Hok) as U. clear -HV V U. revert V U.
    induction HV as [|t t' a b (id & Hid & Hu) _ IH]; intros V U; constructor.
    - inversion V; inversion U; subst. destruct (ty_update_inv _ _ _ Hu) as (_ & W1 & W2 & W3 & W4 & W5 & _).
      exists id. split; auto. split; [congruence|]. split; auto. split; auto. eapply update_moved; eauto.
    - inversion V; inversion U; subst. auto. }
  split.
  { intros Hc i v Hi Hv Hp. rewrite Est. simpl. apply Ct in Hc. destruct Hc as (_ & X & _). apply (X i (ptr_intr i) v); auto.
    rewrite (mp_cintr _ HM). apply in_map_iff. exists i. split; auto. apply in_seq. lia. }
  rewrite Est. simpl. auto.
Qed.

(** ** C08 *)
Lemma initialize_reject chi2q st nv order HR HL Rn res mult st' :
  spsd (s_dim st) (s_cov st) -> 0 < dm Rn 0%nat 0%nat ->
  initialize chi2q st nv order HR HL Rn res mult = Ok (false, st') ->
  let r := dr HL in let k := ty_size nv in let up := (r - k)%nat in
  st' = st /\
  exists G, orth r G /\ (forall i j, (j < k)%nat -> (j < i < r)%nat -> mmul r G (dm HL) i j = 0) /\
    let Hup := widen (indices order) (fun i j => mmul r G (dm HR) (k + i)%nat j) in
    let rup := fun i => mvec r G (dv res) (k + i)%nat in
    exists y, veq up (mvec up (madd (congr (s_dim st) Hup (s_cov st)) (mscal (dm Rn 0%nat 0%nat) mid)) y) rup /\
      mult * chi2q r < dot up rup y.
Proof.
  intros HP H0 E r k up.
  destruct (initialize_inv _ _ _ _ _ _ _ _ _ _ _ E) as (_ & Hin & Hiso & D1 & D2 & D3 & D4 & D5 & D6 & D7 & G & HG & HZ &
     L & X & rr & E1 & E2 & E3 & [(_ & -> & Hl)|(Hb & _)]); [|discriminate].
  split; auto. exists G. split; auto. split; auto.
  set (Hup := widen (indices order) (fun i j => mmul r G (dm HR) (k + i)%nat j)).
  set (rup := fun i => mvec r G (dv res) (k + i)%nat).
  fold k r in E1, E2, E3, Hl, D2. fold up in Hl.
  set (Sm := madd (congr (s_dim st) Hup (s_cov st)) (mscal (dm Rn 0%nat 0%nat) mid)).
  assert (SP : sym up Sm /\ pd up Sm) by (apply innov_spd; auto; [apply sym_scal_id|apply pd_scal_id; auto]).
  destruct SP as [SS SP].
  exists (mvec up (pdinv up Sm) rup). split.
  - intros i Hi. rewrite <- mvec_mmul. rewrite <- (mid_mvec up rup i Hi).
    apply mvec_ext; [|intros ? ?; auto]. intros l Hl'. apply pdinv_r; auto.
  - eapply Rlt_le_trans; [exact Hl|]. right. unfold nis. cbn [dm dv dn dr].
    apply dot_ext; [intros i Hi; apply E3; lia|].
    intros i Hi. apply mvec_ext; [|intros l Hl'; apply E3; lia].
    intros l Hl'. apply (pdinv_ext up); auto. intros a b Ha Hb. unfold Sm, madd. f_equal.
    + unfold congr. apply mmul_ext; intros c Hc.
      * apply mmul_ext; intros d Hd; auto. unfold Hup, widen. apply mmul_ext; intros; auto. apply E2. lia.
      * unfold mtr, Hup, widen. apply mmul_ext; intros; auto. apply E2. lia.
    + rewrite (isotropic_scal Rn r) by (auto; lia). unfold mscal, mid. f_equal.
      destruct (Nat.eqb_spec (k + a) (k + b)), (Nat.eqb_spec a b); auto; lia.
Qed.

(** ** C13 *)
Lemma marginalize_slam_thm st st' : state_ok st -> sym (s_dim st) (s_cov st) -> marginalize_slam st = Ok st' ->
  let kill := fun e : nat * (nat * bool) => (snd (snd e) && (4 * o_max_aruco (s_opts st) <? Z.of_nat (fst e))%Z)%bool in
  s_slam st' = filter (fun e => negb (kill e)) (s_slam st) /\
  s_clones st' = s_clones st /\
  (forall t', In t' (s_vars st') -> exists t, In t (s_vars st) /\ same_obj t t') /\
  (forall t, In t (s_vars st) ->
     (exists t', In t' (s_vars st') /\ same_obj t t') \/
     (exists e, In e (s_slam st) /\ kill e = true /\ fst (snd e) = ty_ptr t)) /\
  (forall e t', In e (s_slam st) -> kill e = true -> In t' (s_vars st') -> ty_ptr t' <> fst (snd e)) /\
  (forall ts ts', Forall2 (fun t t' => In t (s_vars st) /\ In t' (s_vars st') /\ ty_ptr t = ty_ptr t') ts ts' ->
     exists A B, get_marginal_covariance st (map ref_of ts) = Ok A /\
       get_marginal_covariance st' (map ref_of ts') = Ok B /\ dr A = dr B /\ meq (dr A) (dr A) (dm A) (dm B)).
Proof.
  intros Hok HS E. cbv zeta. unfold marginalize_slam in E.
  destruct (slam_loop_inv _ _ _ _ Hok HS E) as (Hok' & S1 & _ & _ & _ & _ & S2 & _ & _ & _ & (f & Pf) & V1 & V2).
  simpl in S1. split; [exact S1|]. split; auto. split.
  { intros t' Ht'. destruct (V2 t' Ht') as (_ & t & A & B & _). eauto. }
  split.
  { intros t Ht. destruct (in_dec Nat.eq_dec (ty_ptr t) (map (fun e => fst (snd e)) (filter (slam_kill (s_opts st)) (s_slam st)))) as [Hin|Hn].
    - right. apply in_map_iff in Hin. destruct Hin as (e & Ee & He). apply filter_In in He. exists e. tauto.
    - left. destruct (V1 t Ht Hn) as (t' & A & B & _). eauto. }
  split.
  { intros e t' He Hk Ht' Heq. destruct (V2 t' Ht') as (N & _). apply N. rewrite Heq.
    apply (in_map (fun e => fst (snd e))). apply filter_In. auto. }
  intros ts ts' HF. eapply projects_joint; eauto.
Qed.

(** ** C15 *)
Lemma compress_thm Hx res Hx' res' : measurement_compress Hx res = Ok (Hx', res') -> dn res = dr Hx ->
  dc Hx' = dc Hx /\ dn res' = dr Hx' /\ (dr Hx' <= dr Hx)%nat /\ ((dr Hx <= dc Hx)%nat -> Hx' = Hx /\ res' = res) /\
  (dr Hx' <= dc Hx)%nat /\
  (exists N, orthonormal_cols (dr Hx) (dr Hx') N /\
     meq (dr Hx') (dc Hx) (dm Hx') (mmul (dr Hx) (mtr N) (dm Hx)) /\
     veq (dr Hx') (dv res') (mvec (dr Hx) (mtr N) (dv res))) /\
  meq (dc Hx) (dc Hx) (mmul (dr Hx') (mtr (dm Hx')) (dm Hx')) (mmul (dr Hx) (mtr (dm Hx)) (dm Hx)) /\
  veq (dc Hx) (mvec (dr Hx') (mtr (dm Hx')) (dv res')) (mvec (dr Hx) (mtr (dm Hx)) (dv res)).
Proof.
  intros H Hd. destruct (compress_full _ _ _ _ H) as [A B].
  assert (D : dn res' = dr Hx' \/ (dr Hx <= dc Hx)%nat).
  { destruct (Nat.le_gt_cases (dr Hx) (dc Hx)); auto. left. destruct (B H0) as (-> & _ & -> & _). auto. }
  destruct (compress_info _ _ _ _ H D) as (I1 & I2 & I3 & I4 & I5).
  split; auto. split; [|split; auto; split; [auto|split; auto; split; [|auto]]].
  - destruct (Nat.le_gt_cases (dr Hx) (dc Hx)) as [L|L]; [destruct (A L) as [-> ->]; auto|destruct (B L) as (-> & _ & -> & _); auto].
  - destruct (Nat.le_gt_cases (dr Hx) (dc Hx)) as [L|L].
    + destruct (A L) as [-> ->]. exists mid. split; [|split].
      * intros i j Hi Hj. rewrite mmul_id_r by auto. unfold mtr, mid. rewrite Nat.eqb_sym. reflexivity.
      * intros i j Hi Hj. rewrite (mmul_ext _ _ mid _ (dm Hx)); [rewrite mmul_id_l; auto| |auto].
        intros l Hl. unfold mtr, mid. rewrite Nat.eqb_sym. reflexivity.
      * intros i Hi. rewrite <- (mid_mvec (dr Hx) (dv res) i Hi) at 1. apply mvec_ext; [|intros ? ?; auto].
        intros l Hl. unfold mtr, mid. rewrite Nat.eqb_sym. reflexivity.
    + destruct (B L) as (D1 & D2 & D3 & D4 & G & HG & G1 & G2 & _).
      exists (fun i j => G j i). rewrite D1. split; [|split].
      * intros i j Hi Hj. destruct HG as [HG _]. rewrite <- (HG i j) by lia. apply mmul_ext; reflexivity.
      * intros i j Hi Hj. rewrite G1 by auto. reflexivity.
      * intros i Hi. rewrite G2 by auto. reflexivity.
Qed.

(** ** C01: a call that returns keeps the layout, whatever its numerical arguments *)
Lemma update_keeps_ok st order H res Rn st' : state_ok st -> EKFUpdate st order H res Rn = Ok st' -> state_ok st'.
Proof.
  unfold EKFUpdate. intros Hok E. apply obind_ok in E. destruct E as (l & _ & E).
  apply guard_ok in E; [|discriminate]. destruct E as [_ E].
  apply obind_ok in E. destruct E as (Ma & _ & E). apply obind_ok in E. destruct E as (Ps & _ & E).
  apply guard_ok in E; [|discriminate]. destruct E as [_ E].
  apply obind_ok in E. destruct E as (vars & Ev & E). apply obind_ok in E. destruct E as (cams & _ & E).
  injection E as <-. eapply updated_ok; eauto. apply update_vars_inv in Ev. exact Ev.
Qed.
Lemma init_inv_keeps_ok st nv order HR HL Rn res st' : state_ok st -> fresh_var st nv ->
  initialize_invertible st nv order HR HL Rn res = Ok st' -> state_ok st'.
Proof.
  unfold initialize_invertible. intros Hok Hf H.
  destruct (find_top (s_vars st) (ty_ptr nv)); [discriminate|].
  apply guard_ok in H; [|discriminate]. destruct H as [G1 H].
  apply guard_ok in H; [|discriminate]. destruct H as [G2 H].
  apply guard_ok in H; [|discriminate]. destruct H as [G3 H].
  apply obind_ok in H. destruct H as (l & El & H).
  apply guard_ok in H; [|discriminate]. destruct H as [G4 H].
  apply obind_ok in H. destruct H as (Ma & _ & H).
  apply obind_ok in H. destruct H as (Ps & _ & H).
  apply guard_ok in H; [|discriminate]. destruct H as [G5 H].
  apply obind_ok in H. destruct H as (nv' & Hu & H). injection H as <-.
  destruct (ty_update_inv _ _ _ Hu) as (_ & W1 & W2 & W3 & W4 & W5 & W6 & W7). destruct Hf as [F1 F2 F3 F4 F5].
  match goal with |- state_ok (set_vars_cov _ ?v ?n ?C) =>
    assert (X : state_ok (set_next (set_vars_cov st v n C) (s_next st))); [|destruct X; constructor; auto] end.
  apply append_ok; auto.
  - apply set_id_subs.
  - apply set_id_vals; auto.
  - apply set_id_unit. eapply ty_update_unit; eauto.
  - apply set_id_id.
  - rewrite set_id_size. lia.
  - rewrite set_id_ptrs, W4. auto.
  - rewrite set_id_ptrs, W4. auto.
  - rewrite set_id_ptrs, W4. auto.
Qed.
Lemma slam_loop_keeps_ok todo : forall st kept st', state_ok st -> marg_slam_loop st todo kept = Ok st' -> state_ok st'.
Proof.
  induction todo as [|e todo IH]; simpl; intros st kept st' Hok E.
  - injection E as <-. apply set_slam_ok; auto.
  - destruct (slam_kill (s_opts st) e); [|eauto]. apply obind_ok in E. destruct E as ([s1 m] & E1 & E).
    eapply IH; [|exact E]. eapply marginalize_ok; eauto.
Qed.
Lemma exec_keeps_ok chi2q st o st' : state_ok st -> manages st o -> exec chi2q st o = Ok st' -> state_ok st'.
Proof.
  intros Hok HM E. destruct o; cbn [exec] in E; try contradiction.
  - apply obind_ok in E. destruct E as ([s1 m] & E1 & E). injection E as <-. eapply clone_ok; eauto.
  - apply obind_ok in E. destruct E as ([s1 m] & E1 & E). injection E as <-. eapply marginalize_ok; eauto.
  - eapply augment_ok; eauto.
  - eapply old_clone_ok; eauto.
  - eapply slam_loop_keeps_ok; eauto.
  - unfold EKFPropagation in E. destruct NEW as [|[start sz] NEW]; [discriminate|]. destruct OLD; [discriminate|].
    apply guard_ok in E; [|discriminate]. destruct E as [_ E].
    apply obind_ok in E. destruct E as (l & _ & E). apply obind_ok in E. destruct E as (l' & _ & E).
    apply guard_ok in E; [|discriminate]. destruct E as [_ E]. destruct start; [|discriminate].
    apply guard_ok in E; [|discriminate]. destruct E as [_ E].
    apply guard_ok in E; [|discriminate]. destruct E as [_ E]. injection E as <-.
    eapply state_ok_ext; [..|exact Hok]; auto.
  - eapply update_keeps_ok; eauto.
  - apply obind_ok in E. destruct E as ([b s1] & E1 & E). injection E as <-.
    destruct (initialize_inv _ _ _ _ _ _ _ _ _ _ _ E1) as (_ & _ & _ & _ & _ & _ & _ & _ & _ & _ & G & _ & _ & L & X & rr & _ & _ & _ & HH).
    simpl snd. destruct HH as [(_ & -> & _)|(_ & _ & st1 & I1 & [(_ & ->)|(_ & I2)])]; auto.
    + eapply init_inv_keeps_ok; eauto.
    + eapply update_keeps_ok; [|exact I2]. eapply init_inv_keeps_ok; eauto.
  - unfold set_initial_covariance in E. apply obind_ok in E. destruct E as (l & _ & E).
    apply guard_ok in E; [|discriminate]. destruct E as [_ E]. injection E as <-.
    eapply state_ok_ext; [..|exact Hok]; auto.
  - injection E as <-. apply set_next_ok; auto.
  - injection E as <-. apply set_slam_ok; auto.
  - injection E as <-. apply set_slam_ok; auto.
  - injection E as <-. apply set_time_ok; auto.
Qed.

(** ** C15: the update from the compressed system is the update from the full one *)
Lemma gram_widen m1 m2 idx H1 H2 c : length idx = c ->
  meq c c (mmul m1 (mtr H1) H1) (mmul m2 (mtr H2) H2) -> forall n,
  meq n n (mmul m1 (mtr (widen idx H1)) (widen idx H1)) (mmul m2 (mtr (widen idx H2)) (widen idx H2)).
Proof.
  intros Hc E n i j _ _. unfold widen. rewrite Hc.
  assert (X : forall m H, mmul m (mtr (mmul c H (selm idx))) (mmul c H (selm idx)) i j
     = mmul c (mtr (selm idx)) (mmul c (mmul m (mtr H) H) (selm idx)) i j).
  { intros m H. rewrite (mmul_ext m (mtr (mmul c H (selm idx))) (mmul c (mtr (selm idx)) (mtr H)) (mmul c H (selm idx)) (mmul c H (selm idx)));
      [|intros; apply mmul_tr|auto].
    rewrite mmul_assoc. apply mmul_ext; auto. intros l _. symmetry. apply mmul_assoc. }
  rewrite !X. apply mmul_ext; auto. intros l Hl. apply mmul_ext; auto.
Qed.
Lemma grad_widen m1 m2 idx H1 H2 c r1 r2 : length idx = c ->
  veq c (mvec m1 (mtr H1) r1) (mvec m2 (mtr H2) r2) -> forall n,
  veq n (mvec m1 (mtr (widen idx H1)) r1) (mvec m2 (mtr (widen idx H2)) r2).
Proof.
  intros Hc E n i _. unfold widen. rewrite Hc.
  assert (X : forall m H r, mvec m (mtr (mmul c H (selm idx))) r i = mvec c (mtr (selm idx)) (mvec m (mtr H) r) i).
  { intros m H r. rewrite <- (mvec_mmul c m (mtr (selm idx)) (mtr H) r i). apply mvec_ext; [intros l _; unfold mtr at 1; apply mmul_tr|intros ? ?; reflexivity]. }
  rewrite !X. apply mvec_ext; auto.
Qed.
Lemma gain_form n m K Sm P H : sym m Sm -> pd m Sm -> meq n m (mmul m K Sm) (mmul n P (mtr H)) ->
  meq n m K (mmul n P (mmul m (mtr H) (pdinv m Sm))).
Proof.
  intros SS SP E i j Hi Hj. rewrite <- mmul_assoc.
  rewrite <- (mmul_ext m (mmul m K Sm) _ (pdinv m Sm) (pdinv m Sm) i j); [|intros l Hl; apply E; auto|auto].
  rewrite mmul_assoc. rewrite (mmul_ext m K K _ mid); [rewrite mmul_id_r; auto|auto|]. intros l Hl. apply pdinv_r; auto.
Qed.
Lemma applied_same_vars dx dx' vars : forall a b n off, consecutive off vars n ->
  (forall k, (k < n)%nat -> dx k = dx' k) ->
  Forall2 (upd_rel dx) vars a -> Forall2 (upd_rel dx') vars b -> a = b.
Proof.
  induction vars as [|t vars IH]; intros a b n off HC E HA HB; inversion HA; inversion HB; subst; auto.
  destruct HC as [Hid HC]. f_equal.
  - destruct H1 as (id & I1 & U1), H6 as (id' & I2 & U2). assert (id' = id) by congruence. subst id'.
    rewrite (map_ext_in dx dx') in U1; [congruence|]. intros k Hk. apply in_seq in Hk. apply E.
    apply consecutive_le in HC. assert (id = off) by congruence. lia.
  - eapply IH; eauto.
Qed.
Lemma compressed_update chi2q st order H res H' res' s : reach chi2q st ->
  in_cov (s_dim st) order -> dc H = length (indices order) -> dr H = dn res -> 0 < s ->
  measurement_compress H res = Ok (H', res') ->
  exists st1 st2,
    EKFUpdate st order H res (DMat (dr H) (dr H) (mscal s mid)) = Ok st1 /\
    EKFUpdate st order H' res' (DMat (dr H') (dr H') (mscal s mid)) = Ok st2 /\
    s_vars st1 = s_vars st2 /\ s_dim st1 = s_dim st2 /\
    meq (s_dim st1) (s_dim st1) (s_cov st1) (s_cov st2).
Proof.
  intros HR HI HC HD Hs E. destruct (reach_inv _ _ HR) as (Hok & HP & HM).
  destruct (compress_thm _ _ _ _ E (eq_sym HD)) as (D1 & D2 & _ & _ & _ & _ & EG & Eg).
  destruct (update_full st order H res (DMat (dr H) (dr H) (mscal s mid))) as (st1 & K1 & U1 & EK1 & Di1 & EC1 & _ & V1 & _);
    [auto|auto|auto|auto|auto|simpl; auto|simpl; auto|apply sym_scal_id|apply pd_scal_id; auto|apply cams_ready_of; auto|].
  destruct (update_full st order H' res' (DMat (dr H') (dr H') (mscal s mid))) as (st2 & K2 & U2 & EK2 & Di2 & EC2 & _ & V2 & _);
    [auto|auto|auto|congruence|auto|simpl; auto|simpl; auto|apply sym_scal_id|apply pd_scal_id; auto|apply cams_ready_of; auto|].
  set (n := s_dim st) in *. set (P := s_cov st) in *. simpl in *.
  set (H1 := widen (indices order) (dm H)) in *. set (H2 := widen (indices order) (dm H')) in *.
  rewrite <- HD in EK1, EC1, V1. rewrite D2 in EK2, EC2, V2.
  set (m1 := dr H) in *. set (m2 := dr H') in *.
  set (S1 := madd (congr n H1 P) (mscal s mid)) in *. set (S2 := madd (congr n H2 P) (mscal s mid)) in *.
  assert (G1 : meq n n (mmul m2 (mtr H2) H2) (mmul m1 (mtr H1) H1)) by (apply (gram_widen m2 m1 (indices order) (dm H') (dm H) (dc H)); auto).
  assert (G2 : veq n (mvec m2 (mtr H2) (dv res')) (mvec m1 (mtr H1) (dv res))) by (apply (grad_widen m2 m1 (indices order) (dm H') (dm H) (dc H)); auto).
  destruct (innov_spd n m1 H1 P (mscal s mid)) as [SS1 SP1]; [auto|apply sym_scal_id|apply pd_scal_id; auto|].
  destruct (innov_spd n m2 H2 P (mscal s mid)) as [SS2 SP2]; [auto|apply sym_scal_id|apply pd_scal_id; auto|].
  fold S1 in SS1, SP1. fold S2 in SS2, SP2.
  pose proof (gain_form _ _ _ _ _ _ SS1 SP1 EK1) as F1. pose proof (gain_form _ _ _ _ _ _ SS2 SP2 EK2) as F2.
  exists st1, st2. do 2 (split; [auto|]). split; [|split; [congruence|]].
  - eapply applied_same_vars; [apply (ok_layout _ Hok)| |exact V1|exact V2].
    intros k Hk. pose proof (same_update n m2 m1 H2 H1 P s (dv res') (dv res) HP Hs G1 G2 k Hk) as X. cbv zeta in X.
    fold S1 S2 in X. symmetry in X.
    rewrite (mvec_ext m1 K1 (mmul n P (mmul m1 (mtr H1) (pdinv m1 S1))) (dv res) (dv res)) by (try (intros ? ?; reflexivity); intros; apply F1; auto).
    rewrite (mvec_ext m2 K2 (mmul n P (mmul m2 (mtr H2) (pdinv m2 S2))) (dv res') (dv res')) by (try (intros ? ?; reflexivity); intros; apply F2; auto).
    rewrite !mvec_mmul. etransitivity; [|etransitivity; [exact X|]]; (apply mvec_ext; [reflexivity|]; intros a Ha; rewrite mvec_mmul; reflexivity).
  - rewrite Di1. intros i j Hi Hj. rewrite EC1, EC2 by auto. unfold msub. f_equal.
    assert (Q : forall m K Hh Sm, sym m Sm -> pd m Sm -> meq n m (mmul m K Sm) (mmul n P (mtr Hh)) ->
       meq n m K (mmul n P (mmul m (mtr Hh) (pdinv m Sm))) ->
       congr m K Sm i j = mmul n P (mmul m (mtr Hh) (mmul m (pdinv m Sm) (mmul n Hh P))) i j).
    { intros m K Hh Sm SS SP EK F. unfold congr.
      rewrite (mmul_ext m (mmul m K Sm) (mmul n P (mtr Hh)) (mtr K) (mmul m (pdinv m Sm) (mmul n Hh P))).
      - rewrite mmul_assoc. reflexivity.
      - intros l Hl. apply EK; auto.
      - intros l Hl. unfold mtr at 1. rewrite F by auto.
        rewrite <- mmul_assoc. rewrite (mmul_tr m (mmul n P (mtr Hh)) (pdinv m Sm) l j). apply mmul_ext.
        + intros c Hc. symmetry. apply (pdinv_sym m Sm SS SP); auto.
        + intros c Hc. unfold mtr at 1. rewrite (mmul_tr n P (mtr Hh) c j).
          apply mmul_ext; [reflexivity|]. intros d Hd. symmetry. apply (proj1 HP); auto. }
    rewrite (Q m1 K1 H1 S1), (Q m2 K2 H2 S2); auto. symmetry.
    apply (same_update_cov n m2 m1 H2 H1 P s HP Hs G1 i j); auto.
Qed.

(** ** C10, C11, C31, C52 *)
Lemma expected_pos o s : In s (flat_map snd (expected o)) -> 0 < s.
Proof.
  assert (P : forall e, In e (expected o) -> forall x, In x (snd e) -> 0 < x).
  { clear. unfold expected. intros e He x Hx.
    apply in_app_or in He. destruct He as [[<-|[]]|He]; [unfold snd in Hx; apply repeat_spec in Hx; lra|].
    apply in_app_or in He. destruct He as [He|He].
    - destruct (o_calib_imu o); [|destruct He].
      apply in_app_or in He. destruct He as [[<-|[<-|[]]]|He]; try (unfold snd in Hx; apply repeat_spec in Hx; lra).
      apply in_app_or in He. destruct He as [He|He].
      + destruct (o_calib_gsens o); [|destruct He]. destruct He as [<-|[]]. unfold snd in Hx; apply repeat_spec in Hx; lra.
      + destruct (o_kalibr o); destruct He as [<-|[]]; unfold snd in Hx; apply repeat_spec in Hx; lra.
    - apply in_app_or in He. destruct He as [He|He].
      + destruct (o_calib_dt o); [|destruct He]; destruct He as [<-|[]]. destruct Hx as [<-|[]]. lra.
      + apply in_flat_map in He. destruct He as (i & _ & He). apply in_app_or in He. destruct He as [He|He].
        * destruct (o_calib_pose o); [|destruct He]; destruct He as [<-|[]]. unfold snd in Hx. apply in_app_or in Hx. destruct Hx as [Hx|Hx]; apply repeat_spec in Hx; lra.
        * destruct (o_calib_intr o); [|destruct He]; destruct He as [<-|[]]. unfold snd in Hx. apply in_app_or in Hx. destruct Hx as [Hx|Hx]; apply repeat_spec in Hx; lra. }
  intros H. apply in_flat_map in H.
  destruct H as (e & He & Hs). eauto.
Qed.
Lemma full_cov_thm st :
  dr (get_full_covariance st) = s_dim st /\ dc (get_full_covariance st) = s_dim st /\
  meq (s_dim st) (s_dim st) (dm (get_full_covariance st)) (s_cov st).
Proof.
  split; [reflexivity|]. split; [reflexivity|]. intros i j Hi Hj. simpl. unfold set_block.
  rewrite (proj2 (Nat.leb_le 0 i)), (proj2 (Nat.leb_le 0 j)) by lia. simpl.
  rewrite (proj2 (Nat.ltb_lt i _)), (proj2 (Nat.ltb_lt j _)) by lia. simpl. rewrite !Nat.sub_0_r. reflexivity.
Qed.
Lemma update_thm31 t d t' : vals_ok t -> ori_unit t -> ty_update t d = Ok t' ->
  moved d (value_of t) (value_of t') /\ fej_of t' = fej_of t /\ vals_ok t' /\ ori_unit t' /\
  ty_ptrs t' = ty_ptrs t /\ ty_id t' = ty_id t.
Proof.
  intros V U E. destruct (ty_update_inv _ _ _ E) as (_ & W1 & W2 & W3 & W4 & W5 & W6 & W7).
  split; [eapply update_moved; eauto|]. split; auto. split; auto. split; [eapply ty_update_unit; eauto|]. auto.
Qed.
Lemma clock_thm chi2q st t i mid : filter_state chi2q st -> frame_ok chi2q st t i mid ->
  exists st', do_feature_propagate_update chi2q st t i mid = Ok st' /\
    s_time st <= s_time st' /\ (t < s_time st -> st' = st) /\
    (forall c, In c (s_clones st') -> fst c <= s_time st') /\ increasing (map fst (s_clones st')).
Proof.
  intros A B. destruct (frame_total _ _ _ _ _ A B) as (st' & E & F & O & T & C1 & C2). exists st'. split; auto.
  split; [rewrite T; apply Rmax_l|]. split.
  { intros Ht. unfold do_feature_propagate_update in E. rewrite (proj2 (Rltb_true t (s_time st))) in E by auto. congruence. }
  destruct (filter_ok _ _ F) as (_ & (W1 & W2 & _) & _). split; auto. intros c Hc. apply W2. apply in_map; auto.
Qed.

(** ** C14 *)
Lemma nullspace_thm Hf Hx res Hf' Hx' res' :
  nullspace_project Hf Hx res = Ok (Hf', Hx', res') ->
  let r := dr Hf in let k := dc Hf in let w := dc Hx in
  (k <= r)%nat /\ dr Hx' = (r - k)%nat /\ dc Hx' = w /\ dn res' = (r - k)%nat /\
  exists N, orthonormal_cols r (r - k) N /\
    meq (r - k) k (mmul r (mtr N) (dm Hf)) mzero /\
    meq (r - k) w (dm Hx') (mmul r (mtr N) (dm Hx)) /\
    veq (r - k) (dv res') (mvec r (mtr N) (dv res)) /\
    (full_col_rank r k (dm Hf) -> forall y, veq k (mvec r (mtr (dm Hf)) y) (fun _ => 0) ->
       exists z, veq r y (mvec (r - k) N z)).
Proof.
  intros E r k w. destruct (nullspace_full _ _ _ _ _ _ E) as (H1 & H2 & H3 & H4 & H5 & H6 & G & HG & N1 & N2 & N3 & N4 & N5).
  do 4 (split; [auto|]). exists (fun i j => G (k + j)%nat i). do 4 (split; [auto|]).
  intros Hr y Hy. exact (nullspace_complete r k G (dm Hf) y H1 HG Hr N5 Hy).
Qed.
Lemma nullspace_model Hf Hx res Hf' Hx' res' :
  nullspace_project Hf Hx res = Ok (Hf', Hx', res') ->
  let r := dr Hf in let k := dc Hf in let w := dc Hx in
  exists N, (forall s, meq (r - k) (r - k) (congr r (mtr N) (mscal s mid)) (mscal s mid)) /\
    forall x f n, veq r (dv res) (fun i => mvec w (dm Hx) x i + mvec k (dm Hf) f i + n i) ->
      veq (r - k) (dv res') (fun i => mvec w (dm Hx') x i + mvec r (mtr N) n i).
Proof.
  intros E r k w. destruct (nullspace_thm _ _ _ _ _ _ E) as (H1 & H2 & H3 & H4 & N & N1 & N2 & N3 & N4 & _).
  fold r k w in N1, N2, N3, N4, H1. exists N. split.
  - intros s i j Hi Hj. unfold congr.
    rewrite (mmul_ext r _ (fun a b => s * mtr N a b) (mtr (mtr N)) N); [| |reflexivity].
    + unfold mscal. rewrite <- (N1 i j Hi Hj). unfold mmul. rewrite <- sumn_scal. apply sumn_ext. intros l _. ring.
    + intros l Hl. unfold mscal. transitivity (s * mmul r (mtr N) mid i l); [|rewrite mmul_id_r; auto].
      unfold mmul. rewrite <- sumn_scal. apply sumn_ext. intros a _. ring.
  - intros x f n Hm i Hi. rewrite N4 by auto.
    rewrite (mvec_ext r (mtr N) (mtr N) (dv res) (fun i => mvec w (dm Hx) x i + mvec k (dm Hf) f i + n i) i); [|auto|auto].
    transitivity (mvec r (mtr N) (mvec w (dm Hx) x) i + mvec r (mtr N) (mvec k (dm Hf) f) i + mvec r (mtr N) n i).
    { change (sumn r (fun l => mtr N i l * (mvec w (dm Hx) x l + mvec k (dm Hf) f l + n l)) =
        sumn r (fun l => mtr N i l * mvec w (dm Hx) x l) + sumn r (fun l => mtr N i l * mvec k (dm Hf) f l) + sumn r (fun l => mtr N i l * n l)).
      rewrite <- !sumn_plus. apply sumn_ext. intros l _. ring. }
    rewrite <- !mvec_mmul.
    rewrite (mvec_ext k _ mzero f f i); [|intros l Hl; apply N2; auto|intros ? ?; reflexivity].
    rewrite (mvec_ext w (dm Hx') (mmul r (mtr N) (dm Hx)) x x i); [|intros l Hl; apply N3; auto|intros ? ?; reflexivity].
    assert (Z : mvec k mzero f i = 0) by (unfold mvec; apply sumn_zero; intros; unfold mzero; ring). rewrite Z. ring.
Qed.
Lemma nullspace_total Hf Hx res : (dc Hf <= dr Hf)%nat -> dr Hx = dr Hf -> dn res = dr Hf ->
  exists p, nullspace_project Hf Hx res = Ok p.
Proof.
  intros A B C. unfold nullspace_project. rewrite (proj2 (Nat.leb_le _ _) A), (proj2 (Nat.eqb_eq _ _) B), (proj2 (Nat.eqb_eq _ _) C). simpl.
  destruct (fold_left nullspace_step (sched (dr Hf) (dc Hf)) (dm Hf, dm Hx, dv res)) as [[F X] r]. eexists. reflexivity.
Qed.
Lemma compress_total Hx res : dn res = dr Hx -> exists p, measurement_compress Hx res = Ok p.
Proof.
  intros A. unfold measurement_compress. destruct (dr Hx <=? dc Hx)%nat; [eexists; reflexivity|].
  rewrite (proj2 (Nat.eqb_eq _ _) (eq_sym A)). destruct (fold_left compress_step (sched (dr Hx) (dc Hx)) (dm Hx, dv res)). eexists. reflexivity.
Qed.
