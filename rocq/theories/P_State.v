(** Property theorems C01 - C13, C31, C52 (State, StateHelper, Type classes). *)
From Coq Require Import Reals.
From Coquelicot Require Import Coquelicot.
From Coq Require Import List Arith Lia Lra Bool ZArith.
From Verif Require Import RBool Outcome Lin GeoModel GeoSpec GivensModel GivensSpec TypesModel StateModel StateSpec PdInv
  TypesProofs StateOps StateOps2 StateOps3 StateOps4 StateOps5 StateInit ReachModel ReachSpec StateReach StateFrame
  ManifoldSpec ManifoldProofs StateThms StateEx.
Import ListNotations.
Open Scope R_scope.

(** The non-trivial case used below: a reachable state with every calibration on, two cameras, a
    clone and a SLAM landmark; it satisfies the invariant, so the hypotheses [reach], [state_ok],
    [spsd] are all met by it. *)
Example ex_state : exists st p t q, reach ex_chi2 st /\ s_clones st = [(t, p)] /\
  s_slam st = [(7%nat, (q, false))] /\ (24 <= s_dim st)%nat /\
  state_ok st /\ spsd (s_dim st) (s_cov st) /\
  (exists v, In (TVec v) (s_vars st) /\ vo_ptr v = q /\ vo_size v = 3%nat) /\
  (exists po, In (TPose po) (s_vars st) /\ po_ptr po = p).
Proof.
  destruct ex_rich as (st & p & t & q & A & B & C & D & E & F & _). destruct (reach_inv _ _ A) as (G & H & _).
  exists st, p, t, q. auto 10.
Qed.

(** ** C01 *)
Theorem C01_layout_of_reachable_states : forall chi2q st, reach chi2q st ->
  tiles (s_vars st) (s_dim st) /\ consecutive 0 (s_vars st) (s_dim st) /\ Forall subs_ok (s_vars st) /\
  NoDup (flat_map ty_ptrs (s_vars st)).
Proof.
  intros chi2q st H. destruct (reach_inv _ _ H) as (Hok & _).
  exact (conj (consecutive_tiles _ _ (ok_layout _ Hok)) (conj (ok_layout _ Hok) (conj (ok_subs _ Hok) (ok_nodup _ Hok)))).
Qed.
Print Assumptions C01_layout_of_reachable_states.

(** any call that returns, whatever its numerical arguments, keeps the layout *)
Theorem C01_layout_after_any_returning_call : forall chi2q st o st', state_ok st -> manages st o ->
  exec chi2q st o = Ok st' ->
  state_ok st' /\ tiles (s_vars st') (s_dim st') /\ consecutive 0 (s_vars st') (s_dim st') /\ Forall subs_ok (s_vars st').
Proof.
  intros chi2q st o st' A B C. pose proof (exec_keeps_ok _ _ _ _ A B C) as H.
  exact (conj H (conj (consecutive_tiles _ _ (ok_layout _ H)) (conj (ok_layout _ H) (ok_subs _ H)))).
Qed.
Print Assumptions C01_layout_after_any_returning_call.

Example C01_ex : exists st, reach ex_chi2 st /\ state_ok st /\ manages st (OAugment (V3 0 0 1)) /\ (24 <= s_dim st)%nat.
Proof. destruct ex_state as (st & p & t & q & A & _ & _ & D & E & _). exists st. simpl. auto. Qed.

(** ** C02 *)
Theorem C02_marginalize : forall st p st' m, state_ok st -> sym (s_dim st) (s_cov st) ->
  marginalize st p = Ok (st', m) ->
  (s_dim st = s_dim st' + ty_size m)%nat /\ ty_id m = None /\
  (exists t, In t (s_vars st) /\ ty_ptr t = p /\ same_obj t m) /\
  (forall t, In t (s_vars st) -> ty_ptr t <> p -> exists t', In t' (s_vars st') /\ same_obj t t') /\
  (forall t', In t' (s_vars st') -> ty_ptr t' <> p /\ exists t, In t (s_vars st) /\ same_obj t t') /\
  (forall ts ts', Forall2 (fun t t' => In t (s_vars st) /\ In t' (s_vars st') /\ ty_ptr t = ty_ptr t') ts ts' ->
     exists A B, get_marginal_covariance st (map ref_of ts) = Ok A /\
       get_marginal_covariance st' (map ref_of ts') = Ok B /\ dr A = dr B /\ meq (dr A) (dr A) (dm A) (dm B)).
Proof. exact marginalize_thm. Qed.
Print Assumptions C02_marginalize.

Theorem C02_marginalize_returns_or_exits : forall st p, state_ok st ->
  ((exists t, In t (s_vars st) /\ ty_ptr t = p) -> exists r, marginalize st p = Ok r) /\
  ((forall t, In t (s_vars st) -> ty_ptr t <> p) -> marginalize st p = Exit).
Proof.
  intros st p H. split; [|exact (marginalize_exit st p)]. intros (t & A & B). exact (marginalize_total st p t H A B).
Qed.
Print Assumptions C02_marginalize_returns_or_exits.

Example C02_ex : exists st st' m p, state_ok st /\ sym (s_dim st) (s_cov st) /\
  marginalize st p = Ok (st', m) /\ ty_size m = 3%nat.
Proof.
  destruct ex_state as (st & p & t & q & A & _ & _ & D & E & S & (v & V1 & V2 & V3) & _).
  destruct (marginalize_total st q (TVec v) E V1 V2) as ([st' m] & M). exists st, st', m, q. split; auto. split; [apply S|]. split; auto.
  destruct (marginalize_thm _ _ _ _ E (proj1 S) M) as (_ & _ & (t0 & T1 & T2 & T3) & _).
  assert (X : t0 = TVec v) by (eapply nodup_ptr_inj; [apply E|eauto..|simpl; congruence]). subst t0.
  destruct T3 as (_ & T3 & _). rewrite T3. exact V3.
Qed.

(** ** C03 *)
Theorem C03_clone : forall st p st' c, state_ok st -> clone st p = Ok (st', c) ->
  exists t loc, in_state st t /\ ty_ptr t = p /\ ty_id t = Some loc /\
    value_of c = value_of t /\ fej_of c = fej_of t /\ ty_size c = ty_size t /\ ty_id c = Some (s_dim st) /\
    s_vars st' = s_vars st ++ [c] /\ s_dim st' = (s_dim st + ty_size t)%nat /\
    meq (s_dim st') (s_dim st') (s_cov st')
      (congr (s_dim st) (selm (seq 0 (s_dim st) ++ seq loc (ty_size t))) (s_cov st)).
Proof. exact clone_thm. Qed.
Print Assumptions C03_clone.

Theorem C03_clone_returns_or_exits : forall st p, state_ok st ->
  (In p (flat_map ty_ptrs (s_vars st)) -> exists r, clone st p = Ok r) /\
  (~ In p (flat_map ty_ptrs (s_vars st)) -> clone st p = Exit).
Proof. exact (fun st p H => conj (clone_total st p H) (clone_exit st p H)). Qed.
Print Assumptions C03_clone_returns_or_exits.

Example C03_ex : exists st p st' c, state_ok st /\ clone st p = Ok (st', c).
Proof.
  destruct ex_state as (st & p & t & q & A & _ & _ & D & E & S & (v & V1 & V2 & V3) & _).
  destruct (clone_total st q E) as ([st' c] & M); [rewrite <- V2; exact (ptr_in_flat _ _ V1)|]. exists st, q, st', c. auto.
Qed.

(** ** C04 *)
Theorem C04_augment_clone : forall st w st', state_ok st -> augment_clone st w = Ok st' ->
  ~ In (s_time st) (map fst (s_clones st)) /\
  exists imu loc pose, In (TImu imu) (s_vars st) /\ io_ptr imu = s_imu st /\ io_id imu = Some loc /\
    s_vars st' = s_vars st ++ [TPose pose] /\ s_dim st' = (s_dim st + 6)%nat /\ po_id pose = Some (s_dim st) /\
    s_clones st' = s_clones st ++ [(s_time st, po_ptr pose)] /\
    po_val pose = PVal (iv_q (io_val imu)) (iv_p (io_val imu)) /\
    po_fej pose = PVal (iv_q (io_fej imu)) (iv_p (io_fej imu)) /\
    (if o_calib_dt (s_opts st) then
      exists dtv did, In dtv (s_vars st) /\ ty_ptr dtv = s_dt st /\ ty_id dtv = Some did /\
        meq (s_dim st') (s_dim st') (s_cov st')
          (congr (s_dim st) (aug_J (s_dim st) loc did (pose_rate w (iv_v (io_val imu)))) (s_cov st))
    else meq (s_dim st') (s_dim st') (s_cov st')
           (congr (s_dim st) (aug_J (s_dim st) loc 0 (fun _ => 0)) (s_cov st))).
Proof. exact augment_thm. Qed.
Print Assumptions C04_augment_clone.

Theorem C04_augment_keeps_psd : forall st w st', state_ok st -> augment_clone st w = Ok st' ->
  spsd (s_dim st) (s_cov st) -> spsd (s_dim st') (s_cov st').
Proof. exact spsd_augment. Qed.
Print Assumptions C04_augment_keeps_psd.

Theorem C04_second_clone_at_same_time_exits : forall st w,
  In (s_time st) (map fst (s_clones st)) -> augment_clone st w = Exit.
Proof. exact augment_twice. Qed.
Print Assumptions C04_second_clone_at_same_time_exits.

Example C04_ex : exists st st' w, state_ok st /\ o_calib_dt (s_opts st) = true /\ augment_clone st w = Ok st' /\ w = V3 1 2 3.
Proof.
  destruct ex_new as (st & _ & A & B & _ & O & _). destruct (reach_inv _ _ A) as (H & _).
  destruct (reach_progress _ _ (OAugment (V3 1 2 3)) A) as (st' & E & _); [simpl; rewrite B; simpl; tauto|].
  exists st, st', (V3 1 2 3). split; [exact H|]. split; [rewrite O; reflexivity|]. split; [exact E|reflexivity].
Qed.

(** ** C05 *)
Theorem C05_propagation : forall st NEW OLD Phi Q st', sym (s_dim st) (s_cov st) ->
  EKFPropagation st NEW OLD Phi Q = Ok st' ->
  exists s0, indices NEW = seq s0 (dr Phi) /\ (s0 + dr Phi <= s_dim st)%nat /\
    dr Phi = length (indices NEW) /\ dc Phi = length (indices OLD) /\ dr Q = dr Phi /\ dc Q = dr Phi /\
    s_vars st' = s_vars st /\ s_dim st' = s_dim st /\ s_clones st' = s_clones st /\ s_slam st' = s_slam st /\
    meq (s_dim st) (s_dim st) (s_cov st')
      (madd (congr (s_dim st) (full_F s0 (dr Phi) (indices OLD) (dm Phi)) (s_cov st))
            (full_Q s0 (dr Phi) (upper_sym (dm Q)))) /\
    sym (s_dim st) (s_cov st').
Proof. exact propagation_thm. Qed.
Print Assumptions C05_propagation.

Theorem C05_bad_orders_exit : forall st NEW OLD Phi Q,
  NEW = [] \/ OLD = [] \/ gap NEW -> EKFPropagation st NEW OLD Phi Q = Exit.
Proof. exact propagation_exits. Qed.
Print Assumptions C05_bad_orders_exit.

Theorem C05_propagation_returns : forall chi2q st NEW OLD Phi Q, reach chi2q st ->
  allowed st (OProp NEW OLD Phi Q) -> exists st', EKFPropagation st NEW OLD Phi Q = Ok st'.
Proof.
  intros chi2q st NEW OLD Phi Q A B. destruct (reach_progress chi2q st _ A B) as (st' & E & _). exists st'. exact E.
Qed.
Print Assumptions C05_propagation_returns.

(** shuffled old variables: the IMU velocity block depends on blocks given in the order (9..15), (0..6) *)
Example C05_ex : exists st, reach ex_chi2 st /\
  allowed st (OProp [(Some 0%nat, 6%nat); (Some 6%nat, 3%nat)] [(Some 9%nat, 6%nat); (Some 0%nat, 6%nat)]
    (DMat 9 12 (fun i j => INR (i + j))) (DMat 9 9 (mscal 2 mid))) /\ gap [(Some 0%nat, 6%nat); (Some 9%nat, 3%nat)].
Proof.
  destruct ex_state as (st & p & t & q & A & _ & _ & D & _). exists st. split; [exact A|]. split.
  - simpl. repeat match goal with |- _ /\ _ => split end; auto; try discriminate;
      try incov.
    eapply psd_ext; [apply meq_sym, upper_sym_id, EquivProofs.sym_scal_id|]. apply pd_psd, EquivProofs.pd_scal_id. lra.
  - exists [], (Some 0%nat, 6%nat), (Some 9%nat, 3%nat), []. split; [reflexivity|]. simpl. lia.
Qed.

(** ** C06 *)
Theorem C06_update : forall chi2q st order H res Rn, reach chi2q st -> allowed st (OUpd order H res Rn) ->
  let n := s_dim st in let m := dn res in
  let Hf := widen (indices order) (dm H) in
  let S := madd (congr n Hf (s_cov st)) (dm Rn) in
  pd m S /\
  exists st' K, EKFUpdate st order H res Rn = Ok st' /\
    meq n m (mmul m K S) (mmul n (s_cov st) (mtr Hf)) /\
    s_dim st' = n /\
    meq n n (s_cov st') (msub (s_cov st) (congr m K S)) /\
    Forall2 (applied (mvec m K (dv res))) (s_vars st) (s_vars st') /\
    (o_calib_intr (s_opts st) = true -> forall i v, (i < o_ncams (s_opts st))%nat ->
       In (TVec v) (s_vars st') -> vo_ptr v = ptr_intr i -> In (i, vo_val v) (s_cams st')) /\
    s_clones st' = s_clones st /\ s_slam st' = s_slam st /\ s_time st' = s_time st.
Proof. exact update_thm. Qed.
Print Assumptions C06_update.

Example C06_ex : exists st, reach ex_chi2 st /\ o_calib_intr (s_opts st) = true /\
  allowed st (OUpd [(Some 18%nat, 4%nat); (Some 3%nat, 3%nat)] (DMat 2 7 (fun i j => INR (i + 2 * j)))
    (DVec 2 (fun i => INR i)) (DMat 2 2 (mscal 3 mid))).
Proof.
  destruct ex_new as (st & E & A & _ & _ & O & _). exists st. split; [exact A|]. split; [rewrite O; reflexivity|].
  destruct (new_state_ok ex_opts ex_cams) as (st' & E' & _ & D & _). assert (st' = st) by congruence. subst st'.
  unfold expected in D. simpl in D.
  simpl. repeat match goal with |- _ /\ _ => split end; auto.
  - incov.
  - apply EquivProofs.sym_scal_id.
  - apply EquivProofs.pd_scal_id. lra.
Qed.

(** ** C07 *)
Theorem C07_reachable_covariance_psd : forall chi2q st, reach chi2q st ->
  spsd (s_dim st) (s_cov st) /\ (forall k, (k < s_dim st)%nat -> 0 <= s_cov st k k).
Proof.
  intros chi2q st H. destruct (reach_inv _ _ H) as (_ & HP & _).
  exact (conj HP (fun k Hk => psd_diag _ _ k (proj2 HP) Hk)).
Qed.
Print Assumptions C07_reachable_covariance_psd.

(** no respected call terminates the process (in particular not through the negative-diagonal
    checks) or is undefined *)
Theorem C07_respected_calls_return : forall chi2q st o, reach chi2q st -> allowed st o ->
  exists st', exec chi2q st o = Ok st' /\ reach chi2q st'.
Proof. exact reach_progress. Qed.
Print Assumptions C07_respected_calls_return.

Example C07_ex : exists st, reach ex_chi2 st /\ allowed st OMargSlam /\ length (s_clones st) = 1%nat /\ length (s_slam st) = 1%nat.
Proof.
  destruct ex_state as (st & p & t & q & A & B & C & _). exists st. rewrite B, C. simpl. auto.
Qed.

(** ** C08 *)
Theorem C08_rejection_changes_nothing : forall chi2q st nv order HR HL Rn res mult st',
  spsd (s_dim st) (s_cov st) -> 0 < dm Rn 0%nat 0%nat ->
  initialize chi2q st nv order HR HL Rn res mult = Ok (false, st') ->
  let r := dr HL in let k := ty_size nv in let up := (r - k)%nat in
  st' = st /\
  exists G, orth r G /\ (forall i j, (j < k)%nat -> (j < i < r)%nat -> mmul r G (dm HL) i j = 0) /\
    let Hup := widen (indices order) (fun i j => mmul r G (dm HR) (k + i)%nat j) in
    let rup := fun i => mvec r G (dv res) (k + i)%nat in
    exists y, veq up (mvec up (madd (congr (s_dim st) Hup (s_cov st)) (mscal (dm Rn 0%nat 0%nat) mid)) y) rup /\
      mult * chi2q r < dot up rup y.
Proof. exact initialize_reject. Qed.
Print Assumptions C08_rejection_changes_nothing.

Theorem C08_initialize_exits : forall chi2q st nv order HR HL Rn res mult,
  (exists t, In t (s_vars st) /\ ty_ptr t = ty_ptr nv) \/
  (dr Rn = dc Rn /\ (0 < dr Rn)%nat /\
   exists i j, (i < dr Rn)%nat /\ (j < dc Rn)%nat /\ dm Rn i j <> (if Nat.eqb i j then dm Rn 0%nat 0%nat else 0)) ->
  initialize chi2q st nv order HR HL Rn res mult = Exit.
Proof.
  intros chi2q st nv order HR HL Rn res mult H. apply initialize_exit. destruct H as [H|(A & B & i & j & I & J & N)]; [left; exact H|].
  right. split; [exact A|]. split; [exact B|]. destruct (isotropic Rn) eqn:E; [|reflexivity].
  exfalso. apply N. exact (proj1 (isotropic_spec Rn) E i j I J).
Qed.
Print Assumptions C08_initialize_exits.

(** when respected, the call returns; it rejects exactly when the statistic exceeds the threshold *)
Theorem C08_initialize_returns : forall chi2q st nv order HR HL Rn res mult, reach chi2q st ->
  allowed st (OInit nv order HR HL Rn res mult) ->
  exists b st', initialize chi2q st nv order HR HL Rn res mult = Ok (b, st') /\
    s_dim st' = (if b then s_dim st + ty_size nv else s_dim st)%nat.
Proof.
  intros chi2q st nv order HR HL Rn res mult A B. destruct (reach_inv _ _ A) as (Hok & HP & HM).
  destruct B as (A1 & A2 & A3 & A4 & A5 & A6 & A7 & A8 & A9 & A10 & A11 & A12 & A13).
  destruct (initialize_total chi2q st nv order HR HL Rn res mult Hok HP A1 A2 (cams_ready_of _ Hok HM) A3 A4 A5 A6 A7 A8 A9 A10 A11 A12)
    as (b & st' & E & _ & _ & D & _). exists b, st'. exact (conj E D).
Qed.
Print Assumptions C08_initialize_returns.

Example C08_ex : exists st p, reach ex_chi2 st /\
  allowed st (OInit (ex_land p) [(Some 0%nat, 6%nat)] ex_HR ex_HL ex_Rn (DVec 4 (fun _ => 0)) 1).
Proof.
  destruct ex_new as (st & E & A & _ & _ & O & D). destruct (reach_inv _ _ A) as (Hok & HP & HM).
  destruct (reach_progress _ _ (OAlloc 1) A I) as (st2 & E2 & R2). cbn [exec] in E2. injection E2 as E2.
  exists st2, (s_next st). split; [exact R2|]. apply ex_init_allowed; [exact (reach_inv _ _ R2)|..]; rewrite <- E2; simpl.
  - exact D.
  - lia.
  - apply (mp_next _ HM).
  - intros Hin. apply (ok_alloc _ Hok) in Hin. lia.
Qed.

(** ** C09 *)
Theorem C09_initialize_invertible : forall st nv order HR HL Rn res,
  state_ok st -> sym (s_dim st) (s_cov st) -> in_cov (s_dim st) order -> fresh_var st nv ->
  let n := s_dim st in let m := ty_size nv in
  dr HR = m -> dc HR = length (indices order) -> dr HL = m -> dc HL = m -> dr Rn = m -> dc Rn = m -> dn res = m ->
  isotropic Rn = true -> invertible m (dm HL) ->
  let Hf := widen (indices order) (dm HR) in
  exists st' nv' Hinv,
    meq m m (mmul m Hinv (dm HL)) mid /\ meq m m (mmul m (dm HL) Hinv) mid /\
    initialize_invertible st nv order HR HL Rn res = Ok st' /\
    ty_update nv (map (mvec m Hinv (dv res)) (seq 0 m)) = Ok nv' /\
    s_vars st' = s_vars st ++ [set_local_id nv' (Some n)] /\ s_dim st' = (n + m)%nat /\
    st' = set_vars_cov st (s_vars st') (s_dim st') (s_cov st') /\
    meq (n + m) (n + m) (s_cov st')
      (madd (congr n (join_T n (mmul m Hinv Hf)) (s_cov st)) (congr m (join_N n Hinv) (dm Rn))) /\
    state_ok st'.
Proof. exact init_inv_full. Qed.
Print Assumptions C09_initialize_invertible.

(** the initialized variable itself is moved by H_L^-1 res *)
Theorem C09_initialized_value : forall nv dx nv', vals_ok nv -> ori_unit nv -> ty_update nv dx = Ok nv' ->
  moved dx (value_of nv) (value_of nv') /\ fej_of nv' = fej_of nv.
Proof.
  intros nv dx nv' A B C. split; [exact (update_moved _ _ _ A B C)|]. apply (ty_update_inv _ _ _ C).
Qed.
Print Assumptions C09_initialized_value.

Example C09_ex : invertible 2 (fun i j => if Nat.eqb i j then 2 else if (i <? j)%nat then 1 else 0).
Proof.
  exists (fun i j => if Nat.eqb i j then / 2 else if (i <? j)%nat then - / 4 else 0).
  split; intros i j Hi Hj; assert (i = 0 \/ i = 1)%nat as [-> | ->] by lia; assert (j = 0 \/ j = 1)%nat as [-> | ->] by lia;
    unfold mmul, mid; simpl; field.
Qed.

(** ** C10 *)
Theorem C10_new_state : forall o cams, exists st, new_state o cams = Ok st /\
  map (fun t => (ty_ptr t, ty_size t)) (s_vars st) = map (fun e => (fst e, length (snd e))) (expected o) /\
  s_dim st = length (flat_map snd (expected o)) /\
  (forall i j, (i < s_dim st)%nat -> (j < s_dim st)%nat ->
     s_cov st i j = if Nat.eqb i j then (nth i (flat_map snd (expected o)) 0)² else 0) /\
  state_ok st /\ s_opts st = o /\ s_clones st = [] /\ s_slam st = [] /\ s_cams st = cams /\
  s_imu st = ptr_imu /\ s_dt st = ptr_dt.
Proof. exact new_state_ok. Qed.
Print Assumptions C10_new_state.

Theorem C10_prior_positive : forall o s, In s (flat_map snd (expected o)) -> 0 < s.
Proof. exact expected_pos. Qed.
Print Assumptions C10_prior_positive.

(** all calibrations on, one camera: 15 + 6 + 6 + 9 + 3 + 1 + 6 + 8 *)
Example C10_ex : length (flat_map snd (expected (mkOpts true true true true true true 1 5 0))) = 54%nat.
Proof. reflexivity. Qed.

(** ** C11 *)
Theorem C11_marginal_covariance : forall st order A, get_marginal_covariance st order = Ok A ->
  dr A = length (indices order) /\ dc A = length (indices order) /\ in_cov (s_dim st) order /\
  meq (dr A) (dr A) (dm A) (fun i j => s_cov st (nth i (indices order) 0%nat) (nth j (indices order) 0%nat)).
Proof. exact gmc_eq. Qed.
Print Assumptions C11_marginal_covariance.

Theorem C11_marginal_covariance_returns : forall st order, in_cov (s_dim st) order ->
  exists A, get_marginal_covariance st order = Ok A.
Proof. exact gmc_total. Qed.
Print Assumptions C11_marginal_covariance_returns.

Theorem C11_full_covariance : forall st,
  dr (get_full_covariance st) = s_dim st /\ dc (get_full_covariance st) = s_dim st /\
  meq (s_dim st) (s_dim st) (dm (get_full_covariance st)) (s_cov st).
Proof. exact full_cov_thm. Qed.
Print Assumptions C11_full_covariance.

Example C11_ex : exists st, reach ex_chi2 st /\ in_cov (s_dim st) [(Some 12%nat, 3%nat); (Some 0%nat, 3%nat)] /\
  indices [(Some 12%nat, 3%nat); (Some 0%nat, 3%nat)] = [12; 13; 14; 0; 1; 2]%nat.
Proof.
  destruct ex_state as (st & p & t & q & A & _ & _ & D & _). exists st. split; [exact A|]. split; [|reflexivity].
  incov.
Qed.

(** ** C12 *)
Theorem C12_marginalize_old_clone : forall st st', state_ok st -> marginalize_old_clone st = Ok st' ->
  (st' = st /\ (Z.of_nat (length (s_clones st)) <= o_max_clones (s_opts st))%Z) \/
  (exists t p st1 m, (o_max_clones (s_opts st) < Z.of_nat (length (s_clones st)))%Z /\
     In (t, p) (s_clones st) /\ (forall e, In e (s_clones st) -> t <= fst e) /\
     marginalize st p = Ok (st1, m) /\ state_ok st1 /\ s_clones st1 = s_clones st /\
     st' = set_clones st1 (filter (fun e => negb (Reqb (fst e) t)) (s_clones st))).
Proof. exact old_clone_inv. Qed.
Print Assumptions C12_marginalize_old_clone.

Theorem C12_window_bounded : forall chi2q st, filter_state chi2q st ->
  (Z.of_nat (length (s_clones st)) <= o_max_clones (s_opts st))%Z /\ increasing (map fst (s_clones st)).
Proof.
  intros chi2q st H. destruct (filter_ok _ _ H) as (_ & (A & _ & B) & _). exact (conj B A).
Qed.
Print Assumptions C12_window_bounded.

(** a frame newer than the state appends its clone and drops the oldest one exactly when the window is full *)
Theorem C12_frame : forall chi2q st t i mid, filter_state chi2q st -> frame_ok chi2q st t i mid ->
  exists st', do_feature_propagate_update chi2q st t i mid = Ok st' /\ filter_state chi2q st' /\ s_opts st' = s_opts st /\
    s_time st' = Rmax (s_time st) t /\
    (t <= s_time st -> s_clones st' = s_clones st) /\
    (s_time st < t -> exists p, s_clones st' =
        if (o_max_clones (s_opts st) <? Z.of_nat (S (length (s_clones st))))%Z
        then tl (s_clones st ++ [(t, p)]) else s_clones st ++ [(t, p)]).
Proof. exact frame_total. Qed.
Print Assumptions C12_frame.

Example C12_ex : exists st0 st1 st2 p1 p2, filter_state ex_chi2 st0 /\
  do_feature_propagate_update ex_chi2 st0 (s_time st0 + 1) (ex_prop (s_opts st0)) ex_mid = Ok st1 /\
  do_feature_propagate_update ex_chi2 st1 (s_time st1 + 1) (ex_prop (s_opts st1)) ex_mid = Ok st2 /\
  s_clones st1 = [(s_time st0 + 1, p1)] /\ s_clones st2 = [(s_time st1 + 1, p2)] /\ filter_state ex_chi2 st2.
Proof. exact ex_frames. Qed.

(** ** C13 *)
Theorem C13_marginalize_slam : forall st st', state_ok st -> sym (s_dim st) (s_cov st) ->
  marginalize_slam st = Ok st' ->
  let kill := fun e : nat * (nat * bool) => (snd (snd e) && (4 * o_max_aruco (s_opts st) <? Z.of_nat (fst e))%Z)%bool in
  s_slam st' = filter (fun e => negb (kill e)) (s_slam st) /\
  s_clones st' = s_clones st /\
  (forall t', In t' (s_vars st') -> exists t, In t (s_vars st) /\ same_obj t t') /\
  (forall t, In t (s_vars st) ->
     (exists t', In t' (s_vars st') /\ same_obj t t') \/
     (exists e, In e (s_slam st) /\ kill e = true /\ fst (snd e) = ty_ptr t)) /\
  (forall e t', In e (s_slam st) -> kill e = true -> In t' (s_vars st') -> ty_ptr t' <> fst (snd e)) /\
  (forall ts ts', Forall2 (fun t t' => In t (s_vars st) /\ In t' (s_vars st') /\ ty_ptr t = ty_ptr t') ts ts' ->
     exists A B, get_marginal_covariance st (map ref_of ts) = Ok A /\
       get_marginal_covariance st' (map ref_of ts') = Ok B /\ dr A = dr B /\ meq (dr A) (dr A) (dm A) (dm B)).
Proof. exact marginalize_slam_thm. Qed.
Print Assumptions C13_marginalize_slam.

Theorem C13_marginalize_slam_returns : forall chi2q st, reach chi2q st -> exists st', marginalize_slam st = Ok st' /\ reach chi2q st'.
Proof. exact (fun chi2q st H => reach_progress chi2q st OMargSlam H I). Qed.
Print Assumptions C13_marginalize_slam_returns.

Example C13_ex : exists st st' q, reach ex_chi2 st /\ s_slam st = [(7%nat, (q, true))] /\ marginalize_slam st = Ok st' /\ s_slam st' = [].
Proof.
  destruct ex_rich as (st0 & p & t & q & A & B & C & _ & _ & _ & O).
  destruct (reach_progress _ _ (OSlamMark 7) A I) as (st1 & E1 & R1). cbn [exec] in E1. injection E1 as E1.
  destruct (reach_progress _ _ OMargSlam R1 I) as (st2 & E2 & _). cbn [exec] in E2.
  destruct (reach_inv _ _ R1) as (Hok & HP & HM).
  assert (S1 : s_slam st1 = [(7%nat, (q, true))]) by (rewrite <- E1; simpl; rewrite C; reflexivity).
  exists st1, st2, q. split; [exact R1|]. split; [exact S1|]. split; [exact E2|].
  destruct (marginalize_slam_thm _ _ Hok (proj1 HP) E2) as (S2 & _). rewrite S2, S1.
  assert (X : (4 * o_max_aruco (s_opts st1) <? 7)%Z = true); [|simpl in *; rewrite X; reflexivity].
  rewrite <- E1. simpl. rewrite O. reflexivity.
Qed.

(** ** C31 *)
Theorem C31_update_moves_each_part : forall t d t', vals_ok t -> ori_unit t -> ty_update t d = Ok t' ->
  moved d (value_of t) (value_of t') /\ fej_of t' = fej_of t /\ vals_ok t' /\ ori_unit t' /\
  ty_ptrs t' = ty_ptrs t /\ ty_id t' = ty_id t.
Proof. exact update_thm31. Qed.
Print Assumptions C31_update_moves_each_part.

Theorem C31_update_returns : forall t d, vals_ok t -> length d = ty_size t -> exists t', ty_update t d = Ok t'.
Proof. exact ty_update_total. Qed.
Print Assumptions C31_update_returns.

Theorem C31_update_zero : forall t t', vals_ok t -> ori_unit t -> canonical (value_of t) ->
  ty_update t (repeat 0 (ty_size t)) = Ok t' -> value_of t' = value_of t.
Proof. exact update_zero. Qed.
Print Assumptions C31_update_zero.

(** the rotation applied is a proper rotation which for small errors is I - [d]x *)
Theorem C31_cayley : forall d, is_rot (cayley d) /\ cayley (v3scal 0 d) = m3id /\
  (let D := m3scal (-1) (skew_x d) in
   is_derive (fun s : R => m00 (cayley (v3scal s d))) 0 (m00 D) /\
   is_derive (fun s : R => m01 (cayley (v3scal s d))) 0 (m01 D) /\
   is_derive (fun s : R => m02 (cayley (v3scal s d))) 0 (m02 D) /\
   is_derive (fun s : R => m10 (cayley (v3scal s d))) 0 (m10 D) /\
   is_derive (fun s : R => m11 (cayley (v3scal s d))) 0 (m11 D) /\
   is_derive (fun s : R => m12 (cayley (v3scal s d))) 0 (m12 D) /\
   is_derive (fun s : R => m20 (cayley (v3scal s d))) 0 (m20 D) /\
   is_derive (fun s : R => m21 (cayley (v3scal s d))) 0 (m21 D) /\
   is_derive (fun s : R => m22 (cayley (v3scal s d))) 0 (m22 D)).
Proof. exact (fun d => conj (cayley_rot d) (cayley_first_order d)). Qed.
Print Assumptions C31_cayley.

Example C31_ex : exists st t, reach ex_chi2 st /\ In t (s_vars st) /\ vals_ok t /\ ori_unit t /\ ty_size t = 15%nat.
Proof.
  destruct ex_state as (st & p & t & q & A & _). destruct (reach_inv _ _ A) as (Hok & _ & HM).
  destruct (imu_live _ Hok HM) as (i & I1 & _). exists st, (TImu i). split; [exact A|]. split; [exact I1|].
  split; [exact (proj1 (Forall_forall _ _) (ok_vals _ Hok) _ I1)|]. split; [exact (proj1 (Forall_forall _ _) (ok_unit _ Hok) _ I1)|reflexivity].
Qed.

(** ** C52 *)
Theorem C52_clock_monotone : forall chi2q st t i mid, filter_state chi2q st -> frame_ok chi2q st t i mid ->
  exists st', do_feature_propagate_update chi2q st t i mid = Ok st' /\
    s_time st <= s_time st' /\ (t < s_time st -> st' = st) /\
    (forall c, In c (s_clones st') -> fst c <= s_time st') /\ increasing (map fst (s_clones st')).
Proof. exact clock_thm. Qed.
Print Assumptions C52_clock_monotone.

Example C52_ex : exists st t i mid, filter_state ex_chi2 st /\ frame_ok ex_chi2 st t i mid /\ t = s_time st + 1 /\ length (s_clones st) = 1%nat.
Proof.
  destruct ex_frames as (st0 & st1 & st2 & p1 & p2 & _ & _ & _ & _ & C & F). exists st2, (s_time st2 + 1), (ex_prop (s_opts st2)), ex_mid.
  split; [exact F|]. split; [exact (ex_frame_ok st2 _)|]. split; [reflexivity|]. rewrite C. reflexivity.
Qed.
