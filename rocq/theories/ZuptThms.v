(** Zero-velocity update: decision, update and clock. *)
From Coq Require Import Reals List Arith Lia Lra Bool ZArith.
From Verif Require Import RBool Outcome Lin GeoModel GeoSpec GeoProofs TypesModel GivensModel GivensSpec StateModel StateSpec PdInv
  StateLin StateEkf StateOps StateOps2 StateOps3 StateInit ReachModel ReachSpec StateReach StateFrame StateThms ManifoldSpec EquivProofs
  DbModel DbSpec DbThms InitModel InitSpec InitDisp UpdModel UpdSpec UpdProofs2 ImuModel ImuSpec ImuProofs PropModel PropSpec PropThms
  ZuptModel ZuptSpec ZuptProofs FastThms.
Import ListNotations.
Open Scope R_scope.

(** ** selected readings are in order *)
Lemma sel_eq t0 t1 prev a b l acc : sel_loop t0 t1 prev (a :: b :: l) acc =
  if (Rltb t0 (i_t b) && Rltb (i_t a) t0)%bool then sel_loop t0 t1 (Some a) (b :: l) (acc ++ [interpolate_data a b t0])
  else if (Rleb t0 (i_t a) && Rleb (i_t b) t1)%bool then sel_loop t0 t1 (Some a) (b :: l) (acc ++ [a])
  else if Rltb t1 (i_t b) then
    match (if Rltb t1 (i_t a) then option_map (fun p => interpolate_data p a t1) prev else Some a) with
    | None => Ok acc
    | Some x => if Reqb (i_t x) t1 then Ok (acc ++ [x]) else Ok (acc ++ [x; interpolate_data a b t1])
    end
  else sel_loop t0 t1 (Some a) (b :: l) acc.
Proof. reflexivity. Qed.
Lemma sel_forward t0 t1 : t0 < t1 -> forall l prev acc p, chrono l ->
  chrono acc -> (forall x, In x acc -> i_t x < t1 /\ forall y, In y l -> i_t x < i_t y) ->
  (forall a, prev = Some a -> forall y, In y l -> i_t a < i_t y) ->
  sel_loop t0 t1 prev l acc = Ok p ->
  chrono p /\ ((forall x, In x p -> i_t x < t1) \/ exists p' x, p = p' ++ [x] /\ i_t x = t1).
Proof.
  intros H01. induction l as [|a [|b l] IH]; intros prev acc p C Ca A Pv E.
  - cbn in E. injection E as <-. split; [exact Ca|]. left. intros x Hx. apply A, Hx.
  - cbn in E. injection E as <-. split; [exact Ca|]. left. intros x Hx. apply A, Hx.
  - rewrite sel_eq in E. destruct C as [C1 C2]. assert (Hab : i_t a < i_t b) by (apply C1; left; reflexivity).
    assert (Pv' : forall q, Some a = Some q -> forall y, In y (b :: l) -> i_t q < i_t y) by (intros q [= <-] y Hy; apply C1, Hy).
    assert (App : forall x, i_t x < t1 -> (forall y, In y acc -> i_t y < i_t x) -> (forall y, In y (b :: l) -> i_t x < i_t y) ->
      chrono (acc ++ [x]) /\ forall y, In y (acc ++ [x]) -> i_t y < t1 /\ forall w, In w (b :: l) -> i_t y < i_t w).
    { intros x X1 X2 X3. split.
      - apply chrono_app. split; [exact Ca|]. split; [split; [intros ? []|exact I]|]. intros u w Hu [<-|[]]. apply X2, Hu.
      - intros y Hy. apply in_app_or in Hy. destruct Hy as [Hy|[<-|[]]]; [|auto]. split; [apply A, Hy|]. intros w Hw. apply A; [exact Hy|right; exact Hw]. }
    assert (Lb : forall x, i_t x < i_t b -> forall y, In y (b :: l) -> i_t x < i_t y).
    { intros x Hx y [<-|Hy]; [exact Hx|]. destruct C2 as [C2 _]. pose proof (C2 y Hy). lra. }
    assert (Fin : forall x, i_t x = t1 -> Ok (acc ++ [x]) = Ok p ->
      chrono p /\ ((forall x, In x p -> i_t x < t1) \/ exists p' x, p = p' ++ [x] /\ i_t x = t1)).
    { intros x Ex Q. injection Q as <-. split; [|right; exists acc, x; auto].
      apply chrono_app. split; [exact Ca|]. split; [split; [intros ? []|exact I]|]. intros u w Hu [<-|[]]. rewrite Ex. apply A, Hu. }
    destruct (Rltb_spec t0 (i_t b)) as [B0|B0], (Rltb_spec (i_t a) t0) as [A0|A0]; cbn [andb] in E.
    1:{ assert (X := App (interpolate_data a b t0)). cbn [i_t interpolate_data] in X.
        destruct X as [X1 X2]; [lra| |apply (Lb (interpolate_data a b t0)); cbn; lra|].
        - intros y Hy. pose proof (proj2 (A y Hy) a (or_introl eq_refl)). lra.
        - apply (IH _ _ _ C2 X1 X2 Pv' E). }
    all: destruct (Rleb_spec t0 (i_t a)) as [A1|A1], (Rleb_spec (i_t b) t1) as [B1|B1]; cbn [andb] in E.
    all: try (assert (X := App a); destruct X as [X1 X2];
              [lra|intros y Hy; apply (A y Hy); left; reflexivity|intros y Hy; apply C1, Hy|]; apply (IH _ _ _ C2 X1 X2 Pv' E)).
    all: destruct (Rltb_spec t1 (i_t b)) as [B2|B2]; try (exfalso; lra).
    all: try (apply (IH _ _ _ C2 Ca) in E; [exact E| |exact Pv']; intros x Hx; split; [apply A, Hx|]; intros w Hw; apply A; [exact Hx|right; exact Hw]).
    all: destruct (Rltb_spec t1 (i_t a)) as [A2|A2].
    all: try (destruct prev as [q|]; cbn [option_map] in E).
    all: try (destruct (Reqb_spec (i_t (interpolate_data q a t1)) t1) as [_|N]; [|exfalso; apply N; reflexivity]; exact (Fin (interpolate_data q a t1) eq_refl E)).
    all: try (injection E as <-; split; [exact Ca|]; left; intros x Hx; apply A, Hx).
    all: try (exfalso; lra).
    all: destruct (Reqb_spec (i_t a) t1) as [Ea|Ea]; injection E as <-.
    all: try (split; [apply chrono_app; split; [exact Ca|]; split; [split; [intros ? []|exact I]|]; intros u w Hu [<-|[]]; apply (A u Hu); left; reflexivity
              |right; eexists; eexists; split; [reflexivity|exact Ea]]).
    all: split; [|right; exists (acc ++ [a]), (interpolate_data a b t1); split; [rewrite <- app_assoc; reflexivity|reflexivity]].
    all: apply chrono_app; split; [exact Ca|]; split;
      [cbn; split; [intros y [<-|[]]; cbn; lra|]; split; [intros ? []|exact I]|];
      intros u w Hu [<-|[<-|[]]]; [apply (A u Hu); left; reflexivity|]; cbn; apply A, Hu.
Qed.
Lemma select_forward data t0 t1 l : chrono data -> t0 < t1 -> select_imu_readings data t0 t1 = Ok l -> chrono l.
Proof.
  intros C H E. unfold select_imu_readings in E. destruct data as [|a data]; [injection E as <-; exact I|].
  apply obind_ok in E. destruct E as (p & E1 & E).
  destruct (sel_forward t0 t1 H (a :: data) None [] p C I) as [Cp Lp]; [intros x []|discriminate|exact E1|].
  destruct p as [|x p]; [injection E as <-; exact I|].
  destruct (Reqb_spec (i_t (last (x :: p) (mkImu 0 v3zero v3zero))) t1) as [Q|Q].
  - assert (E' : l = compact (x :: p)) by congruence. rewrite E'. apply compact_spaced, Cp.
  - destruct (last_two (a :: data)) as [[u v]|]; [|discriminate].
    assert (E' : l = compact ((x :: p) ++ [interpolate_data u v t1])) by congruence. rewrite E'. apply compact_spaced.
    apply chrono_app. split; [exact Cp|]. split; [split; [intros ? []|exact I]|].
    destruct Lp as [Lp|(p' & y & Ep & Ey)].
    + intros b c Hb [<-|[]]. cbn. apply Lp, Hb.
    + exfalso. apply Q. rewrite Ep, last_last. exact Ey.
Qed.
Lemma chrono_nondec l : chrono l -> nondecreasing l.
Proof.
  induction l as [|a [|b l] IH]; intros C; [exact I|exact I|]. destruct C as [C1 C2]. split; [left; apply C1; left; reflexivity|apply IH, C2].
Qed.

(** ** the variables involved *)
Lemma imu_refs st o : state_ok st -> In (TImu o) (s_vars st) -> io_id o = Some 0%nat ->
  z_order o = [(Some 0%nat, 3%nat); (Some 9%nat, 3%nat); (Some 12%nat, 3%nat)] /\ z_bias o = [(Some 9%nat, 3%nat); (Some 12%nat, 3%nat)].
Proof.
  intros Hok Hi E. pose proof (ok_subs _ Hok) as F. rewrite Forall_forall in F. specialize (F _ Hi).
  destruct F as (F1 & (F2 & F3) & F4 & F5 & F6). unfold at_off in *. rewrite E in *. unfold z_order, z_bias.
  rewrite F1 in F2. cbn in *. rewrite F2, F5, F6. auto.
Qed.
Lemma imu_dim st o : state_ok st -> In (TImu o) (s_vars st) -> io_id o = Some 0%nat -> (15 <= s_dim st)%nat.
Proof.
  intros Hok Hi E. destruct (consecutive_in 0 _ _ _ (ok_layout _ Hok) Hi) as (i & _ & _ & X). cbn in X. lia.
Qed.

(** ** the covariance before the update *)
Lemma bias_step n C st' st : (15 <= n)%nat -> s_dim st = n -> s_cov st = C -> forall zo sum,
  meq n n (s_cov st')
    (madd (congr n (full_F 9 6 (seq 9 6) mid) C) (full_Q 9 6 (upper_sym (z_Q zo sum)))) ->
  meq n n (s_cov st') (madd C (bias_walk (zo_noise zo) sum)).
Proof.
  intros Hn _ _ zo sum E i j Hi Hj. rewrite E by auto. unfold madd. f_equal.
  - assert (F : forall a b, (a < n)%nat -> (b < n)%nat -> full_F 9 6 (seq 9 6) mid a b = mid a b).
    { intros a b Ha Hb. unfold full_F. destruct ((9 <=? a) && (a <? 9 + 6))%nat%bool eqn:Eb; [|reflexivity].
      apply andb_true_iff in Eb. rewrite Nat.leb_le, Nat.ltb_lt in Eb.
      unfold widen. rewrite seq_length. rewrite mmul_id_l by lia. unfold selm, mid. rewrite seq_nth by lia.
      replace (9 + (a - 9))%nat with a by lia. reflexivity. }
    unfold congr. rewrite (mmul_ext n _ (mmul n mid C) _ (mtr mid)).
    + rewrite (mmul_ext n _ C _ mid); [apply mmul_id_r; exact Hj| |].
      * intros l Hl. apply mmul_id_l; exact Hi.
      * intros l Hl. unfold mtr, mid. rewrite Nat.eqb_sym. reflexivity.
    + intros l Hl. apply mmul_ext; [|reflexivity]. intros k Hk. apply F; auto.
    + intros l Hl. unfold mtr. apply F; auto.
  - unfold full_Q, bias_walk, upper_sym, z_Q.
    destruct (Nat.eqb_spec i j) as [->|N].
    + destruct (Nat.leb_spec 9 j), (Nat.ltb_spec j (9 + 6)); cbn [andb].
      * rewrite Nat.eqb_refl. destruct (j - 9 <=? j - 9)%nat; destruct (Nat.ltb_spec (j - 9) 3), (Nat.ltb_spec j 12); cbn [andb]; try lia; try reflexivity;
          destruct (Nat.leb_spec 12 j), (Nat.ltb_spec j 15); cbn [andb]; try lia; reflexivity.
      * destruct (Nat.ltb_spec j 12); cbn [andb]; [lia|]. destruct (Nat.leb_spec 12 j), (Nat.ltb_spec j 15); cbn [andb]; try lia; reflexivity.
      * destruct (Nat.leb_spec 12 j); cbn [andb]; [lia|reflexivity].
      * lia.
    + destruct ((9 <=? i) && (i <? 9 + 6) && (9 <=? j) && (j <? 9 + 6))%nat%bool eqn:Eb; [|reflexivity].
      repeat (apply andb_true_iff in Eb; destruct Eb as [Eb ?B]). rewrite !Nat.leb_le, ?Nat.ltb_lt in *.
      destruct (i - 9 <=? j - 9)%nat; [destruct (Nat.eqb_spec (i - 9) (j - 9)); [lia|reflexivity]|].
      destruct (Nat.eqb_spec (j - 9) (i - 9)); [lia|reflexivity].
Qed.

Record zopts_ok (zo : zopts) : Prop := mkZok
  { zk_w : 0 < sigma_w (zo_noise zo); zk_a : 0 < sigma_a (zo_noise zo); zk_n : 0 < zo_nmul zo }.

Lemma bias_psd zo sum : 0 <= sum -> psd 6 (upper_sym (z_Q zo sum)).
Proof.
  intros Hs v. unfold quad. 
  assert (E : forall i j, upper_sym (z_Q zo sum) i j = if Nat.eqb i j then z_Q zo sum i i else 0).
  { intros i j. unfold upper_sym, z_Q. rewrite Nat.eqb_refl. destruct (Nat.eqb_spec i j) as [->|N].
    - destruct (j <=? j)%nat; rewrite ?Nat.eqb_refl; reflexivity.
    - destruct (i <=? j)%nat; [reflexivity|]. destruct (Nat.eqb_spec j i); [congruence|reflexivity]. }
  unfold dot, mvec. cbn [sumn]. rewrite !E. cbn [Nat.eqb]. unfold z_Q. cbn [Nat.eqb Nat.ltb Nat.leb].
  pose proof (pow2_ge_0 (sigma_wb (zo_noise zo))) as A. pose proof (pow2_ge_0 (sigma_ab (zo_noise zo))) as B.
  set (p := sum * sigma_wb (zo_noise zo) ^ 2). set (q := sum * sigma_ab (zo_noise zo) ^ 2).
  assert (0 <= p) by (apply Rmult_le_pos; lra). assert (0 <= q) by (apply Rmult_le_pos; lra).
  assert (S : forall c w, 0 <= c -> 0 <= c * (w * w)) by (intros; apply Rmult_le_pos; [lra|apply Rle_0_sqr]).
  pose proof (S p (v 0%nat) H). pose proof (S p (v 1%nat) H). pose proof (S p (v 2%nat) H).
  pose proof (S q (v 3%nat) H0). pose proof (S q (v 4%nat) H0). pose proof (S q (v 5%nat) H0). lra.
Qed.

Lemma durations_nonneg l : nondecreasing l -> 0 <= durations l.
Proof.
  induction l as [|a [|b l] IH]; intros N; cbn [durations]; [lra|lra|]. destruct N as [N1 N2]. specialize (IH N2). cbn [durations] in IH. lra.
Qed.

(** propagation of the biases *)
Lemma bias_prop chi2q st o zo sum : reach chi2q st -> In (TImu o) (s_vars st) -> io_id o = Some 0%nat -> 0 <= sum ->
  exists st1, EKFPropagation st (z_bias o) (z_bias o) (DMat 6 6 mid) (DMat 6 6 (z_Q zo sum)) = Ok st1 /\ reach chi2q st1 /\
    (exists C, st1 = set_vars_cov st (s_vars st) (s_dim st) C) /\
    meq (s_dim st) (s_dim st) (s_cov st1) (madd (s_cov st) (bias_walk (zo_noise zo) sum)).
Proof.
  intros HR Hi Hid Hs. destruct (reach_inv _ _ HR) as (Hok & HP & HM). pose proof (imu_dim _ _ Hok Hi Hid) as Hd.
  destruct (imu_refs _ _ Hok Hi Hid) as [_ Eb]. rewrite Eb.
  assert (Al : allowed st (OProp [(Some 9%nat, 3%nat); (Some 12%nat, 3%nat)] [(Some 9%nat, 3%nat); (Some 12%nat, 3%nat)] (DMat 6 6 mid) (DMat 6 6 (z_Q zo sum)))).
  { cbn. repeat match goal with |- _ /\ _ => split end; auto; try discriminate.
    - repeat constructor; eexists; (split; [reflexivity|cbn; lia]).
    - repeat constructor; eexists; (split; [reflexivity|cbn; lia]).
    - apply bias_psd, Hs. }
  destruct (reach_progress _ _ _ HR Al) as (st1 & E & HR1). cbn [exec] in E.
  destruct (propagation_inv _ _ _ _ _ _ E (proj1 HP)) as (_ & _ & _ & _ & _ & _ & _ & _ & s0 & C & Es & _ & Est & EC).
  exists st1. split; [exact E|]. split; [exact HR1|]. split; [exists C; exact Est|].
  cbn in Es. assert (s0 = 9%nat) by congruence. subst s0.
  apply (bias_step (s_dim st) (s_cov st) st1 st); auto. rewrite Est. cbn [s_cov set_vars_cov]. exact EC.
Qed.

(** ** the decision *)
Lemma rest_order st o : state_ok st -> In (TImu o) (s_vars st) -> io_id o = Some 0%nat -> indices (z_order o) = rest_idx /\ in_cov (s_dim st) (z_order o).
Proof.
  intros Hok Hi Hid. destruct (imu_refs _ _ Hok Hi Hid) as [E _]. rewrite E. split; [reflexivity|].
  pose proof (imu_dim _ _ Hok Hi Hid). repeat constructor; eexists; (split; [reflexivity|cbn; lia]).
Qed.
Lemma gate_mahalanobis chi2q st o zo sum H res P : reach chi2q st -> In (TImu o) (s_vars st) -> io_id o = Some 0%nat -> 0 <= sum -> 0 < zo_nmul zo ->
  get_marginal_covariance st (z_order o) = Ok P ->
  mahalanobis (s_dim st) (madd (s_cov st) (bias_walk (zo_noise zo) sum)) (widen rest_idx (dm H)) (dn res) (dv res) (zo_nmul zo)
    (z_chi2 zo (dm P) sum H res).
Proof.
  intros HR Hi Hid Hs Hn EP. destruct (reach_inv _ _ HR) as (Hok & HP & HM). destruct (rest_order _ _ Hok Hi Hid) as [Ei Ic].
  destruct (bias_prop chi2q st o zo sum HR Hi Hid Hs) as (st1 & _ & HR1 & (C & Est) & EC).
  destruct (reach_inv _ _ HR1) as (_ & HP1 & _). assert (D1 : s_dim st1 = s_dim st) by (rewrite Est; reflexivity). rewrite D1 in HP1.
  destruct (gmc_eq _ _ _ EP) as (Dr & Dc & _ & EQ). rewrite Ei in Dr, EQ. cbn [length rest_idx] in Dr. rewrite Dr in EQ.
  unfold mahalanobis, z_chi2. set (n := s_dim st) in *. set (m := dn res).
  set (C0 := madd (s_cov st) (bias_walk (zo_noise zo) sum)) in *.
  set (Sf := madd (congr n (widen rest_idx (dm H)) C0) (mscal (zo_nmul zo) mid)).
  set (Ss := innov m 9 (dm H) (z_P (dm P) (z_Q zo sum)) (mscal (zo_nmul zo) mid)).
  assert (HP0 : spsd n C0).
  { destruct HP1 as [S1 P1]. split.
    - intros i j Hi' Hj. transitivity (s_cov st1 i j); [symmetry; apply EC; auto|]. rewrite (S1 i j) by auto. apply EC; auto.
    - eapply psd_ext; [exact EC|exact P1]. }
  assert (L : forall a, (a < length rest_idx)%nat -> (nth a rest_idx 0 < n)%nat).
  { intros a Ha. pose proof (imu_dim _ _ Hok Hi Hid). cbn in Ha. unfold rest_idx. do 9 (destruct a as [|a]; [cbn; lia|]). lia. }
  assert (EB : forall a b, (a < 9)%nat -> (b < 9)%nat -> z_P (dm P) (z_Q zo sum) a b = C0 (nth a rest_idx 0%nat) (nth b rest_idx 0%nat)).
  { intros a b Ha Hb. unfold z_P, C0, madd. rewrite EQ by auto. unfold bias_walk, z_Q.
    destruct a as [|[|[|[|[|[|[|[|[|a]]]]]]]]]; try lia; destruct b as [|[|[|[|[|[|[|[|[|b]]]]]]]]]; try lia; cbn; try reflexivity; ring. }
  assert (E : meq m m Ss Sf).
  { intros i j Hi' Hj. unfold Ss, Sf, innov, madd at 1 2. f_equal. unfold congr, mmul, mtr.
    rewrite (sumn_ext n _ (fun b => widen rest_idx (dm H) j b * (sumn 9 (fun a => dm H i a * C0 (nth a rest_idx 0%nat) b)))).
    2:{ intros b Hb. rewrite (widen_sum n rest_idx (dm H) i (fun a => C0 a b)) by auto. cbn [length rest_idx]. apply Rmult_comm. }
    rewrite (widen_sum n rest_idx (dm H) j (fun b => sumn 9 (fun a => dm H i a * C0 (nth a rest_idx 0%nat) b))) by auto.
    cbn [length rest_idx]. apply sumn_ext. intros b Hb. rewrite Rmult_comm. f_equal. apply sumn_ext. intros a Ha. f_equal. apply EB; auto. }
  destruct (innov_spd n m (widen rest_idx (dm H)) C0 (mscal (zo_nmul zo) mid) HP0 (sym_scal_id m _) (pd_scal_id m _ Hn)) as [S1 S2].
  fold Sf in S1, S2. exists (mvec m (pdinv m Ss) (dv res)). split; [|reflexivity].
  intros i Hi'. transitivity (mvec m Sf (mvec m (pdinv m Sf) (dv res)) i).
  - unfold mvec at 1 3. apply sumn_ext. intros k Hk. f_equal. unfold mvec. apply sumn_ext. intros j Hj. f_equal.
    apply pdinv_ext; auto.
  - rewrite <- mvec_mmul. transitivity (mvec m mid (dv res) i); [|apply mid_mvec; auto].
    unfold mvec. apply sumn_ext. intros k Hk. f_equal. apply pdinv_r; auto.
Qed.

Lemma compress_dims H res H' res' : measurement_compress H res = Ok (H', res') -> dn res = dr H ->
  dr H' = Nat.min (dr H) (dc H) /\ dc H' = dc H /\ dn res' = dr H'.
Proof.
  intros E D. unfold measurement_compress in E. destruct (Nat.leb_spec (dr H) (dc H)).
  - injection E as <- <-. split; [symmetry; apply Nat.min_l; lia|auto].
  - destruct (Nat.eqb (dr H) (dn res)); [|discriminate]. destruct (fold_left _ _ _). injection E as <- <-. auto.
Qed.
Lemma update_form st order H res Rn st' : EKFUpdate st order H res Rn = Ok st' -> exists vars n C cams, st' = set_cams (set_vars_cov st vars n C) cams.
Proof.
  unfold EKFUpdate. intros E. apply obind_ok in E. destruct E as (l & _ & E).
  apply guard_ok in E; [|discriminate]. destruct E as [_ E]. cbv zeta in E.
  apply obind_ok in E. destruct E as (Ma & _ & E). apply obind_ok in E. destruct E as (Ps & _ & E).
  apply guard_ok in E; [|discriminate]. destruct E as [_ E]. apply obind_ok in E. destruct E as (v & _ & E).
  apply obind_ok in E. destruct E as (c & _ & E). injection E as <-. eauto.
Qed.
Lemma applied_ptrs dx a b : Forall2 (applied dx) a b -> map ty_ptrs b = map ty_ptrs a /\ map ty_id b = map ty_id a.
Proof.
  induction 1 as [|t t' a b (id & A & B & C & _) _ [IH1 IH2]]; [split; reflexivity|]. cbn [map]. rewrite IH1, IH2, C, A, B. split; reflexivity.
Qed.

Lemma zupt_run chi2q zo x dt z d st t l : reach chi2q st -> zopts_ok zo -> db_ok d -> single_obs d ->
  z_imu z <> [] -> s_time st <> t ->
  select_imu_readings (z_imu z) (s_time st + (if z_have z then z_off z else dt)) (t + dt) = Ok l -> (2 <= length l)%nat -> nondecreasing l ->
  exists o H0 res0 H res chi2 ds d1 st',
    let q := po_q (io_pose o) in let m := (6 * (length l - 1))%nat in
    let C0 := madd (s_cov st) (bias_walk (zo_noise zo) (durations l)) in
    In (TImu o) (s_vars st) /\
    rest_stack (zo_noise zo) (zo_grav zo) x (qo_R q) (if ps_dofej x then qo_Rfej q else qo_R q) (wo_val (io_bg o)) (wo_val (io_ba o)) l H0 res0 /\
    measurement_compress (DMat m 9 H0) (DVec m res0) = Ok (H, res) /\ dn res = Nat.min m 9 /\
    mahalanobis (s_dim st) C0 (widen rest_idx (dm H)) (dn res) (dv res) (zo_nmul zo) chi2 /\
    compute_disparity d (s_time st) t = Ok ds /\
    (if (2 <=? z_count z)%nat then cleaned (fun u => u <> z_time z) d d1 else d1 = d) /\ db_ok d1 /\
    reach chi2q st' /\ s_time st' = t /\ same_shape st st' /\ rest_update st C0 m H0 res0 (zo_nmul zo) st' /\
    try_update chi2q zo x dt z d st t =
      if (z_disparity zo ds || (negb (Rltb (zo_mult zo * chi2q (dn res)) chi2) && negb (Rltb (zo_vmax zo) (v3norm (wo_val (io_v o))))))%bool
      then Ok (true, mkZ (z_imu z) dt true t (S (z_count z)), d1, st')
      else Ok (false, mkZ (z_imu z) dt true 0 0, d, st).
Proof.
  intros HR [Kw Ka Kn] Hd Hs Hz Ht El Hl Nl. destruct (reach_inv _ _ HR) as (Hok & HP & HM).
  destruct (imu_live _ Hok HM) as (o & Io & _ & Oid & Of). destruct (rest_order _ _ Hok Io Oid) as [Ei Ic].
  set (m := (6 * (length l - 1))%nat).
  destruct (loop_total zo x o l 0 mzero (fun _ => 0) 0 Nl) as (((H0 & res0) & sum) & EL).
  destruct (loop_stack _ _ _ _ _ _ _ EL) as (_ & Esum & Stk). cbv zeta in Stk.
  assert (Hsum : 0 <= sum) by (rewrite Esum; apply durations_nonneg, Nl).
  destruct (compress_total (DMat m 9 H0) (DVec m res0) eq_refl) as ((H & res) & EC).
  destruct (compress_dims _ _ _ _ EC eq_refl) as (D1 & D2 & D3). cbn [dr dc] in D1, D2.
  destruct (gmc_total st _ Ic) as (P & EP). destruct (gmc_eq _ _ _ EP) as (DP & _). rewrite Ei in DP. cbn [length rest_idx] in DP.
  destruct (disparity_pairs d (s_time st) t Hd Hs) as (_ & _ & ds & ED & _).
  assert (Edb : exists d1, (if (2 <=? z_count z)%nat then cleanup_measurements_exact (z_time z) d else Ok d) = Ok d1 /\
     (if (2 <=? z_count z)%nat then cleaned (fun u => u <> z_time z) d d1 else d1 = d) /\ db_ok d1).
  { destruct (2 <=? z_count z)%nat.
    - destruct (cleanup_measurements_exact_thm d (z_time z) Hd) as (d1 & A & B & C). exists d1. auto.
    - exists d. auto. }
  destruct Edb as (d1 & Ed1 & Hd1 & Ok1).
  destruct (bias_prop chi2q st o zo sum HR Io Oid Hsum) as (st1 & EPr & HR1 & (Cp & Est1) & EC0).
  assert (Dst : s_dim st1 = s_dim st /\ s_vars st1 = s_vars st) by (rewrite Est1; auto). destruct Dst as [Dd Dv].
  destruct (compressed_update chi2q st1 (z_order o) (DMat m 9 H0) (DVec m res0) H res (zo_nmul zo) HR1) as (sA & sB & UA & UB0 & Sv & Sd & Sc);
    [rewrite Dd; exact Ic|rewrite Ei; reflexivity|reflexivity|exact Kn|exact EC|].
  cbn [dr dn] in UA. rewrite <- D3 in UB0.
  assert (AlA : allowed st1 (OUpd (z_order o) (DMat m 9 H0) (DVec m res0) (DMat m m (mscal (zo_nmul zo) mid)))).
  { cbn [allowed dr dc dn dm]. rewrite Dd. repeat match goal with |- _ /\ _ => split end; auto; [rewrite Ei; reflexivity|apply sym_scal_id|apply pd_scal_id, Kn]. }
  assert (AlB : allowed st1 (OUpd (z_order o) H res (DMat (dn res) (dn res) (mscal (zo_nmul zo) mid)))).
  { cbn [allowed dr dc dn dm]. rewrite Dd. repeat match goal with |- _ /\ _ => split end; auto; [rewrite Ei, D2; reflexivity|apply sym_scal_id|apply pd_scal_id, Kn]. }
  destruct (update_thm chi2q st1 _ _ _ _ HR1 AlA) as (PD & sA' & K & UA' & EK & EdA & EcA & AppA & _).
  cbn [dn] in UA'. assert (sA' = sA) by congruence. subst sA'. clear UA'.
  assert (HRB : reach chi2q sB) by (apply (reach_step chi2q st1 _ sB HR1 AlB UB0)).
  assert (HRt : reach chi2q (set_time sB t)) by (apply (reach_step chi2q sB (OTime t)); [exact HRB|exact I|reflexivity]).
  assert (Sz : same_shape st (set_time sB t)).
  { destruct (update_form _ _ _ _ _ _ UB0) as (v & n & C & cams & Ef).
    assert (Vp : map ty_ptrs (s_vars sB) = map ty_ptrs (s_vars st) /\ map ty_id (s_vars sB) = map ty_id (s_vars st)).
    { rewrite <- Sv, <- Dv. eapply applied_ptrs, AppA. }
    assert (DB : s_dim sB = s_dim st) by congruence.
    unfold same_shape. cbn [set_time s_opts s_dim s_next s_imu s_dt s_clones s_slam s_cintr s_vars].
    destruct Vp as [V1 V2]. rewrite V1, V2, DB. rewrite Ef, Est1. cbn. auto 20. }
  assert (Up : rest_update st (madd (s_cov st) (bias_walk (zo_noise zo) sum)) m H0 res0 (zo_nmul zo) (set_time sB t)).
  { unfold rest_update. set (C0 := madd (s_cov st) (bias_walk (zo_noise zo) sum)) in *. cbn [dn dm dv] in PD, EK, EcA, AppA. rewrite Ei in *.
    rewrite Dd in *. rewrite Dv in *. set (n := s_dim st) in *. set (Hf := widen rest_idx H0) in *.
    set (S1 := madd (congr n Hf (s_cov st1)) (mscal (zo_nmul zo) mid)) in *. set (S0 := madd (congr n Hf C0) (mscal (zo_nmul zo) mid)).
    assert (ES : meq m m S1 S0).
    { intros i j Hi Hj. unfold S1, S0, madd at 1 2. f_equal. apply (congr_meq n (S (i + j)) Hf _ _ EC0); lia. }
    split; [intros w Hw; rewrite <- (quad_ext m S1 S0 w ES); apply PD, Hw|]. exists K. cbn [set_time s_cov s_vars]. split; [|split].
    - intros i j Hi Hj. transitivity (mmul m K S1 i j); [apply mmul_ext; [reflexivity|]; intros k Hk; symmetry; apply ES; auto|].
      rewrite EK by auto. apply mmul_ext; [|reflexivity]. intros k Hk. apply EC0; auto.
    - intros i j Hi Hj. assert (Q := Sc). rewrite EdA in Q. rewrite <- (Q i j) by auto. rewrite EcA by auto. unfold msub. f_equal; [apply EC0; auto|].
      apply (congr_meq m (S (i + j)) K _ _ ES); lia.
    - rewrite <- Sv. exact AppA. }
  exists o, H0, res0, H, res, (z_chi2 zo (dm P) sum H res), ds, d1, (set_time sB t). cbv zeta. rewrite <- Esum.
  split; [exact Io|]. split; [exact Stk|]. split; [exact EC|]. split; [lia|].
  split; [apply (gate_mahalanobis chi2q st o); auto|]. split; [exact ED|]. split; [exact Hd1|]. split; [exact Ok1|].
  split; [exact HRt|]. split; [reflexivity|]. split; [exact Sz|]. split; [exact Up|].
  unfold try_update. destruct (z_imu z) as [|a0 l0] eqn:Ez; [congruence|]. destruct (Reqb_spec (s_time st) t) as [?|_]; [contradiction|].
  rewrite El. cbn [obind]. destruct (Nat.ltb_spec (length l) 2) as [?|_]; [lia|]. rewrite Of. fold m. rewrite EL. cbn [obind]. rewrite EC. cbn [obind].
  assert (Hm : (6 <= m)%nat) by (unfold m; lia).
  destruct (Nat.ltb_spec (dr H) 1) as [?|_]; [lia|]. rewrite EP. cbn [obind].
  assert (Eg : ((dr P =? 9) && (dc H =? 9) && (dr H =? dn res))%nat%bool = true) by (rewrite !andb_true_iff, !Nat.eqb_eq; lia).
  rewrite Eg. cbn [guard]. rewrite ED. cbn [obind]. cbn [z_imu z_count].
  set (c := z_chi2 zo (dm P) sum H res). rewrite Ed1. cbn [obind]. rewrite EPr. cbn [obind]. rewrite UB0. cbn [obind].
  destruct (z_disparity zo ds), (Rltb (zo_mult zo * chi2q (dn res)) c), (Rltb (zo_vmax zo) (v3norm (wo_val (io_v o)))); reflexivity.
Qed.

(** ** statements of C53 *)
Lemma reject_thm chi2q zo x dt z d st t z' d' st' : try_update chi2q zo x dt z d st t = Ok (false, z', d', st') ->
  st' = st /\ d' = d /\ z_imu z' = z_imu z /\ z_time z' = 0.
Proof.
  intros E. unfold try_update in E. destruct (z_imu z) as [|a0 l0] eqn:Ez.
  { injection E as <- <- <-. unfold no_time. cbn. auto. }
  destruct (Reqb (s_time st) t). { injection E as <- <- <-. unfold no_time. cbn. auto. }
  apply obind_ok in E. destruct E as (l & _ & E). destruct (Nat.ltb_spec (length l) 2) as [L|L].
  { injection E as <- <- <-. unfold no_time. cbn. auto. }
  destruct (find_top (s_vars st) (s_imu st)) as [[v|v|q|p|o]|]; try discriminate.
  apply obind_ok in E. destruct E as (((H0 & res0) & sum) & _ & E). apply obind_ok in E. destruct E as ((H & res) & Ec & E).
  destruct (compress_dims _ _ _ _ Ec eq_refl) as (D & _). cbn [dr dc] in D.
  destruct (Nat.ltb_spec (dr H) 1) as [?|_]; [lia|]. apply obind_ok in E. destruct E as (P & _ & E).
  apply guard_ok in E; [|discriminate]. destruct E as [_ E]. apply obind_ok in E. destruct E as (ds & _ & E).
  match type of E with (if ?c then _ else _) = _ => destruct c end; [injection E as <- <- <-; cbn; auto|].
  apply obind_ok in E. destruct E as (? & _ & E). apply obind_ok in E. destruct E as (? & _ & E). apply obind_ok in E. destruct E as (? & _ & E).
  discriminate.
Qed.

(** what an accepted or rejected call did *)
Lemma call_inv chi2q zo x dt z d st t b z' d' st' : try_update chi2q zo x dt z d st t = Ok (b, z', d', st') ->
  (b = false /\ (z_imu z = [] \/ s_time st = t \/
     exists l, select_imu_readings (z_imu z) (s_time st + (if z_have z then z_off z else dt)) (t + dt) = Ok l /\ (length l < 2)%nat)) \/
  (z_imu z <> [] /\ s_time st <> t /\ exists l, select_imu_readings (z_imu z) (s_time st + (if z_have z then z_off z else dt)) (t + dt) = Ok l /\
     (2 <= length l)%nat /\ nondecreasing l).
Proof.
  intros E. unfold try_update in E. destruct (z_imu z) as [|a0 l0] eqn:Ez. { left. injection E as <-. auto. }
  destruct (Reqb_spec (s_time st) t) as [T|T]. { left. injection E as <-. auto. }
  apply obind_ok in E. destruct E as (l & El & E). destruct (Nat.ltb_spec (length l) 2) as [L|L].
  { left. injection E as <-. split; [reflexivity|]. right. right. exists l. auto. }
  right. split; [discriminate|]. split; [exact T|]. exists l. split; [exact El|]. split; [lia|].
  destruct (find_top (s_vars st) (s_imu st)) as [[v|v|q|p|o]|]; try discriminate.
  apply obind_ok in E. destruct E as (((H0 & res0) & sum) & EL & _). apply (loop_rows zo x o l 0 mzero (fun _ => 0) 0 H0 res0 sum EL). reflexivity.
Qed.

Lemma still_iff dmax zo ds : zo_dmax zo = dmax -> (z_disparity zo ds = true <-> image_still dmax ds).
Proof.
  intros <-. destruct ds as [[[a|] v] n]; cbn [z_disparity].
  - rewrite andb_true_iff, Nat.ltb_lt. destruct (Rltb_spec a (zo_dmax zo)) as [L|L].
    + split; [intros [_ N]; exists a, v, n; auto|intros (a' & v' & n' & [= <- <- <-] & _ & N); auto].
    + split; [intros [N _]; discriminate|intros (a' & v' & n' & [= <- <- <-] & N & _); lra].
  - split; [discriminate|intros (a & v' & n' & E & _); discriminate].
Qed.

Lemma accept_thm chi2q zo x dt z d st t z' d' st' : reach chi2q st -> zopts_ok zo -> db_ok d -> single_obs d ->
  try_update chi2q zo x dt z d st t = Ok (true, z', d', st') ->
  s_time st <> t /\ s_time st' = t /\ same_shape st st' /\ reach chi2q st' /\
  z' = mkZ (z_imu z) dt true t (S (z_count z)) /\ (if (2 <=? z_count z)%nat then cleaned (fun u => u <> z_time z) d d' else d' = d) /\
  exists l o H res, select_imu_readings (z_imu z) (s_time st + (if z_have z then z_off z else dt)) (t + dt) = Ok l /\
    (2 <= length l)%nat /\ In (TImu o) (s_vars st) /\
    let q := po_q (io_pose o) in
    rest_stack (zo_noise zo) (zo_grav zo) x (qo_R q) (if ps_dofej x then qo_Rfej q else qo_R q) (wo_val (io_bg o)) (wo_val (io_ba o)) l H res /\
    rest_update st (madd (s_cov st) (bias_walk (zo_noise zo) (durations l))) (6 * (length l - 1)) H res (zo_nmul zo) st'.
Proof.
  intros HR HZ Hd Hs E. destruct (call_inv _ _ _ _ _ _ _ _ _ _ _ _ E) as [[? _]|(Hz & Ht & l & El & Hl & Nl)]; [discriminate|].
  destruct (zupt_run chi2q zo x dt z d st t l HR HZ Hd Hs Hz Ht El Hl Nl) as (o & H0 & res0 & H & res & chi2 & ds & d1 & s1 & R).
  cbv zeta in R. destruct R as (Io & Stk & _ & _ & _ & _ & D1 & _ & HR1 & T1 & Sh & Up & Q). rewrite Q in E.
  destruct (_ || _)%bool in E; [|discriminate]. injection E as <- <- <-.
  do 6 (split; [auto|]). exists l, o, H0, res0. auto.
Qed.

Lemma decision_thm chi2q zo x dt z d st t b z' d' st' : reach chi2q st -> zopts_ok zo -> db_ok d -> single_obs d ->
  try_update chi2q zo x dt z d st t = Ok (b, z', d', st') ->
  (b = false /\ (z_imu z = [] \/ s_time st = t \/
     exists l, select_imu_readings (z_imu z) (s_time st + (if z_have z then z_off z else dt)) (t + dt) = Ok l /\ (length l < 2)%nat)) \/
  exists l o H0 res0 N chi2 ds,
    let q := po_q (io_pose o) in let m := (6 * (length l - 1))%nat in let k := Nat.min m 9 in
    let C0 := madd (s_cov st) (bias_walk (zo_noise zo) (durations l)) in
    select_imu_readings (z_imu z) (s_time st + (if z_have z then z_off z else dt)) (t + dt) = Ok l /\ In (TImu o) (s_vars st) /\
    rest_stack (zo_noise zo) (zo_grav zo) x (qo_R q) (if ps_dofej x then qo_Rfej q else qo_R q) (wo_val (io_bg o)) (wo_val (io_ba o)) l H0 res0 /\
    orthonormal_cols m k N /\ ((m <= 9)%nat -> N = mid) /\
    mahalanobis (s_dim st) C0 (widen rest_idx (mmul m (mtr N) H0)) k (mvec m (mtr N) res0) (zo_nmul zo) chi2 /\
    compute_disparity d (s_time st) t = Ok ds /\
    (b = true <-> image_still (zo_dmax zo) ds \/ (chi2 <= zo_mult zo * chi2q k /\ v3norm (wo_val (io_v o)) <= zo_vmax zo)).
Proof.
  intros HR HZ Hd Hs E. destruct (call_inv _ _ _ _ _ _ _ _ _ _ _ _ E) as [?|(Hz & Ht & l & El & Hl & Nl)]; [left; auto|right].
  destruct (zupt_run chi2q zo x dt z d st t l HR HZ Hd Hs Hz Ht El Hl Nl) as (o & H0 & res0 & H & res & chi2 & ds & d1 & s1 & R).
  cbv zeta in R. destruct R as (Io & Stk & Ec & Dn & Ma & Ed & _ & _ & _ & _ & _ & _ & Q). rewrite Q in E. clear Q.
  destruct (compress_thm _ _ _ _ Ec eq_refl) as (_ & D2 & _ & Same & _ & (N0 & O & EN & ENr) & _). cbn [dr dc dm dv dn] in *.
  set (m := (6 * (length l - 1))%nat) in *.
  assert (XX : exists N, orthonormal_cols m (Nat.min m 9) N /\ ((m <= 9)%nat -> N = mid) /\
     meq (Nat.min m 9) 9 (dm H) (mmul m (mtr N) H0) /\ veq (Nat.min m 9) (dv res) (mvec m (mtr N) res0)).
  { destruct (Nat.le_gt_cases m 9) as [L|L].
    - exists mid. destruct (Same L) as [-> ->]. cbn [dm dv]. rewrite Nat.min_l by lia. split.
      + intros i j Hi Hj. unfold mmul, mtr, mid. rewrite (sumn_delta m i); [rewrite Nat.eqb_refl; ring|lia|].
        intros k Hk Nk. destruct (Nat.eqb_spec k i); [contradiction|ring].
      + split; [reflexivity|]. split.
        * intros i j Hi Hj. rewrite (mmul_ext m _ mid _ H0); [symmetry; apply mmul_id_l; lia| |reflexivity]. intros k Hk. unfold mtr, mid. rewrite Nat.eqb_sym. reflexivity.
        * intros i Hi. transitivity (mvec m mid res0 i); [symmetry; apply mid_mvec; lia|]. apply mvec_ext; [|intros ? ?; reflexivity]. intros k Hk. unfold mtr, mid. rewrite Nat.eqb_sym. reflexivity.
    - exists N0. rewrite <- Dn, D2. split; [exact O|]. split; [lia|]. auto. }
  destruct XX as (N & ON & NI & E1 & E2).
  exists l, o, H0, res0, N, chi2, ds. cbv zeta. fold m. split; [exact El|]. split; [exact Io|]. split; [exact Stk|]. split; [exact ON|]. split; [exact NI|].
  split.
  { destruct Ma as (w & W1 & W2). rewrite Dn in W1, W2. exists w. split.
    - intros i Hi. rewrite <- (E2 i Hi), <- (W1 i Hi). apply mvec_ext; [|intros ? ?; reflexivity]. intros j Hj. unfold madd. f_equal.
      unfold congr, mmul, mtr. apply sumn_ext. intros a Ha.
      assert (EW : forall r c, (r < Nat.min m 9)%nat -> widen rest_idx (dm H) r c = widen rest_idx (mmul m (mtr N) H0) r c).
      { intros r c Hr. unfold widen. apply mmul_ext; [|reflexivity]. intros u Hu. apply E1; auto. }
      unfold mmul, mtr in EW. rewrite (EW j a Hj). f_equal. apply sumn_ext. intros b' Hb'. rewrite (EW i b' Hi). reflexivity.
    - rewrite W2. unfold dot. apply sumn_ext. intros i Hi. rewrite (E2 i Hi). reflexivity. }
  split; [exact Ed|]. rewrite <- (still_iff _ zo ds eq_refl). rewrite <- Dn.
  destruct (Rltb_spec (zo_mult zo * chi2q (dn res)) chi2) as [L1|L1], (Rltb_spec (zo_vmax zo) (v3norm (wo_val (io_v o)))) as [L2|L2];
    destruct (z_disparity zo ds); cbn [negb orb andb] in E; injection E as <- _ _ _; split; intros X; auto; try discriminate;
    destruct X as [X|[X1 X2]]; try discriminate; lra.
Qed.

Lemma returns_thm chi2q zo x dt z d st t : reach chi2q st -> zopts_ok zo -> db_ok d -> single_obs d ->
  chrono (z_imu z) -> s_time st + (if z_have z then z_off z else dt) < t + dt ->
  exists b z' d' st', try_update chi2q zo x dt z d st t = Ok (b, z', d', st') /\ reach chi2q st' /\ same_shape st st' /\ db_ok d' /\
    s_time st' = if b then t else s_time st.
Proof.
  intros HR HZ Hd Hs C L. assert (Refl : same_shape st st) by (unfold same_shape; auto 20).
  destruct (select_ok (z_imu z) (s_time st + (if z_have z then z_off z else dt)) (t + dt)) as (l & El).
  destruct (z_imu z) as [|a0 l0] eqn:Ez.
  { exists false, (no_time z), d, st. unfold try_update. rewrite Ez. auto 10. }
  destruct (Reqb_spec (s_time st) t) as [T|T].
  { exists false, (no_time z), d, st. unfold try_update. rewrite Ez. destruct (Reqb_spec (s_time st) t); [|contradiction]. auto 10. }
  rewrite <- Ez in C, El. assert (Nl := chrono_nondec _ (select_forward _ _ _ _ C L El)).
  destruct (Nat.lt_ge_cases (length l) 2) as [S2|S2].
  { eexists false, _, d, st. unfold try_update. rewrite Ez. destruct (Reqb_spec (s_time st) t); [contradiction|]. rewrite <- Ez, El. cbn [obind].
    destruct (Nat.ltb_spec (length l) 2); [|lia]. split; [reflexivity|]. auto 10. }
  destruct (zupt_run chi2q zo x dt z d st t l HR HZ Hd Hs) as (o & H0 & res0 & H & res & chi2 & ds & d1 & s1 & R);
    [rewrite Ez; discriminate|exact T|exact El|exact S2|exact Nl|].
  cbv zeta in R. destruct R as (_ & _ & _ & _ & _ & _ & _ & Ok1 & HR1 & T1 & Sh & _ & Q). rewrite Q.
  match goal with |- context [if ?c then Ok (true, _, _, _) else _] => destruct c end.
  - exists true. eexists. exists d1, s1. split; [reflexivity|]. auto 10.
  - exists false. eexists. exists d, st. split; [reflexivity|]. auto 10.
Qed.
