(** Proofs for C96. *)
From Coq Require Import Reals List Arith ZArith Bool Lia Lra.
From Verif Require Import RBool Outcome GeoModel GeoSpec Lin GivensModel TypesModel StateModel StateSpec ReachModel ReachSpec StateOps StateOps2 StateOps5 StateInit StateReach StateFrame DbModel DbSpec DbThms GtModel GtSpec.
Import ListNotations.
Open Scope R_scope.

Lemma gt_spsd : spsd 15 (dm gt_cov).
Proof.
  split.
  - intros i j _ _. unfold gt_cov, mtr. cbn [dm]. destruct (Nat.eqb_spec i j) as [->|N]; [rewrite Nat.eqb_refl; reflexivity|].
    destruct (Nat.eqb_spec j i); [congruence|reflexivity].
  - apply (psd_diagonal 15 (fun i => (if (i <? 3)%nat then 17 / 1000 else if (i <? 6)%nat then 5 / 100 else if (i <? 9)%nat then 1 / 100 else 2 / 100) ^ 2)).
    intros i. apply pow2_ge_0.
Qed.
Lemma gt_entries i j : (i < 15)%nat -> dm gt_cov i j = if Nat.eqb i j then nth i gt_sigma 0 ^ 2 else 0.
Proof. intros H. unfold gt_cov. cbn [dm]. destruct (Nat.eqb i j); [|reflexivity]. do 15 (destruct i as [|i]; [reflexivity|]). lia. Qed.
Lemma new_uncorrelated o cams st : new_state o cams = Ok st -> uncorrelated (s_dim st) (s_cov st) (seq 0 15).
Proof.
  intros E. destruct (new_state_ok o cams) as (st' & E' & _ & D & C & _). rewrite E in E'. injection E' as <-.
  intros i j Hi Hj N. apply in_seq in Hi. assert (B : (15 <= s_dim st)%nat).
  { rewrite D. unfold expected. rewrite !flat_map_app, app_length. cbn [flat_map snd app]. rewrite app_length, repeat_length. lia. }
  rewrite C by lia. destruct (Nat.eqb_spec i j); [|reflexivity]. subst. exfalso. apply N, in_seq. lia.
Qed.
Lemma gt_thm chi2q st d t x : reach chi2q st -> uncorrelated (s_dim st) (s_cov st) (seq 0 15) -> db_ok d -> unit_q (iv_q x) ->
  exists st' d' imu, initialize_with_gt st d t x = Ok (st', d') /\ reach chi2q st' /\
    s_time st' = t /\ s_clones st' = s_clones st /\ s_slam st' = s_slam st /\ s_opts st' = s_opts st /\ s_dim st' = s_dim st /\
    In (TImu imu) (s_vars st') /\ io_ptr imu = s_imu st /\ io_val imu = x /\ io_fej imu = x /\
    (forall v, In v (s_vars st) -> ty_ptr v <> s_imu st -> In v (s_vars st')) /\
    (forall i j, (i < s_dim st)%nat -> (j < s_dim st)%nat -> s_cov st' i j = if (i <? 15)%nat && (j <? 15)%nat then (if Nat.eqb i j then nth i gt_sigma 0 ^ 2 else 0) else s_cov st i j) /\
    db_ok d' /\ cleaned (fun s => t < s) d d'.
Proof.
  intros HR U Hd Hu. destruct (reach_progress chi2q st (OSetImu x x) HR Hu) as (s1 & E1 & HR1). cbn [exec] in E1.
  destruct (reach_inv _ _ HR) as (Hok & _ & HM). destruct (imu_live st Hok HM) as (q & Hq & Hp & Hi & Hf).
  pose proof E1 as E1'. unfold with_var in E1'. apply obind_ok in E1' as (vars & Ev & Es1). injection Es1 as <-.
  destruct (set_var_inv (set_imu_both x x) (s_imu st) (s_vars st) (TImu q) (TImu (imu_set_fej (imu_set_value q x) x)) (ok_nodup _ Hok) Hq Hp eq_refl) as (l1 & l2 & El & Ev2).
  rewrite Ev in Ev2. injection Ev2 as ->.
  set (s1 := set_vars_cov st (l1 ++ TImu (imu_set_fej (imu_set_value q x) x) :: l2) (s_dim st) (s_cov st)) in *.
  destruct (reach_inv _ _ HR1) as (Hok1 & (Sy & _) & HM1). destruct (imu_live s1 Hok1 HM1) as (q1 & Hq1 & Hp1 & Hi1 & Hf1).
  assert (Rf : ref_ptr s1 (s_imu s1) = (Some 0%nat, 15%nat)) by (unfold ref_ptr; rewrite Hf1; unfold ref_of; cbn; rewrite Hi1; reflexivity).
  assert (Ix : indices [(Some 0%nat, 15%nat)] = seq 0 15) by reflexivity.
  assert (D15 : (0 + 15 <= s_dim st)%nat).
  { destruct (consecutive_in _ _ _ _ (ok_layout _ Hok1) Hq1) as (id & A & _ & B). cbn in A. rewrite Hi1 in A. injection A as <-. exact B. }
  assert (IC : in_cov (s_dim s1) [(Some 0%nat, 15%nat)]) by (constructor; [exists 0%nat; split; [reflexivity|exact D15]|constructor]).
  assert (A2 : allowed s1 (OSetCov gt_cov [(Some 0%nat, 15%nat)])).
  { cbn [allowed]. rewrite Ix, seq_length. split; [exact IC|]. split; [apply seq_NoDup|]. split; [cbn; lia|]. split; [cbn; lia|]. split; [exact gt_spsd|exact U]. }
  destruct (set_initial_full s1 gt_cov [(Some 0%nat, 15%nat)] IC) as (C & E2 & C1 & C2 & C3).
  { rewrite Ix. apply seq_NoDup. }
  { rewrite Ix, seq_length. cbn. lia. }
  { rewrite Ix, seq_length. cbn. lia. }
  { rewrite Ix, seq_length. exact (proj1 gt_spsd). }
  { exact Sy. }
  rewrite Ix, seq_length in C1. rewrite Ix in C2.
  assert (HR2 : reach chi2q (set_vars_cov s1 (s_vars s1) (s_dim s1) C)) by (apply (reach_step chi2q s1 (OSetCov gt_cov [(Some 0%nat, 15%nat)])); [exact HR1|exact A2|exact E2]).
  assert (HR3 : reach chi2q (set_time (set_vars_cov s1 (s_vars s1) (s_dim s1) C) t)) by (apply (reach_step chi2q _ (OTime t) _ HR2); [exact I|reflexivity]).
  destruct (cleanup_measurements_thm d t Hd) as (d' & Ed & Hd' & Hc).
  exists (set_time (set_vars_cov s1 (s_vars s1) (s_dim s1) C) t), d', (imu_set_fej (imu_set_value q x) x).
  split. { unfold initialize_with_gt. rewrite E1. cbn [obind].
    assert (E2' : set_initial_covariance s1 gt_cov [ref_ptr s1 (s_imu s1)] = Ok (set_vars_cov s1 (s_vars s1) (s_dim s1) C)) by (rewrite Rf; exact E2).
    rewrite E2'. cbn [obind]. rewrite Ed. reflexivity. }
  split; [exact HR3|]. unfold s1. cbn [set_time set_vars_cov s_time s_clones s_slam s_opts s_dim s_vars s_cov]. repeat (split; [reflexivity|]). split; [apply in_or_app; right; left; reflexivity|]. split; [exact Hp|].
  split; [reflexivity|]. split; [destruct x; reflexivity|]. split.
  { intros v Hv Hn. rewrite El in Hv. apply in_app_or in Hv as [Hv|[<-|Hv]]; [apply in_or_app; left; exact Hv|exfalso; apply Hn; exact Hp|apply in_or_app; right; right; exact Hv]. }
  split; [|split; assumption].
  intros i j Hi' Hj'. destruct (Nat.ltb_spec i 15) as [Li|Li], (Nat.ltb_spec j 15) as [Lj|Lj]; cbn [andb];
    [|apply C2; auto; rewrite !in_seq; lia..].
  specialize (C1 i j Li Lj). rewrite !seq_nth in C1 by assumption. rewrite <- gt_entries by exact Li. exact C1.
Qed.
