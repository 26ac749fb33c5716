(** Theorems about fast_state_propagate. *)
From Coq Require Import Reals Lra Psatz Bool List Arith Lia.
From Coquelicot Require Import Coquelicot.
From Verif Require Import Outcome RBool GeoModel GeoSpec GeoProofs GeoMore ExpProofs Se3Proofs JacSo3 Lin TypesModel StateModel StateSpec StateInit StateOps2 StateOps4.
From Verif Require Import ManifoldSpec ManifoldProofs Calc3 ImuModel ImuSpec ImuProofs ImuThms PropModel PropSpec PropRows PropProofs PropDisc PropThms.
From Verif Require Import FastModel FastSpec FastProofs.
Import ListNotations.
Open Scope R_scope.

(** ** selection never fails *)
Lemma sel_loop_ok t0 t1 l : forall prev acc, exists r, sel_loop t0 t1 prev l acc = Ok r.
Proof.
  induction l as [|a [|b l] IH]; intros prev acc; [eexists; reflexivity|eexists; reflexivity|].
  rewrite sel_eq. destruct (Rltb t0 (i_t b) && Rltb (i_t a) t0)%bool; [apply IH|].
  destruct (Rleb t0 (i_t a) && Rleb (i_t b) t1)%bool; [apply IH|].
  destruct (Rltb t1 (i_t b)); [|apply IH].
  destruct (if Rltb t1 (i_t a) then option_map (fun p => interpolate_data p a t1) prev else Some a); [|eexists; reflexivity].
  destruct (Reqb (i_t i) t1); eexists; reflexivity.
Qed.
Lemma select_ok data t0 t1 : exists l, select_imu_readings data t0 t1 = Ok l.
Proof.
  destruct data as [|a [|b data]]; [eexists; reflexivity|eexists; reflexivity|].
  unfold select_imu_readings. destruct (sel_loop_ok t0 t1 (a :: b :: data) None []) as [p ->]. cbn [obind].
  destruct p as [|z p]; [eexists; reflexivity|].
  destruct (Reqb (i_t (last (z :: p) (mkImu 0 v3zero v3zero))) t1); [eexists; reflexivity|].
  destruct (last_two_cons a b data) as (x & y & -> & _). eexists; reflexivity.
Qed.
Lemma query_ok ns g data c x t : exists r, fast_query ns g data c x t = Ok r.
Proof.
  unfold fast_query. cbv zeta.
  match goal with |- context [select_imu_readings data ?a ?b] => destruct (select_ok data a b) as [l ->] end. cbn [obind].
  destruct (rev l) as [|z [|y r]]; try (eexists; reflexivity).
  destruct (fast_steps _ _ _ _ _). eexists; reflexivity.
Qed.

(** ** queries leave everything but the cache alone *)
Section Runs.
Context {St : Type}.
Variables (ns : noises) (g : v3) (view : St -> fview) (prop : St -> list imu -> R -> outcome St).
Notation run := (run_calls ns g view prop).
Lemma run_same cs : forall s o o', same_but_cache o o' ->
  visible (run (s, o) cs) = visible (run (s, o') (filter not_query cs)).
Proof.
  induction cs as [|c cs IH]; intros s o o' (E1 & E2 & E3).
  { cbn. rewrite E1, E2, E3. reflexivity. }
  assert (W : forall (r : outcome (St * propobj * list (option plus))) a, visible (do q <- r; Ok (fst q, a :: snd q)) = visible r).
  { intros [[[s1 o1] l1]| |] a; reflexivity. }
  destruct c as [m old|t|f| |t]; cbn [filter not_query run_calls do_call].
  - cbn [obind fst snd]. rewrite !W. apply IH. unfold same_but_cache; cbn. rewrite E1, E2, E3. auto.
  - unfold do_propagate. destruct (Reqb _ _); [reflexivity|]. destruct (Rltb _ _); [reflexivity|].
    rewrite E1, E2, E3. destruct (select_imu_readings _ _ _) as [l| |]; cbn [obind]; [|reflexivity|reflexivity].
    destruct (prop s l t) as [s'| |]; cbn [obind fst snd]; [|reflexivity|reflexivity]. rewrite !W. apply IH. unfold same_but_cache; cbn. auto.
  - cbn [obind fst snd]. rewrite !W. apply IH. unfold same_but_cache; auto.
  - cbn [obind fst snd]. rewrite !W. apply IH. unfold same_but_cache; cbn; auto.
  - destruct (query_ok ns g (pr_data o) (pr_cache o) (view s) t) as [r ->]. cbn [obind fst snd]. rewrite W.
    apply IH. unfold same_but_cache; cbn; auto.
Qed.
Lemma run_noninterference s o cs : visible (run (s, o) cs) = visible (run (s, o) (filter not_query cs)).
Proof. apply run_same. unfold same_but_cache; auto. Qed.

(** ** the cache is the snapshot carried forward *)
Definition held (c : cache) := (ca_est c, ca_cov c).
Lemma query_replay data c x t s0 a r : ca_valid c = true -> replayed ns g s0 a (held c) (ca_time c + ca_toff c) ->
  fast_query ns g data c x t = Ok r ->
  ca_valid (fst r) = true /\ replayed ns g s0 a (held (fst r)) (ca_time (fst r) + ca_toff (fst r)).
Proof.
  intros V Rp. unfold fast_query. rewrite V. cbv zeta.
  destruct (select_imu_readings data _ _) as [l| |] eqn:El; cbn [obind]; try discriminate.
  destruct (rev l) as [|z [|y q]] eqn:Er.
  1,2: intros E; injection E as <-; cbn [fst]; auto.
  destruct (fast_steps ns g (fv_pst x) l (ca_est c, ca_cov c)) as [e P] eqn:Ef. intros E. injection E as <-. cbn [fst ca_valid ca_time ca_toff]. split; [reflexivity|].
  rewrite Rplus_0_r. unfold held; cbn [ca_est ca_cov]. rewrite <- Ef. eapply rp_more; [exact Rp|exact El|].
  apply (f_equal (@length imu)) in Er. rewrite rev_length in Er. cbn in Er. lia.
Qed.
Lemma run_replay cs : forall s o s' o' outs s0 a, ca_valid (pr_cache o) = true ->
  replayed ns g s0 a (held (pr_cache o)) (ca_time (pr_cache o) + ca_toff (pr_cache o)) -> forallb not_invalidate cs = true ->
  run (s, o) cs = Ok (s', o', outs) ->
  ca_valid (pr_cache o') = true /\ replayed ns g s0 a (held (pr_cache o')) (ca_time (pr_cache o') + ca_toff (pr_cache o')).
Proof.
  induction cs as [|c cs IH]; intros s o s' o' outs s0 a V Rp N E.
  { cbn in E. injection E as <- <- <-. auto. }
  cbn [forallb] in N. apply andb_prop in N. destruct N as [N1 N2].
  cbn [run_calls] in E. destruct (do_call ns g view prop (s, o) c) as [[[s1 o1] u]| |] eqn:E1; cbn [obind fst] in E; try discriminate.
  destruct (run (s1, o1) cs) as [[[s2 o2] us]| |] eqn:E2; cbn [obind fst snd] in E; try discriminate. injection E as <- <- <-.
  assert (K : ca_valid (pr_cache o1) = true /\ replayed ns g s0 a (held (pr_cache o1)) (ca_time (pr_cache o1) + ca_toff (pr_cache o1))).
  { destruct c as [m old|t|f| |t]; cbn [do_call] in E1; [| | |discriminate N1|].
    - injection E1 as <- <- <-. auto.
    - unfold do_propagate in E1. destruct (Reqb _ _); [discriminate|]. destruct (Rltb _ _); [discriminate|].
      destruct (select_imu_readings _ _ _) as [l| |]; cbn [obind] in E1; try discriminate.
      destruct (prop s l t) as [s3| |]; cbn [obind fst snd] in E1; try discriminate. injection E1 as <- <- <-. auto.
    - injection E1 as <- <- <-. auto.
    - destruct (fast_query ns g (pr_data o) (pr_cache o) (view s) t) as [r| |] eqn:Eq; cbn [obind] in E1; try discriminate.
      injection E1 as <- <- <-. cbn [pr_cache]. eapply query_replay; eauto. }
  destruct K as [K1 K2]. eapply IH; eauto.
Qed.
Lemma query_snapshot data c x t : ca_valid c = false ->
  fast_query ns g data c x t = fast_query ns g data (mkCache true (fv_time x) (ps_imu (fv_pst x)) (fv_cov x) (fv_toff x)) x t.
Proof. intros V. unfold fast_query. rewrite V. reflexivity. Qed.
Lemma run_from_snapshot s o t cs s' o' outs : ca_valid (pr_cache o) = false -> forallb not_invalidate cs = true ->
  run (s, o) (Query t :: cs) = Ok (s', o', outs) ->
  let c := pr_cache o' in
  replayed ns g (ps_imu (fv_pst (view s)), fv_cov (view s)) (fv_time (view s) + fv_toff (view s)) (ca_est c, ca_cov c) (ca_time c + ca_toff c).
Proof.
  intros V N E. cbn [run_calls do_call] in E. rewrite (query_snapshot _ _ _ _ V) in E.
  set (c0 := mkCache true (fv_time (view s)) (ps_imu (fv_pst (view s))) (fv_cov (view s)) (fv_toff (view s))) in *.
  destruct (fast_query ns g (pr_data o) c0 (view s) t) as [r| |] eqn:Eq; cbn [obind fst snd] in E; try discriminate.
  match type of E with context [run_calls _ _ _ _ ?so cs] => destruct (run so cs) as [[[s2 o2] us]| |] eqn:E2 end; cbn [obind fst snd] in E; try discriminate.
  injection E as <- <- <-.
  destruct (query_replay _ c0 _ _ (held c0) (ca_time c0 + ca_toff c0) r eq_refl (rp_start _ _ _ _) Eq) as [V1 R1].
  eapply run_replay in E2; [|exact V1|exact R1|exact N]. apply E2.
Qed.
End Runs.

(** ** what an answer is *)
Lemma query_success ns g data c x t l : let c0 := if ca_valid c then c else mkCache true (fv_time x) (ps_imu (fv_pst x)) (fv_cov x) (fv_toff x) in
  select_imu_readings data (ca_time c0 + ca_toff c0) (t + ca_toff c0) = Ok l -> (2 <= length l)%nat ->
  exists z y l', rev l = z :: y :: l' /\
  let (e, P) := fast_steps ns g (fv_pst x) l (ca_est c0, ca_cov c0) in
  fast_query ns g data c x t = Ok (mkCache true (t + ca_toff c0) e P 0,
    Some (mkPlus (iv_q e) (iv_p e) (m3v (quat_2_Rot (iv_q e)) (iv_v e)) (last_w (with_est (fv_pst x) e) l) (plus_cov ns (iv_q e) P (i_t z - i_t y)))).
Proof.
  intros c0 El Hl. unfold fast_query. cbv zeta. fold c0. rewrite El. cbn [obind].
  destruct (rev l) as [|z [|y l']] eqn:Er.
  1,2: apply (f_equal (@length imu)) in Er; rewrite rev_length in Er; cbn in Er; lia.
  exists z, y, l'. split; [reflexivity|]. destruct (fast_steps _ _ _ _ _). reflexivity.
Qed.
Lemma last_w_est x x' l : ps_model x = ps_model x' -> ps_dw x = ps_dw x' -> ps_da x = ps_da x' -> ps_tg x = ps_tg x' -> ps_qw x = ps_qw x' -> ps_qa x = ps_qa x' ->
  iv_bg (ps_imu x) = iv_bg (ps_imu x') -> iv_ba (ps_imu x) = iv_ba (ps_imu x') -> last_w x l = last_w x' l.
Proof. intros A B C D E F G H. unfold last_w. rewrite A, B, C, D, E, F, G, H. reflexivity. Qed.
Lemma loop_intr meth ns g N l : forall x Phi Q, let '(x', _, _) := prop_loop meth ns g N l x Phi Q in
  ps_model x = ps_model x' /\ ps_dw x = ps_dw x' /\ ps_da x = ps_da x' /\ ps_tg x = ps_tg x' /\ ps_qw x = ps_qw x' /\ ps_qa x = ps_qa x'.
Proof.
  induction l as [|m [|p l] IH]; intros x Phi Q; [cbn; auto 10|cbn; auto 10|]. rewrite prop_loop_cons. cbv zeta.
  match goal with |- context [prop_loop meth ns g N (p :: l) ?a ?b ?c] => specialize (IH a b c); destruct (prop_loop meth ns g N (p :: l) a b c) as [[x' Phi'] Q'] end.
  exact IH.
Qed.
(** the first answer is the filter's own prediction over the same readings *)
Lemma first_answer ns g data c x t l : ca_valid c = false -> pst_ok (fv_pst x) ->
  select_imu_readings data (fv_time x + fv_toff x) (t + fv_toff x) = Ok l -> (2 <= length l)%nat -> times_up l -> rates exact_rate (fv_pst x) l ->
  let '(x', Phi, Q) := prop_sum DISCRETE ns g (fv_pst x) l in
  exists c' o, fast_query ns g data c x t = Ok (c', Some o) /\
    unit_q (pl_q o) /\ quat_2_Rot (pl_q o) = quat_2_Rot (iv_q (ps_imu x')) /\ pl_p o = iv_p (ps_imu x') /\
    pl_v o = m3v (quat_2_Rot (iv_q (ps_imu x'))) (iv_v (ps_imu x')) /\ pl_w o = last_w x' l /\
    ca_time c' + ca_toff c' = t + fv_toff x /\
    (plain (fv_pst x) -> fej_inactive (fv_pst x) -> rates regular_rate (fv_pst x) l ->
       meq 15 15 (ca_cov c') (madd (congr 15 Phi (fv_cov x)) Q)).
Proof.
  intros V H El Hl T Rt.
  pose proof (query_success ns g data c x t l) as S. rewrite V in S. cbv zeta in S. cbn [ca_time ca_toff ca_est ca_cov] in S.
  destruct (S El Hl) as (z & y & l' & Er & S1). clear S.
  assert (SE : same_est (ps_imu (fv_pst x)) (ps_imu (fv_pst x))) by (unfold same_est; auto).
  pose proof (steps_mean ns g l (fv_pst x) (ps_imu (fv_pst x)) (fv_cov x) H SE (proj1 H) T Rt) as M.
  pose proof (prop_sum_cov DISCRETE ns g (fv_pst x) l (fv_cov x) T) as C. cbv zeta in C.
  pose proof (fun Hp Hf Rr => steps_cov ns g l (fv_pst x) (ps_imu (fv_pst x)) (fv_cov x) (fv_cov x) H Hf Hp SE T Rr (meq_refl _ _ _)) as C2.
  pose proof (loop_intr DISCRETE ns g (15 + imu_intrinsic_size (fv_pst x)) l (fv_pst x) mid mzero) as I.
  unfold prop_sum in *. cbv zeta in *.
  destruct (prop_loop DISCRETE ns g (15 + imu_intrinsic_size (fv_pst x)) l (fv_pst x) mid mzero) as [[x' Phi] Q].
  destruct (fast_steps ns g (fv_pst x) l (ps_imu (fv_pst x), fv_cov x)) as [e P]. cbn [fst snd] in M, C2.
  destruct M as ((Mq & Mp & Mv & Mg & Ma) & Mu). destruct C as [_ C].
  eexists _, _. split; [exact S1|]. cbn [pl_q pl_p pl_v pl_w ca_time ca_toff ca_cov].
  split; [exact Mu|]. split; [exact Mq|]. split; [exact Mp|]. split; [rewrite Mq, Mv; reflexivity|].
  split. { destruct I as (I1 & I2 & I3 & I4 & I5 & I6). apply last_w_est; auto. }
  split; [ring|]. intros Hp Hf Rr. eapply meq_trans; [apply C2; auto|].
  assert (N0 : imu_intrinsic_size (fv_pst x) = 0%nat) by (unfold imu_intrinsic_size; destruct Hp as (_ & _ & _ & _ & _ & ->); reflexivity).
  rewrite N0 in C. apply meq_sym. exact C.
Qed.

(** ** covariances stay positive semi-definite *)
Lemma fast_Qc_spsd ns dt : 0 < dt -> spsd 12 (fast_Qc ns dt).
Proof.
  intros Hd.
  assert (P1 : forall z, 0 <= z ^ 2 / dt). { intros z. apply Rmult_le_pos; [nra|]. apply Rlt_le, Rinv_0_lt_compat; auto. }
  assert (P2 : forall z, 0 <= z ^ 2 * dt). { intros z. apply Rmult_le_pos; [nra|lra]. }
  split.
  - intros i j _ _. unfold fast_Qc, mtr. rewrite (Nat.eqb_sym j i). destruct (Nat.eqb_spec i j) as [->|]; reflexivity.
  - apply (psd_diagonal 12 (fun i => if Nat.ltb i 3 then sigma_w ns ^ 2 / dt else if Nat.ltb i 6 then sigma_a ns ^ 2 / dt
     else if Nat.ltb i 9 then sigma_wb ns ^ 2 * dt else sigma_ab ns ^ 2 * dt)).
    intros i. destruct (Nat.ltb i 3), (Nat.ltb i 6), (Nat.ltb i 9); auto.
Qed.
Lemma spsd_add n A B : spsd n A -> spsd n B -> spsd n (madd A B).
Proof.
  intros [SA PA] [SB PB]. split; [|apply psd_add; auto].
  intros i j Hi Hj. unfold madd, mtr. rewrite (SA i j Hi Hj), (SB i j Hi Hj). reflexivity.
Qed.
Lemma fast_Qd_spsd ns Rk w dt N : 0 < dt -> spsd N (fast_Qd ns Rk w dt).
Proof.
  intros Hd. assert (C : spsd N (congr 12 (fast_G Rk w dt) (fast_Qc ns dt))) by (apply spsd_congr, fast_Qc_spsd; auto).
  unfold fast_Qd. cbv zeta. eapply spsd_meq; [apply meq_sym, symm_meq; apply C|exact C].
Qed.
Lemma steps_spsd ns g x l : forall s, times_up l -> spsd 15 (snd s) -> spsd 15 (snd (fast_steps ns g x l s)).
Proof.
  induction l as [|m [|p l] IH]; intros s T S; [exact S|exact S|]. destruct T as [T1 T2]. rewrite fast_steps_cons. apply IH; auto.
  destruct s as [e P]. unfold fast_step. destruct (fast_avg x e m p) as [a w]. cbn [snd] in *.
  apply spsd_add; [apply (spsd_congr 15 15); auto|apply fast_Qd_spsd; lra].
Qed.
Lemma plus_cov_spsd ns q P dt : 0 < dt -> spsd 15 P -> spsd 12 (plus_cov ns q P dt).
Proof.
  intros Hd S.
  set (A := mmul 15 (mmul 15 (local_Phi q) P) (mtr (local_Phi q))).
  assert (SA : spsd 15 A) by (apply (spsd_congr 15 15); auto).
  set (K := fun i k : nat => if (Nat.ltb i 9 && Nat.eqb k i)%bool then 1 else 0).
  set (d := fun i : nat => if Nat.leb 9 i then sigma_w ns ^ 2 / dt else 0).
  assert (E : meq 12 12 (plus_cov ns q P dt) (madd (congr 15 K A) (fun i j => if Nat.eqb i j then d i else 0))).
  { intros i j Hi Hj. unfold plus_cov, madd. fold A. 
    assert (EK : congr 15 K A i j = if (Nat.ltb i 9 && Nat.ltb j 9)%bool then A i j else 0).
    { unfold congr, mmul at 1. destruct (Nat.ltb_spec j 9) as [J|J].
      - rewrite (sumn_delta 15 j); [|lia|].
        + unfold mtr, K at 2. rewrite Nat.eqb_refl. destruct (Nat.ltb_spec j 9); [|lia]. cbn [andb]. rewrite Rmult_1_r.
          unfold mmul. rewrite (sumn_delta 15 i); [|lia|].
          * unfold K. rewrite Nat.eqb_refl, andb_true_r. destruct (Nat.ltb i 9); cbn [andb]; ring.
          * intros k Hk Nk. unfold K. destruct (Nat.eqb_spec k i); [contradiction|]. rewrite andb_false_r. ring.
        + intros k Hk Nk. unfold mtr, K at 2. destruct (Nat.eqb_spec k j); [contradiction|]. rewrite andb_false_r. ring.
      - rewrite andb_false_r. apply sumn_zero. intros k Hk. unfold mtr, K at 2. destruct (Nat.ltb_spec j 9); [lia|]. cbn [andb]. ring. }
    rewrite EK. unfold d. destruct (Nat.ltb_spec i 9), (Nat.ltb_spec j 9), (Nat.leb_spec 9 i), (Nat.eqb_spec i j); cbn [andb]; try lia; ring. }
  eapply spsd_meq; [apply meq_sym; exact E|]. apply spsd_add; [apply spsd_congr; exact SA|]. split.
  - intros i j _ _. unfold mtr. rewrite (Nat.eqb_sym j i). destruct (Nat.eqb_spec i j) as [->|]; reflexivity.
  - apply (psd_diagonal 12 d). intros i. unfold d. destruct (Nat.leb 9 i); [|lra].
    apply Rmult_le_pos; [nra|apply Rlt_le, Rinv_0_lt_compat; auto].
Qed.
Lemma times_up_last2 l z y l' : times_up l -> rev l = z :: y :: l' -> i_t y < i_t z.
Proof.
  intros T E. apply (f_equal (@rev imu)) in E. rewrite rev_involutive in E. cbn in E. rewrite <- app_assoc in E. cbn in E. subst l.
  induction (rev l') as [|a r IH]; [apply T|]. destruct r as [|b r]; apply IH; apply T.
Qed.
Lemma query_spsd ns g data c x t l : let c0 := if ca_valid c then c else mkCache true (fv_time x) (ps_imu (fv_pst x)) (fv_cov x) (fv_toff x) in
  select_imu_readings data (ca_time c0 + ca_toff c0) (t + ca_toff c0) = Ok l -> (2 <= length l)%nat -> times_up l -> spsd 15 (ca_cov c0) ->
  exists c' o, fast_query ns g data c x t = Ok (c', Some o) /\ spsd 15 (ca_cov c') /\ spsd 12 (pl_cov o).
Proof.
  intros c0 El Hl T S. destruct (query_success ns g data c x t l El Hl) as (z & y & l' & Er & Q). fold c0 in Q.
  pose proof (steps_spsd ns g (fv_pst x) l (ca_est c0, ca_cov c0) T S) as SP.
  destruct (fast_steps ns g (fv_pst x) l (ca_est c0, ca_cov c0)) as [e P]. cbn [snd] in SP.
  eexists _, _. split; [exact Q|]. cbn [ca_cov pl_cov]. split; [exact SP|]. apply plus_cov_spsd; auto.
  pose proof (times_up_last2 _ _ _ _ T Er). lra.
Qed.
Lemma chrono_times l : chrono l -> times_up l.
Proof. induction l as [|a [|b l] IH]; cbn; auto. intros [H C]. split; [apply H; cbn; auto|apply IH; exact C]. Qed.

(** readings in order, covering a forward interval at least 1e-12 s long: the run of readings goes from
    one end to the other *)
Lemma covered_run data t0 t1 : chrono data -> t0 < t1 -> covers data t0 t1 ->
  (exists r0 r1, i_t r0 = t0 /\ i_t r1 = t1 /\ spaced (1 / 10 ^ 12) (r0 :: inside t0 t1 data ++ [r1])) ->
  exists l, select_imu_readings data t0 t1 = Ok l /\ first_at l t0 /\ last_at l t1 /\ times_up l /\ (2 <= length l)%nat /\ durations l = t1 - t0.
Proof.
  intros C H Cv (q0 & q1 & Q0 & Q1 & Sp).
  destruct (select_covered data t0 t1 C H Cv) as (r0 & r1 & l & E & T0 & T1 & _ & _ & K). cbv zeta in K.
  destruct K as (_ & L & _ & Ch & _ & F). 
  assert (S' : spaced (1 / 10 ^ 12) (r0 :: inside t0 t1 data ++ [r1])).
  { revert Sp. generalize (inside t0 t1 data). intros m. 
    assert (G : forall m q r q' r', i_t q = i_t q' -> i_t r = i_t r' -> spaced (1 / 10 ^ 12) (q :: m ++ [r]) -> spaced (1 / 10 ^ 12) (q' :: m ++ [r'])).
    { clear. induction m as [|a m IH]; intros q r q' r' E1 E2; cbn [app spaced]; intros [A B]; split; rewrite <- ?E1, <- ?E2; auto.
      apply (IH a r a r' eq_refl E2). exact B. }
    apply G; congruence. }
  destruct (F S') as [-> D]. exists (r0 :: inside t0 t1 data ++ [r1]). split; [exact E|]. split; [exists r0; eexists; split; [reflexivity|exact T0]|].
  split; [exact L|]. split; [apply chrono_times; exact Ch|]. split; [cbn; rewrite app_length; cbn; lia|exact D].
Qed.

(** ** the velocity in the IMU frame *)
Lemma rot_forth_v q v : unit_q q -> m3v (m3tr (quat_2_Rot q)) (m3v (quat_2_Rot q) v) = v.
Proof. intros U. destruct (quat_2_Rot_is_rot q U) as (_ & E & _). rewrite <- m3v_mul, E. apply m3v_id. Qed.
Lemma local_velocity q th v dv : unit_q q ->
  v3_derive (fun s => m3v (quat_2_Rot (turn s th q)) (v3add v (v3scal s dv))) 0
    (v3add (m3v (quat_2_Rot q) dv) (v3cross (m3v (quat_2_Rot q) v) th)).
Proof.
  intros U. eapply v3_derive_eq; [apply v3d_mv; [apply turn_derive; exact U|apply v3d_id]|]. cbv beta.
  rewrite turn_0 by auto. replace (v3add v (v3scal 0 dv)) with v by (apply v3_ext; simpl; ring).
  rewrite m3v_mul. generalize (m3v (quat_2_Rot q) v) (m3v (quat_2_Rot q) dv). intros a b. apply v3_ext; cbn; ring.
Qed.
Lemma local_rows q th dp v : rows3 (mvec 15 (local_Phi q) (pv_err th dp v)) 6 = m3v (quat_2_Rot q) v.
Proof.
  unfold local_Phi. generalize (quat_2_Rot q). intros A. destruct A as [a0 a1 a2 a3 a4 a5 a6 a7 a8], v as [w0 w1 w2], th as [t0 t1 t2], dp as [p0 p1 p2].
  apply v3_ext; cbv [rows3 mvec sumn put3 set_block b3 vnth mrow Nat.leb Nat.ltb Nat.add Nat.sub Nat.eqb andb mid pv_err vlist nth app m3v GeoModel.vx GeoModel.vy GeoModel.vz m00 m01 m02 m10 m11 m12 m20 m21 m22]; ring.
Qed.
Lemma local_ok_iff q v : unit_q q -> (local_ok q v <-> v = v3zero).
Proof.
  intros U. unfold local_ok. split.
  - intros H. pose proof (rot_forth_v q v U) as RF.
    assert (Z : forall th, v3cross (m3v (quat_2_Rot q) v) th = v3zero).
    { intros th. pose proof (H th v3zero v3zero) as H1. rewrite local_rows in H1.
      pose proof (local_velocity q th v v3zero U) as H2.
      destruct H1 as (X1 & Y1 & Z1). destruct H2 as (X2 & Y2 & Z2).
      apply is_derive_unique in X1, Y1, Z1, X2, Y2, Z2. rewrite X2 in X1. rewrite Y2 in Y1. rewrite Z2 in Z1.
      cbn [GeoModel.vx GeoModel.vy GeoModel.vz v3add] in X1, Y1, Z1. apply v3_ext; cbn [GeoModel.vx GeoModel.vy GeoModel.vz v3zero]; lra. }
    assert (Zv : m3v (quat_2_Rot q) v = v3zero).
    { generalize dependent (m3v (quat_2_Rot q) v). intros u RF Z. pose proof (Z (V3 1 0 0)) as A. pose proof (Z (V3 0 1 0)) as B.
      destruct u as [a b c]. cbn in A, B. injection A as _ A1 A2. injection B as B1 _ B2. apply v3_ext; cbn; lra. }
    rewrite <- RF, Zv. apply v3_ext; simpl; ring.
  - intros -> th dp dv. rewrite local_rows. eapply v3_derive_eq; [apply local_velocity; exact U|].
    assert (Z : m3v (quat_2_Rot q) v3zero = v3zero) by (apply v3_ext; simpl; ring). rewrite Z.
    generalize (m3v (quat_2_Rot q) dv). intros u. apply v3_ext; cbn; ring.
Qed.

(** ** refuted readings *)
Definition at_rest : ival := IVal (Q4 0 0 0 1) v3zero v3zero v3zero v3zero.
Definition unit_tg : vec := fun _ => 0.
Definition rest (dw : vec) : pst := mkPst KALIBR false false false at_rest at_rest dw (default_dw KALIBR) unit_tg (Q4 0 0 0 1) (Q4 0 0 0 1).
Definition still (t : R) : imu := mkImu t v3zero v3zero.
Definition still4 := [still 0; still 1; still 2; still 3].
Lemma rest_ok dw : pst_ok (rest dw).
Proof. unfold pst_ok, unit_q; simpl. lra. Qed.
Lemma rest_w dw s t : c_wavg (correct (rest dw) (still s) (still t)) = v3zero.
Proof. unfold correct, rest, unit_tg, default_dw, vec_of. apply v3_ext; simpl; ring. Qed.
Lemma rest_regular dw s t : regular_rate (i_t (still t) - i_t (still s)) (c_wavg (correct (rest dw) (still s) (still t))).
Proof. left. rewrite rest_w. apply v3norm_0. Qed.
Lemma rest_plain : plain (rest (default_dw KALIBR)).
Proof.
  unfold plain, rest; cbn [ps_model ps_dw ps_da ps_tg ps_qw ps_qa ps_calib].
  rewrite default_kalibr. split; [reflexivity|]. split; [reflexivity|]. split; [reflexivity|].
  assert (E : quat_2_Rot (Q4 0 0 0 1) = m3id) by (apply m3_ext; unfold quat_2_Rot; simpl; ring). rewrite E. auto.
Qed.

Ltac rdec := repeat match goal with
  | |- context [Rltb ?a ?b] => destruct (Rltb_spec a b); try (exfalso; lra)
  | |- context [Rleb ?a ?b] => destruct (Rleb_spec a b); try (exfalso; lra)
  | |- context [Reqb ?a ?b] => destruct (Reqb_spec a b) as [|NE]; [|try (exfalso; apply NE; cbn; lra)]; try (exfalso; lra)
  end.
(** the clock of the first query: a camera clock ahead of the IMU clock by one second *)
Definition ahead : fview := mkView (5 / 2) (-1) (rest (default_dw KALIBR)) mzero.
Definition unit_noise := mkNoise 1 1 1 1.
Definition stale (c : cache) := mkCache false (ca_time c) (ca_est c) (ca_cov c) (ca_toff c).
Lemma still_select : exists r0 r1, select_imu_readings still4 (3 / 2) 1 = Ok [r0; r1] /\ i_t r0 = 3 / 2 /\ i_t r1 = 1.
Proof.
  exists (interpolate_data (still 1) (still 2) (3 / 2)), (interpolate_data (still 1) (still 2) 1).
  split; [|split; reflexivity].
  assert (L : sel_loop (3 / 2) 1 None still4 [] = Ok [interpolate_data (still 1) (still 2) (3 / 2); interpolate_data (still 1) (still 2) 1]).
  { unfold still4. rewrite sel_eq. cbn [still i_t]. rdec. cbn [andb].
    rewrite sel_eq. cbn [still i_t]. rdec. cbn [andb].
    rewrite sel_eq. cbn [still i_t]. rdec. cbn [andb option_map]. cbn [interpolate_data i_t]. rdec. reflexivity. }
  unfold select_imu_readings, still4 in *. rewrite L. cbn [obind last]. cbn [interpolate_data i_t]. rdec.
  rewrite compact_eq. cbn [interpolate_data i_t]. replace (Rabs (1 - 3 / 2)) with (1 / 2) by (rewrite Rabs_left; lra). rdec. reflexivity.
Qed.
Lemma backwards c : exists c' o, fast_query unit_noise v3zero still4 (stale c) ahead 2 = Ok (c', Some o) /\
  ca_time c' = 1 /\ pl_cov o 9%nat 9%nat < 0 /\ ca_cov c' 9%nat 9%nat < 0.
Proof.
  destruct still_select as (r0 & r1 & E & T0 & T1).
  pose proof (query_success unit_noise v3zero still4 (stale c) ahead 2 [r0; r1]) as S. cbv zeta in S.
  cbn [stale ca_valid ahead fv_time fv_toff fv_pst fv_cov ca_time ca_toff ca_est ca_cov] in S.
  replace (5 / 2 + -1) with (3 / 2) in S by field. replace (2 + -1) with 1 in S by ring.
  destruct (S E ltac:(cbn; lia)) as (z & y & l' & Er & Q). cbn in Er. injection Er as <- <- <-.
  set (x := rest (default_dw KALIBR)) in *.
  destruct (fast_steps unit_noise v3zero x [r0; r1] (ps_imu x, mzero)) as [e P] eqn:Ef.
  eexists _, _. split; [exact Q|]. cbn [ca_time pl_cov ca_cov]. split; [reflexivity|].
  split; [unfold plus_cov; cbn [Nat.ltb Nat.leb Nat.eqb andb unit_noise sigma_w]; rewrite T0, T1; lra|].
  cbn [fast_steps] in Ef. unfold fast_step in Ef. destruct (fast_avg x (ps_imu x) r0 r1) as [a w]. injection Ef as _ <-.
  set (dt := i_t r1 - i_t r0). assert (Ed : dt = - / 2) by (unfold dt; rewrite T0, T1; lra).
  unfold madd at 1.
  assert (Z : forall F, mmul 15 (mmul 15 F mzero) (mtr F) 9%nat 9%nat = 0).
  { intros F. apply sumn_zero. intros k _. unfold mmul. rewrite sumn_zero; [ring|]. intros i _. unfold mzero. ring. }
  rewrite Z. unfold fast_Qd. cbv zeta. unfold mscal, madd, mtr at 2.
  rewrite (noise_sum 12 _ (dfast unit_noise dt)) by (intros; apply diag_fast).
  assert (EG : forall k, (k < 12)%nat -> fast_G (quat_2_Rot (iv_q (ps_imu x))) w dt 9%nat k = if Nat.eqb k 6 then 1 else 0).
  { intros k Hk. do 12 (destruct k as [|k]; [reflexivity|]). lia. }
  rewrite (sumn_delta 12 6); [|lia|].
  - rewrite EG by lia. cbn [Nat.eqb]. unfold dfast. cbn [Nat.ltb Nat.leb unit_noise sigma_wb]. rewrite Ed. lra.
  - intros k Hk N. rewrite EG by auto. destruct (Nat.eqb_spec k 6); [contradiction|ring].
Qed.
Lemma still_chrono : chrono still4.
Proof. unfold still4; cbn. repeat split; intros b Hb; repeat destruct Hb as [<-|Hb]; cbn; try lra; destruct Hb. Qed.
Lemma mzero_spsd n : spsd n mzero.
Proof.
  split; [intros i j _ _; reflexivity|]. intros y. unfold quad. apply Req_le. symmetry. apply sumn_zero; intros i _. apply sumn_zero; intros j _. unfold mzero. ring.
Qed.
Lemma backwards_refuted : exists ns g data c x t c' o,
  chrono data /\ ca_valid c = false /\ pst_ok (fv_pst x) /\ spsd 15 (fv_cov x) /\
  fv_time x + fv_toff x < t /\ covers data (fv_time x + fv_toff x) t /\
  fast_query ns g data c x t = Ok (c', Some o) /\
  ca_time c' + ca_toff c' < fv_time x + fv_toff x /\ pl_cov o 9%nat 9%nat < 0 /\ ~ spsd 15 (ca_cov c').
Proof.
  set (c := mkCache false 0 at_rest mzero 0).
  destruct (backwards c) as (c' & o & Q & T & N1 & N2).
  exists unit_noise, v3zero, still4, (stale c), ahead, 2, c', o.
  split; [exact still_chrono|]. split; [reflexivity|]. split; [apply rest_ok|]. split; [apply mzero_spsd|].
  cbn [ahead fv_time fv_toff]. split; [lra|]. split.
  { split; [exists (still 0); split; [left; reflexivity|cbn; lra]|exists (still 3); split; [cbn; auto 10|cbn; lra]]. }
  split; [exact Q|]. split.
  { assert (T2 : ca_toff c' = 0).
    { revert Q. unfold fast_query. cbn [stale ca_valid]. cbv zeta. destruct (select_imu_readings _ _ _) as [l| |]; cbn [obind]; try discriminate.
      destruct (rev l) as [|z [|y r]]; try discriminate. destruct (fast_steps _ _ _ _ _). intros E. injection E as <- _. reflexivity. }
    rewrite T, T2. lra. }
  split; [exact N1|]. intros [_ Ps]. specialize (Ps (fun i => if Nat.eqb i 9 then 1 else 0)).
  assert (Eq : quad 15 (ca_cov c') (fun i => if Nat.eqb i 9 then 1 else 0) = ca_cov c' 9%nat 9%nat).
  { unfold quad. rewrite (sumn_delta 15 9); [|lia|].
    - rewrite (sumn_delta 15 9); [cbn [Nat.eqb]; ring|lia|]. intros k Hk N. destruct (Nat.eqb_spec k 9); [contradiction|ring].
    - intros k Hk N. apply sumn_zero. intros j _. destruct (Nat.eqb_spec k 9); [contradiction|ring]. }
  rewrite Eq in Ps. lra.
Qed.
(** scaled gyroscope *)
Lemma intrinsics_refuted : exists g x m p, pst_ok x /\ fej_inactive x /\ ps_calib x = false /\ 0 < i_t p - i_t m /\
  regular_rate (i_t p - i_t m) (c_wavg (correct x m p)) /\
  is_transition x (fun z => predict_mean DISCRETE g z m p) (predict_F DISCRETE g x m p) /\
  ~ meq 15 15 (fast_F (quat_2_Rot (iv_q (ps_imu x))) (c_aavg (correct x m p)) (c_wavg (correct x m p)) (i_t p - i_t m)) (predict_F DISCRETE g x m p).
Proof.
  set (x := rest two_dw). exists v3zero, x, (still 0), (still 1).
  assert (Hr : regular_rate (i_t (still 1) - i_t (still 0)) (c_wavg (correct x (still 0) (still 1)))) by apply rest_regular.
  assert (Hd : 0 < i_t (still 1) - i_t (still 0)) by (cbn; lra).
  assert (Hf : fej_inactive x) by (left; reflexivity).
  split; [apply rest_ok|]. split; [exact Hf|]. split; [reflexivity|]. split; [exact Hd|]. split; [exact Hr|]. split.
  { apply disc_transition_iff; auto; [apply rest_ok|]. intros e. apply missing_zero. left. reflexivity. }
  intros E. specialize (E 0%nat 9%nat ltac:(lia) ltac:(lia)).
  destruct (disc_dRJ v3zero x (still 0) (still 1) (rest_ok _) Hf Hd Hr) as [D1 D2]. unfold w_av in D1, D2.
  revert E. unfold predict_F, compute_F_discrete. cbv zeta. rewrite D2, D1. 
  unfold fast_F. cbv zeta. rewrite scal_neg, !m3scal_mul_l, (exp_Jr_regular _ _ Hd Hr).
  assert (J : true_J (i_t (still 1) - i_t (still 0)) (c_wavg (correct x (still 0) (still 1))) = m3id).
  { unfold true_J, x. rewrite rest_w. replace (v3scal (- (i_t (still 1) - i_t (still 0))) v3zero) with v3zero by (apply v3_ext; simpl; ring).
    unfold Jl_so3. rewrite v3norm_0. destruct (Rltb_spec 0 (1 / 10 ^ 6)); [reflexivity|lra]. }
  rewrite J.
  assert (EQ : quat_2_Rot (ps_qw x) = m3id) by (apply m3_ext; unfold quat_2_Rot; simpl; ring). rewrite EQ.
  cbv [put3 put1 set_block b3 vnth mrow Nat.leb Nat.ltb Nat.add Nat.sub andb th_id bg_id ba_id p_id v_id ifid Dw_id Da_id Tg_id th_atoI_id th_wtoI_id x rest ps_calib ps_dw ps_model Dm two_dw vec_of nth m3scal m3mul m3id m00 m01 m02 m10 m11 m12 m20 m21 m22 vx vy vz still i_t].
  lra.
Qed.

(** the IMU time an answer is for *)
Lemma query_time ns g data c x t c' o : fast_query ns g data c x t = Ok (c', Some o) ->
  ca_valid c' = true /\ ca_toff c' = 0 /\ ca_time c' = t + (if ca_valid c then ca_toff c else fv_toff x).
Proof.
  unfold fast_query. cbv zeta. destruct (select_imu_readings _ _ _) as [l| |]; cbn [obind]; try discriminate.
  destruct (rev l) as [|z [|y r]]; try discriminate. destruct (fast_steps _ _ _ _ _). intros E. injection E as <- <-.
  cbn [ca_valid ca_toff ca_time]. destruct (ca_valid c); auto.
Qed.
Lemma query_fail ns g data c x t c' : fast_query ns g data c x t = Ok (c', None) ->
  c' = if ca_valid c then c else mkCache true (fv_time x) (ps_imu (fv_pst x)) (fv_cov x) (fv_toff x).
Proof.
  unfold fast_query. cbv zeta. destruct (select_imu_readings _ _ _) as [l| |]; cbn [obind]; try discriminate.
  destruct (rev l) as [|z [|y r]]; try (intros E; injection E as <-; reflexivity). destruct (fast_steps _ _ _ _ _). discriminate.
Qed.

(** ** a concrete case *)
Definition on_time : fview := mkView 0 0 (rest (default_dw KALIBR)) mid.
Definition fresh : cache := mkCache false 0 at_rest mzero 0.
Lemma mid_spsd n : spsd n mid.
Proof.
  split; [intros i j _ _; unfold mid, mtr; rewrite Nat.eqb_sym; reflexivity|].
  apply (psd_diagonal n (fun _ => 1)). intros; lra.
Qed.
Lemma still_run : exists l, select_imu_readings still4 (fv_time on_time + fv_toff on_time) (2 + fv_toff on_time) = Ok l /\
  first_at l 0 /\ last_at l 2 /\ times_up l /\ (2 <= length l)%nat /\ durations l = 2.
Proof.
  cbn [on_time fv_time fv_toff].
  destruct (covered_run still4 (0 + 0) (2 + 0)) as (l & E & F & L & T & N & D).
  - exact still_chrono.
  - lra.
  - split; [exists (still 0); split; [left; reflexivity|cbn; lra]|exists (still 3); split; [cbn; auto 10|cbn; lra]].
  - exists (still (0 + 0)), (still (2 + 0)). split; [reflexivity|]. split; [reflexivity|].
    assert (I : inside (0 + 0) (2 + 0) still4 = [still 1]).
    { unfold inside, still4, still. cbn [filter i_t].
      rewrite (proj2 (Rltb_false (0 + 0) 0)), (proj2 (Rltb_true (0 + 0) 1)), (proj2 (Rltb_true 1 (2 + 0))), (proj2 (Rltb_false 2 (2 + 0))),
        (proj2 (Rltb_false 3 (2 + 0))) by lra. rewrite !andb_false_r. reflexivity. }
    rewrite I. unfold still. cbn [app spaced i_t]. split; [lra|]. split; [lra|exact Logic.I].
  - exists l. replace (0 + 0) with 0 in * by ring. replace (2 + 0) with 2 in * by ring. rewrite Rminus_0_r in D. auto 10.
Qed.
Lemma rest_rates (P : R -> v3 -> Prop) dw l : (forall dt, P dt v3zero) -> (forall m, In m l -> i_w m = v3zero /\ i_a m = v3zero) -> rates P (rest dw) l.
Proof.
  intros HP. induction l as [|m [|p l] IH]; intros H; [exact I|exact I|]. split.
  - assert (E : c_wavg (correct (rest dw) m p) = v3zero).
    { destruct (H m) as [W1 A1]; [left; auto|]. destruct (H p) as [W2 A2]; [right; left; auto|].
      destruct m as [tm wm am], p as [tp wp ap]. cbn in W1, A1, W2, A2. subst. exact (rest_w dw tm tp). }
    rewrite E. apply HP.
  - apply IH. intros q Hq. apply H. right. exact Hq.
Qed.
