(** Proofs about fast_state_propagate. *)
From Coq Require Import Reals Lra Psatz Bool List Arith Lia.
From Verif Require Import Outcome RBool GeoModel GeoSpec GeoProofs GeoMore ExpProofs Se3Proofs JacSo3 Lin TypesModel StateModel StateSpec StateInit StateOps2 StateOps4.
From Verif Require Import ManifoldSpec ManifoldProofs Calc3 ImuModel ImuSpec PropModel PropSpec PropRows PropProofs PropDisc PropThms.
From Verif Require Import FastModel FastSpec.
From Verif Require HelpThms.
Import ListNotations.
Open Scope R_scope.

(** ** the mean *)
Lemma fast_avg_correct x e m p : iv_bg e = iv_bg (ps_imu x) -> iv_ba e = iv_ba (ps_imu x) ->
  fast_avg x e m p = (c_aavg (correct x m p), c_wavg (correct x m p)).
Proof.
  intros Eg Ea. unfold fast_avg, correct; cbn [c_aavg c_wavg]. rewrite Eg, Ea.
  set (A := m3mul (quat_2_Rot (ps_qa x)) (Dm (ps_model x) (ps_da x))).
  set (W := m3mul (quat_2_Rot (ps_qw x)) (Dm (ps_model x) (ps_dw x))).
  f_equal; rewrite m3v_scal, m3v_add; reflexivity.
Qed.
Lemma scal_neg dt w : v3scal dt (v3neg w) = v3scal (- dt) w.
Proof. apply v3_ext; simpl; ring. Qed.
Lemma norm_sn dt w : 0 < dt -> v3norm (v3scal (- dt) w) = dt * v3norm w.
Proof. intros H. rewrite v3norm_scal, Rabs_Ropp, Rabs_pos_eq by lra. reflexivity. Qed.
Lemma exact_exp dt w : 0 < dt -> exact_rate dt w -> is_rot (exp_so3 (v3scal (- dt) w)).
Proof.
  intros Hd [Hz|[_ H]]; apply exp_so3_is_rot; rewrite norm_sn by auto; [left; rewrite Hz; ring|right; auto].
Qed.
Lemma exp_zero : exp_so3 v3zero = m3id.
Proof. unfold exp_so3. rewrite v3norm_0. destruct (Reqb_spec 0 0) as [_|C]; [reflexivity|exfalso; apply C; auto]. Qed.
Lemma disc_rot_exact g x dt w a : unit_q (iv_q (ps_imu x)) -> 0 < dt -> exact_rate dt w ->
  quat_2_Rot (mn_q (predict_mean_discrete g x dt w a)) = m3mul (exp_so3 (v3scal (- dt) w)) (quat_2_Rot (iv_q (ps_imu x))) /\
  unit_q (mn_q (predict_mean_discrete g x dt w a)).
Proof.
  intros U Hd [Hz|[H1 H2]].
  - assert (Z : w = v3zero) by (apply v3norm_zero; auto). subst w. split.
    + rewrite disc_rot_small by (auto; rewrite v3norm_0; lra).
      replace (v3scal dt v3zero) with (v3scal 0 v3zero) by (apply v3_ext; simpl; ring). rewrite cayley_0.
      replace (v3scal (- dt) v3zero) with v3zero by (apply v3_ext; simpl; ring). rewrite exp_zero. reflexivity.
    + unfold predict_mean_discrete; cbn [mn_q]. rewrite v3norm_0. destruct (Rltb_spec (1 / 10 ^ 12) 0); [lra|].
      apply quatnorm_is_unit. destruct (iv_q (ps_imu x)) as [q1 q2 q3 q0]; unfold unit_q in U; cbn in *; unfold v3dot; cbn. nra.
  - split; [apply disc_rot; auto; rewrite norm_sn by auto; auto|].
    unfold predict_mean_discrete; cbn [mn_q]. destruct (Rltb_spec (1 / 10 ^ 12) (v3norm w)) as [_|C]; [|lra].
    rewrite big_omega. apply quatnorm_is_unit.
    assert (P0 : 0 < v3norm w) by (assert (0 < 1 / 10 ^ 12) by lra; lra).
    pose proof (quat_mul_raw_unit _ _ (quat_of_rate_unit dt w P0) U) as V. unfold unit_q in V. rewrite V. lra.
Qed.

Lemma regular_exact dt w : 0 < dt -> regular_rate dt w -> exact_rate dt w.
Proof.
  intros Hd [H|(H1 & H2 & H3 & _)]; [left; auto|right]. split; auto.
  assert (0 < v3norm w) by (assert (0 < 1 / 10 ^ 12) by lra; lra).
  pose proof (angle_lower (dt * v3norm w) (Rlt_le _ _ (Rmult_lt_0_compat _ _ Hd H)) H3). lra.
Qed.

Lemma fast_step_mean ns g x e P m p : pst_ok x -> same_est e (ps_imu x) -> 0 < i_t p - i_t m ->
  exact_rate (i_t p - i_t m) (c_wavg (correct x m p)) ->
  let e' := fst (fast_step ns g x (e, P) m p) in
  let x' := predict_state DISCRETE g x m p in
  same_est e' (ps_imu x') /\ unit_q (iv_q e') /\ pst_ok x'.
Proof.
  intros (U & Uw & Ua) (Eq & Ep & Ev & Eg & Ea) Hd Hr e' x'.
  set (dt := i_t p - i_t m) in *. set (c := correct x m p) in *.
  destruct (disc_rot_exact g x dt (c_wavg c) (c_aavg c) U Hd Hr) as [D1 D2].
  pose proof (quat_2_Rot_is_rot _ U) as RR.
  pose proof (is_rot_mul _ _ (exact_exp dt _ Hd Hr) RR) as RP.
  destruct (rot_2_quat_spec _ RP) as (V1 & _ & V2).
  unfold e', x', fast_step, predict_state, predict_mean. rewrite (fast_avg_correct x e m p Eg Ea).
  cbn [fst ps_imu]. unfold same_est. cbn [iv_q iv_p iv_v iv_bg iv_ba]. fold dt c. rewrite Eq, Ep, Ev, scal_neg.
  split; [|split; [exact V1|split; [exact D2|split; [exact Uw|exact Ua]]]].
  split; [rewrite V2, D1; reflexivity|].
  split; [|split; [reflexivity|split; [exact Eg|exact Ea]]].
  unfold predict_mean_discrete; cbn [mn_p].
  generalize (m3tr (quat_2_Rot (iv_q (ps_imu x)))) (c_aavg c) (iv_p (ps_imu x)) (iv_v (ps_imu x)). intros T a pp vv.
  apply v3_ext; cbn; field.
Qed.

(** ** the covariance, ideal sensor model *)
Definition zero3 := M3 0 0 0 0 0 0 0 0 0.
Definition fastF_blocks (b1 b2 b4 b6 b7 b8 b10 : m3) : mat :=
  put1 (put3 (put3 (put3 (put1 (put3 (put1 (put3 (put1 (put3 (put3 mzero 0 0 b1) 0 9 b2) 9 3) 6 0 b8) 6 3) 6 12 b10) 12 3) 3 0 b4) 3 6 b6) 3 12 b7) 3 3.
Ltac allij := intros i j Hi Hj;
  do 15 (destruct i as [|i]; [do 15 (destruct j as [|j]; [reflexivity|]); lia|]); lia.
Lemma F_blocks b1 b2 b4 b6 b7 b8 b10 :
  meq 15 15 (fastF_blocks b1 b2 b4 b6 b7 b8 b10)
    (put1 (put1 (put3 (put1 (put3 (put3 (put3 (put1 (put3 (put3 (put3 (put3 mzero th_id th_id b1) th_id bg_id b2) th_id ba_id zero3) p_id th_id b4) p_id 3) p_id v_id b6) p_id ba_id b7) v_id th_id b8) v_id 3) v_id ba_id b10) bg_id 3) ba_id 3).
Proof. unfold fastF_blocks. allij. Qed.
Lemma exp_Jr_regular dt w : 0 < dt -> regular_rate dt w ->
  m3mul (exp_so3 (v3scal (- dt) w)) (Jr_so3 (v3scal (- dt) w)) = true_J dt w.
Proof.
  intros Hd [Hz|(H1 & H2 & H3 & _)].
  - assert (Z : w = v3zero) by (apply v3norm_zero; auto). subst w.
    unfold true_J. replace (v3scal (- dt) v3zero) with v3zero by (apply v3_ext; simpl; ring). rewrite exp_zero, m3mul_id_l.
    unfold Jr_so3, Jl_so3. rewrite v3norm_neg, v3norm_0. destruct (Rltb_spec 0 (1 / 10 ^ 6)); [reflexivity|lra].
  - assert (0 < v3norm w) by (assert (0 < 1 / 10 ^ 12) by lra; lra).
    pose proof (angle_lower (dt * v3norm w) (Rlt_le _ _ (Rmult_lt_0_compat _ _ Hd H)) H3).
    apply exp_Jr. rewrite norm_sn by auto. lra.
Qed.
Lemma m3scal_mul_l k A B : m3mul (m3scal k A) B = m3scal k (m3mul A B).
Proof. apply m3_ext; simpl; ring. Qed.
Lemma m3scal_scal a b A : m3scal a (m3scal b A) = m3scal (a * b) A.
Proof. apply m3_ext; simpl; ring. Qed.
Lemma m3v_inj A B : (forall u, m3v A u = m3v B u) -> A = B.
Proof.
  intros H. pose proof (H (V3 1 0 0)) as H1. pose proof (H (V3 0 1 0)) as H2. pose proof (H (V3 0 0 1)) as H3.
  destruct A as [a0 a1 a2 a3 a4 a5 a6 a7 a8], B as [b0 b1 b2 b3 b4 b5 b6 b7 b8]. cbn in H1, H2, H3.
  injection H1 as X1 X2 X3. injection H2 as Y1 Y2 Y3. injection H3 as Z1 Z2 Z3. apply m3_ext; cbn; lra.
Qed.
Lemma skew_conj Q a : is_rot Q -> m3mul (skew_x (m3v (m3tr Q) a)) (m3tr Q) = m3mul (m3tr Q) (skew_x a).
Proof.
  intros HQ. pose proof (is_rot_tr _ HQ) as HT.
  apply m3v_inj. intros u. rewrite !m3v_mul, !skew_cross. symmetry. apply HelpThms.rot_cross; exact HT.
Qed.

Lemma plain_F g x m p : pst_ok x -> fej_inactive x -> plain x -> 0 < i_t p - i_t m ->
  regular_rate (i_t p - i_t m) (c_wavg (correct x m p)) ->
  meq 15 15 (fast_F (quat_2_Rot (iv_q (ps_imu x))) (c_aavg (correct x m p)) (c_wavg (correct x m p)) (i_t p - i_t m))
    (predict_F DISCRETE g x m p).
Proof.
  intros H Hf (E1 & E2 & E3 & E4 & E5 & Hc) Hd Hr.
  destruct (disc_dRJ g x m p H Hf Hd Hr) as [D1 D2]. unfold w_av in D1, D2.
  assert (EL : lin_point x = ps_imu x) by (unfold lin_point; destruct Hf as [->| ->]; [reflexivity|destruct (ps_dofej x); reflexivity]).
  assert (RR : is_rot (quat_2_Rot (iv_q (ps_imu x)))) by (apply quat_2_Rot_is_rot; apply H).
  unfold predict_F, compute_F_discrete. cbv zeta. unfold Dw_id, Da_id, Tg_id, th_atoI_id, th_wtoI_id. rewrite Hc, D2, D1, E1, E2, E3, E4, E5, EL. cbn [andb ifid].
  set (dt := i_t p - i_t m) in *. set (c := correct x m p) in *. set (Q := quat_2_Rot (iv_q (ps_imu x))) in *.
  assert (EV : v3add (v3sub (mn_v (predict_mean DISCRETE g x m p)) (iv_v (ps_imu x))) (v3scal dt g) = m3v (m3tr Q) (v3scal dt (c_aavg c))).
  { unfold predict_mean, predict_mean_discrete; cbn [mn_v]. fold dt c Q. rewrite m3v_scal. generalize (m3v (m3tr Q) (c_aavg c)). intros u. apply v3_ext; cbn; ring. }
  assert (EP : v3add (v3sub (v3sub (mn_p (predict_mean DISCRETE g x m p)) (iv_p (ps_imu x))) (v3scal dt (iv_v (ps_imu x)))) (v3scal (/ 2 * dt * dt) g)
     = m3v (m3tr Q) (v3scal (/ 2 * dt * dt) (c_aavg c))).
  { unfold predict_mean, predict_mean_discrete; cbn [mn_p]. fold dt c Q. rewrite m3v_scal. generalize (m3v (m3tr Q) (c_aavg c)). intros u. apply v3_ext; cbn; ring. }
  rewrite EV, EP, !skew_conj, !m3mul_id_r by exact RR.
  unfold fast_F. cbv zeta. rewrite scal_neg, !m3scal_mul_l, (exp_Jr_regular dt _ Hd Hr). fold (true_E dt (c_wavg c)).
  set (T := m3tr Q). set (J := true_J dt (c_wavg c)). set (a := c_aavg c).
  replace (m3scal dt (m3scal (-1) J)) with (m3scal (-1) (m3scal dt J)) by (apply m3_ext; simpl; ring).
  replace (m3scal dt (m3mul J (M3 0 0 0 0 0 0 0 0 0))) with zero3 by (unfold zero3; apply m3_ext; simpl; ring).
  replace (m3scal (- / 2) (m3mul T (skew_x (v3scal dt (v3scal dt a))))) with (m3scal (-1) (m3mul T (skew_x (v3scal (/ 2 * dt * dt) a)))) by (apply m3_ext; simpl; field).
  replace (m3scal dt (m3scal dt (m3scal (- / 2) T))) with (m3scal (- (/ 2 * dt * dt)) T) by (apply m3_ext; simpl; field).
  replace (m3scal dt (m3scal (-1) T)) with (m3scal (- dt) T) by (apply m3_ext; simpl; ring).
  apply F_blocks.
Qed.

(** *** noise *)
Lemma mmul_diag_r n A (d : nat -> R) D i l : (l < n)%nat -> (forall k, (k < n)%nat -> D k l = if Nat.eqb k l then d l else 0) ->
  mmul n A D i l = A i l * d l.
Proof.
  intros Hl HD. unfold mmul. rewrite (sumn_delta n l).
  - rewrite HD by auto. rewrite Nat.eqb_refl. reflexivity.
  - auto.
  - intros k Hk N. rewrite HD by auto. destruct (Nat.eqb_spec k l); [contradiction|ring].
Qed.
Definition dfast (ns : noises) (dt : R) (i : nat) : R :=
  if Nat.ltb i 3 then sigma_w ns ^ 2 / dt else if Nat.ltb i 6 then sigma_a ns ^ 2 / dt
  else if Nat.ltb i 9 then sigma_wb ns ^ 2 * dt else sigma_ab ns ^ 2 * dt.
Definition dmain (ns : noises) (dt : R) (i : nat) : R :=
  if Nat.ltb i 3 then sigma_w ns ^ 2 / dt else if Nat.ltb i 6 then sigma_a ns ^ 2 / dt
  else if Nat.ltb i 9 then sigma_wb ns ^ 2 / dt else sigma_ab ns ^ 2 / dt.
Lemma noise_sum n A (d : nat -> R) D i j : (forall k l, (k < n)%nat -> (l < n)%nat -> D k l = if Nat.eqb k l then d l else 0) ->
  mmul n (mmul n A D) (mtr A) i j = sumn n (fun l => A i l * d l * A j l).
Proof.
  intros HD. apply sumn_ext; intros l Hl. unfold mtr. rewrite (mmul_diag_r n A d D i l) by auto. reflexivity.
Qed.
Lemma diag_fast ns dt k l : fast_Qc ns dt k l = if Nat.eqb k l then dfast ns dt l else 0.
Proof. unfold fast_Qc, dfast. destruct (Nat.eqb_spec k l) as [->|]; reflexivity. Qed.
Lemma diag_main ns dt k l : Qc ns dt k l = if Nat.eqb k l then dmain ns dt l else 0.
Proof. unfold Qc, dmain. destruct (Nat.eqb_spec k l) as [->|]; reflexivity. Qed.
Lemma G_scale b1 b2 b3' b4 b5 i l : (i < 15)%nat -> (l < 12)%nat ->
  forall k, put3 (put3 (put3 (put3 (put3 (put3 mzero 0 0 b1) 0 3 zero3) 6 3 b2) 3 3 b3') 9 6 (m3scal k b4)) 12 9 (m3scal k b5) i l
  = put3 (put3 (put3 (put3 (put3 mzero 0 0 b1) 6 3 b2) 3 3 b3') 9 6 b4) 12 9 b5 i l * (if Nat.ltb l 6 then 1 else k).
Proof.
  intros Hi Hl k. 
  do 15 (destruct i as [|i]; [do 12 (destruct l as [|l]; [cbv [put3 set_block b3 vnth mrow Nat.leb Nat.ltb Nat.add Nat.sub andb m3scal m00 m01 m02 m10 m11 m12 m20 m21 m22 vx vy vz mzero zero3]; ring|]); lia|]); lia.
Qed.
Lemma plain_Qd ns g x m p : pst_ok x -> fej_inactive x -> plain x -> 0 < i_t p - i_t m ->
  regular_rate (i_t p - i_t m) (c_wavg (correct x m p)) ->
  meq 15 15 (fast_Qd ns (quat_2_Rot (iv_q (ps_imu x))) (c_wavg (correct x m p)) (i_t p - i_t m)) (predict_Qd DISCRETE ns g x m p).
Proof.
  intros H Hf (E1 & E2 & E3 & E4 & E5 & Hc) Hd Hr.
  destruct (disc_dRJ g x m p H Hf Hd Hr) as [D1 D2]. unfold w_av in D1, D2.
  assert (EL : lin_point x = ps_imu x) by (unfold lin_point; destruct Hf as [->| ->]; [reflexivity|destruct (ps_dofej x); reflexivity]).
  set (dt := i_t p - i_t m) in *. set (w := c_wavg (correct x m p)) in *. set (Q := quat_2_Rot (iv_q (ps_imu x))) in *.
  assert (EG : forall i l, (i < 15)%nat -> (l < 12)%nat -> predict_G DISCRETE g x m p i l = fast_G Q w dt i l * (if Nat.ltb l 6 then 1 else dt)).
  { intros i l Hi Hl. unfold predict_G, compute_G_discrete. cbv zeta. rewrite D2, E1, E2, E3, E4, E5, EL. fold dt Q.
    unfold fast_G. cbv zeta. rewrite scal_neg, !m3scal_mul_l, (exp_Jr_regular dt _ Hd Hr). rewrite !m3mul_id_r.
    set (T := m3tr Q). set (J := true_J dt w).
    replace (m3scal dt (m3scal (-1) J)) with (m3scal (-1) (m3scal dt J)) by (apply m3_ext; simpl; ring).
    replace (m3scal dt (m3mul J (M3 0 0 0 0 0 0 0 0 0))) with zero3 by (unfold zero3; apply m3_ext; simpl; ring).
    replace (m3scal dt (m3scal dt (m3scal (- / 2) T))) with (m3scal (- (/ 2 * dt * dt)) T) by (apply m3_ext; simpl; field).
    replace (m3scal dt (m3scal (-1) T)) with (m3scal (- dt) T) by (apply m3_ext; simpl; ring).
    apply G_scale; auto. }
  assert (K : forall i j, (i < 15)%nat -> (j < 15)%nat ->
     mmul 12 (mmul 12 (fast_G Q w dt) (fast_Qc ns dt)) (mtr (fast_G Q w dt)) i j
     = mmul 12 (mmul 12 (predict_G DISCRETE g x m p) (Qc ns dt)) (mtr (predict_G DISCRETE g x m p)) i j).
  { intros i j Hi Hj. rewrite (noise_sum 12 _ (dfast ns dt)) by (intros; apply diag_fast).
    rewrite (noise_sum 12 _ (dmain ns dt)) by (intros; apply diag_main).
    apply sumn_ext; intros l Hl. rewrite !EG by auto. unfold dfast, dmain.
    destruct (Nat.ltb_spec l 6).
    - destruct (Nat.ltb_spec l 3); ring.
    - destruct (Nat.ltb_spec l 3); [lia|]. destruct (Nat.ltb l 9); field; lra. }
  intros i j Hi Hj. unfold fast_Qd, predict_Qd. cbv zeta. fold dt. unfold mscal, madd, mtr at 2 4.
  rewrite !K by auto. reflexivity.
Qed.
Lemma mmul_meq3 F F' P P' : meq 15 15 F F' -> meq 15 15 P P' ->
  meq 15 15 (mmul 15 (mmul 15 F P) (mtr F)) (mmul 15 (mmul 15 F' P') (mtr F')).
Proof.
  intros E1 E2 i j Hi Hj. apply mmul_ext; intros k Hk; [|apply E1; auto].
  apply mmul_ext; intros l Hl; [apply E1; auto|apply E2; auto].
Qed.

(** ** whole runs of readings *)
Lemma fast_steps_cons ns g x m p l s : fast_steps ns g x (m :: p :: l) s = fast_steps ns g x (p :: l) (fast_step ns g x s m p).
Proof. reflexivity. Qed.
Lemma avg_bias x x' e m p : ps_model x = ps_model x' -> ps_dw x = ps_dw x' -> ps_da x = ps_da x' -> ps_tg x = ps_tg x' -> ps_qw x = ps_qw x' -> ps_qa x = ps_qa x' ->
  fast_avg x e m p = fast_avg x' e m p.
Proof. intros A B C D E F. unfold fast_avg. rewrite A, B, C, D, E, F. reflexivity. Qed.
Lemma fast_steps_state ns g x x' l : ps_model x = ps_model x' -> ps_dw x = ps_dw x' -> ps_da x = ps_da x' -> ps_tg x = ps_tg x' -> ps_qw x = ps_qw x' -> ps_qa x = ps_qa x' ->
  forall s, fast_steps ns g x l s = fast_steps ns g x' l s.
Proof.
  intros A B C D E F. induction l as [|m [|p l] IH]; intros s; try reflexivity. rewrite !fast_steps_cons, IH. f_equal.
  destruct s as [e P]. unfold fast_step. rewrite (avg_bias x x') by auto. reflexivity.
Qed.
Lemma rates_state Pr g x m p l : rates Pr (predict_state DISCRETE g x m p) l <-> rates Pr x l.
Proof. induction l as [|a [|b l] IH]; [tauto|tauto|]. cbn [rates] in *. rewrite IH. tauto. Qed.

Lemma steps_mean ns g l : forall x e P, pst_ok x -> same_est e (ps_imu x) -> unit_q (iv_q e) -> times_up l -> rates exact_rate x l ->
  let '(x', _, _) := prop_loop DISCRETE ns g (15 + imu_intrinsic_size x) l x mid mzero in
  same_est (fst (fast_steps ns g x l (e, P))) (ps_imu x') /\ unit_q (iv_q (fst (fast_steps ns g x l (e, P)))).
Proof.
  intros x. set (N := (15 + imu_intrinsic_size x)%nat). generalize N. clear N. intros N. generalize mid mzero. revert x.
  induction l as [|m [|p l] IH]; intros x Phi Q e P H S U T Rt; [cbn; auto|cbn; auto|].
  destruct T as [T1 T2]. destruct Rt as [R1 R2]. rewrite prop_loop_cons, fast_steps_cons. cbv zeta.
  destruct (fast_step_mean ns g x e P m p H S (Rlt_Rminus _ _ T1) R1) as (S' & U' & H').
  destruct (fast_step ns g x (e, P) m p) as [e' P'] eqn:Es. cbn [fst] in S', U'.
  rewrite (fast_steps_state ns g x (predict_state DISCRETE g x m p)) by reflexivity.
  apply IH; auto. apply rates_state. exact R2.
Qed.

Lemma plain_next g x m p : plain x -> plain (predict_state DISCRETE g x m p).
Proof. intros H. exact H. Qed.
Lemma fej_next g x m p : fej_inactive (predict_state DISCRETE g x m p).
Proof. right. reflexivity. Qed.
Lemma rates_weaken x l : times_up l -> rates regular_rate x l -> rates exact_rate x l.
Proof.
  induction l as [|m [|p l] IH]; auto. intros [T1 T2] [R1 R2]. split; [apply regular_exact; [lra|auto]|apply IH; auto].
Qed.
Lemma steps_cov ns g l : forall x e P P', pst_ok x -> fej_inactive x -> plain x -> same_est e (ps_imu x) -> times_up l -> rates regular_rate x l ->
  meq 15 15 P P' ->
  meq 15 15 (snd (fast_steps ns g x l (e, P))) (cov_steps (predict_F DISCRETE g) (predict_Qd DISCRETE ns g) (predict_state DISCRETE g) 15 l x P').
Proof.
  induction l as [|m [|p l] IH]; intros x e P P' H Hf Hp S T Rt E; [exact E|exact E|].
  destruct T as [T1 T2]. destruct Rt as [R1 R2]. rewrite cov_steps_cons, fast_steps_cons.
  destruct (fast_step_mean ns g x e P m p H S (Rlt_Rminus _ _ T1) (regular_exact _ _ (Rlt_Rminus _ _ T1) R1)) as (S' & U' & H').
  assert (EP : meq 15 15 (snd (fast_step ns g x (e, P) m p))
     (madd (mmul 15 (mmul 15 (predict_F DISCRETE g x m p) P') (mtr (predict_F DISCRETE g x m p))) (predict_Qd DISCRETE ns g x m p))).
  { destruct S as (Sq & Sp & Sv & Sg & Sa). unfold fast_step. rewrite (fast_avg_correct x e m p Sg Sa). cbn [snd]. rewrite Sq.
    assert (Hd : 0 < i_t p - i_t m) by lra.
    apply madd_meq; [apply mmul_meq3; [apply plain_F; auto|exact E]|apply plain_Qd; auto]. }
  destruct (fast_step ns g x (e, P) m p) as [e' P1] eqn:Es. cbn [fst snd] in S', U', EP.
  rewrite (fast_steps_state ns g x (predict_state DISCRETE g x m p)) by reflexivity.
  apply IH; auto; [apply fej_next|apply rates_state; exact R2].
Qed.
