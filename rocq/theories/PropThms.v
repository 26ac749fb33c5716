(** Theorems of the inertial propagation: intrinsics, simulator, noise, RK4. *)
From Coq Require Import Reals Lra Psatz Bool List Arith Lia.
From Coquelicot Require Import Coquelicot.
From Verif Require Import Outcome RBool GeoModel GeoSpec GeoProofs GeoMore ExpProofs Se3Proofs JacSo3 Lin TypesModel StateModel StateSpec StateInit StateOps2 StateOps4.
From Verif Require Import ManifoldSpec ManifoldProofs Calc3 ImuModel PropModel PropSpec PropRows PropRowsA PropProofs PropDisc PropAna.
Import ListNotations.
Open Scope R_scope.

(** ** C56 *)
Lemma H_D_thm m v d w : v3_derive (fun s => m3v (Dm m (bump s d v)) w) 0 (csum 6 (compute_H_D m w) d) /\
  m3v (Dm m (bump 1 d v)) w = v3add (m3v (Dm m v) w) (csum 6 (compute_H_D m w) d).
Proof.
  rewrite H_D_spec. split.
  - eapply v3_derive_eq; [apply v3d_mv; [apply Dm_derive|apply v3d_const]|]. cbv beta.
    generalize (Dm m d) (Dm m (bump 0 d v)). intros A B. apply v3_ext; simpl; ring.
  - destruct m; apply v3_ext; unfold bump; simpl; ring.
Qed.
Lemma H_Tg_thm v d a : v3_derive (fun s => m3v (Tg_of (bump s d v)) a) 0 (csum 9 (compute_H_Tg a) d) /\
  m3v (Tg_of (bump 1 d v)) a = v3add (m3v (Tg_of v) a) (csum 9 (compute_H_Tg a) d).
Proof.
  rewrite H_Tg_spec. split.
  - eapply v3_derive_eq; [apply v3d_mv; [apply Tg_derive|apply v3d_const]|]. cbv beta.
    generalize (Tg_of d) (Tg_of (bump 0 d v)). intros A B. apply v3_ext; simpl; ring.
  - apply v3_ext; unfold bump; simpl; ring.
Qed.

(** ** C62 *)
Lemma default_kalibr : Dm KALIBR (default_dw KALIBR) = m3id.
Proof. apply m3_ext; reflexivity. Qed.
Lemma default_rpng : m3det (Dm RPNG (default_dw RPNG)) = 0 /\ Dm RPNG (default_dw RPNG) <> m3id.
Proof. split; [unfold m3det, Dm, default_dw, vec_of; cbn; ring|]. intros E. apply (f_equal m11) in E. unfold Dm, default_dw, vec_of in E; cbn in E. lra. Qed.
Lemma load_D_thm m D : (Dm m (load_D m D) = D <-> triangular m D).
Proof.
  destruct m; cbn; split.
  - intros E. apply (f_equal (fun A => (m01 A, m02 A, m12 A))) in E. simpl in E. injection E as -> -> ->. auto.
  - intros (A & B & C). apply m3_ext; simpl; auto.
  - intros E. apply (f_equal (fun A => (m10 A, m20 A, m21 A))) in E. simpl in E. injection E as -> -> ->. auto.
  - intros (A & B & C). apply m3_ext; simpl; auto.
Qed.
Lemma load_Tg_thm T : Tg_of (load_Tg T) = T.
Proof. apply m3_ext; reflexivity. Qed.

(** ** C55 *)
Lemma inverse_cancel D T v : inverse_of D T -> m3v D (m3v T v) = v.
Proof. intros H. rewrite <- m3v_mul, H. apply m3v_id. Qed.
Lemma rot_cancel Q v : is_rot Q -> m3v Q (m3v (m3tr Q) v) = v.
Proof. intros H. rewrite <- m3v_mul. assert (E : m3mul Q (m3tr Q) = m3id) by apply H. rewrite E. apply m3v_id. Qed.

(** what the estimator makes of two simulated readings: the truth plus the transformed noise *)
Lemma sim_correct x Tw Ta m p w1 a1 w2 a2 nw1 na1 nw2 na2 : pst_ok x ->
  inverse_of (Dm (ps_model x) (ps_dw x)) Tw -> inverse_of (Dm (ps_model x) (ps_da x)) Ta ->
  let rd := fun w a nw na => sim_reading Tw Ta (Tg_of (ps_tg x)) (ps_qw x) (ps_qa x) w a (v3add (iv_bg (ps_imu x)) nw) (v3add (iv_ba (ps_imu x)) na) in
  (i_w m, i_a m) = rd w1 a1 nw1 na1 -> (i_w p, i_a p) = rd w2 a2 nw2 na2 ->
  let ea := fun na => m3v (quat_2_Rot (ps_qa x)) (m3v (Dm (ps_model x) (ps_da x)) na) in
  let ew := fun nw na => m3v (quat_2_Rot (ps_qw x)) (m3v (Dm (ps_model x) (ps_dw x)) (v3sub nw (m3v (Tg_of (ps_tg x)) (ea na)))) in
  let c := correct x m p in
  c_a1 c = v3add a1 (ea na1) /\ c_a2 c = v3add a2 (ea na2) /\
  c_w1 c = v3add w1 (ew nw1 na1) /\ c_w2 c = v3add w2 (ew nw2 na2) /\
  c_aavg c = v3scal (/ 2) (v3add (c_a1 c) (c_a2 c)) /\ c_wavg c = v3scal (/ 2) (v3add (c_w1 c) (c_w2 c)).
Proof.
  intros (U & Uw & Ua) Iw Ia rd Em Ep ea ew c.
  assert (Ra : is_rot (quat_2_Rot (ps_qa x))) by (apply quat_2_Rot_is_rot; auto).
  assert (Rw : is_rot (quat_2_Rot (ps_qw x))) by (apply quat_2_Rot_is_rot; auto).
  unfold rd, sim_reading in Em, Ep. injection Em as Ew1 Ea1. injection Ep as Ew2 Ea2.
  assert (A : forall a na r, r = v3add (m3v Ta (m3v (m3tr (quat_2_Rot (ps_qa x))) a)) (v3add (iv_ba (ps_imu x)) na) ->
     m3v (m3mul (quat_2_Rot (ps_qa x)) (Dm (ps_model x) (ps_da x))) (v3sub r (iv_ba (ps_imu x))) = v3add a (ea na)).
  { intros a na r ->. unfold ea. rewrite m3v_mul.
    replace (v3sub (v3add (m3v Ta (m3v (m3tr (quat_2_Rot (ps_qa x))) a)) (v3add (iv_ba (ps_imu x)) na)) (iv_ba (ps_imu x)))
      with (v3add (m3v Ta (m3v (m3tr (quat_2_Rot (ps_qa x))) a)) na) by (generalize (m3v Ta (m3v (m3tr (quat_2_Rot (ps_qa x))) a)); intros u; apply v3_ext; simpl; ring).
    rewrite m3v_add, (inverse_cancel _ _ _ Ia), m3v_add, rot_cancel by auto. reflexivity. }
  assert (W : forall w a nw na r, r = v3add (v3add (m3v Tw (m3v (m3tr (quat_2_Rot (ps_qw x))) w)) (m3v (Tg_of (ps_tg x)) a)) (v3add (iv_bg (ps_imu x)) nw) ->
     m3v (m3mul (quat_2_Rot (ps_qw x)) (Dm (ps_model x) (ps_dw x))) (v3sub (v3sub r (iv_bg (ps_imu x))) (m3v (Tg_of (ps_tg x)) (v3add a (ea na)))) = v3add w (ew nw na)).
  { intros w a nw na r ->. unfold ew. rewrite m3v_mul.
    replace (v3sub (v3sub (v3add (v3add (m3v Tw (m3v (m3tr (quat_2_Rot (ps_qw x))) w)) (m3v (Tg_of (ps_tg x)) a)) (v3add (iv_bg (ps_imu x)) nw)) (iv_bg (ps_imu x))) (m3v (Tg_of (ps_tg x)) (v3add a (ea na))))
      with (v3add (m3v Tw (m3v (m3tr (quat_2_Rot (ps_qw x))) w)) (v3sub nw (m3v (Tg_of (ps_tg x)) (ea na)))).
    2:{ rewrite m3v_add. generalize (m3v Tw (m3v (m3tr (quat_2_Rot (ps_qw x))) w)) (m3v (Tg_of (ps_tg x)) a) (m3v (Tg_of (ps_tg x)) (ea na)). intros u z y. apply v3_ext; simpl; ring. }
    rewrite m3v_add, (inverse_cancel _ _ _ Iw), m3v_add, rot_cancel by auto. reflexivity. }
  unfold c, correct; cbn [c_a1 c_a2 c_w1 c_w2 c_aavg c_wavg].
  rewrite (A a1 na1 _ Ea1), (A a2 na2 _ Ea2), (W _ _ nw1 _ _ Ew1), (W _ _ nw2 _ _ Ew2).
  split; [reflexivity|]. split; [reflexivity|]. split; [reflexivity|]. split; [reflexivity|]. split.
  - rewrite m3v_scal, m3v_add, (A a1 na1 _ Ea1), (A a2 na2 _ Ea2). reflexivity.
  - rewrite m3v_scal, m3v_add, (W _ _ nw1 _ _ Ew1), (W _ _ nw2 _ _ Ew2). reflexivity.
Qed.

Lemma sim_exact x Tw Ta m p w1 a1 w2 a2 : pst_ok x ->
  inverse_of (Dm (ps_model x) (ps_dw x)) Tw -> inverse_of (Dm (ps_model x) (ps_da x)) Ta ->
  let rd := fun w a => sim_reading Tw Ta (Tg_of (ps_tg x)) (ps_qw x) (ps_qa x) w a (iv_bg (ps_imu x)) (iv_ba (ps_imu x)) in
  (i_w m, i_a m) = rd w1 a1 -> (i_w p, i_a p) = rd w2 a2 ->
  let c := correct x m p in
  c_a1 c = a1 /\ c_a2 c = a2 /\ c_w1 c = w1 /\ c_w2 c = w2 /\
  c_aavg c = v3scal (/ 2) (v3add a1 a2) /\ c_wavg c = v3scal (/ 2) (v3add w1 w2).
Proof.
  intros H Iw Ia rd Em Ep c.
  assert (Z : forall v, v3add v v3zero = v) by (intros; apply v3add_0_r).
  destruct (sim_correct x Tw Ta m p w1 a1 w2 a2 v3zero v3zero v3zero v3zero H Iw Ia) as (A1 & A2 & W1 & W2 & A & W);
    [rewrite !Z; exact Em|rewrite !Z; exact Ep|]. fold c in A1, A2, W1, W2, A, W.
  replace (v3sub v3zero (m3v (Tg_of (ps_tg x)) (m3v (quat_2_Rot (ps_qa x)) (m3v (Dm (ps_model x) (ps_da x)) v3zero)))) with v3zero in *
    by (rewrite !m3v_0; apply v3_ext; simpl; ring).
  rewrite !m3v_0, !Z in *. rewrite A, W, A1, A2, W1, W2. auto 10.
Qed.

(** simulated noise-free readings of a constant motion, propagated analytically, give the true end of
    the motion *)
Lemma sim_prop x Tw Ta m p w a g Rs v pos : pst_ok x ->
  inverse_of (Dm (ps_model x) (ps_dw x)) Tw -> inverse_of (Dm (ps_model x) (ps_da x)) Ta ->
  let dt := i_t p - i_t m in
  let rd := sim_reading Tw Ta (Tg_of (ps_tg x)) (ps_qw x) (ps_qa x) w a (iv_bg (ps_imu x)) (iv_ba (ps_imu x)) in
  (i_w m, i_a m) = rd -> (i_w p, i_a p) = rd ->
  0 < dt -> small_bound <= v3norm w -> 1 / 10 ^ 7 <= dt * v3norm w ->
  kinematics w a g Rs v pos -> Rs 0 = quat_2_Rot (iv_q (ps_imu x)) -> v 0 = iv_v (ps_imu x) -> pos 0 = iv_p (ps_imu x) ->
  let n := predict_mean ANALYTICAL g x m p in
  Rs dt = quat_2_Rot (mn_q n) /\ v dt = mn_v n /\ pos dt = mn_p n.
Proof.
  intros H Iw Ia dt rd Em Ep Hd Hw Ht K R0 v0 p0 n.
  destruct (sim_exact x Tw Ta m p w a w a H Iw Ia Em Ep) as (_ & _ & _ & _ & A & W).
  assert (D : forall u, v3scal (/ 2) (v3add u u) = u) by (intros u; apply v3_ext; simpl; field). rewrite D in A, W.
  unfold n, predict_mean. rewrite A, W. apply analytic_exact; auto. destruct H; auto.
Qed.

(** ** C71 *)
Lemma spsd_mscal n c A : 0 <= c -> spsd n A -> spsd n (mscal c A).
Proof.
  intros Hc [S Ps]. split.
  - intros i j Hi Hj. unfold mscal, mtr. f_equal. apply S; auto.
  - intros y. replace (quad n (mscal c A) y) with (c * quad n A y); [apply Rmult_le_pos; auto|].
    unfold quad. rewrite <- sumn_scal. apply sumn_ext; intros i _. rewrite <- sumn_scal. apply sumn_ext; intros j _. unfold mscal. ring.
Qed.
Lemma symm_meq n A : sym n A -> meq n n (mscal (/ 2) (madd A (mtr A))) A.
Proof. intros S i j Hi Hj. unfold mscal, madd. rewrite <- (S i j Hi Hj). field. Qed.
Lemma spsd_meq n A B : meq n n A B -> spsd n A -> spsd n B.
Proof. intros E [S Ps]. split; [eapply sym_ext; eauto|eapply psd_ext; eauto]. Qed.
Lemma Qc_spsd ns dt : 0 < dt -> spsd 12 (Qc ns dt).
Proof.
  intros Hd.
  assert (P : forall z, 0 <= z ^ 2 / dt). { intros z. apply Rmult_le_pos; [nra|]. apply Rlt_le, Rinv_0_lt_compat; auto. }
  split.
  - intros i j _ _. unfold Qc, mtr. rewrite (Nat.eqb_sym j i). destruct (Nat.eqb_spec i j) as [->|]; reflexivity.
  - apply (psd_diagonal 12 (fun i => if Nat.ltb i 3 then sigma_w ns ^ 2 / dt else if Nat.ltb i 6 then sigma_a ns ^ 2 / dt
     else if Nat.ltb i 9 then sigma_wb ns ^ 2 / dt else sigma_ab ns ^ 2 / dt)).
    intros i. destruct (Nat.ltb i 3), (Nat.ltb i 6), (Nat.ltb i 9); apply P.
Qed.
Lemma Qd_spsd meth ns g x m p N : i_t m < i_t p -> spsd N (predict_Qd meth ns g x m p) /\
  meq N N (predict_Qd meth ns g x m p) (congr 12 (predict_G meth g x m p) (Qc ns (i_t p - i_t m))).
Proof.
  intros H. assert (C : spsd N (congr 12 (predict_G meth g x m p) (Qc ns (i_t p - i_t m)))) by (apply spsd_congr, Qc_spsd; lra).
  assert (E : meq N N (predict_Qd meth ns g x m p) (congr 12 (predict_G meth g x m p) (Qc ns (i_t p - i_t m)))) by (apply symm_meq; apply C).
  split; [|exact E]. eapply spsd_meq; [apply meq_sym; exact E|exact C].
Qed.
Lemma congr_meq n N A P P' : meq n n P P' -> meq N N (congr n A P) (congr n A P').
Proof.
  intros E i j _ _. unfold congr. rewrite !mmul_assoc. apply sumn_ext; intros k Hk. f_equal.
  apply sumn_ext; intros l Hl. rewrite E by auto. reflexivity.
Qed.
Lemma madd_meq n A A' B B' : meq n n A A' -> meq n n B B' -> meq n n (madd A B) (madd A' B').
Proof. intros E1 E2 i j Hi Hj. unfold madd. rewrite E1, E2 by auto. reflexivity. Qed.
Lemma cov_steps_cons F Qd nx N m p l x P : cov_steps F Qd nx N (m :: p :: l) x P =
  cov_steps F Qd nx N (p :: l) (nx x m p) (madd (mmul N (mmul N (F x m p) P) (mtr (F x m p))) (Qd x m p)).
Proof. reflexivity. Qed.
Lemma err_steps_cons F nx N m p l x e : err_steps F nx N (m :: p :: l) x e = err_steps F nx N (p :: l) (nx x m p) (mvec N (F x m p) e).
Proof. reflexivity. Qed.
Lemma cov_steps_meq F Qd nx N l x : forall P P', meq N N P P' -> meq N N (cov_steps F Qd nx N l x P) (cov_steps F Qd nx N l x P').
Proof.
  revert x. induction l as [|m l IH]; intros x P P' E; [exact E|]. destruct l as [|p l]; [exact E|].
  rewrite !cov_steps_cons. apply IH. apply madd_meq; [|apply meq_refl]. apply congr_meq; auto.
Qed.
Lemma mmul3 N A B C D i j : mmul N (mmul N A B) (mmul N C D) i j = mmul N A (mmul N (mmul N B C) D) i j.
Proof.
  rewrite mmul_assoc. apply mmul_ext; intros; auto. rewrite <- mmul_assoc. reflexivity.
Qed.
Lemma congr_mul N A B P i j : congr N (mmul N A B) P i j = congr N A (congr N B P) i j.
Proof.
  unfold congr.
  transitivity (mmul N (mmul N A (mmul N B P)) (mmul N (mtr B) (mtr A)) i j).
  { apply mmul_ext; intros k Hk; [apply mmul_assoc|]. unfold mtr at 1. apply mmul_tr. }
  rewrite mmul3. rewrite mmul_assoc. apply mmul_ext; intros; auto. 
Qed.

Lemma prop_loop_cons meth ns g N m p l x Phi Q : prop_loop meth ns g N (m :: p :: l) x Phi Q =
  let F := predict_F meth g x m p in let Q1 := madd (mmul N (mmul N F Q) (mtr F)) (predict_Qd meth ns g x m p) in
  prop_loop meth ns g N (p :: l) (predict_state meth g x m p) (mmul N F Phi) (mscal (/ 2) (madd Q1 (mtr Q1))).
Proof. reflexivity. Qed.
Lemma prop_loop_cov meth ns g N l : forall x Phi Q P, times_up l -> sym N Q ->
  let '(x', Phi', Q') := prop_loop meth ns g N l x Phi Q in
  sym N Q' /\ (psd N Q -> psd N Q') /\
  meq N N (madd (congr N Phi' P) Q')
    (cov_steps (predict_F meth g) (predict_Qd meth ns g) (predict_state meth g) N l x (madd (congr N Phi P) Q)).
Proof.
  induction l as [|m l IH]; intros x Phi Q P T S; [cbn; split; [exact S|split; [auto|apply meq_refl]]|].
  destruct l as [|p l]; [cbn; split; [exact S|split; [auto|apply meq_refl]]|].
  destruct T as [T1 T2]. rewrite prop_loop_cons, cov_steps_cons. cbv zeta.
  set (F := predict_F meth g x m p). set (Qdi := predict_Qd meth ns g x m p).
  destruct (Qd_spsd meth ns g x m p N T1) as [SQ _]. fold Qdi in SQ.
  set (Q1 := madd (mmul N (mmul N F Q) (mtr F)) Qdi).
  assert (S1 : sym N Q1).
  { intros i j Hi Hj. unfold Q1, madd. unfold mtr at 2. 
    pose proof (sym_congr N N F Q S i j Hi Hj) as E1. unfold mtr at 2 in E1. rewrite E1.
    destruct SQ as [SQ _]. rewrite (SQ i j Hi Hj). reflexivity. }
  assert (S2 : sym N (mscal (/ 2) (madd Q1 (mtr Q1)))) by (eapply sym_ext; [apply meq_sym, symm_meq; exact S1|exact S1]).
  specialize (IH (predict_state meth g x m p) (mmul N F Phi) (mscal (/ 2) (madd Q1 (mtr Q1))) P T2 S2).
  revert IH. fold Qdi Q1.
  destruct (prop_loop meth ns g N (p :: l) (predict_state meth g x m p) (mmul N F Phi) (mscal (/ 2) (madd Q1 (mtr Q1)))) as [[x' Phi'] Q'].
  intros (I1 & I2 & I3). split; [exact I1|]. split.
  - intros PQ. apply I2. eapply psd_ext; [apply meq_sym, symm_meq; exact S1|]. unfold Q1. apply psd_add; [apply psd_congr; auto|apply SQ].
  - eapply meq_trans; [exact I3|]. apply cov_steps_meq.
    intros i j Hi Hj. unfold madd at 1. rewrite (symm_meq N Q1 S1 i j Hi Hj). unfold Q1, madd. rewrite congr_mul.
    unfold congr at 1. 
    assert (E : mmul N (mmul N F (madd (congr N Phi P) Q)) (mtr F) i j = mmul N (mmul N F (congr N Phi P)) (mtr F) i j + mmul N (mmul N F Q) (mtr F) i j).
    { rewrite <- mmul_add_l. apply mmul_ext; intros; auto. unfold madd at 2. rewrite mmul_add_r. reflexivity. }
    unfold madd in E at 1. rewrite E. lra.
Qed.
Lemma prop_loop_err meth ns g N l : forall x Phi Q e,
  let '(x', Phi', Q') := prop_loop meth ns g N l x Phi Q in
  veq N (mvec N Phi' e) (err_steps (predict_F meth g) (predict_state meth g) N l x (mvec N Phi e)).
Proof.
  induction l as [|m l IH]; intros x Phi Q e; [cbn; intros i Hi; reflexivity|].
  destruct l as [|p l]; [cbn; intros i Hi; reflexivity|].
  rewrite prop_loop_cons, err_steps_cons. cbv zeta. set (F := predict_F meth g x m p). 
  match goal with |- context [prop_loop meth ns g N (p :: l) ?a ?b ?c] => specialize (IH a b c e); revert IH; destruct (prop_loop meth ns g N (p :: l) a b c) as [[x' Phi'] Q'] end.
  intros IH i Hi. rewrite IH by auto.
  assert (X : forall l x (a b : vec), (forall i, a i = b i) -> forall i, err_steps (predict_F meth g) (predict_state meth g) N l x a i = err_steps (predict_F meth g) (predict_state meth g) N l x b i).
  { clear. induction l as [|m l IH]; intros x a b E i; [apply E|]. destruct l as [|p l]; [apply E|].
    rewrite !err_steps_cons. apply IH. intros k. unfold mvec. apply sumn_ext; intros j _. rewrite E. reflexivity. }
  apply X. intros k. unfold mvec, mmul.
  rewrite (sumn_ext N _ (fun j => sumn N (fun l0 => F k l0 * Phi l0 j * e j))) by (intros; rewrite sumn_scal_r; reflexivity).
  rewrite sumn_swap. apply sumn_ext; intros l0 _. rewrite <- sumn_scal. apply sumn_ext; intros; ring.
Qed.

(** ** C72 *)
Lemma id_mul q : unit_q q -> quat_2_Rot (quat_multiply (Q4 0 0 0 1) q) = quat_2_Rot q.
Proof.
  intros U. unfold quat_multiply. rewrite quat_2_Rot_quatnorm.
  - f_equal. apply q4_ext; simpl; unfold v3dot; simpl; ring.
  - apply quat_mul_raw_unit; auto. unfold unit_q; simpl; ring.
Qed.
Lemma quatnorm_id : quatnorm (Q4 0 0 0 1) = Q4 0 0 0 1.
Proof.
  unfold quatnorm; cbn [qw]. destruct (Rltb_spec 1 0); [lra|]. unfold q4norm; cbn [qx qy qz qw].
  replace (0 * 0 + 0 * 0 + 0 * 0 + 1 * 1) with 1 by ring. rewrite sqrt_1. apply q4_ext; simpl; field.
Qed.
Lemma rk4_straight g x dt a1 a2 v p : unit_q (iv_q (ps_imu x)) -> 0 < dt ->
  straight (quat_2_Rot (iv_q (ps_imu x))) dt a1 a2 g v p -> v 0 = iv_v (ps_imu x) -> p 0 = iv_p (ps_imu x) ->
  let n := predict_mean_rk4 g x dt v3zero a1 v3zero a2 in
  quat_2_Rot (mn_q n) = quat_2_Rot (iv_q (ps_imu x)) /\ v dt = mn_v n /\ p dt = mn_p n.
Proof.
  intros U Hd K v0 p0 n. set (Q := quat_2_Rot (iv_q (ps_imu x))) in *.
  assert (Z0 : forall t, v3add v3zero (v3scal t (v3div (v3sub v3zero v3zero) dt)) = v3zero) by (intros t; apply v3_ext; simpl; field; lra).
  assert (O0 : forall q, Omega_mul v3zero q = Q4 0 0 0 0) by (intros q; rewrite Omega_mul_quat; apply q4_ext; simpl; unfold v3dot; simpl; ring).
  assert (S0 : forall c, q4scal c (Q4 0 0 0 0) = Q4 0 0 0 0) by (intros c; apply q4_ext; simpl; ring).
  assert (A0 : q4add (Q4 0 0 0 1) (Q4 0 0 0 0) = Q4 0 0 0 1) by (apply q4_ext; simpl; ring).
  unfold n, predict_mean_rk4. cbv zeta. cbv beta. rewrite !Z0, !O0, !S0, !A0, !quatnorm_id, !id_mul by auto. fold Q.
  cbn [mn_q mn_v mn_p]. split; [first [reflexivity|apply id_mul; auto]|].
  assert (Fv : forall t, v t = v3sub (v3add (v 0) (m3v (m3tr Q) (v3add (v3scal t a1) (v3scal (t * t / (2 * dt)) (v3sub a2 a1))))) (v3scal t g)).
  { apply (same_derive_v3 _ _ (fun t => v3sub (m3v (m3tr Q) (v3add a1 (v3scal (t / dt) (v3sub a2 a1)))) g)).
    - intros t. apply K.
    - intros t. assert (D0 : is_derive (fun t : R => t) t 1) by (auto_derive; auto).
      assert (D1 : is_derive (fun t : R => t * t / (2 * dt)) t (t / dt)) by (auto_derive; [auto|field; lra]).
      eapply v3_derive_eq.
      { apply v3d_sub; [apply v3d_add; [apply v3d_const|apply v3d_mv; [apply m3d_const|apply v3d_add; [apply (v3d_scalf (fun t => t)); [exact D0|apply v3d_const]|apply v3d_scalf; [exact D1|apply v3d_const]]]]|
          apply (v3d_scalf (fun t => t)); [exact D0|apply v3d_const]]. }
      rewrite m3zero_v. clear. generalize (m3tr Q) (v3sub a2 a1). intros M d. rewrite ?m3v_add, ?m3v_scal. 
      apply v3_ext; simpl; ring.
    - apply v3_ext; simpl; field; lra. }
  assert (Fp : forall t, p t = v3sub (v3add (v3add (p 0) (v3scal t (v 0))) (m3v (m3tr Q) (v3add (v3scal (t * t / 2) a1) (v3scal (t * t * t / (6 * dt)) (v3sub a2 a1))))) (v3scal (t * t / 2) g)).
  { apply (same_derive_v3 _ _ v).
    - intros t. apply K.
    - intros t. assert (D0 : is_derive (fun t : R => t) t 1) by (auto_derive; auto).
      assert (D1 : is_derive (fun t : R => t * t / 2) t t) by (auto_derive; [auto|field; lra]).
      assert (D2 : is_derive (fun t : R => t * t * t / (6 * dt)) t (t * t / (2 * dt))) by (auto_derive; [auto|field; lra]).
      eapply v3_derive_eq.
      { apply v3d_sub; [apply v3d_add; [apply v3d_add; [apply v3d_const|apply (v3d_scalf (fun t => t)); [exact D0|apply v3d_const]]|
           apply v3d_mv; [apply m3d_const|apply v3d_add; [apply v3d_scalf; [exact D1|apply v3d_const]|apply v3d_scalf; [exact D2|apply v3d_const]]]]|
          apply v3d_scalf; [exact D1|apply v3d_const]]. }
      rewrite m3zero_v, (Fv t). clear. generalize (m3tr Q) (v3sub a2 a1) (v 0). intros M d w.
      apply v3_ext; simpl; ring.
    - apply v3_ext; simpl; field; lra. }
  rewrite Fv, Fp, v0, p0. generalize (m3tr Q) (iv_v (ps_imu x)) (iv_p (ps_imu x)). clear - Hd. intros M v p.
  split; apply v3_ext; simpl; field; lra.
Qed.

(** ** right Jacobian of exp_so3 *)
Lemma Jr_so3_right_jacobian w d : 1 / 10 ^ 6 <= v3norm w ->
  m3_derive (fun s => exp_so3 (v3add w (v3scal s d))) 0 (m3mul (exp_so3 w) (skew_x (m3v (Jr_so3 w) d))).
Proof.
  intros H. assert (is_rot (exp_so3 w)) by (apply exp_so3_is_rot; right; lra).
  rewrite rot_skew, <- m3v_mul, exp_Jr by auto. apply Jl_so3_left_jacobian; auto.
Qed.

(** ** C59: the general reading is refuted *)
Definition two_dw : vec := vec_of [2; 0; 0; 2; 0; 2].
Definition tg_id : vec := vec_of [1; 0; 0; 0; 1; 0; 0; 0; 1].
Definition scaled_state : pst :=
  mkPst KALIBR true true false (IVal (Q4 0 0 0 1) v3zero v3zero v3zero v3zero) (IVal (Q4 0 0 0 1) v3zero v3zero v3zero v3zero)
    two_dw (default_dw KALIBR) tg_id (Q4 0 0 0 1) (Q4 0 0 0 1).
Definition sc_m (t : R) : imu := mkImu t (V3 0 0 1) (V3 0 0 1).
Lemma sc_ok : pst_ok scaled_state.
Proof. unfold pst_ok, unit_q; simpl. lra. Qed.
Lemma sc_w : c_wavg (correct scaled_state (sc_m 0) (sc_m 1)) = v3zero.
Proof. unfold correct, scaled_state, two_dw, tg_id, default_dw, vec_of. apply v3_ext; simpl; field. Qed.
Lemma sc_aunc : c_aunc (correct scaled_state (sc_m 0) (sc_m 1)) = V3 0 0 1.
Proof. unfold correct, scaled_state; apply v3_ext; simpl; field. Qed.
Lemma v3norm_0 : v3norm v3zero = 0.
Proof. unfold v3norm, v3dot; simpl. replace (0 * 0 + 0 * 0 + 0 * 0) with 0 by ring. apply sqrt_0. Qed.
Lemma disc_transition_refuted : exists g x m p, pst_ok x /\ fej_inactive x /\ 0 < i_t p - i_t m /\
  regular_rate (i_t p - i_t m) (c_wavg (correct x m p)) /\
  ~ is_transition x (fun z => predict_mean DISCRETE g z m p) (predict_F DISCRETE g x m p).
Proof.
  exists (V3 0 0 9), scaled_state, (sc_m 0), (sc_m 1).
  assert (Rr : regular_rate (i_t (sc_m 1) - i_t (sc_m 0)) (c_wavg (correct scaled_state (sc_m 0) (sc_m 1)))) by (left; rewrite sc_w; apply v3norm_0).
  split; [apply sc_ok|]. split; [left; reflexivity|]. split; [simpl; lra|]. split; [exact Rr|].
  rewrite disc_transition_iff; [|apply sc_ok|left; reflexivity|simpl; lra|exact Rr].
  intros H. specialize (H (mkErr v3zero v3zero v3zero v3zero v3zero (fun _ => 0) (fun _ => 1) (fun _ => 0) v3zero)).
  unfold missing_Dw in H. cbv zeta in H. rewrite sc_w, sc_aunc in H.
  assert (J : true_J (i_t (sc_m 1) - i_t (sc_m 0)) v3zero = m3id).
  { unfold true_J, Jl_so3. cbv zeta. replace (v3scal (- (i_t (sc_m 1) - i_t (sc_m 0))) v3zero) with v3zero by (apply v3_ext; simpl; ring).
    rewrite v3norm_0. destruct (Rltb_spec 0 (1 / 10 ^ 6)); [reflexivity|lra]. }
  rewrite J in H. apply (f_equal vz) in H. revert H.
  unfold fDa, scaled_state, two_dw, tg_id, default_dw, vec_of; simpl. lra.
Qed.

(** ** the sums of propagate_and_clone *)
Lemma prop_sum_cov meth ns g x l P : times_up l ->
  let N := (15 + imu_intrinsic_size x)%nat in
  let '(x', Phi, Q) := prop_sum meth ns g x l in
  spsd N Q /\
  meq N N (madd (congr N Phi P) Q)
    (cov_steps (predict_F meth g) (predict_Qd meth ns g) (predict_state meth g) N l x P).
Proof.
  intros T N. unfold prop_sum. fold N.
  assert (S0 : sym N mzero) by (intros i j _ _; reflexivity).
  assert (P0 : psd N mzero). { intros y. unfold quad. apply Req_le. symmetry. apply sumn_zero; intros i _. apply sumn_zero; intros j _. unfold mzero. ring. }
  pose proof (prop_loop_cov meth ns g N l x mid mzero P T S0) as H.
  destruct (prop_loop meth ns g N l x mid mzero) as [[x' Phi] Q]. destruct H as (H1 & H2 & H3).
  split; [split; auto|]. eapply meq_trans; [exact H3|]. apply cov_steps_meq.
  intros i j Hi Hj. unfold madd, mzero. rewrite Rplus_0_r. unfold congr.
  rewrite (mmul_ext N (mmul N mid P) P (mtr mid) mid i j).
  - apply mmul_id_r; auto.
  - intros k Hk. apply mmul_id_l; auto.
  - intros k Hk. unfold mtr, mid. rewrite (Nat.eqb_sym j k). reflexivity.
Qed.
Lemma prop_sum_err meth ns g x l e :
  let N := (15 + imu_intrinsic_size x)%nat in
  let '(x', Phi, Q) := prop_sum meth ns g x l in
  veq N (mvec N Phi e) (err_steps (predict_F meth g) (predict_state meth g) N l x e).
Proof.
  intros N. unfold prop_sum. fold N.
  pose proof (prop_loop_err meth ns g N l x mid mzero e) as H.
  destruct (prop_loop meth ns g N l x mid mzero) as [[x' Phi] Q]. intros i Hi. rewrite H by auto.
  assert (X : forall l x (a b : vec), (forall i, (i < N)%nat -> a i = b i) -> forall i, (i < N)%nat -> err_steps (predict_F meth g) (predict_state meth g) N l x a i = err_steps (predict_F meth g) (predict_state meth g) N l x b i).
  { clear. generalize N; clear. intros N l. induction l as [|m l IH]; intros x a b E i Hi; [apply E; auto|]. destruct l as [|p l]; [apply E; auto|].
    rewrite !err_steps_cons. apply IH; auto. intros k Hk. unfold mvec. apply sumn_ext; intros j Hj. rewrite E by auto. reflexivity. }
  apply X; auto. intros k Hk. unfold mvec, mid.
  rewrite (sumn_delta N k); [rewrite Nat.eqb_refl; ring|auto|]. intros j _ Hj. destruct (Nat.eqb_spec k j); [congruence|ring].
Qed.
