(** The analytic mean propagation: exactness (C69) and transition matrix (C70). *)
From Coq Require Import Reals Lra Psatz Bool List Arith Lia.
From Coquelicot Require Import Coquelicot.
From Verif Require Import Outcome RBool GeoModel GeoSpec GeoProofs GeoMore ExpProofs Se3Proofs JacSo3 Lin TypesModel StateModel.
From Verif Require Import ManifoldSpec ManifoldProofs Calc3 ImuModel PropModel PropSpec PropRows PropRowsA PropProofs PropDisc.
Import ListNotations.
Open Scope R_scope.

Lemma small_bound_gt : 1 / 10 ^ 12 < small_bound.
Proof. unfold small_bound. pose proof PI2_3_2. lra. Qed.

(** ** unit axis *)
Lemma unit_axis w : 0 < v3norm w -> v3dot (v3div w (v3norm w)) (v3div w (v3norm w)) = 1.
Proof.
  intros P. pose proof (v3norm_sq w) as Q. unfold v3dot in *; cbn [v3div vx vy vz].
  set (n := v3norm w) in *. apply Rmult_eq_reg_r with (n * n); [|nra].
  rewrite Rmult_1_l. rewrite Q at 2. field_simplify; [nra|lra].
Qed.
Lemma K2_outer k : v3dot k k = 1 -> m3mul (skew_x k) (skew_x k) = m3sub (m3outer k k) m3id.
Proof. unfold v3dot; intros H. apply m3_ext; simpl; lra. Qed.
Lemma skew_cross a b : m3v (skew_x a) b = v3cross a b.
Proof. apply v3_ext; simpl; ring. Qed.
Lemma K2_v k v : v3dot k k = 1 -> m3v (m3mul (skew_x k) (skew_x k)) v = v3sub (v3scal (v3dot k v) k) v.
Proof. intros H. rewrite K2_outer by auto. apply v3_ext; unfold v3dot; simpl; ring. Qed.
Lemma K3 k : v3dot k k = 1 -> m3mul (skew_x k) (m3mul (skew_x k) (skew_x k)) = m3scal (-1) (skew_x k).
Proof. intros H. rewrite K2_outer by auto. apply m3_ext; simpl; ring. Qed.
Lemma triple k a w : v3dot k k = 1 ->
  v3add (m3v (m3mul (m3mul (skew_x k) (skew_x k)) (skew_x a)) w) (v3scal (v3dot k a) (m3v (skew_x k) w)) = v3scal (v3dot k w) (v3cross k a).
Proof.
  intros H. rewrite m3v_mul, K2_v by auto.
  transitivity (v3add (v3sub (v3scal (v3dot k (m3v (skew_x a) w)) k) (v3scal (v3dot k k) (m3v (skew_x a) w))) (v3scal (v3dot k a) (m3v (skew_x k) w))).
  { rewrite H. f_equal. f_equal. apply v3_ext; simpl; ring. }
  unfold v3dot. apply v3_ext; simpl; ring.
Qed.

(** ** the exact flow about the axis *)
Definition flow (k : v3) (n t : R) : m3 :=
  m3add (m3add m3id (m3scal (sin (n * t)) (skew_x k))) (m3scal (1 - cos (n * t)) (m3mul (skew_x k) (skew_x k))).
Lemma flow_derive k n t : v3dot k k = 1 -> m3_derive (flow k n) t (m3scal n (m3mul (skew_x k) (flow k n t))).
Proof.
  intros H.
  assert (Ds : is_derive (fun t : R => sin (n * t)) t (n * cos (n * t))) by (auto_derive; [auto|ring]).
  assert (Dc : is_derive (fun t : R => 1 - cos (n * t)) t (n * sin (n * t))) by (auto_derive; [auto|ring]).
  eapply m3_derive_eq.
  { unfold flow. apply m3d_add; [apply m3d_add; [apply m3d_const|apply m3d_scalf; [exact Ds|apply m3d_const]]|apply m3d_scalf; [exact Dc|apply m3d_const]]. }
  unfold flow. pose proof (K3 k H) as E. set (K := skew_x k) in *.
  replace (m3mul K (m3add (m3add m3id (m3scal (sin (n * t)) K)) (m3scal (1 - cos (n * t)) (m3mul K K))))
    with (m3add (m3add K (m3scal (sin (n * t)) (m3mul K K))) (m3scal (1 - cos (n * t)) (m3mul K (m3mul K K)))) by (clearbody K; clear; apply m3_ext; simpl; ring).
  rewrite E. generalize (m3mul K K) (sin (n * t)) (cos (n * t)). clearbody K. clear. intros K2 s c. apply m3_ext; simpl; ring.
Qed.
Lemma flow_tr k n t : m3tr (flow k n t) = flow k n (- t).
Proof. unfold flow. replace (n * - t) with (- (n * t)) by ring. rewrite sin_neg, cos_neg. apply m3_ext; simpl; ring. Qed.
Lemma flow_0 k n : flow k n 0 = m3id.
Proof. unfold flow. rewrite Rmult_0_r, sin_0, cos_0. apply m3_ext; simpl; ring. Qed.
Lemma flow_exp w t : 0 < v3norm w -> 1 / 10 ^ 7 <= v3norm (v3scal t w) -> flow (v3div w (v3norm w)) (v3norm w) t = exp_so3 (v3scal t w).
Proof.
  intros P H. rewrite exp_so3_eq by auto. rewrite v3norm_scal in *. set (n := v3norm w) in *.
  assert (Ht : t <> 0). { intros ->. rewrite Rabs_R0, Rmult_0_l in H. lra. }
  unfold flow, rodrigues.
  destruct (Rle_or_lt 0 t) as [T|T].
  - rewrite Rabs_pos_eq by auto. rewrite (Rmult_comm n t).
    generalize (sin (t * n)) (cos (t * n)). intros s c.
    apply m3_ext; simpl; field; split; lra.
  - rewrite Rabs_left by auto. replace (- t * n) with (- (n * t)) by ring. rewrite sin_neg, cos_neg.
    generalize (sin (n * t)) (cos (n * t)). intros s c.
    apply m3_ext; simpl; field; split; lra.
Qed.

(** ** a function with zero derivative is constant *)
Lemma zero_derive_const (f : R -> R) : (forall t, is_derive f t 0) -> forall t, f t = f 0.
Proof.
  intros H t. destruct (MVT_gen f 0 t (fun _ => 0)) as (c & _ & E).
  - intros x _. apply H.
  - intros x _. apply derivable_continuous_pt. exists 0. apply is_derive_Reals. apply H.
  - lra.
Qed.
Lemma same_derive_v3 f h (d : R -> v3) : (forall t, v3_derive f t (d t)) -> (forall t, v3_derive h t (d t)) -> f 0 = h 0 -> forall t, f t = h t.
Proof.
  intros Hf Hh E0 t.
  assert (Z : forall (a b : R -> R) (l : R -> R), (forall t, is_derive a t (l t)) -> (forall t, is_derive b t (l t)) -> a 0 = b 0 -> a t = b t).
  { intros a b l Ha Hb E. assert (D : forall t, is_derive (fun t => a t - b t) t 0).
    { intros u. eapply is_derive_eq; [apply der_minus; [apply Ha|apply Hb]|]. ring. }
    pose proof (zero_derive_const _ D t) as Q. cbv beta in Q. lra. }
  apply v3_ext.
  - apply (Z (fun t => vx (f t)) (fun t => vx (h t)) (fun t => vx (d t))); [apply Hf|apply Hh|rewrite E0; auto].
  - apply (Z (fun t => vy (f t)) (fun t => vy (h t)) (fun t => vy (d t))); [apply Hf|apply Hh|rewrite E0; auto].
  - apply (Z (fun t => vz (f t)) (fun t => vz (h t)) (fun t => vz (d t))); [apply Hf|apply Hh|rewrite E0; auto].
Qed.
Lemma zero_derive_m3 (f : R -> m3) : (forall t, m3_derive f t m3zero) -> forall t, f t = f 0.
Proof.
  intros H t. unfold m3_derive in H. apply m3_ext.
  all: match goal with |- ?p _ = _ => apply (zero_derive_const (fun t => p (f t))); intros u; apply (H u) end.
Qed.
Lemma flow_unique k n (Rs : R -> m3) : v3dot k k = 1 ->
  (forall t, m3_derive Rs t (m3mul (skew_x (v3neg (v3scal n k))) (Rs t))) -> forall t, Rs t = m3mul (flow k n (- t)) (Rs 0).
Proof.
  intros H HR t.
  (* flow(t) Rs(t) is constant *)
  assert (D : forall t, m3_derive (fun t => m3mul (flow k n t) (Rs t)) t m3zero).
  { intros u. eapply m3_derive_eq; [apply m3d_mul; [apply flow_derive; auto|apply HR]|]. cbv beta.
    assert (Cm : m3mul (skew_x k) (flow k n u) = m3mul (flow k n u) (skew_x k)).
    { unfold flow. generalize (skew_x k) (sin (n * u)) (cos (n * u)). intros K s c. apply m3_ext; simpl; ring. }
    rewrite Cm. generalize (flow k n u) (Rs u). intros A B.
    replace (skew_x (v3neg (v3scal n k))) with (m3scal (- n) (skew_x k)) by (apply m3_ext; simpl; ring).
    generalize (skew_x k). intros K. rewrite <- m3mul_assoc.
    replace (m3mul A (m3scal (- n) K)) with (m3scal (- n) (m3mul A K)) by (apply m3_ext; simpl; ring).
    generalize (m3mul A K). intros M. apply m3_ext; simpl; ring. }
  pose proof (zero_derive_m3 _ D t) as E. cbv beta in E. rewrite flow_0, m3mul_id_l in E.
  (* flow(-t) flow(t) = I *)
  assert (D2 : forall t, m3_derive (fun t => m3mul (flow k n (- t)) (flow k n t)) t m3zero).
  { intros u.
    assert (Dn : m3_derive (fun t => flow k n (- t)) u (m3scal (- n) (m3mul (skew_x k) (flow k n (- u))))).
    { apply (m3_derive_ext (fun t => m3tr (flow k n t))); [intros v; apply flow_tr|].
      eapply m3_derive_eq; [apply m3d_tr, flow_derive; auto|].
      rewrite <- flow_tr. unfold flow. generalize (sin (n * u)) (cos (n * u)). intros s c. apply m3_ext; simpl; ring. }
    eapply m3_derive_eq; [apply m3d_mul; [exact Dn|apply flow_derive; auto]|]. cbv beta.
    assert (Cm : m3mul (skew_x k) (flow k n (- u)) = m3mul (flow k n (- u)) (skew_x k)).
    { unfold flow. generalize (skew_x k) (sin (n * - u)) (cos (n * - u)). intros K s c. apply m3_ext; simpl; ring. }
    rewrite Cm. generalize (flow k n (- u)) (flow k n u) (skew_x k). intros A B K.
    replace (m3mul A (m3scal n (m3mul K B))) with (m3scal n (m3mul (m3mul A K) B)) by (rewrite m3mul_assoc; generalize (m3mul K B); intros; apply m3_ext; simpl; ring).
    generalize (m3mul A K). intros M. apply m3_ext; simpl; ring. }
  pose proof (zero_derive_m3 _ D2 t) as E2. cbv beta in E2. rewrite Ropp_0, flow_0, m3mul_id_l in E2.
  rewrite <- E, <- m3mul_assoc, E2, m3mul_id_l. reflexivity.
Qed.

(** ** integrals of the flow: Xi_1, Xi_2 *)
Definition xi1 (k : v3) (n t : R) : m3 :=
  m3add (m3add (m3scal t m3id) (m3scal ((1 - cos (n * t)) / n) (skew_x k))) (m3scal (t - sin (n * t) / n) (m3mul (skew_x k) (skew_x k))).
Definition xi2 (k : v3) (n t : R) : m3 :=
  m3add (m3add (m3scal (1 / 2 * t ^ 2) m3id) (m3scal ((n * t - sin (n * t)) / n ^ 2) (skew_x k)))
        (m3scal (1 / 2 * t ^ 2 - (1 - cos (n * t)) / n ^ 2) (m3mul (skew_x k) (skew_x k))).
Lemma xi1_derive k n t : n <> 0 -> m3_derive (xi1 k n) t (flow k n t).
Proof.
  intros H.
  assert (D1 : is_derive (fun t : R => (1 - cos (n * t)) / n) t (sin (n * t))) by (auto_derive; [auto|field; auto]).
  assert (D2 : is_derive (fun t : R => t - sin (n * t) / n) t (1 - cos (n * t))) by (auto_derive; [auto|field; auto]).
  assert (D0 : is_derive (fun t : R => t) t 1) by (auto_derive; auto).
  eapply m3_derive_eq.
  { unfold xi1. apply m3d_add; [apply m3d_add; [apply (m3d_scalf (fun t => t)); [exact D0|apply m3d_const]|apply m3d_scalf; [exact D1|apply m3d_const]]|apply m3d_scalf; [exact D2|apply m3d_const]]. }
  unfold flow. generalize (m3mul (skew_x k) (skew_x k)) (skew_x k). intros K2 K. generalize (sin (n * t)) (cos (n * t)). intros s c. apply m3_ext; simpl; ring.
Qed.
Lemma xi2_derive k n t : n <> 0 -> m3_derive (xi2 k n) t (xi1 k n t).
Proof.
  intros H.
  assert (D1 : is_derive (fun t : R => (n * t - sin (n * t)) / n ^ 2) t ((1 - cos (n * t)) / n)) by (auto_derive; [auto|field; auto]).
  assert (D2 : is_derive (fun t : R => 1 / 2 * t ^ 2 - (1 - cos (n * t)) / n ^ 2) t (t - sin (n * t) / n)) by (auto_derive; [auto|field; auto]).
  assert (D0 : is_derive (fun t : R => 1 / 2 * t ^ 2) t t) by (auto_derive; [auto|field]).
  eapply m3_derive_eq.
  { unfold xi2. apply m3d_add; [apply m3d_add; [apply m3d_scalf; [exact D0|apply m3d_const]|apply m3d_scalf; [exact D1|apply m3d_const]]|apply m3d_scalf; [exact D2|apply m3d_const]]. }
  unfold xi1. generalize (m3mul (skew_x k) (skew_x k)) (skew_x k). intros K2 K. generalize (sin (n * t)) (cos (n * t)). intros s c. apply m3_ext; simpl; ring.
Qed.
Lemma xi1_0 k n : n <> 0 -> xi1 k n 0 = m3zero.
Proof. intros. unfold xi1. rewrite Rmult_0_r, sin_0, cos_0. apply m3_ext; simpl; field; auto. Qed.
Lemma xi2_0 k n : n <> 0 -> xi2 k n 0 = m3zero.
Proof. intros. unfold xi2. rewrite Rmult_0_r, sin_0, cos_0. apply m3_ext; simpl; field; auto. Qed.

Lemma compute_Xi_large dt w a : small_bound <= v3norm w ->
  let k := v3div w (v3norm w) in let X := compute_Xi_sum dt w a in
  xi_R X = exp_so3 (v3scal (- dt) w) /\ xi_1 X = xi1 k (v3norm w) dt /\ xi_2 X = xi2 k (v3norm w) dt /\ xi_Jr X = Jr_so3 (v3scal (- dt) w).
Proof.
  intros H k X. unfold X, compute_Xi_sum.
  pose proof small_bound_gt.
  destruct (Rltb_spec (1 / 10 ^ 12) (v3norm w)); [|lra].
  destruct (Rltb_spec (v3norm w) (1 / 180 * PI / 2)); [unfold small_bound in *; lra|].
  cbn [xi_R xi_1 xi_2 xi_Jr]. fold k.
  assert (E : v3scal dt (v3neg w) = v3scal (- dt) w) by (apply v3_ext; simpl; ring). rewrite E.
  split; [reflexivity|]. split; [|split; [|reflexivity]].
  - unfold m3sum, xi1; cbn [fold_left]. generalize (m3mul (skew_x k) (skew_x k)) (skew_x k). intros. apply m3_ext; simpl; ring.
  - unfold m3sum, xi2; cbn [fold_left]. generalize (m3mul (skew_x k) (skew_x k)) (skew_x k). intros. apply m3_ext; simpl; ring.
Qed.

Lemma analytic_rot g x dt w a : unit_q (iv_q (ps_imu x)) -> (v3norm (v3scal (- dt) w) = 0 \/ 1 / 10 ^ 7 <= v3norm (v3scal (- dt) w)) ->
  quat_2_Rot (mn_q (predict_mean_analytic g x dt a (compute_Xi_sum dt w a))) = m3mul (exp_so3 (v3scal (- dt) w)) (quat_2_Rot (iv_q (ps_imu x))).
Proof.
  intros U H. unfold predict_mean_analytic; cbn [mn_q].
  assert (E : xi_R (compute_Xi_sum dt w a) = exp_so3 (v3scal (- dt) w)).
  { unfold compute_Xi_sum. replace (v3scal dt (v3neg w)) with (v3scal (- dt) w) by (apply v3_ext; simpl; ring).
    destruct (Rltb (v3norm w) (1 / 180 * PI / 2)); reflexivity. }
  rewrite E. destruct (rot_2_quat_spec (exp_so3 (v3scal (- dt) w))) as (U1 & _ & E1); [apply exp_so3_is_rot; auto|].
  rewrite quat_multiply_rot by auto. rewrite E1. reflexivity.
Qed.

(** C69: every trajectory of the constant-rate kinematics ends in the predicted mean *)
Lemma analytic_exact g x dt w a Rs v p : unit_q (iv_q (ps_imu x)) -> 0 < dt -> small_bound <= v3norm w -> 1 / 10 ^ 7 <= dt * v3norm w ->
  kinematics w a g Rs v p -> Rs 0 = quat_2_Rot (iv_q (ps_imu x)) -> v 0 = iv_v (ps_imu x) -> p 0 = iv_p (ps_imu x) ->
  let n := predict_mean_analytic g x dt a (compute_Xi_sum dt w a) in
  Rs dt = quat_2_Rot (mn_q n) /\ v dt = mn_v n /\ p dt = mn_p n.
Proof.
  intros U Hd Hw Ht HK R0 v0 p0 n.
  pose proof small_bound_gt as SB.
  assert (P : 0 < v3norm w) by lra.
  assert (Nn : v3norm (v3scal (- dt) w) = dt * v3norm w) by (rewrite v3norm_scal, Rabs_Ropp, Rabs_pos_eq by lra; reflexivity).
  destruct (compute_Xi_large dt w a Hw) as (E1 & E2 & E3 & _).
  set (k := v3div w (v3norm w)) in *. set (nn := v3norm w) in *.
  assert (Kk : v3dot k k = 1) by (apply unit_axis; auto).
  assert (Ek : v3scal nn k = w) by (unfold k; apply v3_ext; simpl; field; lra).
  assert (F1 : forall t, Rs t = m3mul (flow k nn (- t)) (quat_2_Rot (iv_q (ps_imu x)))).
  { intros t. rewrite <- R0. apply flow_unique; auto. intros u. rewrite Ek. apply HK. }
  set (Q := quat_2_Rot (iv_q (ps_imu x))) in *.
  assert (FT : forall t, m3tr (Rs t) = m3mul (m3tr Q) (flow k nn t)).
  { intros t. rewrite F1, m3tr_mul, flow_tr, Ropp_involutive. reflexivity. }
  assert (Fv : forall t, v t = v3sub (v3add (v 0) (m3v (m3mul (m3tr Q) (xi1 k nn t)) a)) (v3scal t g)).
  { apply (same_derive_v3 _ _ (fun t => v3sub (m3v (m3tr (Rs t)) a) g)).
    - intros t. apply HK.
    - intros t. assert (D0 : is_derive (fun t : R => t) t 1) by (auto_derive; auto).
      eapply v3_derive_eq.
      { apply v3d_sub; [apply v3d_add; [apply v3d_const|apply v3d_mv; [apply m3d_mul; [apply m3d_const|apply xi1_derive; lra]|apply v3d_const]]|
          apply (v3d_scalf (fun t => t)); [exact D0|apply v3d_const]]. }
      rewrite FT. cbv beta. generalize (flow k nn t) (xi1 k nn t). intros A B. generalize (m3mul (m3tr Q) A). intros C.
      replace (m3mul m3zero B) with m3zero by (apply m3_ext; simpl; ring). apply v3_ext; simpl; ring.
    - rewrite xi1_0 by lra. apply v3_ext; simpl; ring. }
  assert (Fp : forall t, p t = v3sub (v3add (v3add (p 0) (v3scal t (v 0))) (m3v (m3mul (m3tr Q) (xi2 k nn t)) a)) (v3scal (/ 2 * t * t) g)).
  { apply (same_derive_v3 _ _ v).
    - intros t. apply HK.
    - intros t. assert (D0 : is_derive (fun t : R => t) t 1) by (auto_derive; auto).
      assert (D1 : is_derive (fun t : R => / 2 * t * t) t t) by (auto_derive; [auto|field]).
      eapply v3_derive_eq.
      { apply v3d_sub; [apply v3d_add; [apply v3d_add; [apply v3d_const|apply (v3d_scalf (fun t => t)); [exact D0|apply v3d_const]]|
             apply v3d_mv; [apply m3d_mul; [apply m3d_const|apply xi2_derive; lra]|apply v3d_const]]|
          apply v3d_scalf; [exact D1|apply v3d_const]]. }
      rewrite (Fv t). cbv beta. generalize (xi1 k nn t) (xi2 k nn t). intros A B. generalize (m3mul (m3tr Q) A). intros C.
      replace (m3mul m3zero B) with m3zero by (apply m3_ext; simpl; ring). apply v3_ext; simpl; ring.
    - rewrite xi2_0 by lra. apply v3_ext; simpl; ring. }
  split; [|split].
  - unfold n. rewrite analytic_rot by (auto; rewrite Nn; auto). rewrite F1. fold Q. f_equal.
    apply flow_exp; [exact P|]. rewrite Nn. exact Ht.
  - unfold n, predict_mean_analytic; cbn [mn_v]. rewrite Fv, E2, v0. reflexivity.
  - unfold n, predict_mean_analytic; cbn [mn_p]. rewrite Fp, E3, v0, p0. reflexivity.
Qed.

(** such trajectories exist *)
Lemma kinematics_exists w a g Q v0 p0 : 0 < v3norm w ->
  exists Rs v p, kinematics w a g Rs v p /\ Rs 0 = Q /\ v 0 = v0 /\ p 0 = p0 /\
    forall t, v t = v3sub (v3add v0 (m3v (m3mul (m3tr Q) (xi1 (v3div w (v3norm w)) (v3norm w) t)) a)) (v3scal t g).
Proof.
  intros P. set (nn := v3norm w) in *. set (k := v3div w nn).
  assert (Kk : v3dot k k = 1) by (apply unit_axis; auto).
  assert (Ek : v3scal nn k = w) by (unfold k; apply v3_ext; simpl; field; lra).
  exists (fun t => m3mul (m3tr (flow k nn t)) Q).
  exists (fun t => v3sub (v3add v0 (m3v (m3mul (m3tr Q) (xi1 k nn t)) a)) (v3scal t g)).
  exists (fun t => v3sub (v3add (v3add p0 (v3scal t v0)) (m3v (m3mul (m3tr Q) (xi2 k nn t)) a)) (v3scal (/ 2 * t * t) g)).
  split; [|split; [|split; [|split]]].
  - intros t. assert (D0 : is_derive (fun t : R => t) t 1) by (auto_derive; auto).
    assert (D1 : is_derive (fun t : R => / 2 * t * t) t t) by (auto_derive; [auto|field]).
    split; [|split].
    + eapply m3_derive_eq; [apply m3d_mul; [apply m3d_tr, flow_derive; auto|apply m3d_const]|]. cbv beta.
      rewrite <- Ek. 
      assert (Cm : m3tr (m3scal nn (m3mul (skew_x k) (flow k nn t))) = m3mul (skew_x (v3neg (v3scal nn k))) (m3tr (flow k nn t))).
      { unfold flow. generalize (sin (nn * t)) (cos (nn * t)). intros s c. apply m3_ext; simpl; ring. }
      rewrite Cm, <- m3mul_assoc. generalize (m3mul (m3mul (skew_x (v3neg (v3scal nn k))) (m3tr (flow k nn t))) Q) (m3tr (flow k nn t)). intros A B. apply m3_ext; simpl; ring.
    + eapply v3_derive_eq.
      { apply v3d_sub; [apply v3d_add; [apply v3d_const|apply v3d_mv; [apply m3d_mul; [apply m3d_const|apply xi1_derive; lra]|apply v3d_const]]|
          apply (v3d_scalf (fun t => t)); [exact D0|apply v3d_const]]. }
      cbv beta. rewrite m3tr_mul, m3tr_tr. generalize (flow k nn t) (xi1 k nn t). intros A B. generalize (m3mul (m3tr Q) A). intros C.
      replace (m3mul m3zero B) with m3zero by (apply m3_ext; simpl; ring). apply v3_ext; simpl; ring.
    + eapply v3_derive_eq.
      { apply v3d_sub; [apply v3d_add; [apply v3d_add; [apply v3d_const|apply (v3d_scalf (fun t => t)); [exact D0|apply v3d_const]]|
             apply v3d_mv; [apply m3d_mul; [apply m3d_const|apply xi2_derive; lra]|apply v3d_const]]|
          apply v3d_scalf; [exact D1|apply v3d_const]]. }
      cbv beta. generalize (xi1 k nn t) (xi2 k nn t). intros A B. generalize (m3mul (m3tr Q) A). intros C.
      replace (m3mul m3zero B) with m3zero by (apply m3_ext; simpl; ring). apply v3_ext; simpl; ring.
  - rewrite flow_0. apply m3_ext; simpl; ring.
  - rewrite xi1_0 by lra. apply v3_ext; simpl; ring.
  - rewrite xi2_0 by lra. apply v3_ext; simpl; ring.
  - reflexivity.
Qed.

(** ** below half a degree per second the coefficients are different ones *)
Lemma sin_gt_half t : 0 < t < 1 -> t / 2 < sin t.
Proof.
  intros H. destruct (MVT_gen sin 0 t cos) as (c & Hc & E).
  - intros x _. auto_derive; [auto|ring].
  - intros x _. apply continuity_sin.
  - rewrite Rmin_left, Rmax_right in Hc by lra. rewrite sin_0 in E.
    pose proof (one_minus_cos_le c ltac:(lra)) as Q. nra.
Qed.
Definition slow_w : v3 := V3 0 0 (1 / 200).
Lemma slow_norm : v3norm slow_w = 1 / 200.
Proof. unfold v3norm, v3dot, slow_w; simpl. replace (0 * 0 + 0 * 0 + 1 / 200 * (1 / 200)) with (1 / 200 * (1 / 200)) by ring. apply sqrt_square. lra. Qed.
Definition rest_state : pst :=
  mkPst KALIBR false false false (IVal (Q4 0 0 0 1) v3zero v3zero v3zero v3zero) (IVal (Q4 0 0 0 1) v3zero v3zero v3zero v3zero)
    (default_dw KALIBR) (default_dw KALIBR) (fun _ => 0) (Q4 0 0 0 1) (Q4 0 0 0 1).
Lemma id_q_rot : quat_2_Rot (Q4 0 0 0 1) = m3id.
Proof. apply m3_ext; simpl; ring. Qed.

Lemma analytic_slow_refuted :
  exists x dt w a g Rs v p, unit_q (iv_q (ps_imu x)) /\ 0 < dt <= 1 / 100 /\ 1 / 1000 < v3norm w < small_bound /\
    kinematics w a g Rs v p /\ Rs 0 = quat_2_Rot (iv_q (ps_imu x)) /\ v 0 = iv_v (ps_imu x) /\ p 0 = iv_p (ps_imu x) /\
    v dt <> mn_v (predict_mean_analytic g x dt a (compute_Xi_sum dt w a)).
Proof.
  assert (SB : 1 / 200 < small_bound) by (unfold small_bound; pose proof PI2_3_2; lra).
  destruct (kinematics_exists slow_w (V3 1 0 0) v3zero m3id v3zero v3zero ltac:(rewrite slow_norm; lra)) as (Rs & v & p & K & R0 & v0 & p0 & Fv).
  exists rest_state, (1 / 100), slow_w, (V3 1 0 0), v3zero, Rs, v, p.
  split; [unfold unit_q; simpl; ring|]. split; [lra|]. split; [rewrite slow_norm; lra|]. split; [exact K|].
  split; [rewrite R0; symmetry; exact id_q_rot|]. split; [exact v0|]. split; [exact p0|].
  rewrite Fv. unfold predict_mean_analytic; cbn [mn_v].
  change (quat_2_Rot (iv_q (ps_imu rest_state))) with (quat_2_Rot (Q4 0 0 0 1)). rewrite id_q_rot.
  unfold compute_Xi_sum. rewrite slow_norm.
  destruct (Rltb_spec (1 / 10 ^ 12) (1 / 200)); [|lra].
  destruct (Rltb_spec (1 / 200) (1 / 180 * PI / 2)); [|unfold small_bound in SB; lra].
  cbn [xi_1]. unfold xi1. intros E. apply (f_equal vy) in E. simpl in E.
  replace (1 / 200 * (1 / 100)) with (1 / 20000) in E by field.
  assert (S1 : 1 / 20000 / 2 < sin (1 / 20000)) by (apply sin_gt_half; lra).
  pose proof (one_minus_cos_le (1 / 20000) ltac:(lra)) as C1.
  set (s := sin (1 / 20000)) in *. set (c := cos (1 / 20000)) in *.
  field_simplify in E. nra.
Qed.

(** ** C70 *)
Lemma X3_v dt w a u : small_bound <= v3norm w ->
  let n := v3norm w in let k := v3div w n in let c := cos (n * dt) in let s := sin (n * dt) in
  let dth := n * dt in
  let kkw := v3sub (v3scal (v3dot k u) k) u in
  m3v (xi_3 (compute_Xi_sum dt w a)) u =
  v3add (v3add (v3add (v3add (v3add (v3scal (1 / 2 * dt ^ 2) (v3cross a u)) (v3scal ((s - dth) / n ^ 2) (v3cross a (v3cross k u))))
    (v3scal ((s - dth * c) / n ^ 2) (v3cross k (v3cross a u)))) (v3scal (1 / 2 * dt ^ 2 - (1 - c) / n ^ 2) (v3cross a kkw)))
    (v3scal ((1 / 2 * dt ^ 2 + (1 - c - dth * s) / n ^ 2) * v3dot k u) (v3cross k a)))
    (v3scal (- ((3 * s - 2 * dth - dth * c) / n ^ 2 * v3dot k a)) kkw) /\
  m3v (xi_4 (compute_Xi_sum dt w a)) u =
  v3add (v3add (v3add (v3add (v3add (v3scal (1 / 6 * dt ^ 3) (v3cross a u)) (v3scal ((2 * (1 - c) - dth ^ 2) / (2 * n ^ 3)) (v3cross a (v3cross k u))))
    (v3scal ((2 * (1 - c) - dth * s) / n ^ 3) (v3cross k (v3cross a u)))) (v3scal ((s - dth) / n ^ 3 + dt ^ 3 / 6) (v3cross a kkw)))
    (v3scal ((dth - 2 * s + 1 / 6 * dth ^ 3 + dth * c) / n ^ 3 * v3dot k u) (v3cross k a)))
    (v3scal ((4 * c - 4 + dth ^ 2 + dth * s) / n ^ 3 * v3dot k a) kkw).
Proof.
  intros H n k c s dth kkw.
  pose proof small_bound_gt.
  assert (Kk : v3dot k k = 1) by (apply unit_axis; lra).
  unfold compute_Xi_sum. fold n.
  fold n in H.
  destruct (Rltb_spec (1 / 10 ^ 12) n); [|lra].
  destruct (Rltb_spec n (1 / 180 * PI / 2)); [unfold small_bound in *; lra|].
  cbn [xi_3 xi_4]. fold k c s dth.
  pose proof (triple k a u Kk) as T. pose proof (K2_v k u Kk) as K2. fold kkw in K2.
  assert (Z : m3v (m3scal 0 m3id) u = v3zero) by (apply v3_ext; simpl; ring).
  unfold m3sum; cbn [fold_left].
  set (KK := m3mul (skew_x k) (skew_x k)) in *.
  assert (T' : m3v (m3add (m3mul KK (skew_x a)) (m3scal (v3dot k a) (skew_x k))) u = v3scal (v3dot k u) (v3cross k a)).
  { rewrite m3v_addm, m3v_scalm. exact T. }
  set (TT := m3add (m3mul KK (skew_x a)) (m3scal (v3dot k a) (skew_x k))) in *. clearbody TT.
  split; rewrite !m3v_addm, !m3v_scalm, !m3v_mul, T', K2, m3v_id, !skew_cross;
    apply v3_ext; cbn [v3add v3scal vx vy vz]; ring.
Qed.

Section XiCurve.
  Variables (dt : R) (ws as_ : R -> v3) (w' a' : v3).
  Hypothesis Hw : v3_derive ws 0 w'.
  Hypothesis Ha : v3_derive as_ 0 a'.
  Hypothesis Hn : small_bound < v3norm (ws 0).
  Let n := fun s => v3norm (ws s).
  Let k := fun s => v3scal (/ n s) (ws s).
  Let k0 := k 0.
  Let n' := v3dot k0 w'.
  Let k' := v3scal (/ n 0) (v3sub w' (v3scal n' k0)).

  Lemma n0_pos : 0 < n 0.
  Proof. pose proof small_bound_gt. unfold n. lra. Qed.
  Lemma n_der : is_derive n 0 n'.
  Proof.
    pose proof n0_pos as P. eapply is_derive_eq; [apply norm_derive; [exact Hw|exact P]|].
    unfold n', k0, k, v3dot. fold (n 0). simpl. field. unfold n in *; lra.
  Qed.
  Lemma k_der : v3_derive k 0 k'.
  Proof.
    pose proof n0_pos as P. pose proof n_der as D.
    assert (Di : is_derive (fun s => / n s) 0 (- n' / n 0 ^ 2)).
    { apply is_derive_inv; [exact D|lra]. }
    eapply v3_derive_eq; [apply v3d_scalf; [exact Di|exact Hw]|].
    unfold k', k0, k. generalize n'. intros m. apply v3_ext; simpl; field; lra.
  Qed.
  Lemma k_unit : v3dot k0 k0 = 1.
  Proof. unfold k0, k. pose proof n0_pos. replace (v3scal (/ n 0) (ws 0)) with (v3div (ws 0) (v3norm (ws 0))) by (apply v3_ext; simpl; unfold n; field; unfold n in *; lra). apply unit_axis. unfold n in *; lra. Qed.

  Lemma v3d_cross f h x fa ha : v3_derive f x fa -> v3_derive h x ha -> v3_derive (fun t => v3cross (f t) (h t)) x (v3add (v3cross fa (h x)) (v3cross (f x) ha)).
  Proof.
    intros (F1 & F2 & F3) (H1 & H2 & H3). split; [|split]; cbn [v3cross v3add vx vy vz];
    (eapply is_derive_eq; [apply der_minus; apply der_mult; eassumption|]); cbv beta; ring.
  Qed.
  Lemma d_dot f h x fa ha : v3_derive f x fa -> v3_derive h x ha -> is_derive (fun t => v3dot (f t) (h t)) x (v3dot fa (h x) + v3dot (f x) ha).
  Proof.
    intros (F1 & F2 & F3) (H1 & H2 & H3). unfold v3dot.
    eapply is_derive_eq; [apply der_plus; [apply der_plus|]; apply der_mult; eassumption|]. cbv beta; ring.
  Qed.

  (** the common shape of Xi_1 a and Xi_2 a *)
  Lemma shape_der (c0 : R) (f1 f2 : R -> R) (d1 d2 : R) : is_derive f1 0 d1 -> is_derive f2 0 d2 ->
    v3_derive (fun s => v3add (v3add (v3scal c0 (as_ s)) (v3scal (f1 s) (v3cross (k s) (as_ s))))
                          (v3scal (f2 s) (v3sub (v3scal (v3dot (k s) (as_ s)) (k s)) (as_ s)))) 0
      (v3add (v3add (v3scal c0 a') (v3add (v3scal d1 (v3cross k0 (as_ 0))) (v3scal (f1 0) (v3add (v3cross k' (as_ 0)) (v3cross k0 a')))))
         (v3add (v3scal d2 (v3sub (v3scal (v3dot k0 (as_ 0)) k0) (as_ 0)))
            (v3scal (f2 0) (v3sub (v3add (v3scal (v3dot k' (as_ 0) + v3dot k0 a') k0) (v3scal (v3dot k0 (as_ 0)) k')) a')))).
  Proof.
    intros D1 D2. pose proof k_der as Dk.
    apply v3d_add; [apply v3d_add; [apply v3d_scal; exact Ha|apply v3d_scalf; [exact D1|apply v3d_cross; [exact Dk|exact Ha]]]|].
    apply v3d_scalf; [exact D2|]. apply v3d_sub; [|exact Ha]. apply v3d_scalf; [apply d_dot; [exact Dk|exact Ha]|exact Dk].
  Qed.

  Lemma near_large : locally 0 (fun s => small_bound <= v3norm (ws s)).
  Proof.
    pose proof n_der as D.
    assert (Ct : continuous n 0) by (apply (ex_derive_continuous (K:=R_AbsRing) (V:=R_NormedModule)); eexists; exact D).
    assert (O1 : locally (n 0) (fun y => small_bound < y)) by (apply open_gt; exact Hn).
    eapply filter_imp; [|exact (Ct _ O1)]. intros s Hs. cbv beta in Hs. unfold n in Hs. lra.
  Qed.

  Lemma Xi_shape s : small_bound <= v3norm (ws s) ->
    m3v (xi_1 (compute_Xi_sum dt (ws s) (as_ s))) (as_ s) =
      v3add (v3add (v3scal dt (as_ s)) (v3scal ((1 - cos (n s * dt)) / n s) (v3cross (k s) (as_ s))))
            (v3scal (dt - sin (n s * dt) / n s) (v3sub (v3scal (v3dot (k s) (as_ s)) (k s)) (as_ s))) /\
    m3v (xi_2 (compute_Xi_sum dt (ws s) (as_ s))) (as_ s) =
      v3add (v3add (v3scal (1 / 2 * dt ^ 2) (as_ s)) (v3scal ((n s * dt - sin (n s * dt)) / n s ^ 2) (v3cross (k s) (as_ s))))
            (v3scal (1 / 2 * dt ^ 2 - (1 - cos (n s * dt)) / n s ^ 2) (v3sub (v3scal (v3dot (k s) (as_ s)) (k s)) (as_ s))).
  Proof.
    intros H. pose proof small_bound_gt.
    destruct (compute_Xi_large dt (ws s) (as_ s) H) as (_ & E1 & E2 & _).
    assert (Ek : v3div (ws s) (v3norm (ws s)) = k s) by (unfold k, n; apply v3_ext; simpl; field; lra).
    assert (Kk : v3dot (k s) (k s) = 1) by (rewrite <- Ek; apply unit_axis; lra).
    rewrite E1, E2, Ek. unfold xi1, xi2. fold (n s).
    rewrite !m3v_addm, !m3v_scalm, m3v_id, K2_v, skew_cross by auto. split; reflexivity.
  Qed.

  Lemma Xi_der :
    v3_derive (fun s => m3v (xi_1 (compute_Xi_sum dt (ws s) (as_ s))) (as_ s)) 0
      (v3sub (m3v (xi_1 (compute_Xi_sum dt (ws 0) (as_ 0))) a') (m3v (xi_3 (compute_Xi_sum dt (ws 0) (as_ 0))) w')) /\
    v3_derive (fun s => m3v (xi_2 (compute_Xi_sum dt (ws s) (as_ s))) (as_ s)) 0
      (v3sub (m3v (xi_2 (compute_Xi_sum dt (ws 0) (as_ 0))) a') (m3v (xi_4 (compute_Xi_sum dt (ws 0) (as_ 0))) w')).
  Proof.
    pose proof n0_pos as P. pose proof n_der as D. pose proof k_unit as Kk.
    assert (H0 : small_bound <= v3norm (ws 0)) by lra.
    assert (Ek : v3div (ws 0) (v3norm (ws 0)) = k0) by (unfold k0, k, n; apply v3_ext; simpl; field; unfold n in P; lra).
    destruct (compute_Xi_large dt (ws 0) (as_ 0) H0) as (_ & E1 & E2 & _).
    destruct (X3_v dt (ws 0) (as_ 0) w' H0) as (E3 & E4). cbv zeta in E3, E4. rewrite Ek in E1, E2, E3, E4. fold (n 0) in E1, E2, E3, E4.
    assert (Ex : ex_derive n 0) by (eexists; exact D).
    assert (Dn : Derive n 0 = n') by (apply is_derive_unique; exact D).
    assert (L1 := filter_imp _ _ (fun s Hs => proj1 (Xi_shape s Hs)) near_large).
    assert (L2 := filter_imp _ _ (fun s Hs => proj2 (Xi_shape s Hs)) near_large).
    assert (Dx : v3norm (ws 0) = n 0) by reflexivity.
    assert (S1 : v3_derive (fun s => v3add (v3add (v3scal dt (as_ s)) (v3scal ((1 - cos (n s * dt)) / n s) (v3cross (k s) (as_ s))))
                 (v3scal (dt - sin (n s * dt) / n s) (v3sub (v3scal (v3dot (k s) (as_ s)) (k s)) (as_ s)))) 0
              (v3sub (m3v (xi_1 (compute_Xi_sum dt (ws 0) (as_ 0))) a') (m3v (xi_3 (compute_Xi_sum dt (ws 0) (as_ 0))) w'))).
    { assert (F1 : is_derive (fun s => (1 - cos (n s * dt)) / n s) 0 (n' * (dt * sin (n 0 * dt) / n 0 - (1 - cos (n 0 * dt)) / n 0 ^ 2))).
      { clearbody n. auto_derive; [repeat split; auto; lra|]. change (Derive (fun x => n x) 0) with (Derive n 0). rewrite Dn. field. lra. }
      assert (F2 : is_derive (fun s => dt - sin (n s * dt) / n s) 0 (n' * (sin (n 0 * dt) / n 0 ^ 2 - dt * cos (n 0 * dt) / n 0))).
      { clearbody n. auto_derive; [repeat split; auto; lra|]. change (Derive (fun x => n x) 0) with (Derive n 0). rewrite Dn. field. lra. }
      eapply v3_derive_eq; [apply (shape_der dt _ _ _ _ F1 F2)|].
      rewrite E1, E3. unfold xi1. rewrite !m3v_addm, !m3v_scalm, m3v_id, (K2_v k0) by auto.
      unfold k', n'. generalize k0 (n 0) P. intros kk nn Pn. generalize (sin (nn * dt)) (cos (nn * dt)) (as_ 0) w' a'. clear - Pn. intros s c a w b.
      unfold v3dot. apply v3_ext; simpl; field; lra. }
    assert (S2 : v3_derive (fun s => v3add (v3add (v3scal (1 / 2 * dt ^ 2) (as_ s)) (v3scal ((n s * dt - sin (n s * dt)) / n s ^ 2) (v3cross (k s) (as_ s))))
                 (v3scal (1 / 2 * dt ^ 2 - (1 - cos (n s * dt)) / n s ^ 2) (v3sub (v3scal (v3dot (k s) (as_ s)) (k s)) (as_ s)))) 0
              (v3sub (m3v (xi_2 (compute_Xi_sum dt (ws 0) (as_ 0))) a') (m3v (xi_4 (compute_Xi_sum dt (ws 0) (as_ 0))) w'))).
    { assert (F1 : is_derive (fun s => (n s * dt - sin (n s * dt)) / n s ^ 2) 0 (n' * ((dt - dt * cos (n 0 * dt)) / n 0 ^ 2 - 2 * (n 0 * dt - sin (n 0 * dt)) / n 0 ^ 3))).
      { clearbody n. auto_derive; [repeat split; auto; nra|]. change (Derive (fun x => n x) 0) with (Derive n 0). rewrite Dn. field. lra. }
      assert (F2 : is_derive (fun s => 1 / 2 * dt ^ 2 - (1 - cos (n s * dt)) / n s ^ 2) 0 (n' * (2 * (1 - cos (n 0 * dt)) / n 0 ^ 3 - dt * sin (n 0 * dt) / n 0 ^ 2))).
      { clearbody n. auto_derive; [repeat split; auto; nra|]. change (Derive (fun x => n x) 0) with (Derive n 0). rewrite Dn. field. lra. }
      eapply v3_derive_eq; [apply (shape_der (1 / 2 * dt ^ 2) _ _ _ _ F1 F2)|].
      rewrite E2, E4. unfold xi2. rewrite !m3v_addm, !m3v_scalm, m3v_id, (K2_v k0) by auto.
      unfold k', n'. generalize k0 (n 0) P. intros kk nn Pn. generalize (sin (nn * dt)) (cos (nn * dt)) (as_ 0) w' a'. clear - Pn. intros s c a w b.
      unfold v3dot. apply v3_ext; simpl; field; lra. }
    split.
    - eapply v3_derive_ext_loc; [|exact S1]. eapply filter_imp; [|exact L1]. intros s Hs. symmetry. exact Hs.
    - eapply v3_derive_ext_loc; [|exact S2]. eapply filter_imp; [|exact L2]. intros s Hs. symmetry. exact Hs.
  Qed.
End XiCurve.

(** ** velocity of the analytic mean along a curve *)

Lemma ana_th g (xs : R -> pst) (ws as_ : R -> v3) dt th w' (Hu : forall s, unit_q (iv_q (ps_imu (xs s)))) :
  0 < dt -> fast_rate dt (ws 0) -> v3_derive ws 0 w' ->
  m3_derive (fun s => quat_2_Rot (iv_q (ps_imu (xs s)))) 0 (m3mul (m3scal (-1) (skew_x th)) (quat_2_Rot (iv_q (ps_imu (xs 0))))) ->
  let n := fun s => predict_mean_analytic g (xs s) dt (as_ s) (compute_Xi_sum dt (ws s) (as_ s)) in
  quat_2_Rot (mn_q (n 0)) = m3mul (true_E dt (ws 0)) (quat_2_Rot (iv_q (ps_imu (xs 0)))) /\ is_rot (true_E dt (ws 0)) /\
  m3_derive (fun s => quat_2_Rot (mn_q (n s))) 0
    (m3mul (skew_x (v3neg (v3add (m3v (true_E dt (ws 0)) th) (v3scal dt (m3v (true_J dt (ws 0)) w'))))) (quat_2_Rot (mn_q (n 0)))).
Proof.
  intros Hd (H1 & A6) Hw HR n. pose proof small_bound_gt as SB.
  assert (P0 : 0 < v3norm (ws 0)) by lra.
  assert (Nn : v3norm (v3scal (- dt) (ws 0)) = dt * v3norm (ws 0)).
  { rewrite v3norm_scal, Rabs_Ropp, Rabs_pos_eq by lra. reflexivity. }
  assert (E0 : quat_2_Rot (mn_q (n 0)) = m3mul (true_E dt (ws 0)) (quat_2_Rot (iv_q (ps_imu (xs 0))))).
  { unfold n, true_E. rewrite analytic_rot; auto. rewrite Nn. right; lra. }
  assert (RE : is_rot (true_E dt (ws 0))) by (apply exp_so3_is_rot; right; rewrite Nn; lra).
  split; [exact E0|]. split; [exact RE|].
  assert (Dn : is_derive (fun s => v3norm (ws s)) 0 (v3dot (ws 0) w' / v3norm (ws 0))) by (apply norm_derive; auto).
  apply (m3_derive_ext_loc (fun s => m3mul (exp_so3 (v3scal (- dt) (ws s))) (quat_2_Rot (iv_q (ps_imu (xs s)))))).
  { assert (Ct : continuous (fun s => v3norm (ws s)) 0) by (apply (ex_derive_continuous (K:=R_AbsRing) (V:=R_NormedModule)); eexists; exact Dn).
    assert (O2 : locally (v3norm (ws 0)) (fun y => 1 / 10 ^ 6 / dt < y)).
    { apply open_gt. apply Rmult_lt_reg_l with dt; auto. replace (dt * (1 / 10 ^ 6 / dt)) with (1 / 10 ^ 6) by (field; lra). exact A6. }
    eapply filter_imp; [|exact (Ct _ O2)].
    intros s B2. cbv beta in *. unfold n. rewrite analytic_rot; auto.
    right. rewrite v3norm_scal, Rabs_Ropp, Rabs_pos_eq by lra.
    apply Rmult_lt_compat_l with (r := dt) in B2; auto.
    replace (dt * (1 / 10 ^ 6 / dt)) with (1 / 10 ^ 6) in B2 by (field; lra). lra. }
  eapply m3_derive_eq.
  + apply m3d_mul; [apply (exp_so3_curve (fun s => v3scal (- dt) (ws s))); [apply v3d_scal; exact Hw|cbv beta; rewrite Nn; lra]|exact HR].
  + cbv beta. rewrite E0. fold (true_E dt (ws 0)) (true_J dt (ws 0)).
    rewrite <- (m3mul_assoc (true_E dt (ws 0)) (m3scal (-1) (skew_x th))).
    replace (m3mul (true_E dt (ws 0)) (m3scal (-1) (skew_x th))) with (m3scal (-1) (m3mul (true_E dt (ws 0)) (skew_x th))) by (apply m3_ext; simpl; ring).
    rewrite rot_skew by auto.
    generalize (true_E dt (ws 0)) (true_J dt (ws 0)) (quat_2_Rot (iv_q (ps_imu (xs 0)))). intros A B C.
    generalize (m3v A th). intros u.
    replace (m3v B (v3scal (- dt) w')) with (v3scal (- dt) (m3v B w')) by (apply v3_ext; simpl; ring).
    generalize (m3v B w'). intros z. clear - u z. apply m3_ext; simpl; ring.
Qed.

Lemma ana_velocity g x m p e : pst_ok x -> 0 < i_t p - i_t m -> fast_rate (i_t p - i_t m) (w_av x m p) ->
  let dt := i_t p - i_t m in
  let RT := m3tr (quat_2_Rot (iv_q (ps_imu x))) in
  let c := correct x m p in let X := compute_Xi_sum dt (c_wavg c) (c_aavg c) in
  let a' := vel_a x e (c_aunc c) in let w' := vel_w x e (c_wunc c) (c_aunc c) in
  let d := fun X1 X3 => v3add (v3scal (-1) (m3v (m3mul (skew_x (m3v RT (m3v X1 (c_aavg c)))) RT) (d_th e))) (m3v RT (v3sub (m3v X1 a') (m3v X3 w'))) in
  mean_velocity (fun s => predict_mean ANALYTICAL g (perturb x e s) m p)
    (v3add (m3v (true_E dt (c_wavg c)) (d_th e)) (v3scal dt (m3v (true_J dt (c_wavg c)) w')))
    (v3add (v3add (d_p e) (v3scal dt (d_v e))) (d (xi_2 X) (xi_4 X)))
    (v3add (d_v e) (d (xi_1 X) (xi_3 X))).
Proof.
  intros H Hd Hr dt RT c X a' w' d.
  destruct (pert_R x e H) as [DR ER].
  pose proof (vel_w_ok x e m p H) as Dw. pose proof (vel_a_ok x e m p H) as Da. fold c in Dw, Da. fold w' in Dw. fold a' in Da.
  assert (Rr : is_rot (quat_2_Rot (iv_q (ps_imu x)))) by (apply quat_2_Rot_is_rot; destruct H; auto).
  pose proof (correct_0 x e m p H) as C0. fold c in C0.
  assert (Xd := Xi_der dt (fun s => c_wavg (correct (perturb x e s) m p)) (fun s => c_aavg (correct (perturb x e s) m p)) w' a' Dw Da).
  cbv beta in Xd. rewrite C0 in Xd. specialize (Xd (proj1 Hr)). fold X in Xd. destruct Xd as [X1d X2d].
  assert (RTd : forall Y : R -> v3, forall y', v3_derive Y 0 y' ->
     v3_derive (fun s => m3v (m3tr (quat_2_Rot (iv_q (ps_imu (perturb x e s))))) (Y s)) 0
       (v3add (v3scal (-1) (m3v (m3mul (skew_x (m3v RT (Y 0))) RT) (d_th e))) (m3v RT y'))).
  { intros Y y' HY. eapply v3_derive_eq; [apply (RTa_derive (fun s => quat_2_Rot (iv_q (ps_imu (perturb x e s)))) _ (d_th e)); [|cbv beta; rewrite ER; exact Rr|exact HY]|].
    - cbv beta. rewrite ER. exact DR.
    - cbv beta. rewrite ER. reflexivity. }
  apply RTd in X1d. apply RTd in X2d. cbv beta in X1d, X2d. rewrite C0 in X1d, X2d. fold X in X1d, X2d.
  split; [|split].
  - pose proof (ana_th g (fun s => perturb x e s) (fun s => c_wavg (correct (perturb x e s) m p)) (fun s => c_aavg (correct (perturb x e s) m p)) dt (d_th e)
       w' (fun s => pert_unit x e s H) Hd) as T.
    cbv beta zeta in T. rewrite ER, C0 in T.
    destruct (T Hr Dw DR) as (_ & _ & T3). unfold predict_mean. rewrite C0. exact T3.
  - apply (v3_derive_ext (fun s => v3sub (v3add (v3add (iv_p (ps_imu (perturb x e s))) (v3scal dt (iv_v (ps_imu (perturb x e s)))))
        (m3v (m3tr (quat_2_Rot (iv_q (ps_imu (perturb x e s))))) (m3v (xi_2 (compute_Xi_sum dt (c_wavg (correct (perturb x e s) m p)) (c_aavg (correct (perturb x e s) m p)))) (c_aavg (correct (perturb x e s) m p)))))
        (v3scal (/ 2 * dt * dt) g))).
    { intros s. unfold predict_mean, predict_mean_analytic; cbn [mn_p]. rewrite m3v_mul. reflexivity. }
    eapply v3_derive_eq.
    + apply v3d_sub; [apply v3d_add; [apply v3d_add; [apply (shift_derive (d_p e) (iv_p (ps_imu x)))|apply v3d_scal; apply (shift_derive (d_v e) (iv_v (ps_imu x)))]|exact X2d]|apply v3d_const].
    + unfold d. match goal with |- v3sub (v3add _ ?z) _ = _ => generalize z end. intros z. generalize (v3scal dt (d_v e)). intros u. apply v3_ext; simpl; ring.
  - apply (v3_derive_ext (fun s => v3sub (v3add (iv_v (ps_imu (perturb x e s)))
        (m3v (m3tr (quat_2_Rot (iv_q (ps_imu (perturb x e s))))) (m3v (xi_1 (compute_Xi_sum dt (c_wavg (correct (perturb x e s) m p)) (c_aavg (correct (perturb x e s) m p)))) (c_aavg (correct (perturb x e s) m p)))))
        (v3scal dt g))).
    { intros s. unfold predict_mean, predict_mean_analytic; cbn [mn_v]. rewrite m3v_mul. reflexivity. }
    eapply v3_derive_eq.
    + apply v3d_sub; [apply v3d_add; [apply (shift_derive (d_v e) (iv_v (ps_imu x)))|exact X1d]|apply v3d_const].
    + unfold d. match goal with |- v3sub (v3add _ ?z) _ = _ => generalize z end. intros z. apply v3_ext; simpl; ring.
Qed.

Lemma ana_dRJ g x m p : pst_ok x -> fej_inactive x -> 0 < i_t p - i_t m -> fast_rate (i_t p - i_t m) (w_av x m p) ->
  let dt := i_t p - i_t m in
  let n := predict_mean ANALYTICAL g x m p in
  let dR := m3mul (quat_2_Rot (mn_q n)) (m3tr (quat_2_Rot (iv_q (lin_point x)))) in
  dR = true_E dt (w_av x m p) /\ m3mul dR (xi_Jr (compute_Xi_sum dt (w_av x m p) (a_av x m p))) = true_J dt (w_av x m p).
Proof.
  intros H Hf Hd (H1 & A6) dt n dR. pose proof small_bound_gt.
  assert (EL : lin_point x = ps_imu x) by (unfold lin_point; destruct Hf as [->| ->]; [reflexivity|destruct (ps_dofej x); reflexivity]).
  assert (U : unit_q (iv_q (ps_imu x))) by (destruct H; auto).
  assert (Rr : is_rot (quat_2_Rot (iv_q (ps_imu x)))) by (apply quat_2_Rot_is_rot; auto).
  assert (RRT : m3mul (quat_2_Rot (iv_q (ps_imu x))) (m3tr (quat_2_Rot (iv_q (ps_imu x)))) = m3id) by apply Rr.
  assert (Nn : v3norm (v3scal (- dt) (w_av x m p)) = dt * v3norm (w_av x m p)).
  { rewrite v3norm_scal, Rabs_Ropp, Rabs_pos_eq by (unfold dt; lra). reflexivity. }
  assert (ED : dR = true_E dt (w_av x m p)).
  { unfold dR, n, predict_mean. fold (w_av x m p) (a_av x m p) dt. rewrite EL. rewrite analytic_rot; [|exact U|right; rewrite Nn; fold dt in A6; lra].
    rewrite m3mul_assoc, RRT, m3mul_id_r. reflexivity. }
  split; [exact ED|]. destruct (compute_Xi_large dt (w_av x m p) (a_av x m p)) as (_ & _ & _ & EJ); [lra|].
  rewrite ED, EJ. unfold true_E, true_J. apply exp_Jr. rewrite Nn. fold dt in A6. lra.
Qed.

Lemma ana_rows g x m p e : pst_ok x -> fej_inactive x -> 0 < i_t p - i_t m -> fast_rate (i_t p - i_t m) (w_av x m p) ->
  let dt := i_t p - i_t m in
  let RT := m3tr (quat_2_Rot (iv_q (ps_imu x))) in
  let c := correct x m p in let X := compute_Xi_sum dt (c_wavg c) (c_aavg c) in
  let a' := vel_a x e (c_aunc c) in let w' := vel_w x e (c_wunc c) (c_aunc c) in
  let d := fun X1 X3 => v3add (v3scal (-1) (m3v (m3mul (skew_x (m3v RT (m3v X1 (c_aavg c)))) RT) (d_th e))) (m3v RT (v3sub (m3v X1 a') (m3v X3 w'))) in
  let y := mvec (err_dim x) (predict_F ANALYTICAL g x m p) (err_vec x e) in
  rows3 y 0 = v3add (m3v (true_E dt (c_wavg c)) (d_th e)) (v3scal dt (m3v (true_J dt (c_wavg c)) w')) /\
  rows3 y 3 = v3add (v3add (d_p e) (v3scal dt (d_v e))) (d (xi_2 X) (xi_4 X)) /\
  rows3 y 6 = v3add (d_v e) (d (xi_1 X) (xi_3 X)) /\
  (forall i, (9 <= i < err_dim x)%nat -> y i = err_vec x e i).
Proof.
  intros H Hf Hd Hr dt RT c X a' w' d y.
  destruct (ana_dRJ g x m p H Hf Hd Hr) as [E1 E2]. fold dt in E1, E2.
  assert (EL : lin_point x = ps_imu x) by (unfold lin_point; destruct Hf as [->| ->]; [reflexivity|destruct (ps_dofej x); reflexivity]).
  change (compute_Xi_sum dt (w_av x m p) (a_av x m p)) with X in E2.
  set (n := predict_mean ANALYTICAL g x m p) in *.
  set (dR := m3mul (quat_2_Rot (mn_q n)) (m3tr (quat_2_Rot (iv_q (lin_point x))))) in *.
  set (dRJ := m3scal dt (m3mul dR (xi_Jr X))).
  set (Dw := Dm (ps_model x) (ps_dw x)). set (Da := Dm (ps_model x) (ps_da x)). set (Tg := Tg_of (ps_tg x)).
  set (Ra := quat_2_Rot (ps_qa x)). set (Rw := quat_2_Rot (ps_qw x)).
  set (R_k := quat_2_Rot (iv_q (lin_point x))) in *. set (v_k := iv_v (lin_point x)). set (p_k := iv_p (lin_point x)).
  set (wu := c_wunc c). set (au := c_aunc c).
  set (RK := m3tr R_k). set (RwDw := m3mul Rw Dw).
  set (C2 := m3add (xi_2 X) (m3mul (m3mul (xi_4 X) RwDw) Tg)). set (C1 := m3add (xi_1 X) (m3mul (m3mul (xi_3 X) RwDw) Tg)).
  set (a_k := m3v (m3mul Ra Da) au). set (w_k := m3v (m3mul Rw Dw) wu).
  pose proof (asmA_rows x dR
     (m3scal (-1) (m3mul (skew_x (v3add (v3sub (v3sub (mn_p n) p_k) (v3scal dt v_k)) (v3scal (/ 2 * dt * dt) g))) RK))
     (m3scal (-1) (m3mul (skew_x (v3add (v3sub (mn_v n) v_k) (v3scal dt g))) RK))
     (m3scal dt m3id) (m3scal (-1) (m3mul dRJ RwDw)) (m3mul (m3mul RK (xi_4 X)) RwDw) (m3mul (m3mul RK (xi_3 X)) RwDw)
     (m3mul (m3mul (m3mul (m3mul dRJ RwDw) Tg) Ra) Da)
     (m3scal (-1) (m3mul (m3mul (m3mul RK C2) Ra) Da)) (m3scal (-1) (m3mul (m3mul (m3mul RK C1) Ra) Da))
     (mcols (m3mul dRJ Rw) (compute_H_Dw (ps_model x) wu))
     (mcols (m3scal (-1) (m3mul (m3mul RK (xi_4 X)) Rw)) (compute_H_Dw (ps_model x) wu))
     (mcols (m3scal (-1) (m3mul (m3mul RK (xi_3 X)) Rw)) (compute_H_Dw (ps_model x) wu))
     (mcols (m3scal (-1) (m3mul (m3mul (m3mul dRJ RwDw) Tg) Ra)) (compute_H_Da (ps_model x) au))
     (mcols (m3mul (m3mul RK C2) Ra) (compute_H_Da (ps_model x) au))
     (mcols (m3mul (m3mul RK C1) Ra) (compute_H_Da (ps_model x) au))
     (mcols (m3scal (-1) (m3mul dRJ RwDw)) (compute_H_Tg a_k))
     (mcols (m3mul (m3mul RK (xi_4 X)) RwDw) (compute_H_Tg a_k))
     (mcols (m3mul (m3mul RK (xi_3 X)) RwDw) (compute_H_Tg a_k))
     (m3scal (-1) (m3mul (m3mul (m3mul dRJ RwDw) Tg) (skew_x a_k)))
     (m3mul (m3mul RK C2) (skew_x a_k)) (m3mul (m3mul RK C1) (skew_x a_k))
     (m3mul dRJ (skew_x w_k)) (m3scal (-1) (m3mul (m3mul RK (xi_4 X)) (skew_x w_k))) (m3scal (-1) (m3mul (m3mul RK (xi_3 X)) (skew_x w_k)))
     (err_vec x e)) as (A0 & A3 & A6 & A9).
  change (asmA x _ _ _ _ _ _ _ _ _ _ _ _ _ _ _ _ _ _ _ _ _ _ _ _ _) with (predict_F ANALYTICAL g x m p) in *. fold y in A0, A3, A6, A9.
  evs A0. evs A3. evs A6.
  assert (ERk : RK = RT) by (unfold RK, R_k; rewrite EL; reflexivity).
  assert (Ejl : dRJ = m3scal dt (true_J dt (c_wavg c))) by (unfold dRJ; rewrite E2; reflexivity).
  assert (Ep : v3add (v3sub (v3sub (mn_p n) p_k) (v3scal dt v_k)) (v3scal (/ 2 * dt * dt) g) = m3v RT (m3v (xi_2 X) (c_aavg c))).
  { unfold n, p_k, v_k. rewrite EL. unfold predict_mean, predict_mean_analytic; cbn [mn_p]. fold dt c X RT. rewrite m3v_mul.
    generalize (m3v RT (m3v (xi_2 X) (c_aavg c))). intros u. apply v3_ext; simpl; ring. }
  assert (Ev : v3add (v3sub (mn_v n) v_k) (v3scal dt g) = m3v RT (m3v (xi_1 X) (c_aavg c))).
  { unfold n, v_k. rewrite EL. unfold predict_mean, predict_mean_analytic; cbn [mn_v]. fold dt c X RT. rewrite m3v_mul.
    generalize (m3v RT (m3v (xi_1 X) (c_aavg c))). intros u. apply v3_ext; simpl; ring. }
  rewrite Ep, ERk in A3. rewrite Ev, ERk in A6. rewrite Ejl, E1 in A0.
  change (w_av x m p) with (c_wavg c) in A0.
  assert (Ea : a' = v3add (v3sub (m3v Ra (m3v (fDa x e) au)) (m3v Ra (m3v Da (d_ba e)))) (m3v (skew_x a_k) (fthA x e))) by reflexivity.
  assert (Ew : w' = v3add (v3add (m3v Rw (m3v (fDw x e) wu)) (m3v (skew_x w_k) (fthW x e)))
        (m3v Rw (m3v Dw (v3neg (v3add (v3add (d_bg e) (m3v (fTg x e) a_k)) (m3v Tg a')))))) by reflexivity.
  unfold d. clear d. rewrite !Ew, !Ea. clear Ew Ea.
  split; [|split; [|split; [|exact A9]]].
  - rewrite A0. unfold RwDw. clearbody a_k w_k. generalize (true_J dt (c_wavg c)) (m3v (true_E dt (c_wavg c)) (d_th e)). intros J u0. vlin.
  - rewrite A3. unfold C2, RwDw. clearbody a_k w_k. 
    generalize (skew_x (m3v RT (m3v (xi_2 X) (c_aavg c)))). intros S0. vlin.
  - rewrite A6. unfold C1, RwDw. clearbody a_k w_k.
    generalize (skew_x (m3v RT (m3v (xi_1 X) (c_aavg c)))). intros S0. vlin.
Qed.

Lemma ana_transition g x m p : pst_ok x -> fej_inactive x -> 0 < i_t p - i_t m -> fast_rate (i_t p - i_t m) (w_av x m p) ->
  is_transition x (fun z => predict_mean ANALYTICAL g z m p) (predict_F ANALYTICAL g x m p).
Proof.
  intros H Hf Hd Hr e y. destruct (ana_rows g x m p e H Hf Hd Hr) as (Y0 & Y3 & Y6 & Y9).
  pose proof (ana_velocity g x m p e H Hd Hr) as V. cbv zeta in *.
  split; [|exact Y9]. unfold y. rewrite Y0, Y3, Y6. exact V.
Qed.

(** ** noise Jacobian *)
Lemma G_analytic_rows x dt n X nw na nbw nba :
  let dR := m3mul (quat_2_Rot (mn_q n)) (m3tr (quat_2_Rot (iv_q (lin_point x)))) in
  let D := m3mul (quat_2_Rot (ps_qw x)) (Dm (ps_model x) (ps_dw x)) in
  let K := m3mul (m3scal dt (m3mul dR (xi_Jr X))) D in
  let RT := m3tr (quat_2_Rot (iv_q (lin_point x))) in
  let Tg := Tg_of (ps_tg x) in
  let tail := fun A => m3mul (m3mul A (quat_2_Rot (ps_qa x))) (Dm (ps_model x) (ps_da x)) in
  let y := mvec 12 (compute_G_analytic x dt n X) (nvec nw na nbw nba) in
  rows3 y 0 = v3add (m3v (m3scal (-1) K) nw) (m3v (tail (m3mul K Tg)) na) /\
  rows3 y 3 = v3add (m3v (m3mul (m3mul RT (xi_4 X)) D) nw) (m3v (m3scal (-1) (tail (m3mul RT (m3add (xi_2 X) (m3mul (m3mul (xi_4 X) D) Tg))))) na) /\
  rows3 y 6 = v3add (m3v (m3mul (m3mul RT (xi_3 X)) D) nw) (m3v (m3scal (-1) (tail (m3mul RT (m3add (xi_1 X) (m3mul (m3mul (xi_3 X) D) Tg))))) na) /\
  rows3 y 9 = v3scal dt nbw /\ rows3 y 12 = v3scal dt nba.
Proof.
  intros dR D K RT Tg tail y. unfold y, compute_G_analytic. cbv zeta. fold dR D RT Tg. fold K.
  split; [|split; [|split; [|split]]]; cbv [th_id p_id v_id bg_id ba_id];
  repeat first [ rewrite row_zero
    | rewrite row_put3 by first [lia | zat]
    | match goal with
      | |- context [rows3 (mvec ?N (put3 ?F ?r' ?c ?A) ?e) ?r] => change (put3 F r' c A) with (set_block F r' c 3 3 (b3 A)); rewrite row_other by lia
      end ]; rewrite ?nv0, ?nv3, ?nv6, ?nv9, ?v3add_0_l; try reflexivity.
  - rewrite m3v_scalm, m3v_id. reflexivity.
  - rewrite m3v_scalm, m3v_id. reflexivity.
Qed.

Lemma ana_noise g x m p : pst_ok x -> fej_inactive x -> 0 < i_t p - i_t m -> fast_rate (i_t p - i_t m) (w_av x m p) ->
  is_noise_jac x (fun m' p' => predict_mean ANALYTICAL g x m' p') m p (predict_G ANALYTICAL g x m p).
Proof.
  intros H Hf Hd Hr nw na nbw nba y.
  destruct (ana_dRJ g x m p H Hf Hd Hr) as [E1 E2]. cbv zeta in E1, E2.
  assert (EL : lin_point x = ps_imu x) by (unfold lin_point; destruct Hf as [->| ->]; [reflexivity|destruct (ps_dofej x); reflexivity]).
  set (dt := i_t p - i_t m) in *. set (c := correct x m p).
  set (X := compute_Xi_sum dt (c_wavg c) (c_aavg c)).
  change (compute_Xi_sum dt (w_av x m p) (a_av x m p)) with X in E2.
  destruct (G_analytic_rows x dt (predict_mean ANALYTICAL g x m p) X nw na nbw nba) as (Y0 & Y3 & Y6 & Y9 & Y12).
  change (compute_G_analytic x dt (predict_mean ANALYTICAL g x m p) X) with (predict_G ANALYTICAL g x m p) in *.
  fold y in Y0, Y3, Y6, Y9, Y12. cbv zeta in Y0, Y3, Y6.
  split; [|split; assumption].
  pose proof (vel_w_ok x (noise_err nw na) m p H) as Dw. pose proof (vel_a_ok x (noise_err nw na) m p H) as Da.
  rewrite vel_w_noise in Dw. rewrite vel_a_noise in Da.
  apply (v3_derive_ext _ (fun s => c_wavg (correct x (noisy s nw na m) (noisy s nw na p)))) in Dw; [|intros s; rewrite noisy_correct by auto; reflexivity].
  apply (v3_derive_ext _ (fun s => c_aavg (correct x (noisy s nw na m) (noisy s nw na p)))) in Da; [|intros s; rewrite noisy_correct by auto; reflexivity].
  assert (C0 : correct x (noisy 0 nw na m) (noisy 0 nw na p) = c) by (rewrite noisy_correct by auto; apply correct_0; auto).
  set (a' := v3neg (m3v (quat_2_Rot (ps_qa x)) (m3v (Dm (ps_model x) (ps_da x)) na))) in *.
  set (w' := m3v (quat_2_Rot (ps_qw x)) (m3v (Dm (ps_model x) (ps_dw x)) (v3sub (m3v (Tg_of (ps_tg x)) (m3v (quat_2_Rot (ps_qa x)) (m3v (Dm (ps_model x) (ps_da x)) na))) nw))) in *.
  pose proof (Xi_der dt _ _ w' a' Dw Da) as Xd. cbv beta in Xd. rewrite C0 in Xd. specialize (Xd (proj1 Hr)). fold X in Xd.
  destruct Xd as [X1d X2d].
  set (RT := m3tr (quat_2_Rot (iv_q (ps_imu x)))).
  split; [|split].
  - destruct H as (U & U2 & U3).
    pose proof (ana_th g (fun _ => x) (fun s => c_wavg (correct x (noisy s nw na m) (noisy s nw na p))) (fun s => c_aavg (correct x (noisy s nw na m) (noisy s nw na p))) dt v3zero) as T.
    specialize (fun w' => T w' (fun _ => U) Hd). cbv beta zeta in T.
    assert (Hr' : fast_rate dt (c_wavg (correct x (noisy 0 nw na m) (noisy 0 nw na p)))) by (rewrite C0; exact Hr).
    destruct (T _ Hr' Dw (const_rot_derive _)) as (_ & _ & T3). rewrite C0 in T3. unfold predict_mean. rewrite C0.
    eapply m3_derive_eq; [exact T3|]. f_equal. f_equal. f_equal.
    rewrite Y0, E2. rewrite m3v_0, v3add_0_l. change (w_av x m p) with (c_wavg c). unfold w'.
    generalize (true_J dt (c_wavg c)). intros J. vlin.
  - apply (v3_derive_ext (fun s => v3sub (v3add (v3add (iv_p (ps_imu x)) (v3scal dt (iv_v (ps_imu x))))
        (m3v RT (m3v (xi_2 (compute_Xi_sum dt (c_wavg (correct x (noisy s nw na m) (noisy s nw na p))) (c_aavg (correct x (noisy s nw na m) (noisy s nw na p))))) (c_aavg (correct x (noisy s nw na m) (noisy s nw na p))))))
        (v3scal (/ 2 * dt * dt) g))).
    { intros s. unfold predict_mean, predict_mean_analytic; cbn [mn_p]. rewrite m3v_mul. reflexivity. }
    eapply v3_derive_eq.
    + apply v3d_sub; [apply v3d_add; [apply v3d_const|apply v3d_mv; [apply m3d_const|exact X2d]]|apply v3d_const].
    + cbv beta. rewrite Y3, EL, m3zero_v. fold RT. unfold a', w'. vlin.
  - apply (v3_derive_ext (fun s => v3sub (v3add (iv_v (ps_imu x))
        (m3v RT (m3v (xi_1 (compute_Xi_sum dt (c_wavg (correct x (noisy s nw na m) (noisy s nw na p))) (c_aavg (correct x (noisy s nw na m) (noisy s nw na p))))) (c_aavg (correct x (noisy s nw na m) (noisy s nw na p))))))
        (v3scal dt g))).
    { intros s. unfold predict_mean, predict_mean_analytic; cbn [mn_v]. rewrite m3v_mul. reflexivity. }
    eapply v3_derive_eq.
    + apply v3d_sub; [apply v3d_add; [apply v3d_const|apply v3d_mv; [apply m3d_const|exact X1d]]|apply v3d_const].
    + cbv beta. rewrite Y6, EL, m3zero_v. fold RT. unfold a', w'. vlin.
Qed.
