(** The errors of one pose. *)
From Coq Require Import Reals List Arith ZArith Lia Lra Psatz.
From Coquelicot Require Import Coquelicot.
From Verif Require Import RBool Outcome GeoModel GeoSpec GeoProofs ExpProofs GeoMore JacSo3 EulerProofs InitModel EvalModel EvalSpec CeresModel CeresSpec CeresQuat CeresLog ErrModel ErrSpec ErrProofs.
Import ListNotations.
Open Scope R_scope.

Lemma atan2_quarter y x : 0 <= x -> - (PI / 2) <= atan2 y x <= PI / 2.
Proof.
  intros H. pose proof PI_RGT_0. unfold atan2. pose proof (atan_bound (y / x)) as [A B].
  destruct (Rltb_spec 0 x); [lra|]. destruct (Rltb_spec x 0); [lra|]. destruct (Rltb_spec 0 y); [lra|]. destruct (Rltb_spec y 0); lra.
Qed.
Lemma rpy_pitch r : - (PI / 2) <= vy (rot2rpy r) <= PI / 2.
Proof. unfold rot2rpy. cbv zeta. destruct (Rltb _ _); cbn [vy]; apply atan2_quarter, sqrt_pos. Qed.
Lemma rpy_angles A : is_rot A -> angles_of A (rot2rpy A).
Proof.
  intros H. destruct (rpy_half A) as (X & Y & Z). split; [exact X|]. split; [apply rpy_pitch|]. split; [exact Z|].
  intros G. rewrite euler_rpy. apply rot2rpy_generic; auto.
Qed.

(** ** the rotation between two attitudes *)
Lemma about_skew u a : v3dot u u = 1 -> about u a = m3add (m3add (m3scal (cos a) m3id) (m3scal (sin a) (skew_x u))) (m3scal (1 - cos a) (m3outer u u)).
Proof.
  intros H. unfold about. unfold v3dot in H. destruct u as [x y z]. cbn [vx vy vz] in *.
  assert (X : x * x = 1 - y * y - z * z) by lra. set (c := cos a). set (s := sin a).
  apply m3_ext; cbn [m3add m3id m3scal m3mul m3outer skew_x m00 m01 m02 m10 m11 m12 m20 m21 m22 vx vy vz]; ring_simplify; try ring; replace (x ^ 2) with (1 - y * y - z * z) by (rewrite <- X; ring); ring.
Qed.
Lemma quat_turn q : unit_q q -> 0 <= qw q -> exists u a, v3dot u u = 1 /\ 0 <= a <= PI /\ m3tr (quat_2_Rot q) = about u a /\ v3scal (2 * sin (a / 2)) u = v3scal 2 (qvec q).
Proof.
  intros U W. pose proof PI_RGT_0 as HP. set (n := v3norm (qvec q)). pose proof (v3norm_sq (qvec q)) as N. fold n in N.
  assert (N1 : n * n + qw q * qw q = 1) by (rewrite N; unfold v3dot, qvec; cbn; unfold unit_q in U; lra).
  destruct (Rle_lt_or_eq_dec 0 n (v3norm_nonneg _)) as [P|P].
  - destruct (half_angle n (qw q) N1 P W) as (A0 & S & C & _). set (h := atan2 n (qw q)) in *.
    pose proof (atan2_quarter n (qw q) W) as [_ Q]. fold h in Q.
    exists (v3scal (/ n) (qvec q)), (2 * h).
    assert (DU : v3dot (v3scal (/ n) (qvec q)) (v3scal (/ n) (qvec q)) = 1).
    { replace (v3dot (v3scal (/ n) (qvec q)) (v3scal (/ n) (qvec q))) with (/ n * / n * v3dot (qvec q) (qvec q)) by (unfold v3dot; cbn; ring). rewrite <- N. field. lra. }
    split; [exact DU|]. split; [lra|]. replace (2 * h / 2) with h by field. split.
    + rewrite about_skew by exact DU. rewrite sin_2a. rewrite cos_2a_cos. rewrite S, C.
      assert (E : n * n = 1 - qw q * qw q) by lra. clearbody h n. clear - P E. destruct q as [x y z w]. cbn [qw qx qy qz] in *.
      assert (I : forall a b, 2 * (a * b) = (1 - (2 * w * w - 1)) * (/ n * a * (/ n * b))).
      { intros a b. replace (1 - (2 * w * w - 1)) with (2 * (n * n)) by (rewrite E; ring). field. lra. }
      assert (J : forall a, 2 * w * a = 2 * n * w * (/ n * a)) by (intros a; field; lra).
      apply m3_ext; unfold quat_2_Rot; cbn [m3tr m3add m3sub m3id m3scal m3outer skew_x v3scal qvec m00 m01 m02 m10 m11 m12 m20 m21 m22 vx vy vz qw qx qy qz];
        rewrite <- I; try (replace (2 * n * w * - (/ n * z)) with (- (2 * n * w * (/ n * z))) by ring); try (replace (2 * n * w * - (/ n * y)) with (- (2 * n * w * (/ n * y))) by ring);
        try (replace (2 * n * w * - (/ n * x)) with (- (2 * n * w * (/ n * x))) by ring); rewrite <- ?J; ring.
    + rewrite S. apply v3_ext; cbn; field; lra.
  - symmetry in P. apply v3norm_zero in P. assert (Q : qw q * qw q = 1) by (rewrite N in N1; rewrite P in N1; unfold v3dot, v3zero in N1; cbn in N1; lra).
    exists (V3 1 0 0), 0. split; [unfold v3dot; cbn; ring|]. split; [lra|]. split.
    + unfold quat_2_Rot. rewrite P. unfold about. rewrite sin_0, cos_0. apply m3_ext; cbn; rewrite ?Q; ring.
    + rewrite P. replace (0 / 2) with 0 by field. rewrite sin_0. apply v3_ext; cbn; ring.
Qed.
Lemma pose_turn e g : unit_q (po_q e) -> unit_q (po_q g) ->
  exists u a, turned_body e g u a /\ v3scal (2 * sin (a / 2)) u = v3scal 2 (qvec (quat_multiply (po_q g) (quat_inv (po_q e)))).
Proof.
  intros UE UG. pose proof (quat_inv_unit _ UE) as UI. destruct (quat_multiply_unit _ _ UG UI) as [U W].
  destruct (quat_turn _ U W) as (u & a & D & A & T & V). exists u, a. split; [|exact V]. split; [exact D|]. split; [exact A|].
  rewrite <- T, quat_multiply_rot, quat_inv_rot by auto. rewrite m3tr_mul, m3tr_tr. unfold att. rewrite <- m3mul_assoc.
  destruct (quat_2_Rot_is_rot _ UE) as (_ & R2 & _). rewrite R2, m3mul_id_l. reflexivity.
Qed.
Lemma is_rot_att p : unit_q (po_q p) -> is_rot (att p).
Proof. intros U. apply is_rot_tr, quat_2_Rot_is_rot, U. Qed.

(** ** bounds *)
Lemma bounds_sigmas c P : sigmas c P (bounds c P).
Proof.
  assert (X : forall x, (x < 0 -> bound c x = None) /\ (0 <= x -> exists y, bound c x = Some (c * y) /\ 0 <= y /\ y * y = x)).
  { intros x. unfold bound. destruct (Rltb_spec x 0); split; intros ?; try lra; auto. exists (sqrt x). split; [reflexivity|]. split; [apply sqrt_pos|apply sqrt_sqrt; lra]. }
  unfold sigmas, bounds. repeat (constructor; [apply X|]). constructor.
Qed.
Lemma m3inv_r A : m3det A <> 0 -> m3mul A (m3inv A) = m3id.
Proof. intros H. unfold m3inv. cbv zeta. set (d := m3det A) in *. assert (E : m3det A = d) by reflexivity. clearbody d. unfold m3det in E. apply m3_ext; cbn; field_simplify_eq; auto; rewrite <- E; ring. Qed.
Lemma H_det v : m3det (H_xyz2rpy v) = cos (vy v).
Proof.
  pose proof (sin2_cos2 (vx v)) as E. unfold Rsqr in E. rewrite H_form. unfold m3det. cbn [m00 m01 m02 m10 m11 m12 m20 m21 m22].
  transitivity ((sin (vx v) * sin (vx v) + cos (vx v) * cos (vx v)) * cos (vy v)); [ring|rewrite E; ring].
Qed.
Lemma carried_inv A P : m3det A <> 0 -> carried A (carried (m3inv A) P) = P.
Proof.
  intros H. unfold carried. rewrite !m3mul_assoc. rewrite <- (m3mul_assoc A (m3inv A)), m3inv_r, m3mul_id_l by auto.
  rewrite <- m3tr_mul, m3inv_r by auto. replace (m3tr m3id) with m3id by reflexivity. apply m3mul_id_r.
Qed.

Lemma wrap_diff n x y : (1 <= n)%nat -> half_turn x -> half_turn y -> exists d, wrap n (y - x) = Ok d /\ half_turn d /\ same_angle (x + d) y.
Proof.
  intros L [X1 X2] [Y1 Y2]. pose proof PI_RGT_0 as HP. destruct (wrap_ok n (y - x)) as (d & E & H & k & S).
  { assert (1 <= INR n) by (apply (le_INR 1); auto). unfold Rabs. destruct (Rcase_abs (y - x)); nra. }
  exists d. split; [exact E|]. split; [exact H|]. exists k. lra.
Qed.
Lemma error_one_spec n t e g co cp : (1 <= n)%nat -> unit_q (po_q e) -> unit_q (po_q g) ->
  exists w, error_one n t e g co cp = Ok w /\ er_t w = t /\ axis_errors e g co cp (er_pos w) (er_ori w) (er_rpy w) (er_bpos w) (er_bori w) (er_brpy w).
Proof.
  intros L UE UG. destruct (pose_turn e g UE UG) as (u & a & T & V). pose proof (rpy_angles _ (is_rot_att e UE)) as AE. pose proof (rpy_angles _ (is_rot_att g UG)) as AG.
  unfold error_one. cbv zeta. fold (att e). fold (att g). set (ae := rot2rpy (att e)) in *. set (ag := rot2rpy (att g)) in *. cbn [v3sub vx vy vz].
  assert (HE : half_turn (vy ae)) by (apply rpy_half). assert (HG : half_turn (vy ag)) by (apply rpy_half).
  destruct (wrap_diff n (vx ae) (vx ag) L (proj1 AE) (proj1 AG)) as (x & Ex & Hx & Sx).
  destruct (wrap_diff n (vy ae) (vy ag) L HE HG) as (y & Ey & Hy & Sy).
  destruct (wrap_diff n (vz ae) (vz ag) L (proj1 (proj2 (proj2 AE))) (proj1 (proj2 (proj2 AG)))) as (z & Ez & Hz & Sz).
  rewrite Ex, Ey, Ez. cbn [obind]. eexists. split; [reflexivity|]. cbn [er_t er_pos er_ori er_rpy er_bpos er_bori er_brpy]. split; [reflexivity|].
  split; [destruct (po_p e), (po_p g); apply v3_ext; cbn; ring|]. split; [exists u, a; split; [exact T|rewrite V; reflexivity]|]. split.
  - exists ae, ag, (V3 x y z). cbn [vx vy vz]. repeat (split; [assumption || reflexivity|]). destruct co as [P|]; [|reflexivity].
    intros N. exists (H_xyz2rpy ae), (carried (m3inv (H_xyz2rpy ae)) P). split; [apply H_rates|]. rewrite <- H_det in N. split; [apply carried_inv; exact N|].
    unfold inverse. destruct (Reqb_spec (m3det (H_xyz2rpy ae)) 0); [contradiction|]. apply bounds_sigmas.
  - split; [destruct co as [P|]; [|reflexivity]|destruct cp as [P|]; [apply bounds_sigmas|reflexivity]].
    replace (m3mul (m3mul (att e) P) (quat_2_Rot (po_q e))) with (carried (att e) P) by (unfold carried, att; rewrite m3tr_tr; reflexivity). apply bounds_sigmas.
Qed.

(** ** the logarithm of a rotation about an axis *)
Definition klog (a : R) : R := if Rltb (2 * cos a - 2) (- (1 / 10 ^ 7)) then a else sin a * (1 + (1 - cos a) / 3).
Lemma klog_near a : 0 <= a <= PI -> Rabs (klog a - a) <= 1 / 10 ^ 18.
Proof.
  intros H. unfold klog. destruct (Rltb_spec (2 * cos a - 2) (- (1 / 10 ^ 7))) as [L|L].
  - rewrite Rminus_eq_0, Rabs_R0. lra.
  - destruct (Req_dec a 0) as [->|NZ]. { rewrite sin_0. rewrite Rmult_0_l, Rminus_eq_0, Rabs_R0. lra. }
    assert (A1 : a <= 1). { destruct (Rle_or_lt a 1) as [Q|Q]; auto. exfalso. pose proof (cos_upper 1 ltac:(lra)) as C1. pose proof PI2_1. assert (cos a < cos 1) by (apply cos_decreasing_1; lra). lra. }
    pose proof (cos_upper a ltac:(lra)) as C. assert (A2 : a * a <= 1 / 9000000).
    { assert (P1 : 0 <= a * a) by (apply Rle_0_sqr). assert (P3 : a * a <= 1 * 1) by (apply Rmult_le_compat; lra). assert (P4 : a * a * (a * a) <= a * a * 1) by (apply Rmult_le_compat_l; lra). rewrite (Rmult_assoc (a * a)) in C. lra. }
    pose proof (taylor_factor a ltac:(lra)) as T. set (f := sin a / a * (1 + (1 - cos a) / 3)) in *.
    replace (sin a * (1 + (1 - cos a) / 3)) with (a * f) by (unfold f; field; lra).
    assert (B : a <= 1 / 3000). { destruct (Rle_or_lt a (1 / 3000)) as [Q|Q]; auto. assert (1 / 3000 * (1 / 3000) < a * a) by (apply Rmult_le_0_lt_compat; lra). lra. }
    assert (P2 : 0 <= a * a) by (apply Rle_0_sqr). assert (Q4 : a * a * (a * a) <= 1 / 9000000 * (1 / 9000000)) by (apply Rmult_le_compat; lra).
    assert (Z1 : 0 <= 1 - f <= 1 / 9000000 * (1 / 9000000) / 24) by (rewrite (Rmult_assoc (a * a)) in T; lra).
    assert (Z2 : a * (1 - f) <= 1 / 3000 * (1 / 9000000 * (1 / 9000000) / 24)) by (apply Rmult_le_compat; lra).
    assert (Z3 : 0 <= a * (1 - f)) by (apply Rmult_le_pos; lra). unfold Rabs. destruct (Rcase_abs _); lra.
Qed.
Lemma log_about u a : v3dot u u = 1 -> 0 <= a <= PI -> 1 / 10 ^ 10 <= 2 + 2 * cos a -> log_so3 (about u a) = v3scal (klog a) u.
Proof.
  intros D A B. rewrite about_skew by exact D. set (M := m3add _ _). assert (TR : m3trace M = 1 + 2 * cos a).
  { unfold M, m3trace. cbn. transitivity (3 * cos a + (1 - cos a) * v3dot u u); [unfold v3dot; ring|rewrite D; ring]. }
  unfold log_so3. cbv zeta. rewrite TR. destruct (Rltb_spec (1 + 2 * cos a + 1) (1 / 10 ^ 10)); [lra|]. unfold klog.
  replace (1 + 2 * cos a - 3) with (2 * cos a - 2) by ring. replace ((1 + 2 * cos a - 1) / 2) with (cos a) by field. rewrite acos_cos by lra.
  destruct (Rltb_spec (2 * cos a - 2) (- (1 / 10 ^ 7))) as [L|L].
  - assert (S : 0 < sin a). { apply sin_gt_0. { destruct A as [[A|A] _]; auto. rewrite <- A, cos_0 in L. lra. } { destruct A as [_ [A|A]]; auto. rewrite A, cos_PI in B. lra. } }
    apply v3_ext; cbn; field; lra.
  - apply v3_ext; cbn; field.
Qed.
Lemma about_neg u a : m3tr (about u a) = about (v3neg u) a.
Proof. unfold about. apply m3_ext; cbn; ring. Qed.
Lemma normalized_inv P v : m3det P <> 0 -> normalized P v (v3dot v (m3v (m3inv P) v)).
Proof. intros H. exists (m3v (m3inv P) v). split; [|reflexivity]. rewrite <- m3v_mul, m3inv_r, m3v_id by auto. reflexivity. Qed.
Lemma nees_one_spec e g co cp : unit_q (po_q e) -> unit_q (po_q g) -> m3det co <> 0 -> m3det cp <> 0 ->
  (forall u a, turned_body e g u a -> 1 / 10 ^ 10 <= 2 + 2 * cos a) ->
  exists xo xp, nees_one e g co cp = Ok (xo, xp) /\ nees e g co cp xo xp.
Proof.
  intros UE UG HO HP HI. unfold nees_one, inverse. destruct (Reqb_spec (m3det co) 0); [contradiction|]. destruct (Reqb_spec (m3det cp) 0); [contradiction|].
  eexists _, _. split; [reflexivity|]. destruct (pose_turn e g UE UG) as (u & a & T & _). pose proof (HI u a T) as B. destruct T as (D & A & T).
  set (eo := v3neg _). set (ep := v3sub _ _).
  assert (E : eo = v3scal (klog a) u).
  { unfold eo. replace (m3mul (quat_2_Rot (po_q g)) (m3tr (quat_2_Rot (po_q e)))) with (about (v3neg u) a).
    - rewrite log_about; auto. { apply v3_ext; cbn; ring. } { rewrite <- D. unfold v3dot. cbn. ring. }
    - rewrite <- about_neg. fold (att e). replace (quat_2_Rot (po_q g)) with (m3tr (att g)) by (unfold att; apply m3tr_tr). rewrite T, m3tr_mul, m3mul_assoc.
      destruct (is_rot_att e UE) as (_ & R & _). rewrite R, m3mul_id_r. reflexivity. }
  split.
  - exists u, a, (klog a). split; [split; auto|]. split; [apply klog_near; exact A|]. rewrite <- E. apply normalized_inv. auto.
  - exists ep. split; [unfold ep; destruct (po_p e), (po_p g); apply v3_ext; cbn; ring|]. apply normalized_inv. auto.
Qed.
Lemma normalized_sign P v x : positive P -> normalized P v x -> 0 <= x /\ (x = 0 <-> v = v3zero).
Proof.
  intros (S & H) (y & E & ->). assert (Q : v3dot v y = v3dot y (m3v P y)) by (rewrite E; unfold v3dot; ring).
  assert (Dy : y = v3zero \/ y <> v3zero).
  { destruct y as [a b c]. destruct (Req_dec a 0), (Req_dec b 0), (Req_dec c 0); subst; [left; reflexivity|..]; right; unfold v3zero; intros K; inversion K; contradiction. }
  destruct Dy as [Z|Z].
  - subst y. assert (V : v = v3zero) by (rewrite <- E; apply v3_ext; cbn; ring). subst v. rewrite V. unfold v3dot; cbn. split; [lra|]. split; auto; intros; ring.
  - pose proof (H y Z) as P0. rewrite Q. split; [lra|]. split; [lra|]. intros V. exfalso. rewrite V in Q. unfold v3dot at 1 in Q. cbn in Q. lra.
Qed.

(** ** planar errors *)
Lemma ate2d_spec e g d : unit_q (po_q e) -> - PI < d < PI -> 1 / 10 ^ 10 <= 2 + 2 * cos d -> att g = m3mul (about_z d) (att e) ->
  exists k, fst (ate2d_one e g) = - (180 / PI * k) /\ Rabs (k - d) <= 1 / 10 ^ 18.
Proof.
  intros UE Hd C T. unfold ate2d_one. cbv zeta. cbn [fst]. fold (att e). replace (quat_2_Rot (po_q g)) with (m3tr (att g)) by (unfold att; apply m3tr_tr).
  rewrite T, m3tr_mul, <- m3mul_assoc. destruct (is_rot_att e UE) as (R & _ & _). rewrite R, m3mul_id_l. unfold about_z. rewrite about_neg.
  destruct (Rle_or_lt 0 d) as [L|L].
  - rewrite log_about; [|unfold v3dot; cbn; ring|lra|exact C]. exists (klog d). split; [cbn; ring|apply klog_near; lra].
  - replace (about (v3neg (V3 0 0 1)) d) with (about (V3 0 0 1) (- d)) by (unfold about; rewrite sin_neg, cos_neg; apply m3_ext; cbn; ring).
    rewrite log_about; [|unfold v3dot; cbn; ring|lra|rewrite cos_neg; exact C]. exists (- klog (- d)). split; [cbn; ring|].
    pose proof (klog_near (- d) ltac:(lra)) as K. rewrite <- Rabs_Ropp. replace (- (- klog (- d) - d)) with (klog (- d) - - d) by ring. exact K.
Qed.
