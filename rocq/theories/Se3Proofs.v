(** SE(3) maps, left Jacobian, Euler angles. *)
From Coq Require Import Reals Lra Psatz Bool.
From Verif Require Import RBool GeoModel GeoSpec GeoProofs ExpProofs.
Open Scope R_scope.

Lemma se3_ext a b : seR a = seR b -> set_ a = set_ b -> a = b.
Proof. destruct a, b; simpl; intros; subst; reflexivity. Qed.

Lemma se3mul_id_l a : se3mul se3id a = a.
Proof. apply se3_ext; [apply m3_ext|apply v3_ext]; simpl; ring. Qed.
Lemma se3mul_id_r a : se3mul a se3id = a.
Proof. apply se3_ext; [apply m3_ext|apply v3_ext]; simpl; ring. Qed.
Lemma se3mul_assoc a b c : se3mul (se3mul a b) c = se3mul a (se3mul b c).
Proof. apply se3_ext; [apply m3_ext|apply v3_ext]; simpl; ring. Qed.

Lemma Inv_se3_r T : is_rot (seR T) -> se3mul T (Inv_se3 T) = se3id.
Proof.
  intros (H & _). apply se3_ext; simpl; auto.
  rewrite m3v_neg, <- m3v_mul, H, m3v_id. apply v3_ext; simpl; ring.
Qed.
Lemma Inv_se3_l T : is_rot (seR T) -> se3mul (Inv_se3 T) T = se3id.
Proof.
  intros (_ & H & _). apply se3_ext; simpl; auto. apply v3_ext; simpl; ring.
Qed.

Lemma sqrt_dot_norm w : sqrt (v3dot w w) = v3norm w.
Proof. reflexivity. Qed.

(** V matrix: I + b W + c W^2 *)
Lemma exp_se3_eq w u : 1 / 10 ^ 7 <= v3norm w ->
  exp_se3 w u = SE3 (exp_so3 w)
     (m3v (rodrigues w ((1 - cos (v3norm w)) / (v3norm w * v3norm w))
                       ((1 - sin (v3norm w) / v3norm w) / (v3norm w * v3norm w))) u).
Proof.
  intros H. rewrite exp_so3_eq by lra. unfold exp_se3. rewrite sqrt_dot_norm.
  destruct (Rltb_spec (v3norm w) (1 / 10 ^ 7)); [lra|]. reflexivity.
Qed.
Lemma exp_se3_small w u : v3norm w < 1 / 10 ^ 7 ->
  exp_se3 w u = SE3 (rodrigues w 1 (1 / 2)) (m3v (rodrigues w (1 / 2) (1 / 6)) u).
Proof.
  intros H. unfold exp_se3. rewrite sqrt_dot_norm.
  destruct (Rltb_spec (v3norm w) (1 / 10 ^ 7)); [reflexivity|lra].
Qed.

Lemma exp_se3_zero u : exp_se3 v3zero u = SE3 m3id u.
Proof.
  rewrite exp_se3_small.
  - apply se3_ext; [apply m3_ext|apply v3_ext]; simpl; field.
  - assert (N : v3norm v3zero = 0).
    { unfold v3norm, v3dot; simpl. replace (0*0+0*0+0*0) with 0 by ring. apply sqrt_0. }
    rewrite N. lra.
Qed.

Lemma rod_mul w a b c d :
  m3mul (rodrigues w a b) (rodrigues w c d) =
  rodrigues w (a + c - (a * d + b * c) * v3dot w w) (b + d + a * c - b * d * v3dot w w).
Proof. apply m3_ext; unfold v3dot; simpl; ring. Qed.
Lemma rod_id w : rodrigues w 0 0 = m3id.
Proof. apply m3_ext; simpl; ring. Qed.

Lemma rod_tr w a b : m3tr (rodrigues w a b) = rodrigues w (- a) b.
Proof. apply m3_ext; simpl; ring. Qed.

Lemma exp_se3_inverse w u : v3norm w = 0 \/ 1 / 10 ^ 7 <= v3norm w ->
  exp_se3 (v3neg w) (v3neg u) = Inv_se3 (exp_se3 w u).
Proof.
  intros [H|H].
  - apply v3norm_zero in H as ->. replace (v3neg v3zero) with v3zero by (apply v3_ext; simpl; ring).
    rewrite !exp_se3_zero. apply se3_ext; [apply m3_ext|apply v3_ext]; simpl; ring.
  - assert (P : 0 < v3norm w) by (assert (0 < 1 / 10 ^ 7) by lra; lra).
    rewrite exp_se3_eq by (rewrite v3norm_neg; auto). rewrite exp_se3_eq by auto.
    apply se3_ext; cbn [seR set_ Inv_se3]; [apply exp_so3_neg|].
    rewrite v3norm_neg, rodrigues_neg, m3v_neg. f_equal.
    rewrite exp_so3_eq by auto. rewrite <- m3v_mul. f_equal.
    rewrite !rod_tr, rod_mul, <- v3norm_sq.
    set (t := v3norm w) in *.
    pose proof (sin2_cos2 t) as S; unfold Rsqr in S. f_equal.
    + field_simplify_eq; [|lra].
      replace (sin t ^ 2) with (1 - cos t * cos t) by (simpl; lra). ring.
    + field. lra.
Qed.

Lemma tan_half t : 0 < t < PI -> 2 * tan (5 / 10 * t) = 2 * (1 - cos t) / sin t.
Proof.
  intros H. assert (S : 0 < sin t) by (apply sin_gt_0; lra).
  unfold tan. set (h := 5 / 10 * t).
  assert (Hc : 0 < cos h) by (apply cos_gt_0; unfold h; lra).
  assert (Hs : 0 < sin h) by (apply sin_gt_0; unfold h; lra).
  replace t with (2 * h) by (unfold h; field).
  rewrite sin_2a, cos_2a_sin. field. lra.
Qed.

Lemma log_exp_se3 w u :
  1 / 10 ^ 7 <= v3norm w < PI ->
  1 / 10 ^ 7 < 2 - 2 * cos (v3norm w) ->
  1 / 10 ^ 10 <= 2 + 2 * cos (v3norm w) ->
  log_se3 (exp_se3 w u) = (w, u).
Proof.
  intros H H1 H2. assert (P : 0 < v3norm w) by (assert (0 < 1 / 10 ^ 7) by lra; lra).
  rewrite exp_se3_eq by lra. unfold log_se3. cbn [seR set_].
  rewrite log_exp_so3 by auto.
  destruct (Rltb_spec (v3norm w) (1 / 10 ^ 10)); [lra|]. f_equal.
  pose proof (tan_half (v3norm w) ltac:(lra)) as T.
  assert (S : 0 < sin (v3norm w)) by (apply sin_gt_0; lra).
  rewrite T. clear T.
  pose proof (v3norm_sq w) as Sq.
  pose proof (sin2_cos2 (v3norm w)) as SC; unfold Rsqr in SC.
  set (t := v3norm w) in *.
  set (B := (1 - cos t) / (t * t)). set (C := (1 - sin t / t) / (t * t)).
  set (V := rodrigues w B C).
  set (g := (1 - t / (2 * (1 - cos t) / sin t)) / (t * t)).
  transitivity (m3v (m3mul (rodrigues w (- (1/2)) g) V) u).
  - rewrite m3v_mul.
    set (p := m3v V u).
    assert (E1 : (5 / 10 * t) * (1 / t) = 1 / 2) by (field; lra).
    assert (E2 : g = (1 - t / (2 * (1 - cos t) / sin t)) * (1/t) * (1/t)) by (unfold g; field; lra).
    rewrite E2.
    set (k := 1 - t / (2 * (1 - cos t) / sin t)).
    apply v3_ext; simpl; field; lra.
  - unfold V. rewrite rod_mul. replace (rodrigues w _ _) with m3id; [apply m3v_id|].
    rewrite <- (rod_id w). rewrite <- Sq. unfold g, B, C. f_equal.
    + field_simplify_eq; [|lra].
      replace (sin t ^ 2) with (1 - cos t * cos t) by (simpl; lra). ring.
    + field_simplify_eq; [|lra].
      replace (sin t ^ 2) with (1 - cos t * cos t) by (simpl; lra). ring.
Qed.
