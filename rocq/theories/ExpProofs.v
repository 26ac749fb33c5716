(** Exponential / logarithm lemmas for the quat_ops.h model. *)
From Coq Require Import Reals Lra Psatz Bool.
From Verif Require Import RBool GeoModel GeoSpec GeoProofs.
Open Scope R_scope.

(** Rodrigues polynomial I + a W + b W^2 *)
Definition rodrigues (w : v3) (a b : R) : m3 :=
  m3add (m3add m3id (m3scal a (skew_x w))) (m3mul (m3scal b (skew_x w)) (skew_x w)).

Lemma v3norm_sq w : v3norm w * v3norm w = v3dot w w.
Proof.
  unfold v3norm. apply sqrt_sqrt. unfold v3dot. nra.
Qed.
Lemma v3norm_nonneg w : 0 <= v3norm w.
Proof. apply sqrt_pos. Qed.
Lemma v3norm_zero w : v3norm w = 0 -> w = v3zero.
Proof.
  intros H. pose proof (v3norm_sq w) as S. rewrite H in S. unfold v3dot in S.
  assert (vx w * vx w = 0 /\ vy w * vy w = 0 /\ vz w * vz w = 0) as (A & B & C) by (repeat split; nra).
  apply v3_ext; simpl; nra.
Qed.
Lemma v3norm_neg w : v3norm (v3neg w) = v3norm w.
Proof. unfold v3norm, v3dot; simpl. f_equal. ring. Qed.
Lemma v3norm_scal c w : v3norm (v3scal c w) = Rabs c * v3norm w.
Proof.
  unfold v3norm. replace (v3dot (v3scal c w) (v3scal c w)) with (Rsqr c * v3dot w w)
    by (unfold v3dot, Rsqr; simpl; ring).
  rewrite sqrt_mult_alt by apply Rle_0_sqr. rewrite sqrt_Rsqr_abs. reflexivity.
Qed.

Lemma rodrigues_mul_tr w a b :
  m3mul (rodrigues w a b) (m3tr (rodrigues w a b)) =
  m3add m3id (m3scal (2 * b - a * a - b * b * v3dot w w) (m3mul (skew_x w) (skew_x w))).
Proof. apply m3_ext; unfold v3dot; simpl; ring. Qed.
Lemma rodrigues_tr_mul w a b :
  m3mul (m3tr (rodrigues w a b)) (rodrigues w a b) =
  m3add m3id (m3scal (2 * b - a * a - b * b * v3dot w w) (m3mul (skew_x w) (skew_x w))).
Proof. apply m3_ext; unfold v3dot; simpl; ring. Qed.
Lemma rodrigues_det w a b :
  m3det (rodrigues w a b) =
  (1 - b * v3dot w w) * (1 - b * v3dot w w) + a * a * v3dot w w.
Proof. unfold m3det, v3dot; simpl; ring. Qed.
Lemma rodrigues_neg w a b : rodrigues (v3neg w) a b = m3tr (rodrigues w a b).
Proof. apply m3_ext; simpl; ring. Qed.

Lemma rodrigues_is_rot w a b :
  2 * b - a * a - b * b * v3dot w w = 0 -> is_rot (rodrigues w a b).
Proof.
  intros H. repeat split.
  - rewrite rodrigues_mul_tr, H. apply m3_ext; simpl; ring.
  - rewrite rodrigues_tr_mul, H. apply m3_ext; simpl; ring.
  - rewrite rodrigues_det. replace (a * a) with (2 * b - b * b * v3dot w w) by lra. ring.
Qed.

(** coefficients outside the small-angle branch *)
Lemma rod_coef_eq t : t <> 0 ->
  2 * ((1 - cos t) / (t * t)) - (sin t / t) * (sin t / t)
  - ((1 - cos t) / (t * t)) * ((1 - cos t) / (t * t)) * (t * t) = 0.
Proof.
  intros H. pose proof (sin2_cos2 t) as S. unfold Rsqr in S.
  replace (sin t / t * (sin t / t)) with ((1 - cos t * cos t) / (t * t)).
  2:{ replace (1 - cos t * cos t) with (sin t * sin t) by lra. field; auto. }
  field; auto.
Qed.

Lemma exp_so3_eq w : v3norm w = 0 \/ 1 / 10 ^ 7 <= v3norm w ->
  exp_so3 w = rodrigues w (sin (v3norm w) / v3norm w)
                (( 1 - cos (v3norm w)) / (v3norm w * v3norm w)).
Proof.
  intros H. unfold exp_so3.
  destruct (Reqb_spec (v3norm w) 0) as [E|E].
  - apply v3norm_zero in E as ->. apply m3_ext; simpl; ring.
  - destruct H as [H|H]; [lra|].
    destruct (Rltb_spec (v3norm w) (1 / 10 ^ 7)); [lra|]. reflexivity.
Qed.

Lemma exp_so3_is_rot w : v3norm w = 0 \/ 1 / 10 ^ 7 <= v3norm w -> is_rot (exp_so3 w).
Proof.
  intros H. rewrite exp_so3_eq by auto.
  destruct H as [H|H].
  - apply v3norm_zero in H as ->. 
    replace (rodrigues v3zero _ _) with m3id by (apply m3_ext; simpl; ring). apply is_rot_id.
  - assert (0 < v3norm w) by (assert (0 < 1 / 10 ^ 7) by lra; lra).
    apply rodrigues_is_rot. rewrite <- v3norm_sq. apply rod_coef_eq. lra.
Qed.

(** what the small-angle branch returns: exactly I + W + W^2/2 *)
Lemma exp_so3_small w : 0 < v3norm w < 1 / 10 ^ 7 -> exp_so3 w = rodrigues w 1 (1/2).
Proof.
  intros H. unfold exp_so3. destruct (Reqb_spec (v3norm w) 0); [lra|].
  destruct (Rltb_spec (v3norm w) (1 / 10 ^ 7)); [reflexivity|lra].
Qed.

Lemma exp_so3_neg w : exp_so3 (v3neg w) = m3tr (exp_so3 w).
Proof.
  unfold exp_so3. rewrite v3norm_neg. destruct (Reqb (v3norm w) 0).
  - apply m3_ext; reflexivity.
  - apply (rodrigues_neg w).
Qed.

(** the small-angle branch is never exactly a rotation *)
Lemma exp_so3_small_not_rot w : 0 < v3norm w < 1 / 10 ^ 7 -> ~ is_rot (exp_so3 w).
Proof.
  intros H (H1 & _). rewrite exp_so3_small in H1 by auto.
  rewrite rodrigues_mul_tr in H1.
  assert (T : m3trace m3id = m3trace m3id) by reflexivity.
  rewrite <- H1 in T at 1.
  unfold m3trace, v3dot in T; simpl in T.
  pose proof (v3norm_sq w) as S. unfold v3dot in S.
  set (n := vx w * vx w + vy w * vy w + vz w * vz w) in *.
  assert (Q : n * n = 0) by (unfold n in *; lra).
  assert (0 < n) by (rewrite <- S; apply Rmult_lt_0_compat; lra).
  assert (0 < n * n) by (apply Rmult_lt_0_compat; lra). lra.
Qed.

(** ** log after exp *)
Lemma rodrigues_trace w a b : m3trace (rodrigues w a b) = 3 - 2 * b * v3dot w w.
Proof. unfold m3trace, v3dot; simpl; ring. Qed.

Lemma exp_so3_trace w : v3norm w = 0 \/ 1 / 10 ^ 7 <= v3norm w ->
  m3trace (exp_so3 w) = 1 + 2 * cos (v3norm w).
Proof.
  intros H. rewrite exp_so3_eq by auto. rewrite rodrigues_trace, <- v3norm_sq.
  destruct H as [H|H].
  - rewrite H, cos_0. replace (1 - 1) with 0 by ring. unfold Rdiv. ring.
  - assert (0 < v3norm w) by (assert (0 < 1 / 10 ^ 7) by lra; lra). field. lra.
Qed.

(** log(exp(w)) in the generic branch of log_so3: 2 - 2 cos|w| > 1e-7 (|w| above about 3.2e-4)
    and 2 + 2 cos|w| >= 1e-10 (|w| below about pi - 1e-5) *)
Lemma log_exp_so3 w :
  1 / 10 ^ 7 <= v3norm w < PI ->
  1 / 10 ^ 7 < 2 - 2 * cos (v3norm w) ->
  1 / 10 ^ 10 <= 2 + 2 * cos (v3norm w) ->
  log_so3 (exp_so3 w) = w.
Proof.
  intros H H1 H2. assert (P : 0 < v3norm w) by (assert (0 < 1 / 10 ^ 7) by lra; lra).
  unfold log_so3. rewrite exp_so3_trace by lra.
  destruct (Rltb_spec (1 + 2 * cos (v3norm w) + 1) (1 / 10 ^ 10)); [lra|].
  destruct (Rltb_spec (1 + 2 * cos (v3norm w) - 3) (- (1 / 10 ^ 7))); [|lra].
  replace ((1 + 2 * cos (v3norm w) - 1) / 2) with (cos (v3norm w)) by field.
  rewrite acos_cos by lra.
  assert (0 < sin (v3norm w)) by (apply sin_gt_0; lra).
  rewrite exp_so3_eq by lra.
  set (s := sin (v3norm w)) in *. set (th := v3norm w) in *.
  apply v3_ext; simpl; field; lra.
Qed.

(** log(exp(w)) in the Taylor branch of log_so3 *)
Lemma log_exp_so3_taylor w :
  1 / 10 ^ 7 <= v3norm w -> 2 - 2 * cos (v3norm w) <= 1 / 10 ^ 7 ->
  log_so3 (exp_so3 w) =
  v3scal (sin (v3norm w) / v3norm w * (1 + (1 - cos (v3norm w)) / 3)) w.
Proof.
  intros H H1. assert (P : 0 < v3norm w) by (assert (0 < 1 / 10 ^ 7) by lra; lra).
  unfold log_so3. rewrite exp_so3_trace by lra.
  destruct (Rltb_spec (1 + 2 * cos (v3norm w) + 1) (1 / 10 ^ 10)); [lra|].
  destruct (Rltb_spec (1 + 2 * cos (v3norm w) - 3) (- (1 / 10 ^ 7))); [lra|].
  rewrite exp_so3_eq by lra.
  set (s := sin (v3norm w)) in *. set (th := v3norm w) in *.
  apply v3_ext; simpl; field; lra.
Qed.

(** log(exp(w)) when exp_so3 itself is in its small-angle branch *)
Lemma log_exp_so3_small w :
  0 < v3norm w < 1 / 10 ^ 7 ->
  log_so3 (exp_so3 w) = v3scal (1 + v3dot w w / 6) w.
Proof.
  intros H. unfold log_so3. rewrite exp_so3_small by auto.
  rewrite rodrigues_trace, <- v3norm_sq.
  destruct (Rltb_spec (3 - 2 * (1 / 2) * (v3norm w * v3norm w) + 1) (1 / 10 ^ 10)); [nra|].
  destruct (Rltb_spec (3 - 2 * (1 / 2) * (v3norm w * v3norm w) - 3) (- (1 / 10 ^ 7))); [nra|].
  apply v3_ext; simpl; field.
Qed.
Lemma log_exp_so3_zero : log_so3 (exp_so3 v3zero) = v3zero.
Proof.
  assert (N : v3norm v3zero = 0).
  { unfold v3norm, v3dot; simpl. replace (0*0+0*0+0*0) with 0 by ring. apply sqrt_0. }
  unfold exp_so3. destruct (Reqb_spec (v3norm v3zero) 0); [|lra].
  unfold log_so3, m3trace; cbn [m00 m11 m22 m3id m21 m12 m02 m20 m10 m01].
  destruct (Rltb_spec (1 + 1 + 1 + 1) (1 / 10 ^ 10)); [lra|].
  destruct (Rltb_spec (1 + 1 + 1 - 3) (- (1 / 10 ^ 7))); [lra|].
  apply v3_ext; simpl; field.
Qed.

(** ** exp after log *)
Lemma unit_row_le x y z : x * x + y * y + z * z = 1 -> -1 <= x <= 1.
Proof. intros H. pose proof (Rle_0_sqr y); pose proof (Rle_0_sqr z); unfold Rsqr in *. nra. Qed.
Lemma mul_neg_l a b : b < 0 -> 0 <= a * b -> a <= 0.
Proof. intros. nra. Qed.
Lemma sq_nonneg x : 0 <= x * x.
Proof. nra. Qed.

Lemma rot_trace_bounds r : is_rot r -> -1 <= m3trace r <= 3.
Proof.
  intros H. rot_eqs H. unfold m3trace.
  pose proof (rot_products r H) as P. cbv zeta in P.
  destruct P as (_ & (D1 & D2 & D3) & _).
  pose proof (unit_row_le _ _ _ R2).
  assert (-1 <= m11 r <= 1) by (apply (unit_row_le _ (m10 r) (m12 r)); lra).
  assert (-1 <= m22 r <= 1) by (apply (unit_row_le _ (m20 r) (m21 r)); lra).
  split; [|lra].
  destruct (Rle_or_lt (-1) (m00 r + m11 r + m22 r)) as [L|L]; auto.
  assert (L' : 1 + m00 r + m11 r + m22 r < 0) by lra.
  pose proof (sq_nonneg (m12 r - m21 r)) as Z1. rewrite D1 in Z1. apply mul_neg_l in Z1; [|exact L'].
  pose proof (sq_nonneg (m20 r - m02 r)) as Z2. rewrite D2 in Z2. apply mul_neg_l in Z2; [|exact L'].
  pose proof (sq_nonneg (m01 r - m10 r)) as Z3. rewrite D3 in Z3. apply mul_neg_l in Z3; [|exact L'].
  lra.
Qed.

Lemma acos_range x : -1 < x < 1 -> 0 < acos x < PI.
Proof.
  intros H. pose proof (acos_bound x) as B. pose proof (cos_acos x) as C.
  split.
  - destruct (Req_dec (acos x) 0) as [E|E]; [|lra]. rewrite E, cos_0 in C. lra.
  - destruct (Req_dec (acos x) PI) as [E|E]; [|lra]. rewrite E, cos_PI in C. lra.
Qed.

Lemma one_minus_cos_le t : 0 <= t -> 2 - 2 * cos t <= t * t.
Proof.
  intros H.
  replace (cos t) with (1 - 2 * (sin (t / 2) * sin (t / 2))).
  2:{ replace t with (2 * (t / 2)) at 3 by field. rewrite cos_2a_sin. ring. }
  assert (0 <= t / 2) by lra. 
  assert (A : Rabs (sin (t/2)) <= t / 2).
  { destruct (Rle_lt_or_eq_dec _ _ H0) as [L|<-].
    - apply Rabs_le. split; [|left; apply sin_lt_x; auto].
      destruct (Rle_or_lt (t/2) PI) as [Q|Q].
      + assert (0 <= sin (t/2)) by (apply sin_ge_0; lra). lra.
      + pose proof (SIN_bound (t/2)). pose proof PI2_1. lra.
    - rewrite sin_0, Rabs_R0; lra. }
  assert (Rabs (sin (t/2)) * Rabs (sin (t/2)) = sin (t/2) * sin (t/2)).
  { rewrite <- Rabs_mult. apply Rabs_right. nra. }
  pose proof (Rabs_pos (sin (t/2))). nra.
Qed.

Lemma exp_log_so3 r : is_rot r ->
  1 / 10 ^ 10 <= m3trace r + 1 -> m3trace r - 3 < - (1 / 10 ^ 7) ->
  exp_so3 (log_so3 r) = r /\ v3norm (log_so3 r) = acos ((m3trace r - 1) / 2).
Proof.
  intros H H1 H2. unfold log_so3.
  destruct (Rltb_spec (m3trace r + 1) (1 / 10 ^ 10)); [lra|].
  destruct (Rltb_spec (m3trace r - 3) (- (1 / 10 ^ 7))); [|lra].
  set (c := (m3trace r - 1) / 2). set (th := acos c).
  assert (Hc : -1 < c < 1) by (unfold c; lra).
  pose proof (acos_range c Hc) as Hth. fold th in Hth.
  assert (C : cos th = c) by (apply cos_acos; lra).
  assert (Hs : 0 < sin th) by (apply sin_gt_0; lra).
  pose proof (sin2_cos2 th) as SC. unfold Rsqr in SC. rewrite C in SC.
  set (s := sin th) in *.
  pose proof (rot_products r H) as P. cbv zeta in P.
  destruct P as ((P1 & P2 & P3) & (D1 & D2 & D3) & (T1 & T2 & T3) & (X1 & X2 & X3 & X4 & X5 & X6) & (Y1 & Y2 & Y3)).
  set (d := V3 (m21 r - m12 r) (m02 r - m20 r) (m10 r - m01 r)).
  set (w := v3scal (th / (2 * s)) d).
  assert (Tr : m3trace r = 2 * c + 1) by (unfold c; field).
  assert (Tr' := Tr). unfold m3trace in Tr.
  assert (ND : v3dot d d = 4 * (s * s)).
  { unfold v3dot, d; simpl. rewrite <- (Rmult_1_r (s * s)). replace (s * s) with (1 - c * c) by lra. replace c with ((m00 r + m11 r + m22 r - 1) / 2) by (unfold c, m3trace; field). lra. }
  assert (N : v3norm w = th).
  { unfold w. rewrite v3norm_scal. unfold v3norm. rewrite ND.
    replace (4 * (s * s)) with (Rsqr (2 * s)) by (unfold Rsqr; ring).
    rewrite sqrt_Rsqr by lra. rewrite Rabs_right.
    - field; lra.
    - apply Rle_ge. apply Rlt_le. apply Rdiv_lt_0_compat; lra. }
  split; [|exact N].
  assert (Hbig : 1 / 10 ^ 7 <= th).
  { pose proof (one_minus_cos_le th) as B. rewrite C in B.
    assert (2 - 2 * c <= th * th) by (apply B; lra).
    assert (1 / 10 ^ 7 < 2 - 2 * c) by lra. destruct (Rle_or_lt (1 / 10 ^ 7) th) as [L|L]; auto.
    assert (th * th <= 1 * th) by (apply Rmult_le_compat_r; lra). lra. }
  rewrite exp_so3_eq by (rewrite N; lra). rewrite N. rewrite C.
  change (sin th) with s.
  assert (E : forall x y p, x * y = (1 + m00 r + m11 r + m22 r) * p ->
     ((1 - c) / (th * th)) * ((th / (2 * s) * x) * (th / (2 * s) * y)) = p / 2).
  { intros x y p Hxy. replace (1 + m00 r + m11 r + m22 r) with (2 * c + 2) in Hxy by lra.
    replace ((1 - c) / (th * th) * ((th / (2 * s) * x) * (th / (2 * s) * y)))
      with ((1 - c) * (x * y) / (4 * (s * s))) by (field; lra).
    rewrite Hxy. replace (s * s) with (1 - c * c) by lra. field. nra. }
  assert (S1 : forall x, (s / th) * (th / (2 * s) * x) = x / 2) by (intros; field; lra).
  assert (C2 : m22 r = 2 * c + 1 - m00 r - m11 r) by lra.
  unfold rodrigues, w, d; apply m3_ext;
    cbn [m3add m3id m3scal m3mul skew_x m00 m01 m02 m10 m11 m12 m20 m21 m22 v3scal vx vy vz].
  all: set (k := th / (2 * s)) in *; set (b := (1 - c) / (th * th)) in *; set (a := s / th) in *.
  all: set (x := m21 r - m12 r) in *; set (y := m02 r - m20 r) in *; set (z := m10 r - m01 r) in *.
  all: assert (Exx := E x x (1 + m00 r - m11 r - m22 r) ltac:(unfold x; lra)).
  all: assert (Eyy := E y y (1 - m00 r + m11 r - m22 r) ltac:(unfold y; lra)).
  all: assert (Ezz := E z z (1 - m00 r - m11 r + m22 r) ltac:(unfold z; lra)).
  all: assert (Exy := E x y (m01 r + m10 r) ltac:(unfold x, y; lra)).
  all: assert (Exz := E x z (m02 r + m20 r) ltac:(unfold x, z; lra)).
  all: assert (Eyz := E y z (m12 r + m21 r) ltac:(unfold y, z; lra)).
  all: assert (Sx := S1 x); assert (Sy := S1 y); assert (Sz := S1 z).
  all: unfold x, y, z in *; lra.
Qed.

(** rotations by exactly pi *)
Lemma sqrt_half_sq x : 0 < x -> (PI / sqrt x) * (PI / sqrt x) * x = PI * PI.
Proof.
  intros H. assert (0 < sqrt x) by (apply sqrt_lt_R0; auto).
  replace (PI / sqrt x * (PI / sqrt x) * x) with (PI * PI * x / (sqrt x * sqrt x)) by (field; lra).
  rewrite sqrt_sqrt by lra. field. lra.
Qed.

Lemma sq_zero x : x * x = 0 -> x = 0.
Proof. intros H. apply Rsqr_0_uniq. exact H. Qed.

Lemma exp_log_so3_pi r : is_rot r -> m3trace r = -1 ->
  exp_so3 (log_so3 r) = r /\ v3norm (log_so3 r) = PI.
Proof.
  intros H HT.
  pose proof (rot_products r H) as P. cbv zeta in P. rot_eqs H.
  destruct P as ((P1 & P2 & P3) & (D1 & D2 & D3) & (T1 & T2 & T3) & _ & _).
  assert (Dg : 0 <= 1 + m00 r /\ 0 <= 1 + m11 r /\ 0 <= 1 + m22 r).
  { pose proof (unit_row_le _ _ _ R2).
    assert (-1 <= m11 r <= 1) by (apply (unit_row_le _ (m10 r) (m12 r)); lra).
    assert (-1 <= m22 r <= 1) by (apply (unit_row_le _ (m20 r) (m21 r)); lra). lra. }
  clear H R2 R3 R4 R5 R6 R7 C1 C2 C3 C4 C5 C6 K1 K2 K3 K4 K5 K6 K7 K8 K9.
  destruct r as [a b c d e f g h i].
  unfold log_so3, m3trace in *; cbn [m00 m01 m02 m10 m11 m12 m20 m21 m22] in *.
  assert (Z : 1 + a + e + i = 0) by lra.
  rewrite Z in D1, D2, D3. rewrite Rmult_0_r in D1, D2, D3.
  apply sq_zero in D1; apply sq_zero in D2; apply sq_zero in D3.
  assert (f = h) by lra. assert (g = c) by lra. assert (b = d) by lra.
  assert (a = - 1 - e - i) by lra. subst f g b a. clear D1 D2 D3 Z.
  assert (key : forall (w : v3), v3dot w w = PI * PI ->
     vx w * vx w * 2 = PI * PI * (1 + (-1 - e - i)) -> vy w * vy w * 2 = PI * PI * (1 + e) ->
     vz w * vz w * 2 = PI * PI * (1 + i) ->
     vx w * vy w * 2 = PI * PI * d -> vx w * vz w * 2 = PI * PI * c ->
     vy w * vz w * 2 = PI * PI * h ->
     exp_so3 w = M3 (-1 - e - i) d c d e h c h i /\ v3norm w = PI).
  { intros w Hn A0 A1 A2 B0 B1 B2. pose proof PI_RGT_0 as HP. pose proof PI2_1 as HP2.
    assert (N : v3norm w = PI).
    { unfold v3norm. rewrite Hn. apply (sqrt_square PI). lra. }
    split; auto. rewrite exp_so3_eq by (rewrite N; right; lra). rewrite N, sin_PI, cos_PI.
    replace (0 / PI) with 0 by (field; lra).
    replace ((1 - -1) / (PI * PI)) with (2 / (PI * PI)) by (field; lra).
    unfold v3dot in Hn.
    assert (E : forall x p, x * 2 = PI * PI * p -> 2 / (PI * PI) * x = p).
    { intros x p Hx. replace (2 / (PI * PI) * x) with (x * 2 / (PI * PI)) by (field; lra).
      rewrite Hx. field; lra. }
    unfold rodrigues; apply m3_ext;
    cbn [m3add m3id m3scal m3mul skew_x m00 m01 m02 m10 m11 m12 m20 m21 m22].
    all: set (k := 2 / (PI * PI)) in *.
    all: pose proof (E _ _ A0); pose proof (E _ _ A1); pose proof (E _ _ A2);
         pose proof (E _ _ B0); pose proof (E _ _ B1); pose proof (E _ _ B2); lra. }
  destruct (Rltb_spec (-1 - e - i + e + i + 1) (1 / 10 ^ 10)); [|lra].
  assert (Sx : forall x, 1 + x <> 0 -> 0 <= 1 + x ->
     (PI / sqrt (2 + 2 * x)) * (PI / sqrt (2 + 2 * x)) * (2 * (1 + x)) = PI * PI).
  { intros x Hx Hx'. replace (2 * (1 + x)) with (2 + 2 * x) by ring. apply sqrt_half_sq. lra. }
  assert (fin : forall p k v, k * k * (2 * (1 + p)) = PI * PI -> v3dot v v = (1 + p) * 2 ->
     vx v * vx v = (1 + p) * (1 + (-1 - e - i)) -> vy v * vy v = (1 + p) * (1 + e) ->
     vz v * vz v = (1 + p) * (1 + i) -> vx v * vy v = (1 + p) * d ->
     vx v * vz v = (1 + p) * c -> vy v * vz v = (1 + p) * h ->
     exp_so3 (v3scal k v) = M3 (-1 - e - i) d c d e h c h i /\ v3norm (v3scal k v) = PI).
  { intros p k v K N0 N1 N2 N3 N4 N5 N6.
    assert (F : forall x q, x = (1 + p) * q -> k * k * x * 2 = PI * PI * q).
    { intros x q ->. rewrite <- K. ring. }
    apply key; cbn [v3scal vx vy vz].
    - rewrite <- K. transitivity (k * k * v3dot v v); [unfold v3dot; simpl; ring|]. rewrite N0. ring.
    - rewrite <- (F _ _ N1); ring.
    - rewrite <- (F _ _ N2); ring.
    - rewrite <- (F _ _ N3); ring.
    - rewrite <- (F _ _ N4); ring.
    - rewrite <- (F _ _ N5); ring.
    - rewrite <- (F _ _ N6); ring. }
  destruct (Rltb_spec (1 / 10 ^ 5) (Rabs (i + 1))) as [L|L];
  [|destruct (Rltb_spec (1 / 10 ^ 5) (Rabs (e + 1))) as [L'|L']].
  - assert (NZ : 1 + i <> 0).
    { intros E0. replace (i + 1) with 0 in L by lra. rewrite Rabs_R0 in L. lra. }
    apply (fin i); [apply Sx; lra|..]; unfold v3dot; cbn [vx vy vz]; lra.
  - assert (NZ : 1 + e <> 0).
    { intros E0. replace (e + 1) with 0 in L' by lra. rewrite Rabs_R0 in L'. lra. }
    apply (fin e); [apply Sx; lra|..]; unfold v3dot; cbn [vx vy vz]; lra.
  - assert (NZ : 1 + (-1 - e - i) <> 0).
    { rewrite Rabs_right in L by lra. rewrite Rabs_right in L' by lra. lra. }
    apply (fin (-1 - e - i)); [apply Sx; lra|..]; unfold v3dot; cbn [vx vy vz]; lra.
Qed.
