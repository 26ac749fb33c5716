(** The discrete mean propagation and its transition matrix (C59). *)
From Coq Require Import Reals Lra Psatz Bool List Arith Lia.
From Coquelicot Require Import Coquelicot.
From Verif Require Import Outcome RBool GeoModel GeoSpec GeoProofs GeoMore ExpProofs Se3Proofs JacSo3 Lin TypesModel StateModel.
From Verif Require Import ManifoldSpec ManifoldProofs Calc3 ImuModel PropModel PropSpec PropRows PropProofs.
Import ListNotations.
Open Scope R_scope.

(** ** rotation of the propagated orientation *)
Definition quat_of_rate (dt : R) (w : v3) : q4 :=
  let n := v3norm w in let k := 1 / n * sin (/ 2 * n * dt) in
  Q4 (k * vx w) (k * vy w) (k * vz w) (cos (/ 2 * n * dt)).

Lemma big_omega dt w q :
  q4add (q4scal (cos (/ 2 * v3norm w * dt)) q) (q4scal (1 / v3norm w * sin (/ 2 * v3norm w * dt)) (Omega_mul w q))
  = quat_mul_raw (quat_of_rate dt w) q.
Proof. unfold quat_of_rate. rewrite Omega_mul_quat. apply q4_ext; simpl; unfold v3dot; simpl; ring. Qed.
Lemma big_omega_small dt w q :
  q4add q (q4scal (/ 2 * dt) (Omega_mul w q)) = quat_mul_raw (Q4 (/ 2 * (dt * vx w)) (/ 2 * (dt * vy w)) (/ 2 * (dt * vz w)) 1) q.
Proof. rewrite Omega_mul_quat. apply q4_ext; simpl; unfold v3dot; simpl; ring. Qed.

Lemma quat_of_rate_unit dt w : 0 < v3norm w -> unit_q (quat_of_rate dt w).
Proof.
  intros P. pose proof (v3norm_sq w) as Sq. unfold v3dot in Sq. unfold unit_q, quat_of_rate; cbn [qx qy qz qw].
  set (n := v3norm w) in *. pose proof (sin2_cos2 (/ 2 * n * dt)) as T. unfold Rsqr in T.
  set (s := sin (/ 2 * n * dt)) in *. set (c := cos (/ 2 * n * dt)) in *.
  replace (1 / n * s * vx w * (1 / n * s * vx w) + 1 / n * s * vy w * (1 / n * s * vy w) + 1 / n * s * vz w * (1 / n * s * vz w) + c * c)
    with (s * s * ((vx w * vx w + vy w * vy w + vz w * vz w) / (n * n)) + c * c) by (field; lra).
  rewrite <- Sq. replace (n * n / (n * n)) with 1 by (field; lra). lra.
Qed.

Lemma quat_of_rate_rot dt w : 0 < dt -> 0 < v3norm w -> 1 / 10 ^ 7 <= v3norm (v3scal (- dt) w) ->
  quat_2_Rot (quat_of_rate dt w) = exp_so3 (v3scal (- dt) w).
Proof.
  intros Hd P Hn. rewrite quat_2_Rot_hom by (apply quat_of_rate_unit; auto).
  rewrite exp_so3_eq by auto. rewrite v3norm_scal, Rabs_Ropp, Rabs_pos_eq by lra.
  pose proof (v3norm_sq w) as Sq. unfold v3dot in Sq. unfold quat_of_rate.
  set (n := v3norm w) in *.
  replace (dt * n) with (2 * (/ 2 * n * dt)) by field.
  rewrite sin_2a, cos_2a_sin.
  pose proof (sin2_cos2 (/ 2 * n * dt)) as T. unfold Rsqr in T.
  set (h := / 2 * n * dt) in *. set (s := sin h) in *. set (c := cos h) in *.
  assert (C2 : c * c = 1 - s * s) by lra.
  assert (Hh : h <> 0) by (unfold h; nra).
  assert (Ed : dt = 2 * h / n) by (unfold h; field; lra).
  rewrite Ed. clearbody s c h n. clear Hd Hn Ed T.
  destruct w as [x y z]; cbn [vx vy vz] in *.
  unfold rot_hom, rodrigues; apply m3_ext;
  cbn [qx qy qz qw v3scal m3add m3id m3scal m3mul skew_x m00 m01 m02 m10 m11 m12 m20 m21 m22 vx vy vz].
  all: field_simplify_eq; [|lra].
  all: assert (Q : n ^ 2 = x ^ 2 + y ^ 2 + z ^ 2) by (rewrite <- (Rmult_1_r (n^2)); nra).
  all: replace (c ^ 2) with (1 - s ^ 2) by nra; try (rewrite Q); ring.
Qed.

Lemma disc_rot g x dt w a : unit_q (iv_q (ps_imu x)) -> 0 < dt -> 1 / 10 ^ 12 < v3norm w -> 1 / 10 ^ 7 <= v3norm (v3scal (- dt) w) ->
  quat_2_Rot (mn_q (predict_mean_discrete g x dt w a)) = m3mul (exp_so3 (v3scal (- dt) w)) (quat_2_Rot (iv_q (ps_imu x))).
Proof.
  intros U Hd P Hn. unfold predict_mean_discrete; cbn [mn_q].
  destruct (Rltb_spec (1 / 10 ^ 12) (v3norm w)) as [_|C]; [|lra].
  assert (P0 : 0 < v3norm w) by (assert (0 < 1 / 10 ^ 12) by lra; lra).
  pose proof (quat_of_rate_unit dt w P0) as U1.
  rewrite big_omega, quat_2_Rot_quatnorm by (apply quat_mul_raw_unit; auto).
  rewrite quat_2_Rot_hom by (apply quat_mul_raw_unit; auto).
  rewrite rot_hom_mul, <- !quat_2_Rot_hom by auto. rewrite quat_of_rate_rot by auto. reflexivity.
Qed.
Lemma disc_rot_small g x dt w a : unit_q (iv_q (ps_imu x)) -> v3norm w <= 1 / 10 ^ 12 ->
  quat_2_Rot (mn_q (predict_mean_discrete g x dt w a)) = m3mul (cayley (v3scal dt w)) (quat_2_Rot (iv_q (ps_imu x))).
Proof.
  intros U P. unfold predict_mean_discrete; cbn [mn_q].
  destruct (Rltb_spec (1 / 10 ^ 12) (v3norm w)) as [C|_]; [lra|].
  rewrite big_omega_small. rewrite <- update_rot by auto. unfold quat_multiply.
  set (u := Q4 (/ 2 * (dt * vx w)) (/ 2 * (dt * vy w)) (/ 2 * (dt * vz w)) 1).
  assert (Eu : small_quat (v3scal dt w) = quatnorm u) by reflexivity. rewrite Eu.
  assert (Pu : 0 < qx u * qx u + qy u * qy u + qz u * qz u + qw u * qw u) by (unfold u; simpl; nra).
  assert (Nu : 0 < q4norm u) by (apply q4norm_pos; auto).
  assert (Eq : quatnorm u = q4div u (q4norm u)).
  { unfold quatnorm. replace (Rltb (qw u) 0) with false; [reflexivity|]. symmetry. apply Rltb_false. unfold u; simpl; lra. }
  assert (Uu : unit_q (q4div u (q4norm u))) by (rewrite <- Eq; apply quatnorm_is_unit; auto).
  rewrite Eq. set (k := q4norm u) in *.
  assert (E : quat_mul_raw u (iv_q (ps_imu x)) = q4scal k (quat_mul_raw (q4div u k) (iv_q (ps_imu x)))).
  { apply q4_ext; unfold q4scal, q4div; simpl; unfold v3dot; simpl; field; lra. }
  rewrite E.
  pose proof (quat_mul_raw_unit _ _ Uu U) as Um. set (m := quat_mul_raw (q4div u k) (iv_q (ps_imu x))) in *.
  (* normalising a positive multiple of a unit quaternion *)
  f_equal. unfold quatnorm. cbn [q4scal qw].
  assert (Sg : Rltb (k * qw m) 0 = Rltb (qw m) 0).
  { destruct (Rltb_spec (k * qw m) 0), (Rltb_spec (qw m) 0); auto; nra. }
  assert (Nk : q4norm (q4scal k m) = k).
  { unfold q4norm; cbn [q4scal qx qy qz qw]. unfold unit_q in Um.
    replace (k * qx m * (k * qx m) + k * qy m * (k * qy m) + k * qz m * (k * qz m) + k * qw m * (k * qw m))
      with (k * k * (qx m * qx m + qy m * qy m + qz m * qz m + qw m * qw m)) by ring.
    rewrite Um, Rmult_1_r. apply sqrt_square. lra. }
  rewrite Sg. 
  assert (Nm : forall z, q4norm (q4neg z) = q4norm z).
  { intros z; unfold q4norm, q4neg; cbn [qx qy qz qw]. f_equal. ring. }
  destruct (Rltb (qw m) 0); rewrite ?Nm, ?Nk, ?(q4norm_unit m) by auto; apply q4_ext; simpl; field; lra.
Qed.

(** ** E Jr = Jl *)
Lemma rod_neg w a b : rodrigues (v3neg w) a b = rodrigues w (- a) b.
Proof. apply m3_ext; simpl; ring. Qed.
Lemma exp_Jr w : 1 / 10 ^ 6 <= v3norm w -> m3mul (exp_so3 w) (Jr_so3 w) = Jl_so3 w.
Proof.
  intros H. assert (P : 0 < v3norm w) by (assert (0 < 1 / 10 ^ 6) by lra; lra).
  unfold Jr_so3. rewrite !Jl_so3_eq by (rewrite ?v3norm_neg; auto). rewrite v3norm_neg.
  rewrite exp_so3_eq by (right; lra). rewrite rod_neg, rod_mul, <- v3norm_sq.
  pose proof (rod_coef_eq (v3norm w) ltac:(lra)) as Q.
  set (t := v3norm w) in *. set (A := sin t / t) in *. set (B := (1 - cos t) / (t * t)) in *.
  assert (EC : (1 - A) / (t * t) * (t * t) = 1 - A) by (field; lra).
  set (C := (1 - A) / (t * t)) in *. clearbody A B C.
  f_equal.
  - replace (A + - B - (A * C + B * - B) * (t * t)) with (A - B - A * (C * (t * t)) + B * B * (t * t)) by ring.
    rewrite EC. lra.
  - replace (B + C + A * - B - B * C * (t * t)) with (B + C - A * B - B * (C * (t * t))) by ring. rewrite EC. ring.
Qed.

Lemma cayley_derive0 (fx fy fz : R -> R) (a b c : R) : is_derive fx 0 a -> is_derive fy 0 b -> is_derive fz 0 c ->
  fx 0 = 0 -> fy 0 = 0 -> fz 0 = 0 ->
  m3_derive (fun s => cayley (V3 (fx s) (fy s) (fz s))) 0 (m3scal (-1) (skew_x (V3 a b c))).
Proof.
  intros Wx Wy Wz X0 Y0 Z0.
  assert (Ex : ex_derive fx 0) by (eexists; exact Wx).
  assert (Ey : ex_derive fy 0) by (eexists; exact Wy).
  assert (Ez : ex_derive fz 0) by (eexists; exact Wz).
  apply is_derive_unique in Wx. apply is_derive_unique in Wy. apply is_derive_unique in Wz.
  unfold m3_derive, cayley, v3dot; cbn [v3scal skew_x m3scal m00 m01 m02 m10 m11 m12 m20 m21 m22 vx vy vz].
  split9; auto_derive; rewrite ?X0, ?Y0, ?Z0; repeat split; auto; try lra.
  all: change (Derive (fun x => fx x) 0) with (Derive fx 0); change (Derive (fun x => fy x) 0) with (Derive fy 0);
       change (Derive (fun x => fz x) 0) with (Derive fz 0); rewrite Wx, Wy, Wz; field; lra.
Qed.

(** ** derivative of the propagated discrete mean, before comparing with F *)
Definition true_E (dt : R) (w : v3) : m3 := exp_so3 (v3scal (- dt) w).
Definition true_J (dt : R) (w : v3) : m3 := Jl_so3 (v3scal (- dt) w).

Lemma angle_lower t : 0 <= t -> 1 / 10 ^ 7 < 2 - 2 * cos t -> 1 / 10 ^ 6 < t.
Proof.
  intros H1 H2. pose proof (one_minus_cos_le t H1) as H3.
  destruct (Rlt_or_le (1 / 10 ^ 6) t); auto. exfalso.
  assert (t * t <= 1 / 10 ^ 6 * (1 / 10 ^ 6)) by (apply Rmult_le_compat; auto).
  assert (1 / 10 ^ 6 * (1 / 10 ^ 6) < 1 / 10 ^ 7) by lra. lra.
Qed.

Lemma skew_lin a b c : skew_x (v3add (v3scal c a) b) = m3add (m3scal c (skew_x a)) (skew_x b).
Proof. apply m3_ext; simpl; ring. Qed.

Lemma disc_th g (xs : R -> pst) (ws as_ : R -> v3) dt th w' (Hu : forall s, unit_q (iv_q (ps_imu (xs s)))) :
  0 < dt -> regular_rate dt (ws 0) -> v3_derive ws 0 w' ->
  m3_derive (fun s => quat_2_Rot (iv_q (ps_imu (xs s)))) 0 (m3mul (m3scal (-1) (skew_x th)) (quat_2_Rot (iv_q (ps_imu (xs 0))))) ->
  let n := fun s => predict_mean_discrete g (xs s) dt (ws s) (as_ s) in
  quat_2_Rot (mn_q (n 0)) = m3mul (true_E dt (ws 0)) (quat_2_Rot (iv_q (ps_imu (xs 0)))) /\ is_rot (true_E dt (ws 0)) /\
  m3_derive (fun s => quat_2_Rot (mn_q (n s))) 0
    (m3mul (skew_x (v3neg (v3add (m3v (true_E dt (ws 0)) th) (v3scal dt (m3v (true_J dt (ws 0)) w'))))) (quat_2_Rot (mn_q (n 0)))).
Proof.
  intros Hd Hr Hw HR n.
  destruct Hr as [Hz|(H1 & H2 & H3 & H4)].
  - (* zero rate *)
    assert (Z : ws 0 = v3zero) by (apply v3norm_zero; auto).
    assert (EE : true_E dt (ws 0) = m3id).
    { unfold true_E. rewrite Z. replace (v3scal (- dt) v3zero) with v3zero by (apply v3_ext; simpl; ring).
      unfold exp_so3. destruct (Reqb_spec (v3norm v3zero) 0) as [_|C]; auto. exfalso; apply C. rewrite <- Z; auto. }
    assert (EJ : true_J dt (ws 0) = m3id).
    { unfold true_J. rewrite Z. replace (v3scal (- dt) v3zero) with v3zero by (apply v3_ext; simpl; ring).
      unfold Jl_so3. rewrite <- Z, Hz. destruct (Rltb_spec 0 (1 / 10 ^ 6)); auto. lra. }
    assert (C0 : cayley (v3scal dt (ws 0)) = m3id).
    { rewrite Z. replace (v3scal dt v3zero) with (v3scal 0 v3zero) by (apply v3_ext; simpl; ring). apply cayley_0. }
    assert (E0 : quat_2_Rot (mn_q (n 0)) = m3mul (true_E dt (ws 0)) (quat_2_Rot (iv_q (ps_imu (xs 0))))).
    { unfold n. rewrite disc_rot_small by (auto; lra). rewrite C0, EE. reflexivity. }
    split; [exact E0|]. split; [rewrite EE; apply is_rot_id|].
    apply (m3_derive_ext_loc (fun s => m3mul (cayley (v3scal dt (ws s))) (quat_2_Rot (iv_q (ps_imu (xs s)))))).
    { (* near 0 the rate stays below the threshold *)
      destruct Hw as (Wx & Wy & Wz).
      assert (Cont : forall f (l : R), is_derive f 0 l -> f 0 = 0 -> locally 0 (fun s : R => Rabs (f s) < 1 / (2 * 10 ^ 12))).
      { intros f l Df f0. assert (Ct : continuous f 0) by (apply (ex_derive_continuous (K:=R_AbsRing) (V:=R_NormedModule)); eexists; exact Df).
        assert (O : locally (f 0) (fun y => Rabs y < 1 / (2 * 10 ^ 12))).
        { rewrite f0. assert (Pe : 0 < 1 / (2 * 10 ^ 12)) by lra. exists (mkposreal _ Pe). intros y By.
          assert (By' : Rabs ((y : R) - 0) < 1 / (2 * 10 ^ 12)) by exact By. rewrite Rminus_0_r in By'. exact By'. }
        exact (Ct _ O). }
      assert (X0 : vx (ws 0) = 0) by (rewrite Z; reflexivity). assert (Y0 : vy (ws 0) = 0) by (rewrite Z; reflexivity). assert (Z0 : vz (ws 0) = 0) by (rewrite Z; reflexivity).
      pose proof (Cont _ _ Wx X0) as Lx.
      pose proof (Cont _ _ Wy Y0) as Ly.
      pose proof (Cont _ _ Wz Z0) as Lz.
      pose proof (filter_and _ _ Lx (filter_and _ _ Ly Lz)) as L.
      eapply filter_imp; [|exact L]. intros s (Bx & By & Bz). cbv beta in *.
      unfold n. rewrite disc_rot_small; auto.
      unfold v3norm. rewrite <- (sqrt_square (1 / 10 ^ 12)) by lra. apply sqrt_le_1_alt. unfold v3dot.
      assert (Q : forall u, Rabs u < 1 / (2 * 10 ^ 12) -> u * u <= 1 / (2 * 10 ^ 12) * (1 / (2 * 10 ^ 12))).
      { intros u Hu'. replace (u * u) with (Rabs u * Rabs u) by (rewrite <- Rabs_mult; apply Rabs_pos_eq; nra).
        apply Rmult_le_compat; try apply Rabs_pos; lra. }
      pose proof (Q _ Bx). pose proof (Q _ By). pose proof (Q _ Bz). lra. }
    assert (Dc : m3_derive (fun s => cayley (v3scal dt (ws s))) 0 (m3scal (-1) (skew_x (v3scal dt w')))).
    { destruct (v3d_scal dt _ _ _ Hw) as (Wx & Wy & Wz).
      refine (cayley_derive0 (fun t => dt * vx (ws t)) (fun t => dt * vy (ws t)) (fun t => dt * vz (ws t)) _ _ _ Wx Wy Wz _ _ _); rewrite Z; simpl; ring. }
    eapply m3_derive_eq; [apply m3d_mul; [exact Dc|exact HR]|].
    cbv beta. rewrite E0, C0, EE, EJ.
    generalize (quat_2_Rot (iv_q (ps_imu (xs 0)))). intros Q. apply m3_ext; simpl; ring.
  - assert (P0 : 0 < v3norm (ws 0)) by (assert (0 < 1 / 10 ^ 12) by lra; lra).
    assert (Nn : v3norm (v3scal (- dt) (ws 0)) = dt * v3norm (ws 0)).
    { rewrite v3norm_scal, Rabs_Ropp, Rabs_pos_eq by lra. reflexivity. }
    assert (A6 : 1 / 10 ^ 6 < dt * v3norm (ws 0)) by (apply angle_lower; auto; nra).
    assert (E0 : quat_2_Rot (mn_q (n 0)) = m3mul (true_E dt (ws 0)) (quat_2_Rot (iv_q (ps_imu (xs 0))))).
    { unfold n, true_E. rewrite disc_rot; auto. rewrite Nn. lra. }
    assert (RE : is_rot (true_E dt (ws 0))) by (apply exp_so3_is_rot; right; rewrite Nn; lra).
    split; [exact E0|]. split; [exact RE|].
    assert (Dn : is_derive (fun s => v3norm (ws s)) 0 (v3dot (ws 0) w' / v3norm (ws 0))) by (apply norm_derive; auto).
    apply (m3_derive_ext_loc (fun s => m3mul (exp_so3 (v3scal (- dt) (ws s))) (quat_2_Rot (iv_q (ps_imu (xs s)))))).
    { assert (Ct : continuous (fun s => v3norm (ws s)) 0) by (apply (ex_derive_continuous (K:=R_AbsRing) (V:=R_NormedModule)); eexists; exact Dn).
      assert (O1 : locally (v3norm (ws 0)) (fun y => 1 / 10 ^ 12 < y)) by (apply open_gt; exact H1).
      assert (O2 : locally (v3norm (ws 0)) (fun y => 1 / 10 ^ 6 / dt < y)).
      { apply open_gt. apply Rmult_lt_reg_l with dt; auto. replace (dt * (1 / 10 ^ 6 / dt)) with (1 / 10 ^ 6) by (field; lra). exact A6. }
      pose proof (filter_and _ _ (Ct _ O1) (Ct _ O2)) as L. eapply filter_imp; [|exact L].
      intros s (B1 & B2). cbv beta in *. unfold n. rewrite disc_rot; auto.
      rewrite v3norm_scal, Rabs_Ropp, Rabs_pos_eq by lra.
      apply Rmult_lt_compat_l with (r := dt) in B2; auto.
      replace (dt * (1 / 10 ^ 6 / dt)) with (1 / 10 ^ 6) in B2 by (field; lra). lra. }
    eapply m3_derive_eq.
    + apply m3d_mul; [apply (exp_so3_curve (fun s => v3scal (- dt) (ws s))); [apply v3d_scal; exact Hw|cbv beta; rewrite Nn; lra]|exact HR].
    + cbv beta. rewrite E0. fold (true_E dt (ws 0)) (true_J dt (ws 0)).
      rewrite <- (m3mul_assoc (true_E dt (ws 0)) (m3scal (-1) (skew_x th))).
      replace (m3mul (true_E dt (ws 0)) (m3scal (-1) (skew_x th))) with (m3scal (-1) (m3mul (true_E dt (ws 0)) (skew_x th))) by (apply m3_ext; simpl; ring).
      rewrite rot_skew by auto.
      generalize (true_E dt (ws 0)) (true_J dt (ws 0)) (quat_2_Rot (iv_q (ps_imu (xs 0)))). intros A B C.
      generalize (m3v A th). intros u.
      replace (m3v B (v3scal (- dt) w')) with (v3scal (- dt) (m3v B w')) by (apply v3_ext; simpl; ring).
      generalize (m3v B w'). intros z.
      clear - u z. apply m3_ext; simpl; ring.
Qed.

(** ** velocity of the discrete mean along an error direction *)
Definition w_av (x : pst) (m p : imu) : v3 := c_wavg (correct x m p).
Definition a_av (x : pst) (m p : imu) : v3 := c_aavg (correct x m p).

Lemma RTa_derive (Rs : R -> m3) (a : R -> v3) th a' :
  m3_derive Rs 0 (m3mul (m3scal (-1) (skew_x th)) (Rs 0)) -> is_rot (Rs 0) -> v3_derive a 0 a' ->
  v3_derive (fun s => m3v (m3tr (Rs s)) (a s)) 0
    (v3add (v3scal (-1) (m3v (m3mul (skew_x (m3v (m3tr (Rs 0)) (a 0))) (m3tr (Rs 0))) th)) (m3v (m3tr (Rs 0)) a')).
Proof.
  intros HR Hrot Ha. eapply v3_derive_eq; [apply v3d_mv; [apply m3d_tr; exact HR|exact Ha]|].
  cbv beta. rewrite <- (rot_skew (m3tr (Rs 0)) (a 0)) by (apply is_rot_tr; auto).
  generalize (Rs 0) (a 0). intros A b. apply v3_ext; simpl; ring.
Qed.

Lemma disc_velocity g x m p e : pst_ok x -> 0 < i_t p - i_t m -> regular_rate (i_t p - i_t m) (w_av x m p) ->
  let dt := i_t p - i_t m in
  let RT := m3tr (quat_2_Rot (iv_q (ps_imu x))) in
  let c := correct x m p in
  let aG := m3v RT (c_aavg c) in
  let da := v3add (v3scal (-1) (m3v (m3mul (skew_x aG) RT) (d_th e))) (m3v RT (vel_a x e (c_aunc c))) in
  mean_velocity (fun s => predict_mean DISCRETE g (perturb x e s) m p)
    (v3add (m3v (true_E dt (c_wavg c)) (d_th e)) (v3scal dt (m3v (true_J dt (c_wavg c)) (vel_w x e (c_wunc c) (c_aunc c)))))
    (v3add (v3add (d_p e) (v3scal dt (d_v e))) (v3scal (/ 2 * dt * dt) da))
    (v3add (d_v e) (v3scal dt da)).
Proof.
  intros H Hd Hr dt RT c aG da.
  destruct (pert_R x e H) as [DR ER].
  pose proof (vel_w_ok x e m p H) as Dw. pose proof (vel_a_ok x e m p H) as Da.
  assert (Rr : is_rot (quat_2_Rot (iv_q (ps_imu x)))) by (apply quat_2_Rot_is_rot; destruct H; auto).
  assert (RTd : v3_derive (fun s => m3v (m3tr (quat_2_Rot (iv_q (ps_imu (perturb x e s))))) (c_aavg (correct (perturb x e s) m p))) 0 da).
  { eapply v3_derive_eq; [apply (RTa_derive (fun s => quat_2_Rot (iv_q (ps_imu (perturb x e s)))) _ (d_th e)); [|cbv beta; rewrite ER; exact Rr|exact Da]|].
    - cbv beta. rewrite ER. exact DR.
    - cbv beta. rewrite ER, correct_0 by auto. reflexivity. }
  split; [|split].
  - pose proof (disc_th g (fun s => perturb x e s) (fun s => c_wavg (correct (perturb x e s) m p)) (fun s => c_aavg (correct (perturb x e s) m p)) dt (d_th e)
       (vel_w x e (c_wunc c) (c_aunc c)) (fun s => pert_unit x e s H) Hd) as T.
    cbv beta zeta in T. rewrite ER, (correct_0 x e m p H) in T.
    destruct (T Hr Dw DR) as (_ & _ & T3). unfold predict_mean. rewrite (correct_0 x e m p H). exact T3.
  - unfold predict_mean, predict_mean_discrete; cbn [mn_p]. fold dt.
    eapply v3_derive_eq.
    + apply v3d_sub; [apply v3d_add; [apply v3d_add; [apply (shift_derive (d_p e))|apply v3d_scal; apply (shift_derive (d_v e))]|apply v3d_scal; exact RTd]|apply v3d_const].
    + generalize (v3scal (/ 2 * dt * dt) da) (v3scal dt (d_v e)). intros u z. apply v3_ext; simpl; ring.
  - unfold predict_mean, predict_mean_discrete; cbn [mn_v]. fold dt.
    eapply v3_derive_eq.
    + apply v3d_sub; [apply v3d_add; [apply (shift_derive (d_v e))|apply v3d_scal; exact RTd]|apply v3d_const].
    + generalize (v3scal dt da). intros u. apply v3_ext; simpl; ring.
Qed.

Lemma m3v_scalm k M v : m3v (m3scal k M) v = v3scal k (m3v M v).
Proof. apply v3_ext; simpl; ring. Qed.
Lemma m3v_addm A B v : m3v (m3add A B) v = v3add (m3v A v) (m3v B v).
Proof. apply v3_ext; simpl; ring. Qed.
Lemma skew_scal k u : skew_x (v3scal k u) = m3scal k (skew_x u).
Proof. apply m3_ext; simpl; ring. Qed.
(** equality of linear combinations of vectors, matrix products kept opaque *)
Ltac vlin := rewrite ?m3v_mul, ?m3v_scalm, ?m3v_addm, ?m3v_mul, ?m3v_scalm, ?m3v_addm, ?m3v_mul, ?m3v_scalm, ?m3v_id;
  repeat progress rewrite ?m3v_mul, ?m3v_scalm, ?m3v_addm, ?m3v_add, ?m3v_sub, ?m3v_neg, ?m3v_scal, ?m3v_0, ?m3v_id;
  apply v3_ext; cbn [v3add v3sub v3neg v3scal v3zero vx vy vz]; ring.

Ltac evs H := repeat progress rewrite ?csum_mcols, ?ev_th, ?ev_p, ?ev_v, ?ev_bg, ?ev_ba, ?ev_Dw, ?ev_Da, ?ev_Tg, ?ev_thA, ?ev_thW in H.

(** ** F agrees with it up to the missing [Dw] *)
Lemma disc_dRJ g x m p : pst_ok x -> fej_inactive x -> 0 < i_t p - i_t m -> regular_rate (i_t p - i_t m) (w_av x m p) ->
  let dt := i_t p - i_t m in
  let n := predict_mean DISCRETE g x m p in
  let dR := m3mul (quat_2_Rot (mn_q n)) (m3tr (quat_2_Rot (iv_q (lin_point x)))) in
  dR = true_E dt (w_av x m p) /\ m3mul dR (Jr_so3 (log_so3 dR)) = true_J dt (w_av x m p).
Proof.
  intros H Hf Hd Hr dt n dR.
  assert (EL : lin_point x = ps_imu x) by (unfold lin_point; destruct Hf as [->| ->]; [reflexivity|destruct (ps_dofej x); reflexivity]).
  assert (U : unit_q (iv_q (ps_imu x))) by (destruct H; auto).
  assert (Rr : is_rot (quat_2_Rot (iv_q (ps_imu x)))) by (apply quat_2_Rot_is_rot; auto).
  assert (RRT : m3mul (quat_2_Rot (iv_q (ps_imu x))) (m3tr (quat_2_Rot (iv_q (ps_imu x)))) = m3id) by apply Rr.
  assert (Hg : quat_2_Rot (mn_q n) = m3mul (true_E dt (w_av x m p)) (quat_2_Rot (iv_q (ps_imu x))) /\ m3mul (true_E dt (w_av x m p)) (Jr_so3 (log_so3 (true_E dt (w_av x m p)))) = true_J dt (w_av x m p)).
  { destruct Hr as [Hz|(H1 & H2 & H3 & H4)].
    - assert (Z : w_av x m p = v3zero) by (apply v3norm_zero; auto).
      assert (Zs : v3scal (- dt) v3zero = v3zero) by (apply v3_ext; simpl; ring).
      assert (N0 : v3norm v3zero = 0) by (rewrite <- Z; auto).
      assert (EE : true_E dt v3zero = m3id).
      { unfold true_E. rewrite Zs. unfold exp_so3. rewrite N0. destruct (Reqb_spec 0 0) as [_|C]; auto. exfalso; apply C; auto. }
      split.
      + unfold n, predict_mean. fold (w_av x m p). rewrite disc_rot_small by (auto; rewrite Hz; lra).
        rewrite Z, EE. replace (v3scal (i_t p - i_t m) v3zero) with (v3scal 0 v3zero) by (apply v3_ext; simpl; ring). rewrite cayley_0. reflexivity.
      + rewrite Z, EE. 
        assert (EL0 : log_so3 m3id = v3zero).
        { pose proof log_exp_so3_zero as L. unfold exp_so3 in L. rewrite N0 in L. destruct (Reqb_spec 0 0) as [_|C]; [exact L|exfalso; apply C; auto]. }
        rewrite EL0. unfold true_J. rewrite Zs. unfold Jr_so3, Jl_so3. rewrite v3norm_neg, N0.
        destruct (Rltb_spec 0 (1 / 10 ^ 6)); [apply m3mul_id_l|lra].
    - assert (P0 : 0 < v3norm (w_av x m p)) by (assert (0 < 1 / 10 ^ 12) by lra; lra).
      assert (Nn : v3norm (v3scal (- dt) (w_av x m p)) = dt * v3norm (w_av x m p)).
      { rewrite v3norm_scal, Rabs_Ropp, Rabs_pos_eq by (unfold dt; lra). reflexivity. }
      assert (A6 : 1 / 10 ^ 6 < dt * v3norm (w_av x m p)) by (apply angle_lower; auto; apply Rlt_le, Rmult_lt_0_compat; auto).
      split.
      + unfold n, predict_mean. fold (w_av x m p). rewrite disc_rot; auto. fold dt. rewrite Nn. lra.
      + unfold true_E, true_J. rewrite log_exp_so3; [apply exp_Jr; rewrite Nn; lra|rewrite Nn; split; [lra|exact H2]|rewrite Nn; exact H3|rewrite Nn; exact H4]. }
  destruct Hg as [Hg1 Hg2].
  assert (ED : dR = true_E dt (w_av x m p)).
  { unfold dR. rewrite EL, Hg1, m3mul_assoc, RRT, m3mul_id_r. reflexivity. }
  split; [exact ED|]. rewrite ED. exact Hg2.
Qed.

(** the term missing in F(th, Da): line 928 has Rw*Tg where the mean has Rw*Dw*Tg *)
Definition missing_Dw (x : pst) (e : perr) (dt : R) (c : corrected) : v3 :=
  let Rw := quat_2_Rot (ps_qw x) in let Dw := Dm (ps_model x) (ps_dw x) in
  let u := m3v (Tg_of (ps_tg x)) (m3v (quat_2_Rot (ps_qa x)) (m3v (fDa x e) (c_aunc c))) in
  v3scal dt (m3v (true_J dt (c_wavg c)) (m3v Rw (v3sub (m3v Dw u) u))).

Lemma v3add_swap a b c : v3add (v3add a b) c = v3add (v3add a c) b.
Proof. apply v3_ext; simpl; ring. Qed.

Lemma disc_rows g x m p e : pst_ok x -> fej_inactive x -> 0 < i_t p - i_t m -> regular_rate (i_t p - i_t m) (w_av x m p) ->
  let dt := i_t p - i_t m in
  let RT := m3tr (quat_2_Rot (iv_q (ps_imu x))) in
  let c := correct x m p in
  let aG := m3v RT (c_aavg c) in
  let da := v3add (v3scal (-1) (m3v (m3mul (skew_x aG) RT) (d_th e))) (m3v RT (vel_a x e (c_aunc c))) in
  let y := mvec (err_dim x) (predict_F DISCRETE g x m p) (err_vec x e) in
  rows3 y 0 = v3add (v3add (m3v (true_E dt (c_wavg c)) (d_th e)) (v3scal dt (m3v (true_J dt (c_wavg c)) (vel_w x e (c_wunc c) (c_aunc c))))) (missing_Dw x e dt c) /\
  rows3 y 3 = v3add (v3add (d_p e) (v3scal dt (d_v e))) (v3scal (/ 2 * dt * dt) da) /\
  rows3 y 6 = v3add (d_v e) (v3scal dt da) /\
  (forall i, (9 <= i < err_dim x)%nat -> y i = err_vec x e i).
Proof.
  intros H Hf Hd Hr dt RT c aG da y.
  destruct (disc_dRJ g x m p H Hf Hd Hr) as [E1 E2]. fold dt in E1, E2.
  assert (EL : lin_point x = ps_imu x) by (unfold lin_point; destruct Hf as [->| ->]; [reflexivity|destruct (ps_dofej x); reflexivity]).
  set (n := predict_mean DISCRETE g x m p) in *.
  set (dR := m3mul (quat_2_Rot (mn_q n)) (m3tr (quat_2_Rot (iv_q (lin_point x))))) in *.
  set (dRJ := m3scal dt (m3mul dR (Jr_so3 (log_so3 dR)))).
  set (Dw := Dm (ps_model x) (ps_dw x)). set (Da := Dm (ps_model x) (ps_da x)). set (Tg := Tg_of (ps_tg x)).
  set (Ra := quat_2_Rot (ps_qa x)). set (Rw := quat_2_Rot (ps_qw x)).
  set (R_k := quat_2_Rot (iv_q (lin_point x))) in *. set (v_k := iv_v (lin_point x)). set (p_k := iv_p (lin_point x)).
  set (wu := c_wunc c). set (au := c_aunc c).
  pose proof (asmD_rows x dR (m3scal (-1) (m3mul (m3mul dRJ Rw) Dw)) (m3mul (m3mul (m3mul (m3mul (m3mul dRJ Rw) Dw) Tg) Ra) Da)
     (m3scal (-1) (m3mul (skew_x (v3add (v3sub (v3sub (mn_p n) p_k) (v3scal dt v_k)) (v3scal (/ 2 * dt * dt) g))) (m3tr R_k)))
     (m3scal dt m3id) (m3scal (- (/ 2 * dt * dt)) (m3mul (m3mul (m3tr R_k) Ra) Da))
     (m3scal (-1) (m3mul (skew_x (v3add (v3sub (mn_v n) v_k) (v3scal dt g))) (m3tr R_k)))
     (m3scal (- dt) (m3mul (m3mul (m3tr R_k) Ra) Da))
     (mcols (m3mul dRJ Rw) (compute_H_Dw (ps_model x) wu))
     (mcols (m3scal (-1) (m3mul (m3mul (m3mul dRJ Rw) Tg) Ra)) (compute_H_Da (ps_model x) au))
     (mcols (m3scal (/ 2 * dt * dt) (m3mul (m3tr R_k) Ra)) (compute_H_Da (ps_model x) au))
     (mcols (m3scal dt (m3mul (m3tr R_k) Ra)) (compute_H_Da (ps_model x) au))
     (mcols (m3scal (-1) (m3mul (m3mul dRJ Rw) Dw)) (compute_H_Tg (m3v (m3mul Ra Da) au)))
     (m3scal (-1) (m3mul (m3mul (m3mul (m3mul dRJ Rw) Dw) Tg) (skew_x (m3v (m3mul Ra Da) au))))
     (m3scal (/ 2 * dt * dt) (m3mul (m3tr R_k) (skew_x (m3v (m3mul Ra Da) au))))
     (m3scal dt (m3mul (m3tr R_k) (skew_x (m3v (m3mul Ra Da) au))))
     (m3mul dRJ (skew_x (m3v (m3mul Rw Dw) wu))) (err_vec x e)) as (A0 & A3 & A6 & A9).
  change (asmD x _ _ _ _ _ _ _ _ _ _ _ _ _ _ _ _ _) with (predict_F DISCRETE g x m p) in *. fold y in A0, A3, A6, A9.
  evs A0. evs A3. evs A6.
  assert (ERk : R_k = quat_2_Rot (iv_q (ps_imu x))) by (unfold R_k; rewrite EL; reflexivity).
  assert (Ejl : dRJ = m3scal dt (true_J dt (c_wavg c))) by (unfold dRJ; rewrite E2; reflexivity).
  assert (Ep : v3add (v3sub (v3sub (mn_p n) p_k) (v3scal dt v_k)) (v3scal (/ 2 * dt * dt) g) = v3scal (/ 2 * dt * dt) aG).
  { unfold n, p_k, v_k, aG, RT. rewrite EL. unfold predict_mean, predict_mean_discrete; cbn [mn_p]. fold dt c.
    generalize (m3v (m3tr (quat_2_Rot (iv_q (ps_imu x)))) (c_aavg c)). intros u. apply v3_ext; simpl; ring. }
  assert (Ev : v3add (v3sub (mn_v n) v_k) (v3scal dt g) = v3scal dt aG).
  { unfold n, v_k, aG, RT. rewrite EL. unfold predict_mean, predict_mean_discrete; cbn [mn_v]. fold dt c.
    generalize (m3v (m3tr (quat_2_Rot (iv_q (ps_imu x)))) (c_aavg c)). intros u. apply v3_ext; simpl; ring. }
  split; [|split; [|split; [|exact A9]]].
  - rewrite A0, Ejl, E1. unfold missing_Dw, vel_w, vel_a. fold Ra Da Rw Dw Tg au wu. fold (w_av x m p).
    change (w_av x m p) with (c_wavg c).
    generalize (true_J dt (c_wavg c)) (m3v (true_E dt (c_wavg c)) (d_th e)). intros J u0.
    vlin.
  - rewrite A3, Ep, ERk. unfold da, vel_a. fold RT Ra Da au. rewrite skew_scal. vlin.
  - rewrite A6, Ev, ERk. unfold da, vel_a. fold RT Ra Da au. rewrite skew_scal. vlin.
Qed.

(** ** C59 *)
Lemma rot_cancel_skew th th' Q : is_rot Q -> m3mul (skew_x (v3neg th)) Q = m3mul (skew_x (v3neg th')) Q -> th = th'.
Proof.
  intros H E. apply (f_equal (fun A => m3mul A (m3tr Q))) in E. rewrite !m3mul_assoc in E.
  assert (QQ : m3mul Q (m3tr Q) = m3id) by apply H. rewrite QQ, !m3mul_id_r in E.
  apply v3_ext.
  - apply (f_equal m21) in E. simpl in E. lra.
  - apply (f_equal m02) in E. simpl in E. lra.
  - apply (f_equal m10) in E. simpl in E. lra.
Qed.

Lemma disc_transition_iff g x m p : pst_ok x -> fej_inactive x -> 0 < i_t p - i_t m -> regular_rate (i_t p - i_t m) (w_av x m p) ->
  (is_transition x (fun z => predict_mean DISCRETE g z m p) (predict_F DISCRETE g x m p) <->
   forall e, missing_Dw x e (i_t p - i_t m) (correct x m p) = v3zero).
Proof.
  intros H Hf Hd Hr. split.
  - intros T e. destruct (T e) as [(T1 & _ & _) _].
    destruct (disc_rows g x m p e H Hf Hd Hr) as (Y0 & _ & _ & _).
    destruct (disc_velocity g x m p e H Hd Hr) as (V1 & _ & _). cbv zeta in *.
    pose proof (m3_derive_unique _ _ _ _ T1 V1) as E. apply rot_cancel_skew in E.
    + rewrite Y0 in E. apply (f_equal (fun u => v3sub u (v3add (m3v (true_E (i_t p - i_t m) (c_wavg (correct x m p))) (d_th e))
         (v3scal (i_t p - i_t m) (m3v (true_J (i_t p - i_t m) (c_wavg (correct x m p))) (vel_w x e (c_wunc (correct x m p)) (c_aunc (correct x m p)))))))) in E.
      revert E. generalize (missing_Dw x e (i_t p - i_t m) (correct x m p)). intros z.
      match goal with |- v3sub (v3add ?a z) ?a = _ -> _ => generalize a end. intros a E.
      apply v3_ext; [apply (f_equal vx) in E|apply (f_equal vy) in E|apply (f_equal vz) in E]; simpl in *; lra.
    + destruct (disc_th g (fun s => perturb x e s) (fun s => c_wavg (correct (perturb x e s) m p)) (fun s => c_aavg (correct (perturb x e s) m p)) (i_t p - i_t m) (d_th e)
       (vel_w x e (c_wunc (correct x m p)) (c_aunc (correct x m p))) (fun s => pert_unit x e s H) Hd) as (E0 & RE & _).
      * rewrite correct_0 by auto. exact Hr.
      * apply vel_w_ok; auto.
      * destruct (pert_R x e H) as [DR ER]. rewrite ER. exact DR.
      * unfold predict_mean. rewrite E0. apply is_rot_mul; [exact RE|apply quat_2_Rot_is_rot; apply (pert_unit x e 0 H)].
  - intros M e y. destruct (disc_rows g x m p e H Hf Hd Hr) as (Y0 & Y3 & Y6 & Y9).
    pose proof (disc_velocity g x m p e H Hd Hr) as V. cbv zeta in *. rewrite M, v3add_0_r in Y0.
    split; [|exact Y9]. unfold y. rewrite Y0, Y3, Y6. exact V.
Qed.

Lemma missing_zero x e dt c : (ps_calib x = false \/ m3mul (Dm (ps_model x) (ps_dw x)) (Tg_of (ps_tg x)) = Tg_of (ps_tg x)) ->
  missing_Dw x e dt c = v3zero.
Proof.
  intros H. unfold missing_Dw. cbv zeta.
  assert (E : forall u, m3v (Dm (ps_model x) (ps_dw x)) (m3v (Tg_of (ps_tg x)) u) = m3v (Tg_of (ps_tg x)) u \/ fDa x e = m3zero).
  { intros u. destruct H as [H|H]; [right; unfold fDa; rewrite H; reflexivity|left]. rewrite <- m3v_mul, H. reflexivity. }
  destruct (E (m3v (quat_2_Rot (ps_qa x)) (m3v (fDa x e) (c_aunc c)))) as [E1|E1].
  - rewrite E1. rewrite <- (v3add_0_r (v3scal _ _)). vlin.
  - rewrite E1. replace (m3v m3zero (c_aunc c)) with v3zero by (apply v3_ext; simpl; ring). rewrite !m3v_0. rewrite <- (v3add_0_r (v3scal _ _)). 
    replace (v3sub v3zero v3zero) with v3zero by (apply v3_ext; simpl; ring). rewrite !m3v_0. apply v3_ext; simpl; ring.
Qed.

(** ** noise Jacobian *)
Definition noise_err (nw na : v3) : perr :=
  mkErr v3zero v3zero v3zero nw na (fun _ => 0) (fun _ => 0) (fun _ => 0) v3zero.
Lemma nv0 a b c d : rows3 (nvec a b c d) 0 = a. Proof. destruct a; reflexivity. Qed.
Lemma nv3 a b c d : rows3 (nvec a b c d) 3 = b. Proof. destruct b; reflexivity. Qed.
Lemma nv6 a b c d : rows3 (nvec a b c d) 6 = c. Proof. destruct c; reflexivity. Qed.
Lemma nv9 a b c d : rows3 (nvec a b c d) 9 = d. Proof. destruct d; reflexivity. Qed.

Lemma noisy_correct x nw na s m p : pst_ok x -> correct x (noisy s nw na m) (noisy s nw na p) = correct (perturb x (noise_err nw na) s) m p.
Proof.
  intros (U1 & U2 & U3). unfold correct.
  assert (T : forall q, unit_q q -> quat_2_Rot (turn s v3zero q) = quat_2_Rot q).
  { intros q U. unfold turn. replace (v3scal s v3zero) with (v3scal 0 v3zero) by (apply v3_ext; simpl; ring). apply (turn_0 v3zero q U). }
  assert (E1 : quat_2_Rot (ps_qw (perturb x (noise_err nw na) s)) = quat_2_Rot (ps_qw x)).
  { unfold perturb, noise_err; cbn [ps_qw d_rot]. destruct (ps_calib x), (ps_model x); auto. }
  assert (E2 : quat_2_Rot (ps_qa (perturb x (noise_err nw na) s)) = quat_2_Rot (ps_qa x)).
  { unfold perturb, noise_err; cbn [ps_qa d_rot]. destruct (ps_calib x), (ps_model x); auto. }
  assert (B : forall v i, bump s (fun _ => 0) v i = v i) by (intros; unfold bump; ring).
  assert (E3 : Dm (ps_model x) (ps_dw (perturb x (noise_err nw na) s)) = Dm (ps_model x) (ps_dw x)).
  { apply Dm_ext; intros i. unfold perturb, noise_err; cbn [ps_dw d_dw]. destruct (ps_calib x); auto. }
  assert (E4 : Dm (ps_model x) (ps_da (perturb x (noise_err nw na) s)) = Dm (ps_model x) (ps_da x)).
  { apply Dm_ext; intros i. unfold perturb, noise_err; cbn [ps_da d_da]. destruct (ps_calib x); auto. }
  assert (E5 : Tg_of (ps_tg (perturb x (noise_err nw na) s)) = Tg_of (ps_tg x)).
  { apply Tg_ext; intros i. unfold perturb, noise_err; cbn [ps_tg d_tg]. destruct (ps_calib x && ps_gsens x); auto. }
  change (ps_model (perturb x (noise_err nw na) s)) with (ps_model x). rewrite E1, E2, E3, E4, E5.
  change (iv_bg (ps_imu (perturb x (noise_err nw na) s))) with (shift s nw (iv_bg (ps_imu x))).
  change (iv_ba (ps_imu (perturb x (noise_err nw na) s))) with (shift s na (iv_ba (ps_imu x))).
  assert (A : forall a b n : v3, v3sub (v3sub a (v3scal s n)) b = v3sub a (shift s n b)).
  { intros a b n. unfold shift. apply v3_ext; simpl; ring. }
  cbn [noisy i_w i_a]. rewrite !A. reflexivity.
Qed.

Lemma G_discrete_rows x dt n nw na nbw nba :
  let dR := m3mul (quat_2_Rot (mn_q n)) (m3tr (quat_2_Rot (iv_q (lin_point x)))) in
  let K := m3mul (m3mul (m3scal dt (m3mul dR (Jr_so3 (log_so3 dR)))) (quat_2_Rot (ps_qw x))) (Dm (ps_model x) (ps_dw x)) in
  let M := m3mul (m3mul (m3tr (quat_2_Rot (iv_q (lin_point x)))) (quat_2_Rot (ps_qa x))) (Dm (ps_model x) (ps_da x)) in
  let y := mvec 12 (compute_G_discrete x dt n) (nvec nw na nbw nba) in
  rows3 y 0 = v3add (m3v (m3scal (-1) K) nw) (m3v (m3mul (m3mul (m3mul K (Tg_of (ps_tg x))) (quat_2_Rot (ps_qa x))) (Dm (ps_model x) (ps_da x))) na) /\
  rows3 y 3 = m3v (m3scal (- (/ 2 * dt * dt)) M) na /\
  rows3 y 6 = m3v (m3scal (- dt) M) na /\
  rows3 y 9 = v3scal dt nbw /\ rows3 y 12 = v3scal dt nba.
Proof.
  intros dR K M y. unfold y, compute_G_discrete. cbv zeta. fold dR. fold K M.
  split; [|split; [|split; [|split]]]; cbv [th_id p_id v_id bg_id ba_id];
  repeat first [ rewrite row_zero
    | rewrite row_put3 by first [lia | zat]
    | match goal with
      | |- context [rows3 (mvec ?N (put3 ?F ?r' ?c ?A) ?e) ?r] => change (put3 F r' c A) with (set_block F r' c 3 3 (b3 A)); rewrite row_other by lia
      end ]; rewrite ?nv0, ?nv3, ?nv6, ?nv9, ?v3add_0_l; try reflexivity.
  - rewrite m3v_scalm, m3v_id. reflexivity.
  - rewrite m3v_scalm, m3v_id. reflexivity.
Qed.

Lemma fDw_noise x nw na : fDw x (noise_err nw na) = m3zero.
Proof. unfold fDw. destruct (ps_calib x); [apply Dm_zero|reflexivity]. Qed.
Lemma fDa_noise x nw na : fDa x (noise_err nw na) = m3zero.
Proof. unfold fDa. destruct (ps_calib x); [apply Dm_zero|reflexivity]. Qed.
Lemma fTg_noise x nw na : fTg x (noise_err nw na) = m3zero.
Proof. unfold fTg. destruct (ps_calib x && ps_gsens x); [apply Tg_zero|reflexivity]. Qed.
Lemma fthA_noise x nw na : fthA x (noise_err nw na) = v3zero.
Proof. unfold fthA. destruct (ps_calib x), (ps_model x); reflexivity. Qed.
Lemma fthW_noise x nw na : fthW x (noise_err nw na) = v3zero.
Proof. unfold fthW. destruct (ps_calib x), (ps_model x); reflexivity. Qed.
Lemma m3zero_v v : m3v m3zero v = v3zero.
Proof. apply v3_ext; simpl; ring. Qed.
Lemma vel_a_noise x nw na au : vel_a x (noise_err nw na) au = v3neg (m3v (quat_2_Rot (ps_qa x)) (m3v (Dm (ps_model x) (ps_da x)) na)).
Proof.
  unfold vel_a. rewrite fDa_noise, fthA_noise, m3zero_v, !m3v_0. cbn [noise_err d_ba].
  generalize (m3v (quat_2_Rot (ps_qa x)) (m3v (Dm (ps_model x) (ps_da x)) na)). intros u. apply v3_ext; simpl; ring.
Qed.
Lemma vel_w_noise x nw na wu au : vel_w x (noise_err nw na) wu au =
  m3v (quat_2_Rot (ps_qw x)) (m3v (Dm (ps_model x) (ps_dw x)) (v3sub (m3v (Tg_of (ps_tg x)) (m3v (quat_2_Rot (ps_qa x)) (m3v (Dm (ps_model x) (ps_da x)) na))) nw)).
Proof.
  unfold vel_w. rewrite vel_a_noise, fDw_noise, fTg_noise, fthW_noise, !m3zero_v, !m3v_0. cbn [noise_err d_bg]. vlin.
Qed.

Lemma const_rot_derive Q : m3_derive (fun _ : R => Q) 0 (m3mul (m3scal (-1) (skew_x v3zero)) Q).
Proof. eapply m3_derive_eq; [apply m3d_const|]. apply m3_ext; simpl; ring. Qed.

Lemma disc_noise g x m p : pst_ok x -> fej_inactive x -> 0 < i_t p - i_t m -> regular_rate (i_t p - i_t m) (w_av x m p) ->
  is_noise_jac x (fun m' p' => predict_mean DISCRETE g x m' p') m p (predict_G DISCRETE g x m p).
Proof.
  intros H Hf Hd Hr nw na nbw nba y.
  destruct (disc_dRJ g x m p H Hf Hd Hr) as [E1 E2]. cbv zeta in E1, E2.
  assert (EL : lin_point x = ps_imu x) by (unfold lin_point; destruct Hf as [->| ->]; [reflexivity|destruct (ps_dofej x); reflexivity]).
  destruct (G_discrete_rows x (i_t p - i_t m) (predict_mean DISCRETE g x m p) nw na nbw nba) as (Y0 & Y3 & Y6 & Y9 & Y12).
  change (compute_G_discrete x (i_t p - i_t m) (predict_mean DISCRETE g x m p)) with (predict_G DISCRETE g x m p) in *.
  fold y in Y0, Y3, Y6, Y9, Y12. cbv zeta in Y0, Y3, Y6.
  split; [|split; assumption].
  set (ne := noise_err nw na).
  set (dt := i_t p - i_t m) in *.
  pose proof (vel_w_ok x ne m p H) as Dw. pose proof (vel_a_ok x ne m p H) as Da.
  unfold ne in Dw, Da. rewrite vel_w_noise in Dw. rewrite vel_a_noise in Da.
  apply (v3_derive_ext _ (fun s => c_wavg (correct x (noisy s nw na m) (noisy s nw na p)))) in Dw; [|intros s; rewrite noisy_correct by auto; reflexivity].
  apply (v3_derive_ext _ (fun s => c_aavg (correct x (noisy s nw na m) (noisy s nw na p)))) in Da; [|intros s; rewrite noisy_correct by auto; reflexivity].
  assert (C0 : correct x (noisy 0 nw na m) (noisy 0 nw na p) = correct x m p) by (rewrite noisy_correct by auto; apply correct_0; auto).
  assert (Dt : forall s, i_t (noisy s nw na p) - i_t (noisy s nw na m) = dt) by reflexivity.
  split; [|split].
  - destruct H as (U & U2 & U3).
    pose proof (disc_th g (fun _ => x) (fun s => c_wavg (correct x (noisy s nw na m) (noisy s nw na p))) (fun s => c_aavg (correct x (noisy s nw na m) (noisy s nw na p))) dt v3zero) as T.
    specialize (fun w' => T w' (fun _ => U) Hd). cbv beta zeta in T.
    assert (Hr' : regular_rate dt (c_wavg (correct x (noisy 0 nw na m) (noisy 0 nw na p)))) by (rewrite C0; exact Hr).
    destruct (T _ Hr' Dw (const_rot_derive _)) as (_ & _ & T3). rewrite C0 in T3. unfold predict_mean. rewrite C0.
    eapply m3_derive_eq; [exact T3|]. f_equal. f_equal. f_equal.
    rewrite Y0, E2. rewrite m3v_0, v3add_0_l. change (w_av x m p) with (c_wavg (correct x m p)).
    generalize (true_J dt (c_wavg (correct x m p))). intros J. vlin.
  - apply (v3_derive_ext (fun s => v3sub (v3add (v3add (iv_p (ps_imu x)) (v3scal dt (iv_v (ps_imu x))))
        (v3scal (/ 2 * dt * dt) (m3v (m3tr (quat_2_Rot (iv_q (ps_imu x)))) (c_aavg (correct x (noisy s nw na m) (noisy s nw na p)))))) (v3scal (/ 2 * dt * dt) g)));
      [intros s; reflexivity|].
    eapply v3_derive_eq.
    + apply v3d_sub; [apply v3d_add; [apply v3d_const|apply v3d_scal, v3d_mv; [apply m3d_const|exact Da]]|apply v3d_const].
    + cbv beta. rewrite Y3, EL, m3zero_v. vlin.
  - apply (v3_derive_ext (fun s => v3sub (v3add (iv_v (ps_imu x))
        (v3scal dt (m3v (m3tr (quat_2_Rot (iv_q (ps_imu x)))) (c_aavg (correct x (noisy s nw na m) (noisy s nw na p)))))) (v3scal dt g)));
      [intros s; reflexivity|].
    eapply v3_derive_eq.
    + apply v3d_sub; [apply v3d_add; [apply v3d_const|apply v3d_scal, v3d_mv; [apply m3d_const|exact Da]]|apply v3d_const].
    + cbv beta. rewrite Y6, EL, m3zero_v. vlin.
Qed.
